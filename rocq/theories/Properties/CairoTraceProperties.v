(** C13, C15-C19: the columns of the trace the Cairo prover builds from a run. *)
From Coq Require Import List Arith NArith ZArith Bool Lia Permutation.
From Verif.Base Require Import Outcome Field Poly Zp.
From Verif.Model Require Import Codec PublicInputs Trace Air CairoDecode CairoTrace CairoAir CairoRunner.
From Verif.Spec Require Import CairoSpec AirSpec CairoColumns CairoRun.
From Verif.Proofs Require Import FieldFacts PolyFacts OutcomeFacts FFTFacts TraceFacts BuildFacts MainTraceFacts SortFacts MainColsFacts DecodeFacts CairoAirFacts
  StepFacts HonestFacts SortedFacts RunnerFacts MultisetFacts WalkFacts AuxFacts HonestAux HonestRun HonestShape HonestAccess.
From Verif.Properties Require Import CairoMemoryProperties CairoRunnerProperties.
From Verif.Examples Require Import Toy Stark252 MiniRun RunExamples.
Import ListNotations.
Local Open Scope felt_scope.

(** ** C13 *)

(** On the main trace built from a valid run, every CPU constraint (flags, instruction, operands, registers, opcodes) holds wherever the
    AIR enforces it, whatever the auxiliary columns and the challenges are. *)
Theorem C13_honest_cpu :
  forall (C : cairo_env) p, cairo_ok C p -> forall raw (m : @cairo_memory C) (pi : public_inputs C), valid_run m raw ->
  (forall lo hi a, map_get segment_eqb RangeCheck (memory_segments pi) = Some (lo, hi) -> (lo <= a < hi)%N -> mem_get m a <> None) ->
  exists t pi' n cols, build_main_trace raw m pi = Ok (t, pi') /\ cols <> [] /\ has_columns t n cols /\
  forall opts ch aux j, length (cols ++ aux) = trace_columns (a_context (cairo_air pi' opts n)) -> (j <= ASSERT_EQ)%nat ->
    constraint_holds (cairo_air pi' opts n) ch (cols ++ aux) n j.
Proof.
  intros C p HC raw m pi Hv Hrc. destruct (valid_run_steps HC m raw Hv) as (ss & Er & Hne & Hok & Hg & _ & _).
  assert (Hx : exists extra, rc_extra m pi (length ss) extra).
  { unfold rc_extra. destruct (map_get segment_eqb RangeCheck (memory_segments pi)) as [[lo hi]|]; [|eauto].
    exists (rc_cols (length ss) (map (fun a => match mem_get m a with Some v => v | None => 0 end) (nrange lo hi))). eexists. split; [|reflexivity].
    apply traverse_map. intros a Ha. apply nrange_in in Ha. specialize (Hrc lo hi a eq_refl Ha). now destruct (mem_get m a). }
  destruct Hx as (extra & Hx). destruct (main_forward raw m pi ss extra Er Hne Hok Hx) as (t & Et & Tt & Wt). cbv zeta in *.
  set (R := main_rows (34 + length extra) (length (public_memory pi)) (build_rows ss extra)) in *.
  eexists t, _, (length R), (cols_of (34 + length extra) R). split; [exact Et|]. split; [|split].
  - intro Z. apply (f_equal (@length _)) in Z. now rewrite cols_of_length in Z.
  - now apply table_has_columns.
  - intros opts ch aux j Hw Hj. unfold ASSERT_EQ in Hj. cbn [cairo_air a_context] in Hw. rewrite cairo_width_declared in Hw.
    apply cairo_constraint_holds; [exact Hw|unfold n_constraints; lia|]. now apply (honest_cpu HC m ss extra _ _ ch aux Hne Hok Hg).
Qed.
Print Assumptions C13_honest_cpu.

(** ** C15 *)

(** The reported bounds are attained by offsets of the executed steps, bound every entry of the offset columns, and every value between
    them occurs in the offset columns. *)
Theorem C15_offsets_cover_interval :
  forall (C : cairo_env) p, cairo_ok C p -> forall raw (m : @cairo_memory C) (pi : public_inputs C) t pi' n cols,
  build_main_trace raw m pi = Ok (t, pi') -> cols <> [] -> has_columns t n cols ->
  exists lo hi, range_check_min pi' = Some lo /\ range_check_max pi' = Some hi /\ (lo <= hi < 2 ^ 16)%N /\ (length raw <= n)%nat /\
  (exists k, (k < 3 * length raw)%nat /\ offset_cell cols k = e_u64 C lo) /\
  (exists k, (k < 3 * length raw)%nat /\ offset_cell cols k = e_u64 C hi) /\
  (forall k, (k < 3 * n)%nat -> exists v, (lo <= v <= hi)%N /\ offset_cell cols k = e_u64 C v) /\
  (forall v, (lo <= v <= hi)%N -> exists k, (k < 3 * n)%nat /\ offset_cell cols k = e_u64 C v).
Proof.
  intros C p HC raw m pi t pi' n cols Hb Hne Hc.
  destruct (main_columns raw m pi t pi' n cols Hb Hne Hc) as (ss & extra & Er & Hs & Hok & _ & Ep & En & Ec & _ & _). cbv zeta in *.
  set (rows := build_rows ss extra) in *. set (R := main_rows (34 + length extra) (length (public_memory pi)) rows) in *.
  assert (Lss : length rows = length raw) by (rewrite Er, map_length; apply build_rows_length).
  assert (Rne : rows <> []) by (now apply build_rows_ne).
  assert (Cell : forall k, (k < 3 * n)%nat -> offset_cell cols k = nth k (cells OFF_COLUMNS R) 0).
  { intros k Hk. unfold offset_cell. rewrite Ec, <- (app_nil_r (cols_of _ R)). apply flat_cells; [lia|unfold OFF_DST; lia|lia]. }
  assert (Pre : exists rest, cells OFF_COLUMNS R = cells OFF_COLUMNS rows ++ rest).
  { unfold R, main_rows, rows_filled. rewrite <- app_assoc, cells_app. eauto. }
  destruct Pre as (rest & Pre). destruct (rows_n ss extra (length (public_memory pi)) Hs) as [Ln _]. fold rows R in Ln.
  assert (Lr : length ss = length raw) by (rewrite Er; now rewrite map_length).
  assert (Att : forall v, In v (sorted_u16s rows) -> exists k, (k < 3 * length raw)%nat /\ offset_cell cols k = e_u64 C v).
  { intros v Hv. apply so_in in Hv. destruct Hv as (x & Hx & ->). rewrite (small16_u64 HC) by (now apply (step_offsets HC m ss extra Hok)).
    apply (In_nth _ _ 0) in Hx. destruct Hx as (k & Hk & <-). pose proof Hk as Hk'. rewrite off_cells_length, Lss in Hk'. exists k. split; [exact Hk'|].
    rewrite Cell by lia. rewrite Pre, app_nth1 by exact Hk. reflexivity. }
  pose proof (lo_in rows Rne) as Hlo. pose proof (hi_in rows Rne) as Hhi.
  exists (nth 0 (sorted_u16s rows) 0%N), (nth (length (sorted_u16s rows) - 1) (sorted_u16s rows) 0%N). rewrite Ep. split; [reflexivity|]. split; [reflexivity|].
  split; [split; [apply (so_bounds rows _ Hlo)|now apply hi_small]|]. split; [lia|]. split; [now apply Att|]. split; [now apply Att|].
  pose proof (main_offset_values HC m ss extra (length (public_memory pi)) Hok Hs) as V. fold rows R in V. split.
  - intros k Hk. rewrite Cell by exact Hk. apply V, nth_In. rewrite off_cells_length. lia.
  - intros v Hv. assert (Hx : In (e_u64 C v) (cells OFF_COLUMNS R)) by (apply V; eauto). apply (In_nth _ _ 0) in Hx. destruct Hx as (k & Hk & E).
    rewrite off_cells_length in Hk. exists k. split; [lia|]. rewrite Cell by lia. exact E.
Qed.
Print Assumptions C15_offsets_cover_interval.

(** The sorted range-check columns are a rearrangement of the offset columns, start at the minimum, end at the maximum and move by 0 or 1,
    so the range-check order constraints hold. *)
Theorem C15_sorted_offsets :
  forall (C : cairo_env) p, cairo_ok C p -> forall raw (m : @cairo_memory C) (pi : public_inputs C) ch pi' n cols opts,
  honest_columns raw m pi ch pi' n cols -> length cols = trace_columns (a_context (cairo_air pi' opts n)) ->
  exists lo hi, range_check_min pi' = Some lo /\ range_check_max pi' = Some hi /\
  sorted_offset pi' cols 0 = e_u64 C lo /\ sorted_offset pi' cols (3 * n - 1) = e_u64 C hi /\
  (forall k, (k + 1 < 3 * n)%nat -> sorted_offset pi' cols (k + 1) = sorted_offset pi' cols k \/
                                    sorted_offset pi' cols (k + 1) = sorted_offset pi' cols k + 1) /\
  Permutation (map (sorted_offset pi' cols) (seq 0 (3 * n))) (map (offset_cell cols) (seq 0 (3 * n))) /\
  forall j, (RANGE_CHECK_INCREASING_0 <= j <= RANGE_CHECK_INCREASING_2)%nat -> constraint_holds (cairo_air pi' opts n) ch cols n j.
Proof.
  intros C p HC raw m pi ch pi' n cols opts Hh Hw. cbn [cairo_air a_context] in Hw.
  destruct (honest_inverse HC raw m pi ch pi' n cols opts Hh Hw) as (ss & extra & pub & Er & Hs & Hok & Ep & En & Ec & Ew & _ & Lp & Hm & Hr). cbv zeta in *.
  set (L := length (public_memory pi)) in *. set (rows := build_rows ss extra) in *. set (R := main_rows (34 + length extra) L rows) in *.
  destruct (rows_n ss extra L Hs) as [_ Hn]. fold rows R in Hn.
  assert (So : forall k, (k < 3 * n)%nat -> sorted_offset pi' cols k = nth k (rc_sorted R) 0).
  { intros k Hk. rewrite Ec. apply read_sorted_offset; [exact Ew|lia]. }
  exists (nth 0 (sorted_u16s rows) 0%N), (nth (length (sorted_u16s rows) - 1) (sorted_u16s rows) 0%N).
  split; [now rewrite Ep|]. split; [now rewrite Ep|]. split; [|split; [|split; [|split]]].
  - rewrite So by lia. exact (rc_first HC m ss extra L Hok Hs).
  - rewrite So by lia. rewrite En. exact (rc_last HC m ss extra L Hok Hs).
  - intros k Hk. rewrite !So by lia. apply (rc_steps HC m ss extra L Hok Hs). fold rows R. lia.
  - pose proof (so_list HC ss extra L pi' ch pub Ew) as E1. pose proof (oc_list HC ss extra L pi' ch pub Ew) as E2. unfold upto in E1, E2. fold rows R in E1, E2.
    rewrite En, Ec, E1, E2. exact (rc_perm HC m ss extra L Hok Hs).
  - intros j Hj. unfold RANGE_CHECK_INCREASING_0, RANGE_CHECK_INCREASING_2 in Hj. rewrite cairo_width_declared in Hw.
    apply cairo_constraint_holds; [exact Hw|unfold n_constraints; lia|]. rewrite Ec, En. apply (honest_rc_order HC m ss extra L Hok Hs pi' ch pub Ew). lia.
Qed.
Print Assumptions C15_sorted_offsets.

(** ** C16 *)

Section Reading.
Context {C : cairo_env}.
Lemma read_accesses W (R rest : list (list C)) k : (27 <= W)%nat -> (k < 4 * length R)%nat ->
  access_addr (cols_of W R ++ rest) k = nth k (cells ADDR_COLUMNS R) 0.
Proof using Type. intros Hw Hk. unfold access_addr. apply flat_cells; [lia|unfold FRAME_PC; lia|exact Hk]. Qed.
Lemma read_addresses W (R rest : list (list C)) x : (27 <= W)%nat ->
  (exists k, (k < 4 * length R)%nat /\ access_addr (cols_of W R ++ rest) k = x) <-> In x (cells ADDR_COLUMNS R).
Proof using Type.
  intro Hw. split.
  - intros (k & Hk & <-). rewrite read_accesses by assumption. apply nth_In. now rewrite addr_cells_length.
  - intro H. apply (In_nth _ _ 0) in H. destruct H as (k & Hk & <-). rewrite addr_cells_length in Hk. exists k. split; [exact Hk|now apply read_accesses].
Qed.
End Reading.

(** Above the public memory every address between two addresses of executed steps is accessed in the final trace. *)
Theorem C16_holes_filled :
  forall (C : cairo_env) p, cairo_ok C p -> forall raw (m : @cairo_memory C) (pi : public_inputs C) t pi' n cols,
  build_main_trace raw m pi = Ok (t, pi') -> cols <> [] -> has_columns t n cols ->
  forall k1 k2 x, (k1 < 4 * length raw)%nat -> (k2 < 4 * length raw)%nat -> (N.of_nat (length (public_memory pi)) < ce_repr x)%N ->
  (ce_repr (access_addr cols k1) <= ce_repr x <= ce_repr (access_addr cols k2))%N -> exists k, (k < 4 * n)%nat /\ access_addr cols k = x.
Proof.
  intros C p HC raw m pi t pi' n cols Hb Hne Hc k1 k2 x H1 H2 Hl Hx.
  destruct (main_columns raw m pi t pi' n cols Hb Hne Hc) as (ss & extra & Er & Hs & Hok & _ & _ & En & Ec & _ & _). cbv zeta in *.
  rewrite <- (app_nil_r (cols_of _ _)) in Ec. rewrite Ec, En in *. apply read_addresses; [lia|].
  destruct (rows_n ss extra (length (public_memory pi)) Hs) as [Ln _]. assert (Ls : length ss = length raw) by (rewrite Er; now rewrite map_length).
  assert (Hin : forall k, (k < 4 * length raw)%nat -> In (access_addr (cols_of (34 + length extra) (main_rows (34 + length extra) (length (public_memory pi)) (build_rows ss extra)) ++ []) k)
      (cells ADDR_COLUMNS (build_rows ss extra))).
  { intros k Hk. rewrite read_accesses by lia. unfold main_rows, rows_filled. rewrite <- app_assoc, cells_app, app_nth1.
    - apply nth_In. rewrite addr_cells_length, build_rows_length. lia.
    - rewrite addr_cells_length, build_rows_length. lia. }
  apply (between_accessed HC m ss extra _ Hok Hs x _ _ (Hin k1 H1) (Hin k2 H2) Hl Hx).
Qed.
Print Assumptions C16_holes_filled.

(** So, if some step accesses an address at most one above the public memory, every address up to any address of a step is in the
    initial segment [1 .. codelen] or accessed in the final trace. *)
Theorem C16_contiguous :
  forall (C : cairo_env) p, cairo_ok C p -> forall raw (m : @cairo_memory C) (pi : public_inputs C) t pi' n cols,
  build_main_trace raw m pi = Ok (t, pi') -> cols <> [] -> has_columns t n cols ->
  let codelen := N.of_nat (length (public_memory pi)) in
  (exists k, (k < 4 * length raw)%nat /\ (ce_repr (access_addr cols k) <= codelen + 1)%N) ->
  forall k2 x, (k2 < 4 * length raw)%nat -> (ce_repr x <= ce_repr (access_addr cols k2))%N ->
  (1 <= ce_repr x <= codelen)%N \/ exists k, (k < 4 * n)%nat /\ access_addr cols k = x.
Proof.
  intros C p HC raw m pi t pi' n cols Hb Hne Hc codelen (k1 & H1 & L1) k2 x H2 Hx.
  destruct (N.lt_ge_cases codelen (ce_repr x)) as [Hl|Hl].
  - right. apply (C16_holes_filled C p HC raw m pi t pi' n cols Hb Hne Hc k1 k2 x H1 H2 Hl). lia.
  - destruct (N.eq_dec (ce_repr x) 0) as [E|E]; [|left; lia]. right.
    assert (E0 : x = 0).
    { apply (repr_ext HC). rewrite E, <- (co_zero _ _ HC), (co_repr_u64 _ _ HC). symmetry. apply N.mod_0_l. pose proof (co_p _ _ HC). lia. }
    subst x. destruct (main_columns raw m pi t pi' n cols Hb Hne Hc) as (ss & extra & _ & Hs & Hok & _ & _ & En & Ec & _ & _). cbv zeta in *.
    rewrite <- (app_nil_r (cols_of _ _)) in Ec. rewrite Ec, En. apply read_addresses; [lia|]. now apply (zero_accessed m).
Qed.
Print Assumptions C16_contiguous.

(** An address that is neither accessed in the final trace nor public, below an accessed one, makes the memory constraints fail. *)
Theorem C16_unfilled_hole_rejected :
  forall (C : cairo_env) p, cairo_ok C p -> forall raw (m : @cairo_memory C) (pi : public_inputs C) ch pi' n cols opts,
  honest_columns raw m pi ch pi' n cols -> length cols = trace_columns (a_context (cairo_air pi' opts n)) -> (N.of_nat (4 * n) <= p)%N ->
  forall x, ~ In x (map fst (public_memory pi)) -> (forall k, (k < 4 * n)%nat -> access_addr cols k <> x) ->
  (exists k, (k < 4 * n)%nat /\ (ce_repr x < ce_repr (access_addr cols k))%N) ->
  ~ (forall j, (MEMORY_INCREASING_0 <= j < S MEMORY_CONSISTENCY_3)%nat -> constraint_holds (cairo_air pi' opts n) ch cols n j).
Proof.
  intros C p HC raw m pi ch pi' n cols opts Hh Hw Hp x Hnp Hna (k & Hk & Hlt) Hall. pose proof Hw as Hw'. cbn [cairo_air a_context] in Hw'.
  destruct (honest_inverse HC raw m pi ch pi' n cols opts Hh Hw') as (ss & extra & pub & Er & Hs & Hok & Ep & En & Ec & Ew & Hpc & Lp & _ & _). cbv zeta in *.
  set (L := length (public_memory pi)) in *. set (rows := build_rows ss extra) in *. set (R := main_rows (34 + length extra) L rows) in *.
  destruct (rows_n ss extra L Hs) as [_ Hn]. fold rows R in Hn. rewrite <- En in Hn.
  destruct (C20_addresses_are_an_interval C p HC pi' opts ch cols n Hw Hn Hall) as (d & Hd & _ & Hint).
  assert (Hsrt : forall i, (i < 4 * n)%nat -> (sorted_addr pi' cols i, sorted_value pi' cols i) = nth i (sorted_mem R pub) (0, 0)).
  { intros i Hi. rewrite Ec. apply read_sorted_entry; [exact Ew|lia|]. pose proof (codelen_lt m ss extra L Hok Hs). fold rows R in H. lia. }
  pose proof (srt_perm m ss extra L Hok Hs pub Lp) as Hperm. fold rows R in Hperm.
  assert (Ls : length (sorted_mem R pub) = (4 * n)%nat).
  { rewrite En. apply sorted_mem_length. pose proof (codelen_lt m ss extra L Hok Hs). fold rows R in H. lia. }
  assert (Hat : forall e, In e (kept ss extra L ++ pub) -> exists i, (i < 4 * n)%nat /\ sorted_addr pi' cols i = fst e).
  { intros e He. apply (Permutation_in _ (Permutation_sym Hperm)) in He. apply (In_nth _ _ (0, 0)) in He. destruct He as (i & Hi & E).
    exists i. split; [lia|]. rewrite <- Hsrt in E by lia. now rewrite <- E. }
  assert (Hac : forall a, In a (cells ADDR_COLUMNS R) <-> exists k, (k < 4 * n)%nat /\ access_addr cols k = a).
  { intro a. rewrite Ec, En. symmetry. apply read_addresses. lia. }
  assert (R0 : ce_repr (0 : C) = 0%N).
  { rewrite <- (co_zero _ _ HC), (co_repr_u64 _ _ HC). apply N.mod_0_l. pose proof (co_p _ _ HC). lia. }
  (* the sorted addresses start at zero *)
  assert (Hz : sorted_addr pi' cols 0 = 0).
  { destruct (Hat (0, 0) ltac:(apply in_or_app; left; apply kept_zero)) as (i & Hi & E). cbn [fst] in E. apply (repr_ext HC). rewrite R0. apply N.le_0_r.
    pose proof (srt_ascending ss extra L pub) as Ha. fold rows R in Ha.
    pose proof (ascending_nth (fun e : C * C => ce_repr (fst e)) (sorted_mem R pub) (0, 0) 0 i Ha ltac:(lia)) as H. cbv beta in H.
    rewrite <- !Hsrt in H by lia. cbn [fst] in H. rewrite E, R0 in H. exact H. }
  rewrite Hz in Hint. destruct (fld_th C (fft_field_ok _ (e_fft_ok _ (co_env _ _ HC)))) as [[A1 A2 A3 A4 A5 A6 A7 A8 A9] _ _ _].
  (* the accessed address above [x] is one of the sorted ones *)
  set (y := access_addr cols k) in *.
  assert (Hy : exists i, (i < 4 * n)%nat /\ sorted_addr pi' cols i = y).
  { assert (Hyc : In y (cells ADDR_COLUMNS R)) by (apply Hac; exists k; now split).
    assert (Hym : exists v, In (y, v) (mem_entries R)).
    { apply (In_nth _ _ 0) in Hyc. destruct Hyc as (i & Hi & Ey). exists (nth i (cells VAL_COLUMNS R) 0). rewrite <- Ey. unfold mem_entries.
      rewrite <- combine_nth by (rewrite addr_cells_length; symmetry; apply val_cells_length). apply nth_In.
      rewrite combine_length, val_cells_length. rewrite addr_cells_length in *. lia. }
    destruct Hym as (v & Hym). unfold R, rows in Hym. rewrite (entries_kept m ss extra L Hok Hs) in Hym. apply in_app_or in Hym.
    destruct Hym as [Hym|Hym].
    - apply (Hat (y, v)). apply in_or_app. now left.
    - apply repeat_spec in Hym. injection Hym as Ey _. rewrite Ey, R0 in Hlt. lia. }
  apply Hint in Hy. destruct Hy as (tt & Ht & Ey). rewrite A1 in Ey.
  assert (Ry : ce_repr y = N.of_nat tt) by (rewrite Ey, (co_repr_u64 _ _ HC); apply N.mod_small; lia).
  destruct (proj2 (Hint x)) as (i & Hi & Ei).
  { exists (N.to_nat (ce_repr x)). split; [lia|]. rewrite A1, N2Nat.id. symmetry. apply (co_u64_repr _ _ HC). }
  assert (Hin : In (nth i (sorted_mem R pub) (0, 0)) (kept ss extra L ++ pub)) by (apply (Permutation_in _ Hperm), nth_In; lia).
  rewrite <- Hsrt in Hin by exact Hi. rewrite Ei in Hin. apply in_app_or in Hin. destruct Hin as [Hin|Hin].
  - assert (Hm : In (x, sorted_value pi' cols i) (mem_entries R)).
    { unfold R, rows. rewrite (entries_kept m ss extra L Hok Hs). apply in_or_app. now left. }
    apply in_addr_cells in Hm. apply Hac in Hm. destruct Hm as (k' & Hk' & E). now apply (Hna k').
  - apply Hnp. apply (pub_keys HC pi') in Hpc. rewrite Forall_forall in Hpc. specialize (Hpc _ Hin). rewrite Ep in Hpc. exact Hpc.
Qed.
Print Assumptions C16_unfilled_hole_rejected.

Lemma columns_cell {C : cairo_env} (t : trace_table C) n cols i j : has_columns t n cols -> (i < n)%nat -> (j < tt_n_cols t)%nat ->
  cell cols i j = nth (i * tt_n_cols t + j) (tt_table t) 0.
Proof.
  intros (Hw & _ & Ht) Hi Hj. rewrite Ht, Hw in *.
  pose proof (concat_idx (map (fun i => map (fun c : list C => nth i c 0) cols) (seq 0 n)) (length cols) i j) as H.
  rewrite map_length, seq_length in H. specialize (H ltac:(apply Forall_forall; intros r Hr; apply in_map_iff in Hr; destruct Hr as (k & <- & _); apply map_length) Hi Hj).
  rewrite (nth_indep _ [] (map (fun c : list C => nth 0 c 0) cols)) in H by (now rewrite map_length, seq_length).
  rewrite (map_nth (fun i => map (fun c : list C => nth i c 0) cols)), seq_nth in H by exact Hi. cbn [Nat.add] in H.
  unfold idx in H. rewrite nth_error_map in H. destruct (nth_error cols j) as [c|] eqn:E.
  - cbn [option_map] in H. destruct (nth_error (concat _) _) eqn:E2 in H; [|discriminate]. apply ok_inj in H. unfold cell.
    apply (nth_error_nth _ _ (0 : C)) in E2. rewrite E2, H. now rewrite (nth_error_nth _ _ _ E).
  - apply nth_error_None in E. lia.
Qed.

(** Claimed limit of the code: with an output cell the public memory is larger than the program, and the address right after the program
    is left out. The three-step run below is valid and its prover input is built, but for all challenges the trace fails the AIR. *)
Theorem C16_contiguity_refuted :
  valid_run gap_memory gap_regs /\
  generate_prover_args gap_regs gap_memory 5 (Some (13, 13)%N) (Some (12, 13)%N) = Ok (gap_table, gap_pi) /\
  forall opts ch n cols acols aux, cols <> [] -> has_columns gap_table n cols -> cairo_build_aux gap_pi gap_table ch = Ok aux -> has_columns aux n acols ->
    ~ trace_satisfies (cairo_air gap_pi opts n) ch (cols ++ acols) n.
Proof.
  split; [exact gap_valid|]. split; [exact gap_main_ok|]. intros opts ch n cols acols aux Hne Hc Ha Hac Hs.
  pose proof gap_main_ok as Hm. unfold gap_main, generate_prover_args in Hm. apply obind_ok in Hm. destruct Hm as (pi0 & Hp & Hm). clear Hp.
  destruct gap_shape as (S1 & S2 & S3).
  assert (Hn : n = 8%nat).
  { destruct Hc as (Hw & _ & Ht). apply (f_equal (@length _)) in Ht. rewrite S2 in Ht. rewrite S1 in Hw.
    rewrite (concat_length_const _ 43), map_length, seq_length in Ht; [lia|].
    apply Forall_forall. intros r Hr. apply in_map_iff in Hr. destruct Hr as (k & <- & _). rewrite map_length. now symmetry. }
  assert (Hh : honest_columns gap_regs gap_memory pi0 ch gap_pi n (cols ++ acols)) by (exists gap_table, aux, cols, acols; auto 10).
  assert (La : length acols = 18%nat).
  { destruct (main_columns _ _ _ _ _ n cols Hm Hne Hc) as (ss & extra & _ & _ & _ & _ & _ & _ & _ & Ew & Et). cbv zeta in *.
    destruct (aux_inverse stark_ok gap_pi gap_table _ ch aux Et ltac:(rewrite S1; lia) Ha) as (_ & pub & _ & _ & _ & ->). destruct Hac as (Hac & _). now symmetry. }
  assert (Hw : length (cols ++ acols) = trace_columns (a_context (cairo_air gap_pi opts n))).
  { cbn [cairo_air a_context]. rewrite cairo_width_declared, S3, app_length, La. destruct Hc as (Hw & _). rewrite S1 in Hw. lia. }
  assert (Ep : public_memory pi0 = public_memory gap_pi).
  { destruct (main_columns _ _ _ _ _ n cols Hm Hne Hc) as (ss & extra & _ & _ & _ & _ & E & _). cbv zeta in *. rewrite E. reflexivity. }
  assert (Hacc : forall k, (k < 32)%nat -> access_addr (cols ++ acols) k = nth (k / 4 * 43 + (19 + k mod 4)) (tt_table gap_table) 0).
  { intros k Hk. rewrite <- S1. rewrite <- (columns_cell gap_table n cols) by
      (try exact Hc; try (rewrite Hn; apply Nat.div_lt_upper_bound; lia); rewrite S1; pose proof (Nat.mod_upper_bound k 4); lia).
    unfold access_addr, flat, cell, FRAME_PC. rewrite app_nth1; [reflexivity|]. destruct Hc as (Hcw & _). rewrite S1 in Hcw. pose proof (Nat.mod_upper_bound k 4). lia. }
  apply (C16_unfilled_hole_rejected stark _ stark_ok gap_regs gap_memory pi0 ch gap_pi n (cols ++ acols) opts Hh Hw) with (x := f252 6 : stark).
  - rewrite Hn. vm_compute. discriminate.
  - rewrite Ep. intro Hin. assert (E : existsb (feqb (f252 6 : stark)) (map fst (public_memory gap_pi)) = true).
    { apply existsb_exists. exists (f252 6 : stark). split; [exact Hin|vm_compute; reflexivity]. }
    rewrite gap_not_public in E. discriminate E.
  - intros k Hk E. rewrite Hn in Hk. rewrite Hacc in E by lia. pose proof gap_not_accessed as G. rewrite forallb_forall in G.
    specialize (G k ltac:(apply in_seq; lia)). rewrite E in G. vm_compute in G. discriminate G.
  - exists 1%nat. split; [lia|]. rewrite Hacc by lia. exact gap_above.
  - intros j Hj i e evals Hi He Ht. destruct (ts_transition _ _ _ _ Hs i ltac:(lia)) as (evals' & E' & Hz').
    rewrite E' in Ht. apply ok_inj in Ht. subst evals'. exact (Hz' j e He Hi).
Qed.
Print Assumptions C16_contiguity_refuted.
Example C16_example : match cairo_build_aux gap_pi gap_table mini_challenges with Ok _ => true | _ => false end = true.
Proof. vm_compute. reflexivity. Qed.

(** ** C17 *)

Lemma nth_repeat_lt {A} (x d : A) k i : (i < k)%nat -> nth i (repeat x k) d = x.
Proof. revert i. induction k as [|k IH]; intros [|i] Hi; cbn; try lia; [reflexivity|apply IH; lia]. Qed.

(** The first rows are the executed steps: registers, instruction word with its flags and offsets, operands, and the selector that is
    one except on the last step. *)
Theorem C17_step_rows :
  forall (C : cairo_env) p, cairo_ok C p -> forall raw (m : @cairo_memory C) (pi : public_inputs C) t pi' n cols,
  build_main_trace raw m pi = Ok (t, pi') -> cols <> [] -> has_columns t n cols ->
  (length raw <= n)%nat /\ forall i s, nth_error raw i = Some s ->
  cell cols i FRAME_PC = e_u64 C (r_pc s) /\ cell cols i FRAME_AP = e_u64 C (r_ap s) /\ cell cols i FRAME_FP = e_u64 C (r_fp s) /\
  mem_get m (r_pc s) = Some (cell cols i FRAME_INST) /\
  (forall j, (j < 16)%nat -> cell cols i j = if (j <? 15)%nat && N.testbit (ce_repr (cell cols i FRAME_INST)) (48 + N.of_nat j) then 1 else 0) /\
  (let w := ce_repr (cell cols i FRAME_INST) in
   cell cols i OFF_DST = e_u64 C (off_dst w) /\ cell cols i OFF_OP0 = e_u64 C (off_op0 w) /\ cell cols i OFF_OP1 = e_u64 C (off_op1 w)) /\
  (exists v, reads m (cell cols i FRAME_DST_ADDR) v) /\ (exists v, reads m (cell cols i FRAME_OP0_ADDR) v) /\
  reads m (cell cols i FRAME_OP1_ADDR) (cell cols i FRAME_OP1) /\
  cell cols i FRAME_T0 = cell cols i F_PC_JNZ * cell cols i FRAME_DST /\ cell cols i FRAME_T1 = cell cols i FRAME_T0 * cell cols i FRAME_RES /\
  cell cols i FRAME_MUL = cell cols i FRAME_OP0 * cell cols i FRAME_OP1 /\
  cell cols i FRAME_SELECTOR = if (i + 1 <? length raw)%nat then 1 else 0.
Proof.
  intros C p HC raw m pi t pi' n cols Hb Hne Hc.
  destruct (main_columns raw m pi t pi' n cols Hb Hne Hc) as (ss & extra & Er & Hs & Hok & _ & _ & En & Ec & _ & _). cbv zeta in *.
  assert (Ls : length raw = length ss) by (rewrite Er; apply map_length).
  destruct (rows_n ss extra (length (public_memory pi)) Hs) as [Ln _]. split; [lia|]. intros i s Hi.
  assert (Li : (i < length ss)%nat) by (rewrite <- Ls; apply nth_error_Some; congruence).
  set (sd := nth i ss sd0). assert (Hsd : step_ok m sd) by (rewrite Forall_forall in Hok; apply Hok, nth_In, Li).
  assert (Hr : sd_regs sd = s).
  { rewrite Er in Hi. rewrite nth_error_map, (nth_error_nth' ss sd0 Li) in Hi. cbn [option_map] in Hi. now injection Hi. }
  assert (Cell : forall c, (c < 34)%nat -> cell cols i c = nth c (step_row sd (sel_of (length ss) i) ++ map (fun c => nth i c 0) extra) 0).
  { intros c Hlt. rewrite Ec, cols_of_cell by lia. rewrite main_rows_prefix by (rewrite build_rows_length; lia). now rewrite build_rows_nth by exact Li. }
  pose proof (step_decoded HC m sd Hsd) as (_ & _ & Hf & Ho). cbv zeta in Hf, Ho.
  assert (Rd : forall base o x, addr_value m base o = Ok x -> reads m (fst x) (snd x)).
  { intros base o x E. apply addr_value_inv in E. destruct E as (a & Ha & _ & Ma & Ea). exists a. auto. }
  assert (Rdst : reads m (fst (sd_dst sd)) (snd (sd_dst sd))).
  { pose proof (so_dst _ _ Hsd) as E. unfold compute_dst in E. destruct (if_dst_reg (sd_flags sd)); eapply Rd; exact E. }
  assert (Rop0 : reads m (fst (sd_op0 sd)) (snd (sd_op0 sd))).
  { pose proof (so_op0 _ _ Hsd) as E. unfold compute_op0 in E. destruct (if_op0_reg (sd_flags sd)); eapply Rd; exact E. }
  assert (Rop1 : reads m (fst (sd_op1 sd)) (snd (sd_op1 sd))).
  { pose proof (so_op1 _ _ Hsd) as E. unfold compute_op1 in E. destruct (if_op1_src (sd_flags sd)); eapply Rd; exact E. }
  assert (Flag : forall j, (j < 16)%nat -> cell cols i j = nth j (sd_rf sd) 0).
  { intros j Hj. rewrite Cell, (step_row_cell m _ _ _ _ Hsd) by lia. destruct (sd_upd sd) as [[op0 dst] res]. cbv zeta. destruct (Nat.ltb_spec j 16); [reflexivity|lia]. }
  assert (Inst : cell cols i 23 = sd_inst sd).
  { rewrite Cell, (step_row_cell m _ _ _ _ Hsd) by lia. destruct (sd_upd sd) as [[op0 dst] res]. reflexivity. }
  assert (Sel : sel_of (length ss) i = if (i + 1 <? length raw)%nat then (1 : C) else 0).
  { unfold sel_of. rewrite Ls. destruct (Nat.eqb_spec i (length ss - 1)), (Nat.ltb_spec (i + 1) (length ss)); try reflexivity; lia. }
  set (last_sel := if (i + 1 <? length raw)%nat then (1 : C) else 0) in *. clearbody last_sel.
  unfold FRAME_PC, FRAME_AP, FRAME_FP, FRAME_INST, OFF_DST, OFF_OP0, OFF_OP1, FRAME_DST_ADDR, FRAME_OP0_ADDR, FRAME_OP1_ADDR, FRAME_OP1, FRAME_T0, FRAME_T1, FRAME_MUL,
    FRAME_RES, FRAME_DST, FRAME_OP0, FRAME_SELECTOR, F_PC_JNZ.
  rewrite Inst. rewrite (Flag 9%nat) by lia. rewrite !Cell by lia. rewrite !(step_row_cell m _ _ _ _ Hsd). rewrite Ho, Hr. destruct (sd_upd sd) as [[op0 dst] res]. cbv zeta.
  cbn [Nat.ltb Nat.leb Nat.sub nth app]. split; [reflexivity|]. split; [reflexivity|]. split; [reflexivity|]. split; [rewrite <- Hr; exact (so_inst _ _ Hsd)|].
  split; [|split; [|split; [|split; [|split; [|split; [|split; [|split]]]]]]].
  - intros j Hj. rewrite Flag, Hf by exact Hj. destruct (Nat.leb_spec j 14); cbn [andb].
    + assert (Hj' : (j < 15)%nat) by lia. rewrite app_nth1 by (now rewrite map_length, seq_length). rewrite (nth_indep _ 0 (flag_bit (ce_repr (sd_inst sd)) 0)) by (now rewrite map_length, seq_length).
      rewrite map_nth, seq_nth by assumption. reflexivity.
    + assert (j = 15%nat) as -> by lia. rewrite app_nth2 by (rewrite map_length, seq_length; lia). rewrite map_length, seq_length. reflexivity.
  - auto.
  - eauto.
  - eauto.
  - exact Rop1.
  - reflexivity.
  - reflexivity.
  - reflexivity.
  - exact Sel.
Qed.
Print Assumptions C17_step_rows.

(** The number of rows is the least power of two that holds the steps, the hole rows and the dummy accesses; the rows after the steps are
    [a] rows that are zero except for offsets, [b] rows that copy the row before them except for the addresses, and rows that copy the
    row before them with addresses and values set to zero, four times as many as there are public memory cells or more. *)
Theorem C17_padding :
  forall (C : cairo_env) p, cairo_ok C p -> forall raw (m : @cairo_memory C) (pi : public_inputs C) t pi' n cols,
  build_main_trace raw m pi = Ok (t, pi') -> cols <> [] -> has_columns t n cols ->
  exists a b r, let s := length raw in let codelen := length (public_memory pi) in
  n = (2 ^ r)%nat /\ (s + a + b + (codelen / 4 + 1) <= n < 2 * (s + a + b + (codelen / 4 + 1)))%nat /\ (codelen < 4 * (n - (s + a + b)))%nat /\
  forall i c, (s <= i < n)%nat -> (c < length cols)%nat ->
  (c = FRAME_SELECTOR -> cell cols i c = 0) /\
  ((i < s + a)%nat -> (c < OFF_DST \/ OFF_OP1 < c)%nat -> cell cols i c = 0) /\
  ((s + a <= i < s + a + b)%nat -> (c < FRAME_PC \/ FRAME_OP1_ADDR < c)%nat -> cell cols i c = cell cols (s + a - 1) c) /\
  ((s + a + b <= i)%nat -> cell cols i c = if (FRAME_PC <=? c)%nat && (c <=? FRAME_OP1)%nat then 0 else cell cols (s + a + b - 1) c).
Proof.
  intros C p HC raw m pi t pi' n cols Hb Hne Hc.
  destruct (main_columns raw m pi t pi' n cols Hb Hne Hc) as (ss & extra & Er & Hs & Hok & _ & _ & En & Ec & _ & _). cbv zeta in *.
  set (L := length (public_memory pi)) in *. set (w := (34 + length extra)%nat) in *. set (rows := build_rows ss extra) in *.
  assert (Ls : length raw = length rows) by (rewrite Er, map_length; symmetry; apply build_rows_length).
  assert (Rne : rows <> []) by (now apply build_rows_ne).
  pose proof (build_rows_width m ss extra Hok) as Wr. fold rows w in Wr.
  exists (length (rows_rc w rows)), (length (rows_mem w L rows)), (Nat.log2_up (n_filled w L rows)).
  assert (Nf : n_filled w L rows = (length raw + length (rows_rc w rows) + length (rows_mem w L rows) + (L / 4 + 1))%nat).
  { unfold n_filled, rows_filled. rewrite !app_length. lia. }
  assert (Hn : n = next_pow2 (n_filled w L rows)) by (rewrite En; apply main_rows_length).
  assert (R0 : (0 < length rows)%nat) by (destruct rows; [congruence|cbn; lia]).
  pose proof (Nat.log2_up_spec (n_filled w L rows) ltac:(lia)) as [P1 P2].
  assert (Pw : (2 ^ Nat.log2_up (n_filled w L rows) = 2 * 2 ^ Nat.pred (Nat.log2_up (n_filled w L rows)))%nat).
  { rewrite <- Nat.pow_succ_r', Nat.succ_pred_pos; [reflexivity|]. apply Nat.log2_up_pos. lia. }
  unfold next_pow2 in Hn. pose proof (Nat.div_mod L 4 ltac:(lia)). pose proof (Nat.mod_upper_bound L 4 ltac:(lia)).
  split; [exact Hn|]. split; [lia|]. split; [lia|].
  intros i c Hi Hcl. rewrite Ec, cols_of_length in Hcl.
  assert (Cell : forall i, (i < n)%nat -> cell cols i c = nth c (nth i (main_rows w L rows) []) 0) by (intros i' H'; rewrite Ec; apply cols_of_cell; [lia|exact Hcl]).
  assert (Lm : length (main_rows w L rows) = n) by lia.
  assert (Lf : length (rows_filled w L rows) = (length raw + length (rows_rc w rows) + length (rows_mem w L rows))%nat) by (unfold rows_filled; rewrite !app_length; lia).
  assert (Wf : (34 <= length (last_row (rows_filled w L rows)))%nat) by (rewrite (last_filled_width w L rows); [unfold w; lia|exact Rne|exact Wr|unfold w; lia]).
  set (M := main_rows w L rows) in *. set (A := rows_rc w rows) in *. set (B := rows_mem w L rows) in *. set (F := rows_filled w L rows) in *.
  assert (Rf : forall k, (k < length F)%nat -> nth k M [] = nth k F []) by (intros k Hk; unfold M, main_rows; fold F; now rewrite app_nth1).
  assert (FA : forall k, (length rows <= k < length rows + length A)%nat -> nth k F [] = nth (k - length rows) A []).
  { intros k Hk. unfold F, rows_filled. fold A B. rewrite app_nth2, app_nth1 by lia. reflexivity. }
  assert (FB : forall k, (length rows + length A <= k < length rows + length A + length B)%nat -> nth k F [] = nth (k - (length rows + length A)) B []).
  { intros k Hk. unfold F, rows_filled. fold A B. rewrite !app_nth2 by lia. f_equal. lia. }
  assert (Lp : last_row (rows ++ A) = nth (length rows + length A - 1) M []).
  { rewrite Rf by lia. unfold last_row, F, rows_filled. fold A B. rewrite app_assoc, app_length. now rewrite (app_nth1 (rows ++ A)) by (rewrite app_length; lia). }
  assert (Ll : last_row F = nth (length rows + length A + length B - 1) M []) by (rewrite Rf by lia; unfold last_row; f_equal; lia).
  assert (D : forall k, (length rows + length A + length B <= k < n)%nat -> nth k M [] = zero_mem (last_row F)).
  { intros k Hk. unfold M, main_rows. fold F. rewrite app_nth2 by lia.
    apply (@nth_repeat_lt (list C)). rewrite <- Lm in Hk. unfold M, main_rows in Hk. fold F in Hk. rewrite app_length, repeat_length in Hk. lia. }
  rewrite !Cell by lia. rewrite !Ls. split; [|split; [|split]].
  - intros ->. unfold FRAME_SELECTOR in *. destruct (last_prefix_row HC m ss extra Hok Hs 33 ltac:(lia)) as (r' & _ & El & _ & _ & E). fold rows w A in El. subst r'.
    specialize (E eq_refl). assert (G : forall r, In r A \/ In r B -> nth 33 r 0 = 0).
    { intros r [Hr|Hr]; [apply (rc_row_cell ss extra r 33 Hr); lia|]. apply mem_hole_row_shape in Hr; [|fold A; unfold A; rewrite prefix_width; [unfold w; lia|exact Rne|exact Wr|unfold w; lia]].
      destruct Hr as [_ Hr]. rewrite Hr by lia. exact E. }
    destruct (Nat.lt_ge_cases i (length rows + length A)); [|destruct (Nat.lt_ge_cases i (length rows + length A + length B))].
    + rewrite Rf, FA by lia. apply G. left. apply nth_In. lia.
    + rewrite Rf, FB by lia. apply G. right. apply nth_In. lia.
    + rewrite D by lia. rewrite zero_mem_cell by lia. cbn [Nat.leb Nat.ltb andb]. unfold F. rewrite last_filled_cell by (try exact Rne; try exact Wr; unfold w; lia). exact E.
  - intros Hlt Hcc. rewrite Rf, FA by lia. apply (rc_row_cell ss extra _ c); [apply nth_In; fold rows w A; lia|unfold OFF_DST, OFF_OP1 in Hcc; lia].
  - intros Hlt Hcc. rewrite Rf, FB, <- Lp by lia. apply (mem_hole_row_shape (last_row (rows ++ A)) (mem_hole_list rows L)); [|assert (HB : In (nth (i - (length rows + length A)) B []) B) by (apply nth_In; lia); exact HB|unfold FRAME_PC, FRAME_OP1_ADDR in Hcc; lia].
    unfold A. rewrite prefix_width; [unfold w; lia|exact Rne|exact Wr|unfold w; lia].
  - intro Hlt. rewrite D by lia. rewrite zero_mem_cell, Ll by lia. unfold FRAME_PC, FRAME_OP1. 
    destruct (Nat.leb_spec 19 c), (Nat.ltb_spec c 27), (Nat.leb_spec c 26); cbn [andb]; try reflexivity; lia.
Qed.
Print Assumptions C17_padding.

(** ** C18 *)

Lemma same_key {C : cairo_env} {p} (HC : cairo_ok C p) (a b : C) : feqb a b = (ce_repr a =? ce_repr b)%N.
Proof.
  apply eq_true_iff_eq. rewrite N.eqb_eq, (feqb_spec C (fft_field_ok _ (e_fft_ok _ (co_env _ _ HC)))).
  split; [now intros ->|apply (repr_ext HC)].
Qed.
Lemma sorted_section {C : cairo_env} {p} (HC : cairo_ok C p) raw (m : @cairo_memory C) (pi : public_inputs C) ch pi' n cols opts :
  honest_columns raw m pi ch pi' n cols -> length cols = trace_columns (a_context (cairo_air pi' opts n)) ->
  exists pub, pub_cells pi pub /\ public_memory pi' = public_memory pi /\
  let L := length (public_memory pi) in length pub = L /\ (L < 4 * n)%nat /\
  skipn (4 * n - L) (accesses cols n) = repeat (0, 0) L /\
  sorted_entries pi' cols n = sort_by (fun e => ce_repr (fst e)) (firstn (4 * n - L) (accesses cols n) ++ pub).
Proof.
  intros Hh Hw. cbn [cairo_air a_context] in Hw.
  destruct (honest_inverse HC raw m pi ch pi' n cols opts Hh Hw) as (ss & extra & pub & Er & Hs & Hok & Ep & En & Ec & Ew & Hpc & Lp & _ & _). cbv zeta in *.
  set (L := length (public_memory pi)) in *. set (rows := build_rows ss extra) in *. set (R := main_rows (34 + length extra) L rows) in *.
  pose proof (codelen_lt m ss extra L Hok Hs) as HL. fold rows R in HL. rewrite <- En in HL.
  assert (Ea : accesses cols n = mem_entries R).
  { apply (nth_ext _ _ (0, 0) (0, 0)); unfold accesses; rewrite map_length, seq_length; [now rewrite mem_entries_length, En|].
    intros i Hi. rewrite nth_map_seq by exact Hi. rewrite Ec. apply (read_access_entry pi' R pub ch _ Ew). lia. }
  exists pub. split; [|split; [now rewrite Ep|]].
  { destruct Hpc as (pa & pv & H1 & H2 & H3). exists pa, pv. rewrite Ep in H1, H2. split; [exact H1|]. split; [exact H2|exact H3]. }
  split; [exact Lp|]. split; [exact HL|]. split.
  - rewrite Ea. unfold R, rows. rewrite (entries_kept m ss extra L Hok Hs), skipn_app.
    assert (Lk : length (kept ss extra L) = (4 * n - L)%nat).
    { pose proof (f_equal (@length _) (entries_kept m ss extra L Hok Hs)) as E. rewrite app_length, repeat_length in E. fold rows R in E.
      rewrite mem_entries_length in E. lia. }
    rewrite Lk, Nat.sub_diag, skipn_all2 by lia. reflexivity.
  - transitivity (sorted_mem R pub).
    + apply (nth_ext _ _ (0, 0) (0, 0)); unfold sorted_entries; rewrite map_length, seq_length; [now rewrite sorted_mem_length, En by lia|].
      intros i Hi. rewrite nth_map_seq by exact Hi. rewrite Ec. apply (read_sorted_entry pi' R pub ch _ Ew); lia.
    + unfold sorted_mem, replaced. rewrite Ea, Lp, <- En. reflexivity.
Qed.

(** The sorted address and value columns, read row by row, are a rearrangement of the accesses with the last [L] ones, which are all
    [(0, 0)], replaced by [L] cells of the public memory; they ascend in the address, and entries of equal address keep their order. *)
Theorem C18_sorted_memory :
  forall (C : cairo_env) p, cairo_ok C p -> forall raw (m : @cairo_memory C) (pi : public_inputs C) ch pi' n cols opts,
  honest_columns raw m pi ch pi' n cols -> length cols = trace_columns (a_context (cairo_air pi' opts n)) ->
  exists pub, let L := length (public_memory pi) in let section := firstn (4 * n - L) (accesses cols n) ++ pub in
  length pub = L /\ (L < 4 * n)%nat /\ (forall a v, In (a, v) pub -> map_get feqb a (public_memory pi) = Some v) /\
  skipn (4 * n - L) (accesses cols n) = repeat (0, 0) L /\
  Permutation (sorted_entries pi' cols n) section /\
  (forall i j, (i <= j < 4 * n)%nat -> (ce_repr (sorted_addr pi' cols i) <= ce_repr (sorted_addr pi' cols j))%N) /\
  forall a, filter (fun e => feqb (fst e) a) (sorted_entries pi' cols n) = filter (fun e => feqb (fst e) a) section.
Proof.
  intros C p HC raw m pi ch pi' n cols opts Hh Hw.
  destruct (sorted_section HC raw m pi ch pi' n cols opts Hh Hw) as (pub & Hpc & _ & Lp & HL & Hz & Hsrt). cbv zeta in *.
  exists pub. split; [exact Lp|]. split; [exact HL|]. split; [|split; [exact Hz|split; [|split]]].
  - intros a v Hin. apply pub_lookup in Hpc. rewrite Forall_forall in Hpc. exact (Hpc _ Hin).
  - rewrite Hsrt. apply sort_by_perm.
  - intros i j Hij.
    assert (G : forall k, (k < 4 * n)%nat -> sorted_addr pi' cols k = fst (nth k (sorted_entries pi' cols n) (0, 0))).
    { intros k Hk. unfold sorted_entries. now rewrite nth_map_seq by exact Hk. }
    rewrite (G i), (G j) by lia. rewrite Hsrt at 1 2.
    apply (ascending_nth (fun e : C * C => ce_repr (fst e))); [apply sort_by_ascending|].
    rewrite <- Hsrt. unfold sorted_entries. rewrite map_length, seq_length. exact Hij.
  - intro a. rewrite !(filter_ext (fun e : C * C => feqb (fst e) a) (fun e => (ce_repr (fst e) =? ce_repr a)%N)) by (intro e; apply (same_key HC)).
    rewrite Hsrt. apply (sort_by_stable (fun e : C * C => ce_repr (fst e))).
Qed.
Print Assumptions C18_sorted_memory.

Lemma pub_is_all {C : cairo_env} {p} (HC : cairo_ok C p) (pi : public_inputs C) pub :
  get_pub_memory_addrs pi = Ok (map fst (public_memory pi)) -> NoDup (map fst (public_memory pi)) -> pub_cells pi pub -> pub = public_memory pi.
Proof.
  intros Ha Hd (pa & pv & H1 & H2 & ->). rewrite Ha in H1. apply ok_inj in H1. subst pa. rewrite (lookup_all HC _ Hd) in H2. apply ok_inj in H2. subst pv.
  clear. induction (public_memory pi) as [|[a v] l IH]; [reflexivity|]. cbn [map combine fst snd]. now rewrite IH.
Qed.
(** When the public addresses computed from the lengths are the keys of the public memory (C45 shows when), the cells put into the trace
    are exactly the public memory. *)
Theorem C18_public_section :
  forall (C : cairo_env) p, cairo_ok C p -> forall raw (m : @cairo_memory C) (pi : public_inputs C) ch pi' n cols opts,
  get_pub_memory_addrs pi = Ok (map fst (public_memory pi)) -> NoDup (map fst (public_memory pi)) ->
  honest_columns raw m pi ch pi' n cols -> length cols = trace_columns (a_context (cairo_air pi' opts n)) ->
  Permutation (sorted_entries pi' cols n ++ repeat (0, 0) (length (public_memory pi))) (accesses cols n ++ public_memory pi).
Proof.
  intros C p HC raw m pi ch pi' n cols opts Ha Hd Hh Hw.
  destruct (sorted_section HC raw m pi ch pi' n cols opts Hh Hw) as (pub & Hpc & _ & Lp & HL & Hz & Hsrt). cbv zeta in *.
  rewrite (pub_is_all HC pi pub Ha Hd Hpc) in Hsrt. rewrite Hsrt, (sort_by_perm _), <- Hz.
  rewrite <- (firstn_skipn (4 * n - length (public_memory pi)) (accesses cols n)) at 3.
  rewrite <- !app_assoc. apply Permutation_app_head, Permutation_app_comm.
Qed.
Print Assumptions C18_public_section.

(** ** C19 *)

Lemma vanish_factors {C : cairo_env} (f : nat -> C) (z : C) k : vanish (upto f k) z = fprod (map (fun i => z - f i) (seq 0 k)).
Proof. unfold vanish, upto. now rewrite map_map. Qed.
Lemma quotient_of {C : cairo_env} {p} (HC : cairo_ok C p) (q s o : C) : s <> 0 -> q * s = o -> q = o / s.
Proof.
  intros Hs <-. pose proof (fft_field_ok _ (e_fft_ok _ (co_env _ _ HC))) as HK. destruct (fld_th C HK) as [[A1 A2 A3 A4 A5 A6 A7 A8 A9] _ Hd Hi].
  rewrite Hd, <- A6, (A5 s), Hi by exact Hs. now rewrite A5, A4.
Qed.

(** Every entry of the two running-product columns is the quotient of the products over the unsorted and the sorted entries up to it. *)
Theorem C19_running_quotients :
  forall (C : cairo_env) p, cairo_ok C p -> forall raw (m : @cairo_memory C) (pi : public_inputs C) ch pi' n cols opts,
  honest_columns raw m pi ch pi' n cols -> length cols = trace_columns (a_context (cairo_air pi' opts n)) ->
  let prefix f k := fprod (map f (seq 0 (S k))) in
  let access k := z_memory ch - (access_addr cols k + alpha_memory ch * access_value cols k) in
  let sorted k := z_memory ch - (sorted_addr pi' cols k + alpha_memory ch * sorted_value pi' cols k) in
  (forall k, (k < 4 * n)%nat -> prefix sorted k <> 0 /\ mem_product pi' cols k = prefix access k / prefix sorted k) /\
  let offset k := z_range_check ch - offset_cell cols k in
  let rc_sorted k := z_range_check ch - sorted_offset pi' cols k in
  forall k, (k < 3 * n)%nat -> prefix rc_sorted k <> 0 /\ rc_product pi' cols k = prefix offset k / prefix rc_sorted k.
Proof.
  intros C p HC raw m pi ch pi' n cols opts Hh Hw prefix access sorted. cbn [cairo_air a_context] in Hw.
  pose proof (fft_field_ok _ (e_fft_ok _ (co_env _ _ HC))) as HK. destruct (fld_th C HK) as [[A1 A2 A3 A4 A5 A6 A7 A8 A9] _ _ _].
  destruct (honest_inverse HC raw m pi ch pi' n cols opts Hh Hw) as (ss & extra & pub & Er & Hs & Hok & Ep & En & Ec & Ew & Hpc & Lp & Hm & Hr). cbv zeta in *.
  set (L := length (public_memory pi)) in *. set (rows := build_rows ss extra) in *. set (R := main_rows (34 + length extra) L rows) in *.
  pose proof (codelen_lt m ss extra L Hok Hs) as HL. fold rows R in HL. destruct (rows_n ss extra L Hs) as [_ Hn]. fold rows R in Hn.
  assert (Nz : forall (f : nat -> C) k, (forall i, (i <= k)%nat -> f i <> 0) -> prefix f k <> 0).
  { intros f k H. unfold prefix. apply (fprod_nonzero HK). intros x Hx. apply in_map_iff in Hx. destruct Hx as (i & <- & Hi).
    apply H. apply in_seq in Hi. lia. }
  split.
  - intros k Hk. assert (S0 : prefix sorted k <> 0).
    { apply Nz. intros i Hi. unfold sorted. rewrite Ec.
      pose proof (read_sorted_entry pi' R pub ch _ Ew i ltac:(lia) ltac:(lia)) as E. 
      assert (Hin : In (nth i (sorted_mem R pub) (0, 0)) (sorted_mem R pub)) by (apply nth_In; rewrite sorted_mem_length; lia).
      apply Hm in Hin. rewrite <- E in Hin. exact Hin. }
    split; [exact S0|]. apply (quotient_of HC); [exact S0|].
    pose proof (mem_running HC m ss extra L Hok Hs pi' ch pub Ew Lp Hm) as Hrun.
    pose proof (mem_products HC m ss extra L Hok Hs pi' ch pub Ew Lp Hm 0%nat ltac:(fold rows R; lia)) as H0.
    rewrite (A5 (_ - _) 1), A4 in H0. fold rows R in Hrun, H0. 
    pose proof (running_products HC _ _ _ _ _ Hrun H0 k ltac:(lia)) as P. rewrite !vanish_factors, <- Ec in P. exact P.
  - intros k Hk. assert (S0 : prefix (fun k => z_range_check ch - sorted_offset pi' cols k) k <> 0).
    { apply Nz. intros i Hi. rewrite Ec. rewrite (read_sorted_offset pi' R pub ch _ Ew i) by lia.
      apply Hr. apply nth_In. rewrite rc_sorted_length. lia. }
    split; [exact S0|]. apply (quotient_of HC); [exact S0|].
    pose proof (rc_running HC ss extra L pi' ch pub Ew Hr) as Hrun.
    pose proof (rc_products HC ss extra L pi' ch pub Ew Hr 0%nat ltac:(fold rows R; lia)) as H0.
    rewrite (A5 (_ - _) 1), A4 in H0. fold rows R in Hrun, H0. 
    pose proof (running_products HC _ _ _ _ _ Hrun H0 k ltac:(lia)) as P. rewrite !vanish_factors, <- Ec in P. exact P.
Qed.
Print Assumptions C19_running_quotients.

(** The permutation constraints of the AIR hold on the running-product columns. *)
Theorem C19_permutation_constraints :
  forall (C : cairo_env) p, cairo_ok C p -> forall raw (m : @cairo_memory C) (pi : public_inputs C) ch pi' n cols opts,
  honest_columns raw m pi ch pi' n cols -> length cols = trace_columns (a_context (cairo_air pi' opts n)) ->
  forall j, (PERMUTATION_ARGUMENT_0 <= j <= PERMUTATION_ARGUMENT_3 \/ RANGE_CHECK_0 <= j <= RANGE_CHECK_2)%nat ->
  constraint_holds (cairo_air pi' opts n) ch cols n j.
Proof.
  intros C p HC raw m pi ch pi' n cols opts Hh Hw j Hj. cbn [cairo_air a_context] in Hw.
  destruct (honest_inverse HC raw m pi ch pi' n cols opts Hh Hw) as (ss & extra & pub & Er & Hs & Hok & Ep & En & Ec & Ew & Hpc & Lp & Hm & Hr). cbv zeta in *.
  rewrite cairo_width_declared in Hw. unfold PERMUTATION_ARGUMENT_0, PERMUTATION_ARGUMENT_3, RANGE_CHECK_0, RANGE_CHECK_2 in Hj.
  apply cairo_constraint_holds; [exact Hw|unfold n_constraints; lia|]. rewrite Ec, En. destruct Hj as [Hj|Hj].
  - apply (honest_mem_product HC m ss extra _ Hok Hs pi' ch pub Ew Lp Hm). lia.
  - apply (honest_rc_product HC m ss extra _ Hok Hs pi' ch pub Ew Hr). lia.
Qed.
Print Assumptions C19_permutation_constraints.

(** The last entries of both running-product columns are the values the boundary constraints ask for. *)
Theorem C19_final_values :
  forall (C : cairo_env) p, cairo_ok C p -> forall raw (m : @cairo_memory C) (pi : public_inputs C) ch pi' n cols opts bcs,
  get_pub_memory_addrs pi = Ok (map fst (public_memory pi)) -> NoDup (map fst (public_memory pi)) ->
  honest_columns raw m pi ch pi' n cols -> length cols = trace_columns (a_context (cairo_air pi' opts n)) ->
  a_boundary (cairo_air pi' opts n) ch = Ok bcs ->
  rc_product pi' cols (3 * n - 1) = 1 /\
  forall bc, In bc bcs ->
  (bc_col bc = PERMUTATION_ARGUMENT_COL_3 - builtin_offset pi' \/ bc_col bc = PERMUTATION_ARGUMENT_RANGE_CHECK_COL_3 - builtin_offset pi')%nat ->
  nth (bc_step bc) (nth (bc_col bc) cols []) 0 = bc_value bc.
Proof.
  intros C p HC raw m pi ch pi' n cols opts bcs Ha Hd Hh Hw Hb. cbn [cairo_air a_context] in Hw.
  pose proof (co_env _ _ HC) as HE. pose proof (fft_field_ok _ (e_fft_ok _ HE)) as HK.
  destruct (honest_inverse HC raw m pi ch pi' n cols opts Hh Hw) as (ss & extra & pub & Er & Hs & Hok & Ep & En & Ec & Ew & Hpc & Lp & Hm & Hr). cbv zeta in *.
  set (L := length (public_memory pi)) in *. set (rows := build_rows ss extra) in *. set (R := main_rows (34 + length extra) L rows) in *.
  destruct (rows_n ss extra L Hs) as [_ Hn]. fold rows R in Hn.
  assert (Hrc : rc_product pi' cols (3 * n - 1) = 1) by (rewrite Ec, En; apply (rc_final HC m ss extra L Hok Hs pi' ch pub Ew Hr)).
  split; [exact Hrc|].
  assert (Epub : pub = public_memory pi).
  { apply (pub_is_all HC pi pub Ha Hd). destruct Hpc as (pa & pv & H1 & H2 & H3). exists pa, pv. rewrite Ep in H1, H2. split; [exact H1|]. split; [exact H2|exact H3]. }
  pose proof (mem_final HC m ss extra L Hok Hs pi' ch pub Ew Lp Hm) as Hf. fold rows R in Hf. rewrite <- Ec, <- En in Hf.
  assert (Epm : public_memory pi' = public_memory pi) by (now rewrite Ep). pose proof (offset_le pi') as Ho.
  cbn [cairo_air a_boundary] in Hb. unfold cairo_boundary in Hb. rewrite Epm in Hb.
  apply obind_ok in Hb. destruct Hb as (ls & Hls & Hb). apply obind_ok in Hb. destruct Hb as (fi & Hfi & Hb).
  apply obind_ok in Hb. destruct Hb as (cp & Hcp & Hb). apply obind_ok in Hb. destruct Hb as (mn & Hmn & Hb).
  apply obind_ok in Hb. destruct Hb as (mx & Hmx & Hb). apply ok_inj in Hb. subst bcs.
  apply usub_inv in Hfi. destruct Hfi as [_ ->]. apply (inv_o_ok HK) in Hcp. destruct Hcp as [Hcp0 ->]. rewrite (public_product HE) in Hcp0 |- *.
  intros bc Hin Hcol. unfold PERMUTATION_ARGUMENT_COL_3, PERMUTATION_ARGUMENT_RANGE_CHECK_COL_3, MEM_A_TRACE_OFFSET, MEM_P_TRACE_OFFSET, RANGE_CHECK_COL_1, RANGE_CHECK_COL_3 in *.
  cbn [In] in Hin. 
  repeat match type of Hin with _ \/ _ => destruct Hin as [Hin|Hin] end; try subst bc; cbn [bc_col bc_step bc_value] in *; try (exfalso; clear -Hcol Ho; lia).
  - transitivity (mem_product pi' cols (4 * n - 1)).
    + unfold mem_product. replace (4 * n - 1)%nat with (4 * (n - 1) + 3)%nat by lia. rewrite flat_at by lia.
      unfold cell, PERMUTATION_ARGUMENT_COL_0. do 2 f_equal. clear -Ho. lia.
    + assert (Ev : fprod (map (factor ch) pub) = vanish (map (compress (alpha_memory ch)) (public_memory pi)) (z_memory ch)).
      { rewrite Epub. unfold vanish. now rewrite map_map. }
      rewrite Ev in Hf. rewrite (quotient_of HC _ _ _ Hcp0 Hf). destruct (fld_th C HK) as [_ _ Hdiv _]. apply Hdiv.
  - rewrite <- Hrc. unfold rc_product. replace (3 * n - 1)%nat with (3 * (n - 1) + 2)%nat by lia. rewrite flat_at by lia.
    unfold cell, PERMUTATION_ARGUMENT_RANGE_CHECK_COL_1. do 2 f_equal. clear -Ho. lia.
  - destruct Hin.
Qed.
Print Assumptions C19_final_values.

(** ** The hypotheses of C13 and C15-C19 on a concrete run *)
Definition reshape {C : cairo_env} (t : trace_table C) n : list (list C) :=
  map (fun j => map (fun i => nth (i * tt_n_cols t + j) (tt_table t) 0) (seq 0 n)) (seq 0 (tt_n_cols t)).
Lemma reshaped {C : cairo_env} (t : trace_table C) n : (length (tt_table t) = n * tt_n_cols t)%nat -> has_columns t n (reshape t n).
Proof.
  intro Hl. unfold reshape. set (w := tt_n_cols t) in *. set (l := tt_table t) in *. split; [now rewrite map_length, seq_length|]. split.
  - intros c Hc. apply in_map_iff in Hc. destruct Hc as (j & <- & _). now rewrite map_length, seq_length.
  - fold l. transitivity (concat (map (fun i => map (fun j => nth (i * w + j) l 0) (seq 0 w)) (seq 0 n))).
    + clearbody w l. clear t. revert l Hl. induction n as [|n IH]; intros l Hl; [now destruct l|].
      cbn [seq map concat]. rewrite <- seq_shift, map_map. rewrite <- (firstn_skipn w l) at 1. f_equal.
      * apply (nth_ext _ _ 0 0); rewrite firstn_length_le by lia; [now rewrite map_length, seq_length|].
        intros i Hi. rewrite nth_map_seq by exact Hi. cbn [Nat.mul Nat.add]. rewrite <- (firstn_skipn w l) at 2. rewrite app_nth1; [reflexivity|].
        rewrite firstn_length_le by lia. exact Hi.
      * rewrite (IH (skipn w l)) by (rewrite skipn_length; lia). f_equal. apply map_ext. intro i. apply map_ext. intro j.
        rewrite <- (firstn_skipn w l) at 2. rewrite app_nth2; rewrite firstn_length_le by lia; [f_equal; lia|lia].
    + f_equal. apply map_ext_in. intros i Hi. rewrite map_map. apply map_ext. intro j. apply in_seq in Hi. now rewrite nth_map_seq by lia.
Qed.
Definition mini_pi0 : public_inputs stark :=
  match from_regs_and_mem mini_regs mini_memory 5 [] with Ok pi => pi | _ => mini_pi end.
Definition mini_aux_table : trace_table stark := match mini_aux with Ok t => t | _ => mk_trace [] 0 end.
Lemma mini_built : from_regs_and_mem mini_regs mini_memory 5 [] = Ok mini_pi0 /\
  build_main_trace mini_regs mini_memory mini_pi0 = Ok (mini_table, mini_pi) /\ cairo_build_aux mini_pi mini_table mini_challenges = Ok mini_aux_table.
Proof.
  assert (E0 : from_regs_and_mem mini_regs mini_memory 5 [] = Ok mini_pi0).
  { assert (H : match from_regs_and_mem mini_regs mini_memory 5 [] with Ok _ => true | _ => false end = true) by (vm_compute; reflexivity).
    unfold mini_pi0. destruct (from_regs_and_mem mini_regs mini_memory 5 []); [reflexivity|discriminate H..]. }
  split; [exact E0|]. split.
  - assert (E : mini_main = build_main_trace mini_regs mini_memory mini_pi0).
    { unfold mini_main, generate_prover_args. cbn [create_memory_segment_map]. rewrite E0. reflexivity. }
    rewrite <- E. assert (H : match mini_main with Ok _ => true | _ => false end = true) by (vm_compute; reflexivity).
    unfold mini_table, mini_pi. destruct mini_main as [[t pi]| |]; [reflexivity|discriminate H..].
  - unfold mini_aux_table. fold mini_aux. assert (H : match mini_aux with Ok _ => true | _ => false end = true) by (vm_compute; reflexivity).
    destruct mini_aux; [reflexivity|discriminate H..].
Qed.
Definition mini_main_cols := reshape mini_table 8.
Lemma mini_shapes : (length (tt_table mini_table) = 8 * tt_n_cols mini_table /\ length (tt_table mini_aux_table) = 8 * tt_n_cols mini_aux_table /\
  tt_n_cols mini_table = 34 /\ tt_n_cols mini_aux_table = 18)%nat.
Proof. vm_compute. repeat split. Qed.
(** C13: a valid run without range-check segment. *)
Example C13_example : valid_run mini_memory mini_regs /\ map_get segment_eqb RangeCheck (memory_segments mini_pi0) = None.
Proof. split; [exact mini_valid|vm_compute; reflexivity]. Qed.
(** C15-C17: its main trace. *)
Example C17_example : build_main_trace mini_regs mini_memory mini_pi0 = Ok (mini_table, mini_pi) /\ mini_main_cols <> [] /\ has_columns mini_table 8 mini_main_cols.
Proof.
  split; [apply mini_built|]. destruct mini_shapes as (H1 & _ & H2 & _). pose proof (reshaped mini_table 8 H1) as H. split; [|exact H].
  intro E. destruct H as [H _]. fold mini_main_cols in H. rewrite E, H2 in H. discriminate H.
Qed.
(** C15, C18, C19: all its columns. *)
Example C18_example opts : 
  honest_columns mini_regs mini_memory mini_pi0 mini_challenges mini_pi 8 (mini_main_cols ++ reshape mini_aux_table 8) /\
  length (mini_main_cols ++ reshape mini_aux_table 8) = trace_columns (a_context (cairo_air mini_pi opts 8)).
Proof.
  destruct mini_shapes as (H1 & H2 & H3 & H4). split.
  - exists mini_table, mini_aux_table, mini_main_cols, (reshape mini_aux_table 8). destruct mini_built as (_ & B & A), C17_example as (_ & Hne & Hc).
    repeat (split; [assumption|]). split; [now apply reshaped|reflexivity].
  - cbn [cairo_air a_context]. rewrite cairo_width_declared, <- mini_width, app_length. unfold mini_main_cols, reshape. rewrite !map_length, !seq_length, H3, H4.
    vm_compute. reflexivity.
Qed.
Example C19_example opts : get_pub_memory_addrs mini_pi0 = Ok (map fst (public_memory mini_pi0)) /\ NoDup (map fst (public_memory mini_pi0)) /\
  exists bcs, a_boundary (cairo_air mini_pi opts 8) mini_challenges = Ok bcs.
Proof.
  assert (Hlt : forall i, public_cell 5 None i -> (i < Z.to_N stark_p)%N).
  { intros i [Hi|Hi]; [|destruct Hi]. apply (N.le_lt_trans _ 5); [lia|vm_compute; reflexivity]. }
  destruct (C45_public_addresses_are_the_keys stark _ stark_ok mini_regs mini_memory 5 [] mini_pi0 Hlt I (proj1 mini_built)) as [Ha _].
  split; [exact Ha|]. split.
  - apply (NoDup_map_inv ce_repr). assert (E : map ce_repr (map fst (public_memory mini_pi0)) = [1; 2; 3; 4; 5]%N) by (vm_compute; reflexivity).
    rewrite E. repeat (constructor; [cbn; lia|]). constructor.
  - cbn [cairo_air a_boundary]. pose proof mini_boundary as B. unfold boundaryb in B. destruct (cairo_boundary mini_pi 8 mini_challenges) as [bcs| |]; [now exists bcs|discriminate B..].
Qed.
