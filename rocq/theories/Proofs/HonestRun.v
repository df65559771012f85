(** The whole trace of a provable run satisfies the AIR. *)
From Coq Require Import List Arith NArith ZArith Bool Lia Permutation.
From Verif.Base Require Import Outcome Field Poly.
From Verif.Model Require Import Codec PublicInputs Trace Air CairoDecode CairoTrace CairoAir CairoRunner.
From Verif.Spec Require Import CairoSpec CairoColumns AirSpec CairoRun.
From Verif.Proofs Require Import FieldFacts PolyFacts OutcomeFacts FFTFacts TraceFacts BuildFacts MainTraceFacts SortFacts MainColsFacts DecodeFacts CairoAirFacts StepFacts HonestFacts SortedFacts RunnerFacts MultisetFacts WalkFacts AuxFacts HonestAux HonestBuiltin WidthFacts.
Import ListNotations.
Local Open Scope felt_scope.

Section Run.
Context {C : cairo_env} {p : N} (HC : cairo_ok C p).
Let HK : field_ok C := fft_field_ok _ (e_fft_ok _ (co_env _ _ HC)).
Add Field Kfield44 : (fld_th C HK).

Lemma table_has_columns (t : trace_table C) rows w : is_table t rows -> tt_n_cols t = w -> has_columns t (length rows) (cols_of w rows).
Proof using Type.
  intros (H1 & H2 & H3) W. split; [now rewrite cols_of_length|]. split; [intros c Hc; now apply (cols_of_lengths w rows)|].
  rewrite H2. f_equal. rewrite W in H3. etransitivity; [exact (list_as_nth rows (length rows) [] eq_refl)|]. apply map_ext_in. intros i Hi. apply in_seq in Hi.
  rewrite Forall_forall in H3. assert (L : length (nth i rows []) = w) by (apply H3, nth_In; lia).
  etransitivity; [exact (list_as_nth (nth i rows []) w 0 L)|]. unfold cols_of. rewrite map_map. apply map_ext_in. intros j Hj. apply in_seq in Hj.
  symmetry. rewrite (nth_indep _ 0 (nth j [] 0)) by (rewrite map_length; lia). now rewrite (map_nth (fun r => nth j r 0)).
Qed.

(** The accesses of the built steps. *)
Lemma step_in_memory m (s : step_data (C := C)) e : step_ok m s -> (r_pc (sd_regs s) < 2 ^ 64)%N ->
  In e [(e_u64 C (r_pc (sd_regs s)), sd_inst s); sd_dst s; sd_op0 s; sd_op1 s] -> in_memory m e.
Proof using Type.
  intros H Hpc He.
  assert (A : forall base o x, addr_value m base o = Ok x -> in_memory m x).
  { intros base o x E. apply addr_value_inv in E. destruct E as (i & Hi & _ & Mi & Ei). exists i. auto. }
  destruct He as [<-|[<-|[<-|[<-|[]]]]].
  - exists (r_pc (sd_regs s)). cbn [fst snd]. repeat split; [exact Hpc|apply (so_inst _ _ H)].
  - pose proof (so_dst _ _ H) as E. unfold compute_dst in E. destruct (if_dst_reg (sd_flags s)); eapply A; exact E.
  - pose proof (so_op0 _ _ H) as E. unfold compute_op0 in E. destruct (if_op0_reg (sd_flags s)); eapply A; exact E.
  - pose proof (so_op1 _ _ H) as E. unfold compute_op1 in E. destruct (if_op1_src (sd_flags s)); eapply A; exact E.
Qed.
Lemma lookup_all (l : list (C * C)) : NoDup (map fst l) -> traverse (fun a => unwrap (map_get feqb a l)) (map fst l) = Ok (map snd l).
Proof using HC.
  intro H.
  assert (G : forall l', (forall e, In e l' -> map_get feqb (fst e) l = Some (snd e)) -> traverse (fun a => unwrap (map_get feqb a l)) (map fst l') = Ok (map snd l')).
  { induction l' as [|e l' IH]; intro Hl; [reflexivity|]. cbn [map traverse]. rewrite (Hl e (or_introl eq_refl)). cbn [unwrap obind].
    rewrite IH by (intros e' He'; apply Hl; now right). reflexivity. }
  apply G. clear G. induction l as [|[k v] l IH]; intros e He; [destruct He|]. cbn [map fst] in H. inversion H as [|? ? Hn Hd]; subst. cbn [map_get fst].
  destruct He as [<-|He]; cbn [fst snd].
  - now rewrite (feqb_refl HK).
  - destruct (feqb (fst e) k) eqn:E; [|now apply IH]. apply (feqb_spec C HK) in E. exfalso. apply Hn. rewrite <- E. now apply in_map.
Qed.

Lemma segments_rc rc out : map_get segment_eqb RangeCheck (create_memory_segment_map rc out) = rc.
Proof using Type. destruct rc as [r|], out as [o|]; reflexivity. Qed.
Lemma segments_out rc out : map_get segment_eqb Output (create_memory_segment_map rc out) = out.
Proof using Type. destruct rc as [r|], out as [o|]; reflexivity. Qed.

Lemma big64 : (2 ^ 64 < p)%N.
Proof using HC. pose proof (co_p _ _ HC) as P. change (2 ^ 65)%N with 36893488147419103232%N in P. change (2 ^ 64)%N with 18446744073709551616%N. lia. Qed.
Lemma repr_64 i : (i < 2 ^ 64)%N -> ce_repr (e_u64 C i) = i.
Proof using HC. intro H. rewrite (co_repr_u64 _ _ HC). apply N.mod_small. pose proof big64. lia. Qed.

Section Provable.
Context (m : @cairo_memory C) (raw : list registers_state) (size : N) (rc out : option (N * N)).
Hypothesis (HP : provable_run m raw size rc out).
Let pl := public_list size out.
Let pm := map (cell_of m) pl.
Let segs := create_memory_segment_map rc out.
Let pi0 : public_inputs C := let d := mk_regs 0 0 0 in let r0 := hd d raw in let rl := last raw d in
  mk_public_inputs (e_u64 C (r_pc r0)) (e_u64 C (r_ap r0)) (e_u64 C (r_fp r0)) (e_u64 C (r_pc rl)) (e_u64 C (r_ap rl)) None None segs pm (length raw).

Lemma pl_cases i : In i pl <-> (1 <= i <= size)%N \/ exists lo hi, out = Some (lo, hi) /\ (lo <= i < hi)%N.
Proof using HC HP.
  unfold pl, public_list. rewrite in_app_iff, nrange_in. destruct out as [[lo hi]|]; [rewrite nrange_in|cbn [In]].
  - split; [intros [H|H]; [left; lia|right; eauto]|intros [H|(l & h & E & H)]; [left; lia|right]]. now injection E as -> ->.
  - split; [intros [H|[]]; left; lia|intros [H|(l & h & E & H)]; [left; lia|discriminate]].
Qed.
Lemma pl_64 i : In i pl -> (i < 2 ^ 64)%N.
Proof using HC HP.
  rewrite pl_cases. intros [H|(lo & hi & E & H)].
  - pose proof (pr_size _ _ _ _ _ HP). lia.
  - pose proof (pr_out _ _ _ _ _ HP lo hi E) as (_ & _ & Z & _). lia.
Qed.
Lemma pl_nodup : NoDup pl.
Proof using HC HP.
  apply public_list_nodup. destruct out as [[lo hi]|] eqn:E; [|exact I]. pose proof (pr_out _ _ _ _ _ HP lo hi eq_refl) as (_ & Z & _). lia.
Qed.
Lemma pl_present : Forall (present m) pl.
Proof using HC HP.
  apply Forall_forall. intros i Hi. apply pl_cases in Hi. destruct Hi as [H|(lo & hi & E & H)].
  - now apply (pr_program _ _ _ _ _ HP).
  - pose proof (pr_out _ _ _ _ _ HP lo hi E) as (_ & _ & _ & Z & _). now apply Z.
Qed.
Lemma pm_entries : of_entries feqb pm = pm.
Proof using HC HP. apply (public_entries HC); [|exact pl_nodup]. intros i Hi. pose proof (pl_64 i Hi). pose proof big64. lia. Qed.
Lemma pi0_built : from_regs_and_mem raw m size segs = Ok pi0.
Proof using HC HP.
  apply from_regs_ok. unfold segs. rewrite segments_out. split; [apply (pr_valid _ _ _ _ _ HP)|]. split; [exact pl_present|].
  cbv zeta. fold pl. fold pm. rewrite pm_entries. reflexivity.
Qed.
Lemma rc_values : exists vals, match rc with None => True | Some (lo, hi) => traverse (fun a => unwrap (mem_get m a)) (nrange lo hi) = Ok vals end /\
  forall x, In x vals -> (ce_repr x < 2 ^ 128)%N.
Proof using HC HP.
  destruct rc as [[lo hi]|] eqn:E; [|exists []; split; [exact I|intros x []]].
  exists (map (fun a => match mem_get m a with Some v => v | None => fzero end) (nrange lo hi)). split.
  - apply traverse_map. intros a Ha. apply nrange_in in Ha. destruct (pr_rc _ _ _ _ _ HP lo hi a eq_refl Ha) as (v & -> & _). reflexivity.
  - intros x Hx. apply in_map_iff in Hx. destruct Hx as (a & <- & Ha). apply nrange_in in Ha. destruct (pr_rc _ _ _ _ _ HP lo hi a eq_refl Ha) as (v & -> & Hv). exact Hv.
Qed.
Lemma pm_nodup : NoDup (map fst pm).
Proof using HC HP. rewrite <- pm_entries. apply (public_nodup HC). Qed.
Lemma pm_addrs lo hi : get_pub_memory_addrs (with_rc_bounds pi0 lo hi) = Ok (map fst pm).
Proof using HC HP.
  unfold get_pub_memory_addrs. cbn [with_rc_bounds public_memory memory_segments pi0]. unfold segs. rewrite segments_out.
  unfold pm. rewrite public_keys. rewrite map_length. unfold pl, public_list.
  destruct out as [[l h]|] eqn:E.
  - pose proof (pr_out _ _ _ _ _ HP l h eq_refl) as (_ & Z & _). rewrite app_length, !nrange_length.
    destruct (N.ltb_spec h l); [lia|]. match goal with |- (if ?b then _ else _) = _ => destruct b eqn:B; [apply N.ltb_lt in B; lia|] end.
    f_equal. rewrite map_app. do 2 f_equal. f_equal. lia.
  - rewrite app_nil_r. rewrite nrange_length. f_equal. do 2 f_equal. lia.
Qed.
Lemma pm_cells lo hi : pub_cells (with_rc_bounds pi0 lo hi) pm.
Proof using HC HP.
  exists (map fst pm), (map snd pm). split; [apply pm_addrs|]. split; [exact (lookup_all pm pm_nodup)|]. symmetry. apply combine_pairs.
Qed.
Lemma pub_is_pm pi lo hi pub : pi = with_rc_bounds pi0 lo hi -> pub_cells pi pub -> pub = pm.
Proof using HC HP.
  intros -> (pa & pv & Ha & Hv & ->). cbn [with_rc_bounds public_memory pi0] in Hv. rewrite pm_addrs in Ha. apply ok_inj in Ha.
  subst pa. rewrite (lookup_all pm pm_nodup) in Hv. apply ok_inj in Hv. subst pv. apply combine_pairs.
Qed.
Lemma pm_in_memory e : In e pm -> exists i, In i pl /\ fst e = e_u64 C i /\ mem_get m i = Some (snd e).
Proof using HC HP.
  intro H. unfold pm in H. apply in_map_iff in H. destruct H as (i & <- & Hi). exists i. split; [exact Hi|]. unfold cell_of. cbn [fst snd]. split; [reflexivity|].
  pose proof pl_present as F. rewrite Forall_forall in F. specialize (F i Hi). unfold present in F. now destruct (mem_get m i).
Qed.

Lemma pm_length : length pm = (N.to_nat size + match out with Some (lo, hi) => N.to_nat (hi - lo) | None => 0 end)%nat.
Proof using HC HP. unfold pm, pl, public_list. rewrite map_length, app_length, nrange_length. destruct out as [[lo hi]|]; [rewrite nrange_length|cbn [length]]; lia. Qed.
Lemma step_accesses_touched (ss : list (step_data (C := C))) : raw = map sd_regs ss -> Forall (covers m) ss ->
  forall a, (exists e, step_access ss e /\ fst e = a) <-> exists t, In t raw /\ touches m t a.
Proof using HC HP.
  intros Er Hc a. rewrite Forall_forall in Hc. split.
  - intros (e & (s & Hs & He) & <-). exists (sd_regs s). split; [rewrite Er; now apply in_map|]. apply (Hc s Hs).
    destruct He as [<-|[<-|[<-|[<-|[]]]]]; cbn [fst In]; tauto.
  - intros (t & Ht & Ha). rewrite Er in Ht. apply in_map_iff in Ht. destruct Ht as (s & <- & Hs). apply (Hc s Hs) in Ha.
    destruct Ha as [<-|[<-|[<-|[<-|[]]]]];
      [exists (e_u64 C (r_pc (sd_regs s)), sd_inst s)|exists (sd_dst s)|exists (sd_op0 s)|exists (sd_op1 s)];
      (split; [exists s; split; [exact Hs|cbn [In]; tauto]|reflexivity]).
Qed.

(** The accesses of the trace together with the public memory: contiguous and single valued. *)
Section Accesses.
Context (ss : list (step_data (C := C))) (extra : list (list C)).
Hypothesis (Er : raw = map sd_regs ss) (Hne : ss <> []) (Hok : Forall (step_ok m) ss) (Hun : Forall unchanged ss) (Hc : Forall (covers m) ss).
Let codelen := length pm.

Lemma steps_in_memory e : step_access ss e -> in_memory m e.
Proof using HC HP Er Hok.
  intros (s & Hs & He). rewrite Forall_forall in Hok. apply (step_in_memory m s e (Hok s Hs)); [|exact He].
  destruct (pr_valid _ _ _ _ _ HP) as (_ & Hr & _). rewrite Forall_forall in Hr. rewrite Er in Hr.
  pose proof (proj1 (Hr _ (in_map sd_regs ss s Hs))). change (2 ^ 64)%N with 18446744073709551616%N in *. lia.
Qed.
Lemma pm_memory e : In e pm -> in_memory m e.
Proof using HC HP. intro H. destruct (pm_in_memory e H) as (i & Hi & E1 & E2). exists i. repeat split; auto. exact (pl_64 i Hi). Qed.
Lemma pm_low_or_read e : In e pm -> (ce_repr (fst e) <= N.of_nat codelen)%N \/ exists e', step_access ss e' /\ fst e' = fst e.
Proof using HC HP Er Hc.
  intro H. destruct (pm_in_memory e H) as (i & Hi & E1 & E2). rewrite E1. rewrite (repr_64 i) by (now apply pl_64). apply pl_cases in Hi.
  destruct Hi as [Hi|(lo & hi & Eo & Hi)].
  - left. unfold codelen. rewrite pm_length. lia.
  - right. apply (step_accesses_touched ss Er Hc). destruct (pr_out _ _ _ _ _ HP lo hi Eo) as (_ & _ & _ & Z & _). now apply Z.
Qed.
Lemma honest_single_valued e e' : In e (kept ss extra codelen ++ pm) -> In e' (kept ss extra codelen ++ pm) -> fst e = fst e' -> snd e = snd e'.
Proof using HC HP Er Hne Hok Hun Hc.
  apply (kept_single_valued HC m ss extra codelen Hok Hun Hne); [exact steps_in_memory|exact pm_memory|exact (pr_zero _ _ _ _ _ HP)|].
  intros x Hx Hh. apply (hole_iff HC m ss extra codelen Hok Hun Hne) in Hh. destruct Hh as (H1 & _ & _ & H4).
  destruct (pm_low_or_read x Hx) as [H|H]; [lia|now apply H4].
Qed.
Lemma honest_interval : exists M, (forall x, (x <= M)%N -> exists e, In e (kept ss extra codelen ++ pm) /\ ce_repr (fst e) = x) /\
  (forall e, In e (kept ss extra codelen ++ pm) -> (ce_repr (fst e) <= M)%N).
Proof using HC HP Er Hne Hok Hun Hc.
  apply (kept_interval HC m ss extra codelen Hok Hun Hne).
  - destruct ss as [|s0 ss'] eqn:Es; [now contradiction Hne|]. exists (e_u64 C (r_pc (sd_regs s0)), sd_inst s0). split; [exists s0; split; cbn [In]; auto|].
    cbn [fst]. pose proof (pr_entry _ _ _ _ _ HP (sd_regs s0)) as He. rewrite Er in He. specialize (He eq_refl).
    rewrite repr_64 by (pose proof (pr_size _ _ _ _ _ HP); lia). unfold codelen. rewrite pm_length. lia.
  - exact pm_low_or_read.
  - intros x Hx (e & He & Hl). destruct (N.eq_dec x 0) as [->|Hx0].
    { exists (0, 0). split; [apply in_or_app; left; apply kept_zero|]. cbn [fst]. 
      rewrite <- (co_zero _ _ HC). apply repr_64. reflexivity. }
    destruct (N.le_gt_cases x size) as [Hs|Hs].
    { exists (cell_of m x). split; [apply in_or_app; right; apply in_map, pl_cases; left; lia|]. apply repr_64. pose proof (pr_size _ _ _ _ _ HP). lia. }
    unfold codelen in Hx. rewrite pm_length in Hx.
    assert (Q0 : exists lo hi, out = Some (lo, hi) /\ (x <= size + (hi - lo))%N).
    { clear -Hx Hs. destruct out as [[lo hi]|]; [|lia]. exists lo, hi. split; [reflexivity|lia]. }
    destruct Q0 as (lo & hi & Eo & Hx'). destruct (pr_out _ _ _ _ _ HP lo hi Eo) as (_ & Z1 & Z2 & Z3 & Z4).
    assert (T : exists t, In t raw /\ touches m t (e_u64 C x)).
    { apply Z4; [lia|]. assert (Q : exists e', step_access ss e' /\ (x < ce_repr (fst e'))%N).
      { apply in_app_or in He. destruct He as [He|He].
        - apply (kept_cases m ss extra codelen Hok Hun Hne) in He. destruct He as [He|[->|(k & Hk & ->)]].
          + eauto.
          + cbn [fst] in Hl. rewrite <- (co_zero _ _ HC), repr_64 in Hl by reflexivity. lia.
          + cbn [fst] in Hl. pose proof (nth_In _ 0 Hk) as Hh. apply (hole_iff HC m ss extra codelen Hok Hun Hne) in Hh.
            destruct Hh as (_ & _ & (e' & He' & L) & _). exists e'. split; [exact He'|lia].
        - destruct (pm_in_memory e He) as (i & Hi & E1 & _). apply pl_cases in Hi. destruct Hi as [Hi|(lo' & hi' & Eo' & Hi)].
          + rewrite E1, repr_64 in Hl by (pose proof (pr_size _ _ _ _ _ HP); lia). lia.
          + rewrite Eo in Eo'. injection Eo' as <- <-. destruct (proj2 (Z3 i Hi)) as (t & Ht & Hta).
            destruct (proj2 (step_accesses_touched ss Er Hc _) (ex_intro _ t (conj Ht Hta))) as (e' & He' & Ee'). exists e'. split; [exact He'|]. now rewrite Ee', <- E1. }
      destruct Q as (e' & He' & L). destruct (proj1 (step_accesses_touched ss Er Hc (fst e')) (ex_intro _ e' (conj He' eq_refl))) as (t & Ht & Ha).
      exists t, (fst e'). auto. }
    apply (step_accesses_touched ss Er Hc) in T. destruct T as (e' & He' & Ee'). exists e'. split; [apply in_or_app; left; now apply (kept_steps m)|].
    rewrite Ee'. apply repr_64. clear -Hx' Z1 Z2. lia.
Qed.
End Accesses.

Lemma flat_last (cols : list (list C)) base k n : (0 < k)%nat -> (0 < n)%nat -> flat cols base k (k * n - 1) = cell cols (n - 1) (base + (k - 1)).
Proof using Type.
  intros Hk Hn. unfold flat. replace (k * n - 1)%nat with ((k - 1) + (n - 1) * k)%nat by nia.
  rewrite Nat.div_add, Nat.mod_add by lia. now rewrite Nat.div_small, Nat.mod_small by lia.
Qed.
Lemma last_as_nth {A} (l : list A) d : last l d = nth (length l - 1) l d.
Proof using Type. induction l as [|x [|y l] IH]; [reflexivity..|]. cbn [last length] in *. rewrite IH. cbn [nth Nat.sub]. now rewrite Nat.sub_0_r. Qed.
Lemma main_rows_prefix w codelen (rows : list (list C)) i : (i < length rows)%nat -> nth i (main_rows w codelen rows) [] = nth i rows [].
Proof using Type. intro H. unfold main_rows, rows_filled. now rewrite <- app_assoc, app_nth1. Qed.
Lemma fold_factor ch (l : list (C * C)) : forall acc, fold_left (fun product av => product * (z_memory ch - (fst av + alpha_memory ch * snd av))) l acc = acc * fprod (map (factor ch) l).
Proof using HC.
  induction l as [|e l IH]; intro acc; cbn [fold_left map fprod fold_right]; [unfold fprod; cbn [fold_right]; ring|]. rewrite IH. unfold fprod. cbn [fold_right]. unfold factor at 2. ring.
Qed.
Lemma full_cell w (rows : list (list C)) pub ch i j : Forall (fun r => length r = w) rows -> (i < length rows)%nat -> (j < w)%nat ->
  cell (full_cols w rows pub ch) i j = nth j (nth i rows []) 0.
Proof using Type.
  intros Hw Hi Hj. rewrite <- crow_nth. unfold full_cols. rewrite (crow_cols_of w) by assumption. rewrite app_nth1; [reflexivity|].
  rewrite Forall_forall in Hw. rewrite Hw by (now apply nth_In). exact Hj.
Qed.
Lemma step_row_regs (s : step_data (C := C)) sel extra : step_ok m s ->
  nth 17 (step_row s sel ++ extra) 0 = e_u64 C (r_ap (sd_regs s)) /\ nth 19 (step_row s sel ++ extra) 0 = e_u64 C (r_pc (sd_regs s)).
Proof using Type. intro H. rewrite !(step_row_cell m) by exact H. destruct (sd_upd s) as [[? ?] ?]. split; reflexivity. Qed.

Lemma flat_main w (rows : list (list C)) pub ch base k i : (base + k <= w)%nat -> (0 < k)%nat ->
  flat (cols_of w rows) base k i = flat (full_cols w rows pub ch) base k i.
Proof using Type.
  intros H Hk. unfold flat, full_cols, cell. rewrite app_nth1; [reflexivity|]. rewrite cols_of_length.
  pose proof (Nat.mod_upper_bound i k ltac:(lia)). lia.
Qed.
Lemma zero_or_none {A} (f : A -> C) (l : list A) : (forall e, In e l -> f e <> 0) \/ exists e, In e l /\ f e = 0.
Proof using HC.
  induction l as [|x l [IH|(e & H1 & H2)]]; [left; intros e []| |right; exists e; split; [now right|exact H2]].
  destruct (feqb (f x) 0) eqn:Ex.
  - right. exists x. split; [now left|]. now apply (feqb_spec C HK).
  - left. intros e [<-|He]; [now apply (feqb_false HK)|now apply IH].
Qed.

Theorem honest_full : exists t pi r, generate_prover_args raw m size rc out = Ok (t, pi) /\ tt_n_rows t = (2 ^ r)%nat /\
  (1 <= r)%nat /\
  (forall ch, (exists aux, cairo_build_aux pi t ch = Ok aux) \/ unlucky pi t ch) /\
  (forall ch aux, cairo_build_aux pi t ch = Ok aux -> exists bcs, cairo_boundary pi (2 ^ r) ch = Ok bcs) /\
  forall opts, valid_trace (cairo_air pi opts (2 ^ r)) r t.
Proof using HC HP.
  destruct (valid_run_steps HC m raw (pr_valid _ _ _ _ _ HP)) as (ss & Er & Hne & Hok & Hgood & Hun & Hcov).
  destruct rc_values as (vals & Hv & Hvals).
  pose (extra := match rc with None => [] | Some _ => rc_cols (length ss) vals end).
  assert (Hx : rc_extra m pi0 (length ss) extra).
  { unfold rc_extra. cbn [pi0 memory_segments]. unfold segs. rewrite segments_rc. unfold extra. clear -Hv. destruct rc as [[lo hi]|]; [eauto|reflexivity]. }
  destruct (main_forward raw m pi0 ss extra Er Hne Hok Hx) as (t & Et & Tt & Wt). cbv zeta in *.
  change (public_memory pi0) with pm in Tt.
  set (lo := nth 0 (sorted_u16s (build_rows ss extra)) 0%N) in *.
  set (hi := nth (length (sorted_u16s (build_rows ss extra)) - 1) (sorted_u16s (build_rows ss extra)) 0%N) in *.
  set (pi := with_rc_bounds pi0 lo hi) in *. set (w := (34 + length extra)%nat) in *.
  set (rows := build_rows ss extra) in *. set (R := main_rows w (length pm) rows) in *.
  set (r := Nat.log2_up (n_filled w (length pm) rows)).
  assert (Wd : Forall (fun r => length r = w) rows) by (apply (build_rows_width m); exact Hok).
  assert (Rne : rows <> []) by (now apply build_rows_ne).
  assert (LR : length R = (2 ^ r)%nat) by apply main_rows_length.
  assert (WR : Forall (fun r => length r = w) R) by (apply main_rows_width; [exact Rne|exact Wd|unfold w; lia]).
  assert (Lss : length rows = length ss) by apply build_rows_length.
  destruct (rows_n ss extra (length pm) Hne) as [Ln Ln0]. fold w rows R in Ln, Ln0.
  exists t, pi, r. split; [unfold generate_prover_args; cbv zeta; fold segs; rewrite pi0_built; exact Et|].
  split; [now rewrite (table_n_rows _ _ Tt)|].
  split.
  { clear - Rne. destruct r eqn:E; [|lia]. unfold r in E. apply Nat.log2_up_null in E. unfold n_filled, rows_filled in E. rewrite !app_length in E.
    destruct rows; [now contradiction Rne|]. cbn [length] in E. lia. }
  assert (Hrcb : has_rc_builtin pi = match rc with Some _ => true | None => false end).
  { unfold has_rc_builtin. cbn [pi with_rc_bounds memory_segments pi0]. unfold segs. pose proof (pr_out _ _ _ _ _ HP) as Ho. clear -Ho.
    destruct rc as [x|], out as [[l h]|]; try reflexivity. destruct (Ho l h eq_refl) as (Z & _). now contradiction Z. }
  assert (Hw : w = (43 - builtin_offset pi)%nat).
  { unfold w, builtin_offset, extra. rewrite Hrcb. clear. destruct rc; [|reflexivity]. unfold rc_cols. rewrite app_length, map_length. unfold decompose_rc_values. now rewrite decompose_length. }
  pose proof (codelen_lt m ss extra (length pm) Hok Hne) as Lpm. fold w rows R in Lpm.
  assert (Wt30 : (30 <= tt_n_cols t)%nat) by (rewrite Wt; unfold w; lia).
  split.
  { intro ch. destruct (zero_or_none (factor ch) (sorted_mem R pm)) as [Hm|(e & He & Hz)].
    2:{ right. exists (length R), (cols_of w R). split; [apply table_has_columns; [exact Tt|exact Wt]|]. left. exists (fst e), (snd e).
        split; [exact (proj1 (sub_zero HK _ _) Hz)|].
        unfold sorted_mem in He. apply (Permutation_in _ (sort_by_perm _ _)) in He. unfold replaced in He. apply in_app_or in He.
        destruct He as [He|He]; [right|left; change (public_memory pi) with pm; destruct e; exact He].
        assert (Hi := firstn_skipn (4 * length R - length pm) (mem_entries R)). assert (He2 : In e (mem_entries R)) by (rewrite <- Hi; apply in_or_app; now left). clear He Hi. rename He2 into He. apply (In_nth _ _ (0, 0)) in He. rewrite mem_entries_length in He. destruct He as (k & Hk & E). exists k. split; [exact Hk|].
        rewrite <- (read_access_entry pi R pm ch w Hw k Hk) in E.
        unfold access_addr, access_value in *. rewrite !(flat_main w R pm ch) by (unfold w, FRAME_PC, FRAME_INST; lia). rewrite <- E. split; reflexivity. }
    destruct (zero_or_none (fun x => z_range_check ch - x) (rc_sorted R)) as [Hr|(e & He & Hz)].
    2:{ right. exists (length R), (cols_of w R). split; [apply table_has_columns; [exact Tt|exact Wt]|]. right.
        apply (Permutation_in _ (rc_perm HC m ss extra (length pm) Hok Hne)) in He. fold w rows R in He.
        apply (In_nth _ _ 0) in He. rewrite off_cells_length in He. destruct He as (k & Hk & E). exists k. split; [exact Hk|].
        rewrite <- (read_offset pi R pm ch w Hw k Hk) in E. transitivity e; [exact (proj1 (sub_zero HK _ _) Hz)|]. rewrite <- E.
        unfold offset_cell. symmetry. apply flat_main; unfold w, OFF_DST; lia. }
    left. eexists. apply (aux_forward HC pi t R ch pm Tt Wt30); [|exact (pm_cells lo hi)|exact Hm|exact Hr].
    change (public_memory pi) with pm. exact (Nat.lt_le_incl _ _ Lpm). }
  split.
  { intros ch aux Haux. destruct (aux_inverse HC pi t R ch aux Tt Wt30 Haux) as (_ & pub & Hpc & Hm & _).
    assert (Epub : pub = pm) by (exact (pub_is_pm pi lo hi pub eq_refl Hpc)). subst pub. clear Hpc.
    unfold cairo_boundary. cbv zeta.
    assert (Hns : num_steps pi = length ss) by (cbn [pi with_rc_bounds num_steps pi0]; rewrite Er; apply map_length).
    assert (Hpos : (0 < length ss)%nat) by (destruct ss; [now contradiction Hne|cbn [length]; lia]).
    rewrite (usub_ok (num_steps pi) 1) by (clear -Hns Hpos; lia). cbn [obind]. rewrite (usub_ok (2 ^ r) 1) by (clear -LR Ln0; lia). cbn [obind].
    change (public_memory pi) with pm. rewrite fold_factor. unfold inv_o.
    assert (Hf : fprod (map (factor ch) pm) <> 0).
    { apply (fprod_nonzero HK). intros x Hxm. apply in_map_iff in Hxm. destruct Hxm as (e & <- & He). apply Hm. unfold sorted_mem.
      apply (Permutation_in _ (Permutation_sym (sort_by_perm _ _))). unfold replaced. apply in_or_app. now right. }
    destruct (feqb _ 0) eqn:Ez; [exfalso; apply (feqb_spec C HK) in Ez; apply Hf; rewrite <- Ez; ring|].
    cbn [obind pi with_rc_bounds range_check_min range_check_max unwrap]. eexists. reflexivity. }
  intro opts. exists (cols_of w R). split; [|split].
  { intro Z. apply (f_equal (@length _)) in Z. rewrite cols_of_length in Z. unfold w in Z. discriminate. }
  { rewrite <- LR. apply table_has_columns; [exact Tt|exact Wt]. }
  intros tr ch tr' aux _ Haux. cbn [cairo_air a_build_aux] in Haux.
  destruct (aux_inverse HC pi t R ch aux Tt ltac:(rewrite Wt; unfold w; lia) Haux) as (Hfit & pub & Hpc & Hm & Hr & ->).
  assert (Epub : pub = pm) by (exact (pub_is_pm pi lo hi pub eq_refl Hpc)). subst pub. clear Hpc.
  assert (Lw : length (full_cols w R pm ch) = cairo_width pi).
  { unfold full_cols. rewrite app_length, !cols_of_length, Hw. unfold cairo_width. pose proof (offset_le pi). lia. }
  exists (cols_of 18 (aux_rows R pm ch)). split; [|split].
  { rewrite <- LR, <- (aux_rows_length R pm ch). apply table_has_columns; [apply aux_rows_table|reflexivity]. }
  { cbn [cairo_air a_context]. rewrite cairo_width_declared. exact Lw. }
  apply cairo_satisfies; [exact Lw|]. fold (full_cols w R pm ch). rewrite <- LR. split.
  - (* boundary *)
    intros bcs bc Hb Hin. unfold cairo_boundary in Hb. cbv zeta in Hb.
    apply obind_ok in Hb. destruct Hb as (last_step & E1 & Hb). apply usub_inv in E1. destruct E1 as [_ E1].
    apply obind_ok in Hb. destruct Hb as (fin & E2 & Hb). apply usub_inv in E2. destruct E2 as [_ E2].
    apply obind_ok in Hb. destruct Hb as (cp & E3 & Hb). cbn [pi with_rc_bounds range_check_min range_check_max unwrap obind] in Hb.
    apply ok_inj in Hb. subst bcs. fold pi in Hin.
    assert (Hcp : fprod (map (factor ch) pm) * cp = 1).
    { unfold inv_o in E3. change (public_memory pi) with pm in E3. rewrite fold_factor in E3.
      destruct (feqb _ 0) eqn:Ez in E3; [discriminate|]. apply ok_inj in E3. apply (feqb_false HK) in Ez. rewrite <- E3. field. intro Q. apply Ez. rewrite Q. ring. }
    assert (Hns : num_steps pi = length ss) by (cbn [pi with_rc_bounds num_steps pi0]; rewrite Er; apply map_length).
    assert (Hpos : (0 < length ss)%nat) by (destruct ss; [now contradiction Hne|cbn [length]; lia]).
    assert (Cell : forall i j, (i < length ss)%nat -> (j < w)%nat -> cell (full_cols w R pm ch) i j = nth j (step_row (nth i ss sd0) (sel_of (length ss) i) ++ map (fun c => nth i c 0) extra) 0).
    { intros i j Hi Hj. rewrite full_cell; [|exact WR|lia|exact Hj]. unfold R. rewrite main_rows_prefix by (rewrite Lss; exact Hi). unfold rows. now rewrite build_rows_nth. }
    assert (Ok_at : forall i, (i < length ss)%nat -> step_ok m (nth i ss sd0)) by (intros i Hi; rewrite Forall_forall in Hok; apply Hok, nth_In, Hi).
    assert (W34 : (34 <= w)%nat) by (unfold w; lia). pose proof (offset_le pi) as Ho9. unfold cairo_width in Lw.
    assert (H0 : nth 0 ss sd0 = hd sd0 ss) by (destruct ss; reflexivity).
    assert (Hd : hd (mk_regs 0 0 0) raw = sd_regs (nth 0 ss sd0)) by (rewrite Er, H0; destruct ss; [now contradiction Hne|reflexivity]).
    assert (Hl : last raw (mk_regs 0 0 0) = sd_regs (nth (length ss - 1) ss sd0)).
    { rewrite Er. change (mk_regs 0 0 0) with (sd_regs (@sd0 C)). rewrite last_as_nth, map_length. apply map_nth. }
    cbn [In] in Hin. destruct Hin as [<-|[<-|[<-|[<-|[<-|[<-|[<-|[<-|[]]]]]]]]]; cbn [bc_step bc_col bc_value].
    + unfold MEM_A_TRACE_OFFSET. split; [exact Ln0|]. split; [lia|]. rewrite Cell by lia. cbn [pi with_rc_bounds pc_init pi0]. rewrite Hd. apply step_row_regs, Ok_at, Hpos.
    + unfold MEM_P_TRACE_OFFSET. split; [exact Ln0|]. split; [lia|]. rewrite Cell by lia. cbn [pi with_rc_bounds ap_init pi0]. rewrite Hd. apply step_row_regs, Ok_at, Hpos.
    + rewrite E1, Hns. unfold MEM_A_TRACE_OFFSET. split; [lia|]. split; [lia|]. rewrite Cell by lia. cbn [pi with_rc_bounds pc_final pi0]. rewrite Hl. apply step_row_regs, Ok_at. lia.
    + rewrite E1, Hns. unfold MEM_P_TRACE_OFFSET. split; [lia|]. split; [lia|]. rewrite Cell by lia. cbn [pi with_rc_bounds ap_final pi0]. rewrite Hl. apply step_row_regs, Ok_at. lia.
    + subst fin. split; [lia|]. unfold PERMUTATION_ARGUMENT_COL_3. split; [lia|].
      pose proof (mem_final HC m ss extra (length pm) Hok Hne pi ch pm Hw eq_refl Hm) as Q. fold w rows R in Q.
      assert (Em : mem_product pi (full_cols w R pm ch) (4 * length R - 1) = cell (full_cols w R pm ch) (length R - 1) (57 - builtin_offset pi)).
      { unfold mem_product. rewrite flat_last by lia. unfold PERMUTATION_ARGUMENT_COL_0. f_equal. lia. }
      rewrite Em in Q. change (length (public_memory pi)) with (length pm). rewrite <- Q. transitivity (cell (full_cols w R pm ch) (length R - 1) (57 - builtin_offset pi) * 1); [ring|].
      rewrite <- Hcp. ring.
    + subst fin. split; [lia|]. unfold PERMUTATION_ARGUMENT_RANGE_CHECK_COL_3. split; [lia|].
      rewrite <- (rc_final HC m ss extra (length pm) Hok Hne pi ch pm Hw Hr). fold w rows R.
      unfold rc_product. rewrite flat_last by lia. unfold PERMUTATION_ARGUMENT_RANGE_CHECK_COL_1. f_equal. lia.
    + split; [exact Ln0|]. unfold RANGE_CHECK_COL_1. split; [lia|].
      pose proof (rc_first HC m ss extra (length pm) Hok Hne) as Q. fold w rows R lo in Q. rewrite <- Q.
      rewrite <- (read_sorted_offset pi R pm ch w Hw 0) by lia. unfold sorted_offset, flat, RANGE_CHECK_COL_1. change (0 / 3)%nat with 0%nat. change (0 mod 3)%nat with 0%nat. now rewrite Nat.add_0_r.
    + subst fin. split; [lia|]. unfold RANGE_CHECK_COL_3. split; [lia|].
      pose proof (rc_last HC m ss extra (length pm) Hok Hne) as Q. fold w rows R hi in Q. rewrite <- Q.
      rewrite <- (read_sorted_offset pi R pm ch w Hw (3 * length R - 1)) by lia. unfold sorted_offset. rewrite flat_last by lia. unfold RANGE_CHECK_COL_1. f_equal. lia.
  - (* transitions *)
    assert (All : forall j, (j < n_constraints pi)%nat -> holds pi ch (full_cols w R pm ch) (length R) j).
    { intros j Hj. destruct (Nat.le_gt_cases j 30) as [J|J]; [now apply (honest_cpu HC m ss extra (length pm) pi ch _ Hne Hok Hgood)|].
      destruct (Nat.lt_ge_cases j 39) as [J1|J1].
      { destruct (honest_interval ss extra Er Hne Hok Hun Hcov) as (M & HM1 & HM2).
        apply (honest_memory HC m ss extra (length pm) Hok Hne pi ch pm Hw eq_refl M HM1 HM2); [|lia]. apply (honest_single_valued ss extra Er Hne Hok Hun Hcov). }
      destruct (Nat.lt_ge_cases j 43) as [J2|J2]; [apply (honest_mem_product HC m ss extra (length pm) Hok Hne pi ch pm Hw eq_refl Hm); lia|].
      destruct (Nat.lt_ge_cases j 46) as [J3|J3]; [apply (honest_rc_order HC m ss extra (length pm) Hok Hne pi ch pm Hw); lia|].
      destruct (Nat.lt_ge_cases j 49) as [J4|J4]; [apply (honest_rc_product HC m ss extra (length pm) Hok Hne pi ch pm Hw Hr); lia|].
      unfold n_constraints in Hj. destruct (has_rc_builtin pi) eqn:Eb; [|lia]. assert (j = 49%nat) by lia. subst j.
      assert (Ex : extra = rc_cols (length ss) vals) by (unfold extra; clear -Hrcb; destruct rc; [reflexivity|discriminate]).
      pose proof (honest_builtin HC m ss vals (length pm) pi ch (cols_of 18 (aux_rows R pm ch)) Hne Hok Eb Hvals) as Q. cbv zeta in Q. rewrite <- Ex in Q. exact Q. }
    intros i j Hi Hj. now apply All.
Qed.
Theorem honest_satisfies : exists t pi r, generate_prover_args raw m size rc out = Ok (t, pi) /\ tt_n_rows t = (2 ^ r)%nat /\
  (1 <= r)%nat /\ forall opts, valid_trace (cairo_air pi opts (2 ^ r)) r t.
Proof using HC HP. destruct honest_full as (t & pi & r & H1 & H2 & H3 & _ & _ & H4). exists t, pi, r. auto. Qed.
End Provable.
End Run.
