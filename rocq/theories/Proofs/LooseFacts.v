(** Tables that satisfy the constraints of the code as it is. *)
From Coq Require Import List Arith NArith Bool Lia Permutation.
From Verif.Base Require Import Outcome Field Poly.
From Verif.Model Require Import Codec PublicInputs Trace Air CairoDecode CairoTrace CairoAir.
From Verif.Spec Require Import CairoSpec AirSpec CairoColumns Fitting.
From Verif.Proofs Require Import FieldFacts DecodeFacts PolyFacts FFTFacts OutcomeFacts TraceFacts CpuFacts CairoAirFacts SortedFacts MultisetFacts WalkFacts CairoForge LateColumns RootBound FittingFacts.
From Verif.Properties Require Import CairoMemoryProperties CairoSoundnessProperties.
Import ListNotations.

Section Loose.
Context {C : cairo_env} {p : N} (HC : cairo_ok C p).
Let HK : field_ok C := fft_field_ok _ (e_fft_ok _ (co_env _ _ HC)).
Add Field Kfield87 : (fld_th C HK).
Local Open Scope felt_scope.
Notation "r .[ i ]" := (nth i r (fzero : C)) (at level 2, format "r .[ i ]").

Lemma products_main (pi : public_inputs C) base cols : same_but_products pi base cols -> same_main pi base cols.
Proof using Type. intros [Hl H]. split; [exact Hl|]. intros j Hj. apply H. unfold RANGE_CHECK_COL_1, PERMUTATION_ARGUMENT_COL_0 in *. pose proof (offset_le pi). lia. Qed.
Lemma same_main_sym (pi : public_inputs C) base cols : same_main pi base cols -> same_main pi cols base.
Proof using Type. intros [Hl H]. split; [now symmetry|]. intros j Hj. symmetry. now apply H. Qed.

Section Main.
Context (pi : public_inputs C) (opts : proof_options) (n : nat) (base cols : list (list C)) (Hw : length base = cairo_width pi) (Hs : same_main pi base cols).
Lemma main_cell i j : (j < 43 - builtin_offset pi)%nat -> cell cols i j = cell base i j.
Proof using Hs. intro Hj. unfold cell. destruct Hs as [_ H]. now rewrite H. Qed.
Lemma main_flat_same b w k : (b + w <= 34)%nat -> (0 < w)%nat -> flat cols b w k = flat base b w k.
Proof using Hs. clear Hw. intros Hb H0. pose proof (offset_le pi). apply (flat_agree base cols b w k (43 - builtin_offset pi)); [lia|exact H0|apply Hs]. Qed.
Lemma main_steps_same ch ch' j : (j < 31 \/ j = 49)%nat ->
  constraint_holds (cairo_air pi opts n) ch base n j -> constraint_holds (cairo_air pi opts n) ch' cols n j.
Proof using Hw Hs.
  intro Hj. pose proof (offset_le pi) as Ho. assert (W : length cols = cairo_width pi) by (rewrite <- Hw; apply Hs). destruct (Nat.lt_ge_cases j (n_constraints pi)) as [Hn|Hn].
  - rewrite (cairo_constraint_holds pi opts ch' cols n j W Hn), (cairo_constraint_holds pi opts ch base n j Hw Hn). unfold holds. intros H i Hi. etransitivity; [|exact (H i Hi)].
    apply early_columns_same; [exact Hj|exact Hn| | | |].
    + intros i' Hi'. rewrite !crow_nth. now apply main_cell.
    + intros i' Hi'. rewrite !crow_nth. now apply main_cell.
    + now rewrite !crow_length, W, Hw.
    + rewrite crow_length, Hw. unfold cairo_width. lia.
  - intros _ i e evals _ He _; destruct (exemption_inv pi opts j e He) as [Hx _]; lia.
Qed.
Lemma main_fits_same : main_fits pi opts base n -> main_fits pi opts cols n.
Proof using Hw Hs.
  pose proof (offset_le pi) as Ho. intros [[A B] [D F] G]. constructor.
  - now rewrite !main_cell by (unfold FRAME_PC, FRAME_AP; lia).
  - now rewrite !main_cell by (unfold FRAME_PC, FRAME_AP; lia).
  - intros j ch Hj. apply (main_steps_same ch ch j Hj). now apply G.
Qed.
Lemma main_access k : access_addr cols k = access_addr base k /\ access_value cols k = access_value base k /\ offset_cell cols k = offset_cell base k.
Proof using Hs. clear Hw. unfold access_addr, access_value, offset_cell, FRAME_PC, FRAME_INST, OFF_DST. repeat split; apply main_flat_same; lia. Qed.
End Main.

(** ** What the constraints show about their table *)
Section Shown.
Context (pi : public_inputs C) (opts : proof_options) (n : nat) (lo hi : N) (ch : cairo_challenges C) (cols : list (list C)).
Context (Hw : length cols = cairo_width pi) (Hn : (0 < n)%nat) (Hstep1 : (1 <= num_steps pi)%nat).
Context (Hmin : range_check_min pi = Some lo) (Hmax : range_check_max pi = Some hi).
Context (Hsat : trace_satisfies (cairo_air pi opts n) ch cols n).
Let z := z_memory ch. Let al := alpha_memory ch. Let zr := z_range_check ch.
Context (Hpub : ~ In z (map (compress al) (public_memory pi))).

Lemma some_boundary : exists bcs, cairo_boundary pi n ch = Ok bcs.
Proof using HC Hn Hstep1 Hmin Hmax Hpub.
  clear Hw. unfold cairo_boundary. rewrite Hmin, Hmax.
  unfold usub. destruct (Nat.ltb_spec (num_steps pi) 1); [lia|]. destruct (Nat.ltb_spec n 1); [lia|]. cbn [obind].
  unfold inv_o. destruct (feqb (fold_left _ _ _) 0) eqn:Ef; [exfalso|cbn [obind unwrap]; eauto].
  apply (feqb_spec C HK) in Ef. revert Ef. apply (public_nonzero HC). intros a v Hin E0. apply Hpub.
  apply in_map_iff. exists (a, v). split; [symmetry; exact E0|exact Hin].
Qed.
Lemma shown : (num_steps pi <= n)%nat /\ main_fits pi opts cols n /\
  (forall k, (k + 1 < 4 * n)%nat -> cell_follows (sorted_addr pi cols k, sorted_value pi cols k) (sorted_addr pi cols (k + 1), sorted_value pi cols (k + 1))) /\
  climbs (3 * n) (sorted_offset pi cols) lo hi /\
  vanish (map (sorted_offset pi cols) (seq 0 (3 * n))) zr = vanish (map (offset_cell cols) (seq 0 (3 * n))) zr.
Proof using HC Hw Hn Hstep1 Hmin Hmax Hsat Hpub.
  destruct some_boundary as [bcs Hbcs].
  assert (Hwc : length cols = trace_columns (a_context (cairo_air pi opts n))) by (cbn [cairo_air a_context]; now rewrite cairo_width_declared).
  assert (Hb : forall bc, In bc bcs -> (bc_step bc < n)%nat /\ nth (bc_step bc) (nth (bc_col bc) cols []) 0 = bc_value bc).
  { intros bc Hin. destruct (ts_boundary _ _ _ _ Hsat bcs bc Hbcs Hin) as (A & _ & B). now split. }
  destruct (C22_boundary_values C pi opts ch cols n bcs lo hi Hbcs (fun bc H => proj2 (Hb bc H)) Hmin Hmax) as (B1 & B2 & B3).
  assert (Hheld : forall j, (j < 49)%nat -> holds pi ch cols n j).
  { intros j Hj. apply (cairo_constraint_holds pi opts ch cols n j Hw); [unfold n_constraints; lia|]. now apply satisfied. }
  pose proof Hbcs as HBc. unfold cairo_boundary in HBc. rewrite Hmin, Hmax in HBc.
  apply obind_ok in HBc. destruct HBc as (ls & Hls & HBc). apply obind_ok in HBc. destruct HBc as (fi & _ & HBc). apply obind_ok in HBc. destruct HBc as (cp & _ & HBc).
  cbn [unwrap obind] in HBc. apply ok_inj in HBc. apply usub_inv in Hls. destruct Hls as [_ ->].
  assert (D1 := Hb (mk_bc 19 0%nat (pc_init pi)) ltac:(rewrite <- HBc; cbn; auto)). assert (D2 := Hb (mk_bc 17 0%nat (ap_init pi)) ltac:(rewrite <- HBc; cbn; auto)).
  assert (D3 := Hb (mk_bc 19 (num_steps pi - 1)%nat (pc_final pi)) ltac:(rewrite <- HBc; cbn; auto)). assert (D4 := Hb (mk_bc 17 (num_steps pi - 1)%nat (ap_final pi)) ltac:(rewrite <- HBc; cbn; auto)).
  cbn [bc_step bc_col bc_value] in D1, D2, D3, D4.
  split; [lia|]. split; [|split; [|split; [split|]]].
  - constructor; [now split|now split|]. intros j ch' Hj. apply (main_steps_same pi opts n cols cols Hw (conj eq_refl (fun _ _ => eq_refl)) ch ch' j Hj). now apply satisfied.
  - intros k Hk. destruct (memory_step pi ch cols n k (fun j Hj => Hheld j ltac:(lia)) Hk) as [S1 S2]. unfold cell_follows. cbn [fst].
    destruct (mul_zero HK _ _ S1) as [A|A].
    + apply (proj1 (sub_zero HK _ _)) in A. left. destruct (mul_zero HK _ _ S2) as [B|B].
      * apply (proj1 (sub_zero HK _ _)) in B. now rewrite A, B.
      * exfalso. rewrite A in B. apply (F_1_neq_0 (fld_th C HK)). transitivity (0 - (sorted_addr pi cols (k + 1) - sorted_addr pi cols (k + 1) - 1)); [ring|]. rewrite B. ring.
    + right. transitivity (sorted_addr pi cols (k + 1) - sorted_addr pi cols k - 1 + (sorted_addr pi cols k + 1)); [ring|]. rewrite A. ring.
  - intros k Hk. pose proof (offset_step pi ch cols n k (fun j Hj => Hheld j ltac:(lia)) Hk) as S1.
    destruct (mul_zero HK _ _ S1) as [A|A]; [left|right].
    + apply (proj1 (sub_zero HK _ _)) in A. now symmetry.
    + transitivity (sorted_offset pi cols (k + 1) - sorted_offset pi cols k - 1 + (sorted_offset pi cols k + 1)); [ring|]. rewrite A. ring.
  - now split.
  - unfold vanish. rewrite !map_map. pose proof (offset_le pi) as Ho.
    apply (C22_products_are_equal C p HC pi opts ch cols n Hwc Hn (fun j _ => satisfied _ _ _ _ j Hsat)). rewrite <- B3. symmetry.
    unfold rc_product. replace (3 * n - 1)%nat with (3 * (n - 1) + 2)%nat by lia. rewrite flat_at by lia. unfold cell. do 2 f_equal. unfold PERMUTATION_ARGUMENT_RANGE_CHECK_COL_1, PERMUTATION_ARGUMENT_RANGE_CHECK_COL_3. lia.
Qed.
End Shown.

(** ** Completing a table in spite of its memory *)
Section Solve.
Context (pi : public_inputs C) (opts : proof_options) (n : nat) (lo hi : N) (ch : cairo_challenges C) (base : list (list C)).
Context (Hw : length base = cairo_width pi) (Hn : (0 < n)%nat) (Hsteps : (1 <= num_steps pi <= n)%nat).
Context (Hmin : range_check_min pi = Some lo) (Hmax : range_check_max pi = Some hi).
Context (Hmain : main_fits pi opts base n).
Let z := z_memory ch. Let al := alpha_memory ch. Let zr := z_range_check ch.
Context (Hacc : forall k, (1 <= k < 4 * n)%nat -> z <> access_addr base k + al * access_value base k).
Lemma solve :
  (forall k, (k + 1 < 4 * n)%nat -> cell_follows (sorted_addr pi base k, sorted_value pi base k) (sorted_addr pi base (k + 1), sorted_value pi base (k + 1))) ->
  climbs (3 * n) (sorted_offset pi base) lo hi -> ~ In zr (map (sorted_offset pi base) (seq 0 (3 * n))) ->
  vanish (map (sorted_offset pi base) (seq 0 (3 * n))) zr = vanish (map (offset_cell base) (seq 0 (3 * n))) zr ->
  exists cols, same_but_products pi base cols /\ ((forall c, In c base -> length c = n) -> forall c, In c cols -> length c = n) /\ trace_satisfies (cairo_air pi opts n) ch cols n.
Proof using HC Hw Hn Hsteps Hmin Hmax Hmain Hacc.
  intros Hso Hcl Hz Hp.
  set (final := fpow z (length (public_memory pi)) * finv (vanish (map (compress al) (public_memory pi)) z)).
  set (sm := fun k => compress al (sorted_addr pi base k, sorted_value pi base k)). set (om := fun k => compress al (access_addr base k, access_value base k)).
  exists (completed pi n base ch (solved sm om z final (4 * n))). split; [|split].
  - now apply completed_same.
  - apply completed_rows.
  - apply (completed_satisfies HC pi opts n lo hi base ch Hw Hn Hsteps Hmin Hmax Hmain Hso Hcl Hz Hp).
    + apply (solved_running HC sm om z final (4 * n)). intros k Hk E. apply (proj1 (sub_zero HK _ _)) in E. exact (Hacc k Hk E).
    + intros _. apply solved_last.
Qed.

(** The sorted columns may also be chosen. *)
Lemma solve_sorted s : climbs (3 * n) s lo hi -> (forall k, (k < 3 * n)%nat -> zr <> s k) ->
  vanish (map s (seq 0 (3 * n))) zr = vanish (map (offset_cell base) (seq 0 (3 * n))) zr ->
  exists cols, same_main pi base cols /\ ((forall c, In c base -> length c = n) -> forall c, In c cols -> length c = n) /\ trace_satisfies (cairo_air pi opts n) ch cols n.
Proof using HC Hw Hn Hsteps Hmin Hmax Hmain Hacc.
  intros (Hcl & Hc0 & Hc1) Hz Hp. pose proof (offset_le pi) as Ho. unfold cairo_width in Hw.
  set (b0 := (43 - builtin_offset pi)%nat). set (b1 := (46 - builtin_offset pi)%nat). set (b2 := (50 - builtin_offset pi)%nat).
  set (t0 := overwrite base b0 n 3 s). set (t1 := overwrite t0 b1 n 4 (fun _ => 0)). set (t2 := overwrite t1 b2 n 4 (fun _ => 0)).
  assert (L0 : length t0 = length base) by (apply overwrite_length; lia). assert (L1 : length t1 = length base) by (unfold t1; rewrite overwrite_length; lia).
  assert (L2 : length t2 = length base) by (unfold t2; rewrite overwrite_length; lia).
  assert (HM : same_main pi base t2).
  { split; [exact L2|]. intros j Hj. unfold RANGE_CHECK_COL_1 in Hj. fold b0 in Hj. unfold t2. rewrite overwrite_other by lia. unfold t1. rewrite overwrite_other by lia. apply overwrite_other; lia. }
  assert (E0 : forall k, (k < 3 * n)%nat -> sorted_offset pi t2 k = s k).
  { intros k Hk. unfold sorted_offset, RANGE_CHECK_COL_1. fold b0. rewrite (flat_other t0); [apply overwrite_flat; lia|lia|]. intros j Hj. unfold t2. rewrite overwrite_other by lia. apply overwrite_other; lia. }
  assert (E1 : forall k, (k < 4 * n)%nat -> sorted_addr pi t2 k = 0).
  { intros k Hk. unfold sorted_addr, MEMORY_ADDR_SORTED_0. fold b1. rewrite (flat_other t1); [apply (overwrite_flat t0 b1 n 4 (fun _ => 0)); lia|lia|]. intros j Hj. apply overwrite_other; lia. }
  assert (E2 : forall k, (k < 4 * n)%nat -> sorted_value pi t2 k = 0).
  { intros k Hk. unfold sorted_value, MEMORY_VALUES_SORTED_0. fold b2. apply (overwrite_flat t1 b2 n 4 (fun _ => 0)); lia. }
  assert (Es : map (sorted_offset pi t2) (seq 0 (3 * n)) = map s (seq 0 (3 * n))) by (apply map_ext_in; intros k Hk; apply in_seq in Hk; apply E0; lia).
  assert (Eo : map (offset_cell t2) (seq 0 (3 * n)) = map (offset_cell base) (seq 0 (3 * n))) by (apply map_ext; intro k; now destruct (main_access pi base t2 HM k) as (_ & _ & ->)).
  assert (Hfin : exists cols, same_but_products pi t2 cols /\ ((forall c, In c t2 -> length c = n) -> forall c, In c cols -> length c = n) /\ trace_satisfies (cairo_air pi opts n) ch cols n).
  { set (final := fpow z (length (public_memory pi)) * finv (vanish (map (compress al) (public_memory pi)) z)).
    set (sm := fun k => compress al (sorted_addr pi t2 k, sorted_value pi t2 k)). set (om := fun k => compress al (access_addr t2 k, access_value t2 k)).
    assert (W2 : length t2 = cairo_width pi) by (rewrite L2; exact Hw).
    exists (completed pi n t2 ch (solved sm om z final (4 * n))). split; [|split].
    - now apply completed_same.
    - apply completed_rows.
    - apply (completed_satisfies HC pi opts n lo hi t2 ch W2 Hn Hsteps Hmin Hmax).
      + exact (main_fits_same pi opts n base t2 Hw HM Hmain).
      + intros k Hk. left. now rewrite !E1, !E2 by lia.
      + split; [intros k Hk; rewrite !E0 by lia; now apply Hcl|]. rewrite !E0 by lia. now split.
      + rewrite Es. intro Hin. apply in_map_iff in Hin. destruct Hin as (k & E & Hk). apply in_seq in Hk. apply (Hz k ltac:(lia)). now symmetry.
      + rewrite Es, Eo. exact Hp.
      + apply (solved_running HC sm om z final (4 * n)). intros k Hk E. apply (proj1 (sub_zero HK _ _)) in E. apply (Hacc k Hk).
        destruct (main_access pi base t2 HM k) as (<- & <- & _). exact E.
      + intros _. apply solved_last. }
  destruct Hfin as (cols & A & B & D). exists cols. split; [|split; [|exact D]].
  - apply products_main in A. destruct A as [A1 A2]. destruct HM as [M1 M2]. split; [congruence|]. intros j Hj. rewrite A2 by exact Hj. now apply M2.
  - intro Hr. apply B. unfold t2, t1, t0. now do 3 apply overwrite_rows.
Qed.
End Solve.

(** ** Climbing *)
Lemma climbs_span m s lo hi : (0 < m)%nat -> climbs m s lo hi -> (N.of_nat m + lo < p)%N -> (hi < p)%N ->
  (lo <= hi)%N /\ (hi - lo < N.of_nat m)%N /\ forall k, (k < m)%nat -> exists x, (lo <= x <= hi)%N /\ s k = e_u64 C x.
Proof using HC.
  intros Hm (Hc & H0 & H1) Hlo Hhi.
  assert (Hwk : walks s (S (m - 1))).
  { intros k Hk. destruct (Hc k ltac:(lia)) as [->| ->]; ring. }
  destruct (walk_bounds HC s (m - 1) lo hi Hwk ltac:(lia) Hhi H0 H1) as [A B]. split; [exact A|]. split.
  - destruct (walk_interval HC s (m - 1) Hwk) as (d & Hd & Ed & _). rewrite H0, H1, <- (co_add _ _ HC) in Ed. apply (u64_inj HC) in Ed; lia.
  - intros k Hk. apply B. lia.
Qed.
Lemma climb_climbs m lo hi : (0 < m)%nat -> (lo <= hi)%N -> (hi - lo < N.of_nat m)%N -> climbs m (climb (C := C) lo hi) lo hi.
Proof using HC.
  intros Hm Hl Hs. split; [|split].
  - intros k Hk. unfold climb, value_follows. destruct (N.le_gt_cases hi (lo + N.of_nat k)) as [L|L].
    + left. now rewrite !N.min_l by lia.
    + right. rewrite !N.min_r by lia. replace (lo + N.of_nat (k + 1))%N with (lo + N.of_nat k + 1)%N by lia. now rewrite (co_add _ _ HC (lo + N.of_nat k) 1), (co_one _ _ HC).
  - unfold climb. f_equal. lia.
  - unfold climb. f_equal. lia.
Qed.

(** ** The empty execution *)
Section Empty.
Context (pi : public_inputs C) (opts : proof_options) (n : nat) (lo hi : N) (ch : cairo_challenges C).
Lemma empty_main_fits : (0 < n)%nat -> (1 <= num_steps pi <= n)%nat -> (num_steps pi = 1%nat -> pc_final pi = pc_init pi /\ ap_final pi = ap_init pi) ->
  main_fits pi opts (empty_cols pi n lo hi ch) n.
Proof using HC.
  intros Hn Hs H1. pose proof (offset_le pi) as Ho. assert (W := empty_width pi n lo hi ch).
  assert (Ep := fun i (H : (i < n)%nat) => main_pc pi n lo hi i H). assert (Ea := fun i (H : (i < n)%nat) => main_ap pi n lo hi i H).
  constructor.
  - rewrite !main_in by (unfold FRAME_PC, FRAME_AP; lia). unfold FRAME_PC, FRAME_AP. rewrite Ep, Ea by lia. now split.
  - rewrite !main_in by (unfold FRAME_PC, FRAME_AP; lia). unfold FRAME_PC, FRAME_AP. rewrite Ep, Ea by lia.
    destruct (Nat.eqb_spec (num_steps pi - 1) 0) as [E|E]; [|rewrite Nat.eqb_refl; now split]. destruct (H1 ltac:(lia)) as [-> ->]. now split.
  - intros j ch' Hj. destruct (Nat.lt_ge_cases j (n_constraints pi)) as [Hnc|Hnc].
    2:{ intros i e evals _ He _; destruct (exemption_inv pi opts j e He) as [Hx _]; lia. }
    apply (cairo_constraint_holds pi opts ch' _ n j W Hnc). intros i Hi.
    destruct (Nat.lt_ge_cases j 16) as [H2|H2].
    { rewrite flag_constraint by exact H2. unfold flag_value. rewrite crow_nth, main_in, main_flags by lia. destruct (j <=? 14)%nat; ring. }
    destruct (Nat.lt_ge_cases j 31) as [H3|H3].
    { apply (selector_zero HC); [lia|]. rewrite crow_nth, main_in, main_tail by lia. reflexivity. }
    assert (j = 49%nat) as -> by lia. unfold n_constraints in Hnc. destruct (has_rc_builtin pi) eqn:Hb; [|lia].
    assert (Ho0 : builtin_offset pi = 0%nat) by (unfold builtin_offset; now rewrite Hb).
    rewrite builtin_constraint by exact Hb. unfold rc_builtin_value. rewrite !crow_nth, !main_in by lia. rewrite !main_tail by lia. ring.
Qed.
Lemma empty_accesses k : (0 < n)%nat -> (1 <= k < 4 * n)%nat -> z_memory ch <> 0 -> z_memory ch <> pc_final pi ->
  z_memory ch <> access_addr (empty_cols pi n lo hi ch) k + alpha_memory ch * access_value (empty_cols pi n lo hi ch) k.
Proof using HC.
  intros Hn Hk Hz Hzp E. unfold access_addr, access_value, FRAME_PC, FRAME_INST in E. rewrite !main_flat in E by lia.
  assert (Hv : flat (empty_main pi n lo hi) 23 4 k = 0) by (unfold flat; apply main_accesses; pose proof (Nat.mod_upper_bound k 4); lia). rewrite Hv in E.
  assert (E' : z_memory ch = flat (empty_main pi n lo hi) 19 4 k) by (rewrite E; ring). clear E.
  destruct (quot_rem k 4 ltac:(lia)) as (i & r & -> & Hr). rewrite flat_at in E' by lia. destruct r as [|r].
  - rewrite Nat.add_0_r, main_pc in E' by lia. destruct (Nat.eqb_spec i 0); [lia|]. destruct (i =? num_steps pi - 1)%nat; contradiction.
  - rewrite main_accesses in E' by lia. contradiction.
Qed.
End Empty.
End Loose.
