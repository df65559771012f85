(** A trace that satisfies the Cairo AIR without executing anything, and the range-check builtin columns. *)
From Coq Require Import List Arith NArith Bool Lia.
From Verif.Base Require Import Outcome Field Poly.
From Verif.Model Require Import Codec PublicInputs Trace Air CairoDecode CairoTrace CairoAir.
From Verif.Spec Require Import CairoSpec AirSpec CairoColumns.
From Verif.Proofs Require Import FieldFacts PolyFacts FFTFacts OutcomeFacts TraceFacts DecodeFacts CpuFacts CairoAirFacts SortedFacts MultisetFacts WalkFacts.
Import ListNotations.

Section Forge.
Context {C : cairo_env} {p : N} (HC : cairo_ok C p).
Let HK : field_ok C := fft_field_ok _ (e_fft_ok _ (co_env _ _ HC)).
Add Field Kfield36 : (fld_th C HK).
Local Open Scope felt_scope.
Notation "r .[ i ]" := (nth i r (fzero : C)) (at level 2, format "r .[ i ]").

(** ** The range-check builtin *)
Definition limb (x : N) (j : nat) : N := ((x / 2 ^ (16 * N.of_nat j)) mod 2 ^ 16)%N.

Lemma decompose_loop_nth : forall n (vals : list N) j, (j < n)%nat ->
  nth j (decompose_loop (C:=C) n vals) [] = map (fun x => e_u64 C (limb x j)) vals.
Proof using Type.
  induction n as [|n IH]; intros vals j Hj; [lia|]. cbn [decompose_loop]. destruct j as [|j]; cbn [nth].
  - apply map_ext. intro x. f_equal. unfold limb. change (16 * N.of_nat 0)%N with 0%N. rewrite N.pow_0_r, N.div_1_r.
    change 65535%N with (N.ones 16). apply N.land_ones.
  - rewrite IH by lia. rewrite map_map. apply map_ext. intro x. f_equal. unfold limb. f_equal.
    rewrite N.shiftr_div_pow2, N.div_div by (try apply N.pow_nonzero; discriminate). f_equal. rewrite <- N.pow_add_r. f_equal. lia.
Qed.
Lemma decompose_loop_length n (vals : list N) : length (decompose_loop (C:=C) n vals) = n.
Proof using Type. revert vals. induction n as [|n IH]; intro vals; [reflexivity|]. cbn. now rewrite IH. Qed.

Fixpoint limbs_sum (x : N) (k : nat) : N :=
  match k with O => 0%N | S k' => (limbs_sum x k' + limb x k' * 2 ^ (16 * N.of_nat k'))%N end.
Lemma limbs_sum_mod x k : limbs_sum x k = (x mod 2 ^ (16 * N.of_nat k))%N.
Proof using Type.
  induction k as [|k IH]; [cbn [limbs_sum]; change (16 * N.of_nat 0)%N with 0%N; now rewrite N.pow_0_r, N.mod_1_r|].
  cbn [limbs_sum]. rewrite IH. unfold limb. replace (16 * N.of_nat (S k))%N with (16 * N.of_nat k + 16)%N by lia.
  rewrite N.pow_add_r. rewrite N.mod_mul_r by (apply N.pow_nonzero; discriminate). lia.
Qed.

Lemma fe_limbs x : e_u64 C (limb x 0) + e_u64 C (limb x 1) * e_u64 C (2 ^ 16) + e_u64 C (limb x 2) * e_u64 C (2 ^ 32)
  + e_u64 C (limb x 3) * e_u64 C (2 ^ 48) + e_u64 C (limb x 4) * e_u64 C (2 ^ 64) + e_u64 C (limb x 5) * e_u64 C (2 ^ 80)
  + e_u64 C (limb x 6) * e_u64 C (2 ^ 96) + e_u64 C (limb x 7) * e_u64 C (2 ^ 112) = e_u64 C (x mod 2 ^ 128).
Proof using HC.
  change 128%N with (16 * N.of_nat 8)%N. rewrite <- limbs_sum_mod. cbn [limbs_sum].
  change (16 * N.of_nat 0)%N with 0%N. change (16 * N.of_nat 1)%N with 16%N. change (16 * N.of_nat 2)%N with 32%N.
  change (16 * N.of_nat 3)%N with 48%N. change (16 * N.of_nat 4)%N with 64%N. change (16 * N.of_nat 5)%N with 80%N.
  change (16 * N.of_nat 6)%N with 96%N. change (16 * N.of_nat 7)%N with 112%N.
  rewrite N.add_0_l, N.pow_0_r, N.mul_1_r. rewrite !(co_add _ _ HC), !(co_mul _ _ HC). reflexivity.
Qed.

Lemma limbs_recombine (v : C) : e_u64 C (ce_repr v mod 2 ^ 128) = v <-> (ce_repr v < 2 ^ 128)%N.
Proof using HC.
  split.
  - intro H. apply (f_equal ce_repr) in H. rewrite (co_repr_u64 _ _ HC) in H.
    assert (L : (ce_repr v mod 2 ^ 128 <= ce_repr v)%N) by (apply N.mod_le; apply N.pow_nonzero; discriminate).
    pose proof (co_repr_lt _ _ HC v). rewrite N.mod_small in H by lia. rewrite <- H. apply N.mod_lt. apply N.pow_nonzero. discriminate.
  - intro H. rewrite N.mod_small by exact H. apply (co_u64_repr _ _ HC).
Qed.

(** No other constraint reads the builtin columns. *)
Lemma flag_same pi ch (c n c' n' : list C) j : (j < 49)%nat ->
  (forall i, (i < 34 \/ 43 <= i)%nat -> c'.[i] = c.[i]) -> (forall i, (i < 34 \/ 43 <= i)%nat -> n'.[i] = n.[i]) ->
  length c = length c' -> (15 <= length c)%nat -> has_rc_builtin pi = true ->
  nth j (cairo_constraints pi ch c' n') 0 = nth j (cairo_constraints pi ch c n) 0.
Proof using Type.
  intros Hj Hc Hn Hl Hlen Hb.
  assert (Hsq : squiggle c' = squiggle c).
  { unfold squiggle. assert (Hf : firstn 15 c' = firstn 15 c); [|now rewrite Hf]. rewrite !firstn_nth_seq by lia. apply map_ext_in. intros i Hi. apply in_seq in Hi. apply Hc. lia. }
  assert (Ho : builtin_offset pi = 0%nat) by (unfold builtin_offset; now rewrite Hb).
  destruct (Nat.lt_ge_cases j 16) as [H1|H1].
  - rewrite !flag_constraint by exact H1. unfold flag_value. now rewrite Hc by lia.
  - destruct (Nat.lt_ge_cases j 31) as [H2|H2].
    + replace j with (16 + (j - 16))%nat by lia. rewrite !cpu_constraint by lia. rewrite (Hc 33%nat) by lia. f_equal.
      unfold cpu_formulas. rewrite Hsq. rewrite !Hc by lia. rewrite !Hn by lia. reflexivity.
    + replace j with (31 + (j - 31))%nat by lia. rewrite !rest_constraint by lia. unfold rest_formulas. rewrite Ho, !Nat.sub_0_r.
      rewrite !Hc by lia. rewrite !Hn by lia. reflexivity.
Qed.

Lemma builtin_zero (v a b c d e f g : C) : v + 0 * a + 0 * b + 0 * c + 0 * d + 0 * e + 0 * f + 0 * g - v = 0.
Proof using HC. ring. Qed.

(** ** Disabled rows *)
Lemma selector_zero pi ch (c n : list C) j : (16 <= j <= 30)%nat -> c.[33] = 0 -> nth j (cairo_constraints pi ch c n) 0 = 0.
Proof using HC. intros Hj H. replace j with (16 + (j - 16))%nat by lia. rewrite cpu_constraint, H by lia. ring. Qed.

(** ** The empty execution *)
Section Empty.
Context (pi : public_inputs C) (n : nat) (lo hi : N).

Definition at_ends (a b : C) : list C := map (fun i => if (i =? 0)%nat then a else if (i =? num_steps pi - 1)%nat then b else 0) (seq 0 n).
Definition zeros : list C := repeat 0 n.
Definition ones : list C := repeat 1 n.
Definition climb (k : nat) : C := e_u64 C (N.min hi (lo + N.of_nat k)).

(** Flags, selector, instructions and accesses are zero; pc and ap jump at the step the public inputs name. *)
Definition empty_main : list (list C) :=
  repeat zeros 17 ++ [at_ends (ap_init pi) (ap_final pi); zeros; at_ends (pc_init pi) (pc_final pi)] ++ repeat zeros 7
  ++ unflat n 3 climb ++ repeat zeros 4 ++ (if has_rc_builtin pi then repeat zeros 9 else []).
Definition product_final (ch : cairo_challenges C) : C :=
  fpow (z_memory ch) (length (public_memory pi))
  * finv (fold_left (fun product av => product * (z_memory ch - (fst av + alpha_memory ch * snd av))) (public_memory pi) 1).
Definition empty_products (ch : cairo_challenges C) : nat -> C :=
  solved (fun _ => 0) (flat empty_main 19 4) (z_memory ch) (product_final ch) (4 * n).
Definition empty_aux (ch : cairo_challenges C) : list (list C) :=
  unflat n 3 climb ++ repeat zeros 8 ++ unflat n 4 (empty_products ch) ++ repeat ones 3.
Definition empty_cols (ch : cairo_challenges C) := empty_main ++ empty_aux ch.

Lemma empty_main_length : length empty_main = (43 - builtin_offset pi)%nat.
Proof using Type.
  unfold empty_main, builtin_offset, BUILTIN_OFFSET. rewrite !app_length, unflat_length, !repeat_length. cbn [length].
  destruct (has_rc_builtin pi); reflexivity.
Qed.
Lemma empty_width ch : length (empty_cols ch) = cairo_width pi.
Proof using Type.
  unfold empty_cols, empty_aux, cairo_width. rewrite !app_length, !unflat_length, !repeat_length, empty_main_length.
  pose proof (offset_le pi). lia.
Qed.
Lemma empty_rows ch c : In c (empty_cols ch) -> length c = n.
Proof using Type.
  assert (Hz : forall k d, In d (repeat zeros k) -> length d = n)
    by (intros k d Hd; apply repeat_spec in Hd; subst d; apply repeat_length).
  assert (Ho : forall k d, In d (repeat ones k) -> length d = n)
    by (intros k d Hd; apply repeat_spec in Hd; subst d; apply repeat_length).
  assert (Ha : forall a b, length (at_ends a b) = n) by (intros; unfold at_ends; now rewrite map_length, seq_length).
  unfold empty_cols, empty_main, empty_aux. intro H.
  repeat (apply in_app_or in H; destruct H as [H|H]);
    try (now apply Hz in H); try (now apply Ho in H); try (now apply unflat_rows in H).
  - destruct H as [<-|[<-|[<-|[]]]]; [apply Ha|apply repeat_length|apply Ha].
  - destruct (has_rc_builtin pi); [now apply Hz in H|destruct H].
Qed.

Lemma nth_zeros i : nth i zeros 0 = 0.
Proof using Type. unfold zeros. destruct (Nat.lt_ge_cases i n); [now rewrite nth_repeat|apply nth_overflow; now rewrite repeat_length]. Qed.
Lemma cell_zeros k i j : cell (repeat zeros k) i j = 0.
Proof using Type.
  unfold cell. destruct (Nat.lt_ge_cases j k) as [H|H].
  - rewrite (nth_indep _ [] zeros) by now rewrite repeat_length. rewrite nth_repeat. apply nth_zeros.
  - rewrite (nth_overflow (repeat zeros k)) by now rewrite repeat_length. now destruct i.
Qed.
Lemma cell_shift (a b : list (list C)) i j k : length a = k -> (k <= j)%nat -> cell (a ++ b) i j = cell b i (j - k).
Proof using Type. intros <- H. rewrite <- (cell_app_r a b). f_equal. lia. Qed.

Lemma main_flags i j : (j < 17)%nat -> cell empty_main i j = 0.
Proof using Type. intro H. unfold empty_main. rewrite cell_app_l by (rewrite repeat_length; lia). apply cell_zeros. Qed.
Lemma main_pc i : (i < n)%nat -> cell empty_main i 19 = if (i =? 0)%nat then pc_init pi else if (i =? num_steps pi - 1)%nat then pc_final pi else 0.
Proof using Type.
  intro Hi. transitivity (nth i (at_ends (pc_init pi) (pc_final pi)) 0); [reflexivity|]. unfold at_ends. now rewrite nth_map_seq.
Qed.
Lemma main_ap i : (i < n)%nat -> cell empty_main i 17 = if (i =? 0)%nat then ap_init pi else if (i =? num_steps pi - 1)%nat then ap_final pi else 0.
Proof using Type.
  intro Hi. transitivity (nth i (at_ends (ap_init pi) (ap_final pi)) 0); [reflexivity|]. unfold at_ends. now rewrite nth_map_seq.
Qed.
Lemma main_accesses i j : (20 <= j < 27)%nat -> cell empty_main i j = 0.
Proof using Type.
  intro H. unfold empty_main. rewrite (cell_shift _ _ _ _ 17) by (try apply repeat_length; lia).
  rewrite (cell_shift _ _ _ _ 3) by (reflexivity || lia). rewrite cell_app_l by (rewrite repeat_length; lia). apply cell_zeros.
Qed.
Lemma main_tail i j : (30 <= j)%nat -> cell empty_main i j = 0.
Proof using Type.
  intro H. unfold empty_main. rewrite (cell_shift _ _ _ _ 17) by (try apply repeat_length; lia).
  rewrite (cell_shift _ _ _ _ 3) by (reflexivity || lia). rewrite (cell_shift _ _ _ _ 7) by (try apply repeat_length; lia).
  rewrite (cell_shift _ _ _ _ 3) by (try apply unflat_length; lia).
  destruct (Nat.lt_ge_cases (j - 17 - 3 - 7 - 3) 4) as [L|L].
  - rewrite cell_app_l by (rewrite repeat_length; lia). apply cell_zeros.
  - rewrite (cell_shift _ _ _ _ 4) by (try apply repeat_length; lia). destruct (has_rc_builtin pi); [apply cell_zeros|].
    unfold cell. destruct (j - 17 - 3 - 7 - 3 - 4)%nat, i; reflexivity.
Qed.

Lemma main_in ch i j : (j < 43 - builtin_offset pi)%nat -> cell (empty_cols ch) i j = cell empty_main i j.
Proof using Type. intro H. unfold empty_cols. apply cell_app_l. now rewrite empty_main_length. Qed.
Lemma main_flat ch base w k : (0 < w)%nat -> (base + w <= 34)%nat -> flat (empty_cols ch) base w k = flat empty_main base w k.
Proof using Type.
  intros Hw H. unfold flat. apply main_in. pose proof (Nat.mod_upper_bound k w). pose proof (offset_le pi). lia.
Qed.

Lemma empty_addr ch k : sorted_addr pi (empty_cols ch) k = 0.
Proof using Type.
  unfold sorted_addr, MEMORY_ADDR_SORTED_0, flat, empty_cols. pose proof (offset_le pi). pose proof (Nat.mod_upper_bound k 4).
  rewrite (cell_shift _ _ _ _ _ empty_main_length) by lia. unfold empty_aux.
  rewrite (cell_shift _ _ _ _ 3) by (try apply unflat_length; lia). rewrite cell_app_l by (rewrite repeat_length; lia). apply cell_zeros.
Qed.
Lemma empty_value ch k : sorted_value pi (empty_cols ch) k = 0.
Proof using Type.
  unfold sorted_value, MEMORY_VALUES_SORTED_0, flat, empty_cols. pose proof (offset_le pi). pose proof (Nat.mod_upper_bound k 4).
  rewrite (cell_shift _ _ _ _ _ empty_main_length) by lia. unfold empty_aux.
  rewrite (cell_shift _ _ _ _ 3) by (try apply unflat_length; lia). rewrite cell_app_l by (rewrite repeat_length; lia). apply cell_zeros.
Qed.
Lemma empty_product ch k : (k < 4 * n)%nat -> mem_product pi (empty_cols ch) k = empty_products ch k.
Proof using Type.
  intro Hk. unfold mem_product, PERMUTATION_ARGUMENT_COL_0, empty_cols, empty_aux. pose proof (offset_le pi).
  replace (empty_main ++ unflat n 3 climb ++ repeat zeros 8 ++ unflat n 4 (empty_products ch) ++ repeat ones 3)
    with ((empty_main ++ unflat n 3 climb ++ repeat zeros 8) ++ unflat n 4 (empty_products ch) ++ repeat ones 3) by (now rewrite <- !app_assoc).
  replace (54 - builtin_offset pi)%nat with (length (empty_main ++ unflat n 3 climb ++ repeat zeros 8))
    by (rewrite !app_length, unflat_length, repeat_length, empty_main_length; lia).
  now apply flat_unflat.
Qed.
Lemma empty_sorted_offset ch k : (k < 3 * n)%nat -> sorted_offset pi (empty_cols ch) k = climb k.
Proof using Type.
  intro Hk. unfold sorted_offset, RANGE_CHECK_COL_1, empty_cols, empty_aux. rewrite <- empty_main_length. now apply flat_unflat.
Qed.
Lemma empty_offset ch k : (k < 3 * n)%nat -> offset_cell (empty_cols ch) k = climb k.
Proof using Type.
  intro Hk. unfold offset_cell, OFF_DST. rewrite main_flat by lia. 
  transitivity (flat (((repeat zeros 17 ++ [at_ends (ap_init pi) (ap_final pi); zeros; at_ends (pc_init pi) (pc_final pi)]) ++ repeat zeros 7)
    ++ unflat n 3 climb ++ repeat zeros 4 ++ (if has_rc_builtin pi then repeat zeros 9 else [])) 27 3 k).
  - reflexivity.
  - now apply (flat_unflat ((repeat zeros 17 ++ [at_ends (ap_init pi) (ap_final pi); zeros; at_ends (pc_init pi) (pc_final pi)]) ++ repeat zeros 7)).
Qed.
Lemma cell_ones k i j : (i < n)%nat -> (j < k)%nat -> cell (repeat ones k) i j = 1.
Proof using Type.
  intros Hi Hj. unfold cell. rewrite (nth_indep _ [] ones) by now rewrite repeat_length. rewrite nth_repeat.
  rewrite (nth_indep _ 0 1) by (unfold ones; now rewrite repeat_length). unfold ones. apply nth_repeat.
Qed.
Lemma empty_rc_product ch k : (k < 3 * n)%nat -> rc_product pi (empty_cols ch) k = 1.
Proof using Type.
  intro Hk. unfold rc_product, PERMUTATION_ARGUMENT_RANGE_CHECK_COL_1, flat, empty_cols. pose proof (offset_le pi).
  pose proof (Nat.mod_upper_bound k 3). rewrite (cell_shift _ _ _ _ _ empty_main_length) by lia. unfold empty_aux.
  rewrite (cell_shift _ _ _ _ 3) by (try apply unflat_length; lia). rewrite (cell_shift _ _ _ _ 8) by (try apply repeat_length; lia).
  rewrite (cell_shift _ _ _ _ 4) by (try apply unflat_length; lia). apply cell_ones; [|lia]. apply Nat.div_lt_upper_bound; lia.
Qed.

Lemma climb_step k : (climb k - climb (k + 1)) * (climb (k + 1) - climb k - 1) = 0.
Proof using HC.
  unfold climb. destruct (N.le_gt_cases hi (lo + N.of_nat k)) as [L|L].
  - rewrite !N.min_l by lia. ring.
  - rewrite !N.min_r by lia. replace (lo + N.of_nat (k + 1))%N with (lo + N.of_nat k + 1)%N by lia.
    rewrite (co_add _ _ HC (lo + N.of_nat k) 1), (co_one _ _ HC). ring.
Qed.

(** The empty execution satisfies every constraint of the AIR. *)
Lemma empty_satisfies opts ch : (2 <= num_steps pi <= n)%nat -> (lo <= hi)%N -> (hi - lo < N.of_nat (3 * n))%N ->
  range_check_min pi = Some lo -> range_check_max pi = Some hi ->
  z_memory ch <> 0 -> z_memory ch <> pc_final pi -> trace_satisfies (cairo_air pi opts n) ch (empty_cols ch) n.
Proof using HC.
  intros Hsteps Hlohi Hspan Hmin Hmax Hz Hzpc. pose proof (offset_le pi) as Ho. apply cairo_satisfies; [apply empty_width|]. split.
  - intros bcs bc E Hin. unfold cairo_boundary in E.
    apply obind_ok in E. destruct E as (ls & Els & E). apply obind_ok in E. destruct E as (fi & Efi & E).
    apply obind_ok in E. destruct E as (cp & Ecp & E). apply obind_ok in E. destruct E as (mn & Emn & E).
    apply obind_ok in E. destruct E as (mx & Emx & E). apply ok_inj in E.
    rewrite Hmin in Emn. apply ok_inj in Emn. rewrite Hmax in Emx. apply ok_inj in Emx. subst mn mx.
    apply usub_inv in Els, Efi. destruct Els as [_ ->]. destruct Efi as [_ ->]. apply (inv_o_ok HK) in Ecp. destruct Ecp as [_ ->].
    assert (W : length (empty_cols ch) = (61 - builtin_offset pi)%nat) by apply empty_width.
    subst bcs. unfold MEM_A_TRACE_OFFSET, MEM_P_TRACE_OFFSET, PERMUTATION_ARGUMENT_COL_3, PERMUTATION_ARGUMENT_RANGE_CHECK_COL_3,
      RANGE_CHECK_COL_1, RANGE_CHECK_COL_3 in Hin.
    destruct Hin as [<-|[<-|[<-|[<-|[<-|[<-|[<-|[<-|[]]]]]]]]]; cbn [bc_step bc_col bc_value]; rewrite W;
      (split; [lia|split; [lia|]]).
    + rewrite main_in by lia. now rewrite main_pc by lia.
    + rewrite main_in by lia. now rewrite main_ap by lia.
    + rewrite main_in by lia. rewrite main_pc by lia. destruct (Nat.eqb_spec (num_steps pi - 1) 0); [lia|]. now rewrite Nat.eqb_refl.
    + rewrite main_in by lia. rewrite main_ap by lia. destruct (Nat.eqb_spec (num_steps pi - 1) 0); [lia|]. now rewrite Nat.eqb_refl.
    + pose proof (empty_product ch (4 * (n - 1) + 3) ltac:(lia)) as P. unfold mem_product in P. rewrite flat_at in P by lia.
      unfold PERMUTATION_ARGUMENT_COL_0 in P. replace (54 - builtin_offset pi + 3)%nat with (57 - builtin_offset pi)%nat in P by lia.
      rewrite P. unfold empty_products. replace (4 * (n - 1) + 3)%nat with (4 * n - 1)%nat by lia. now rewrite solved_last.
    + pose proof (empty_rc_product ch (3 * (n - 1) + 2) ltac:(lia)) as P. unfold rc_product in P. rewrite flat_at in P by lia.
      unfold PERMUTATION_ARGUMENT_RANGE_CHECK_COL_1 in P. replace (58 - builtin_offset pi + 2)%nat with (60 - builtin_offset pi)%nat in P by lia.
      exact P.
    + pose proof (empty_sorted_offset ch (3 * 0 + 0) ltac:(lia)) as P. unfold sorted_offset in P. rewrite flat_at in P by lia.
      unfold RANGE_CHECK_COL_1 in P. rewrite Nat.add_0_r in P. rewrite P. unfold climb. f_equal. cbn [Nat.mul Nat.add N.of_nat]. lia.
    + pose proof (empty_sorted_offset ch (3 * (n - 1) + 2) ltac:(lia)) as P. unfold sorted_offset in P. rewrite flat_at in P by lia.
      unfold RANGE_CHECK_COL_1 in P. replace (43 - builtin_offset pi + 2)%nat with (45 - builtin_offset pi)%nat in P by lia.
      rewrite P. unfold climb. f_equal. lia.
  - assert (Hall : forall j, (j < n_constraints pi)%nat -> holds pi ch (empty_cols ch) n j); [|intros i j Hi Hj; now apply Hall].
    intros j Hj.
    destruct (Nat.lt_ge_cases j 16) as [H1|H1].
    { intros i Hi. rewrite flag_constraint by exact H1. unfold flag_value. rewrite crow_nth, main_in, main_flags by lia.
      destruct (j <=? 14)%nat; ring. }
    destruct (Nat.lt_ge_cases j 31) as [H2|H2].
    { intros i Hi. apply selector_zero; [lia|]. rewrite crow_nth, main_in, main_tail by lia. reflexivity. }
    destruct (Nat.lt_ge_cases j 39) as [H3|H3].
    { revert j H2 H3 Hj H1. enough (G : forall j, (31 <= j < 39)%nat -> holds pi ch (empty_cols ch) n j) by (intros; apply G; lia).
      apply steps_memory; intros k Hk; rewrite !empty_addr, ?empty_value; ring. }
    destruct (Nat.lt_ge_cases j 43) as [H4|H4].
    { revert j H3 H4 Hj H1 H2. enough (G : forall j, (39 <= j < 43)%nat -> holds pi ch (empty_cols ch) n j) by (intros; apply G; lia).
      apply steps_product. intros k Hk. rewrite empty_addr, empty_value, !empty_product by lia.
      unfold access_addr, access_value, FRAME_PC, FRAME_INST. rewrite !main_flat by lia.
      assert (Hv : flat empty_main 23 4 (k + 1) = 0).
      { unfold flat. apply main_accesses. pose proof (Nat.mod_upper_bound (k + 1) 4). lia. }
      rewrite Hv. pose proof (solved_running HC (fun _ => 0) (flat empty_main 19 4) (z_memory ch) (product_final ch) (4 * n)) as R.
      assert (Hne : forall k, (1 <= k < 4 * n)%nat -> z_memory ch - flat empty_main 19 4 k <> 0).
      { intros k' Hk' E. apply (proj1 (sub_zero HK _ _)) in E.
        destruct (quot_rem k' 4 ltac:(lia)) as (i & r & -> & Hr). rewrite flat_at in E by lia.
        destruct r as [|r].
        - rewrite Nat.add_0_r, main_pc in E by lia. destruct (Nat.eqb_spec i 0); [lia|].
          destruct (i =? num_steps pi - 1)%nat; [now apply Hzpc|now apply Hz].
        - rewrite main_accesses in E by lia. now apply Hz. }
      specialize (R Hne k Hk). etransitivity; [|exact R]. unfold empty_products. ring. }
    destruct (Nat.lt_ge_cases j 46) as [H5|H5].
    { revert j H4 H5 Hj H1 H2 H3. enough (G : forall j, (43 <= j < 46)%nat -> holds pi ch (empty_cols ch) n j) by (intros; apply G; lia).
      apply steps_offset. intros k Hk. rewrite !empty_sorted_offset by lia. apply climb_step. }
    destruct (Nat.lt_ge_cases j 49) as [H6|H6].
    { revert j H5 H6 Hj H1 H2 H3 H4. enough (G : forall j, (46 <= j < 49)%nat -> holds pi ch (empty_cols ch) n j) by (intros; apply G; lia).
      apply steps_offset_product. intros k Hk. pose proof (Nat.mod_upper_bound (k + 1) (3 * n) ltac:(lia)).
      rewrite empty_sorted_offset, empty_offset, !empty_rc_product by lia. ring. }
    unfold n_constraints in Hj. destruct (has_rc_builtin pi) eqn:Hb; [|lia]. assert (j = 49)%nat by lia. subst j.
    assert (Ho0 : builtin_offset pi = 0%nat) by (unfold builtin_offset; now rewrite Hb).
    intros i Hi. rewrite builtin_constraint by exact Hb. unfold rc_builtin_value. rewrite !crow_nth, !main_in by lia.
    rewrite !main_tail by lia. ring.
Qed.
End Empty.
End Forge.
