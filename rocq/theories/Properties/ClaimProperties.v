(** C78: which part of a Cairo statement a proof is about. *)
From Coq Require Import List Arith NArith ZArith Bool Lia Permutation.
From Verif.Base Require Import Outcome Bytes Field Poly Zp.
From Verif.Model Require Import Codec PublicInputs Trace Merkle Air Transcript Domain Verifier CairoDecode CairoTrace CairoAir CairoRunner.
From Verif.Spec Require Import AirSpec CairoSpec CairoColumns Claim.
From Verif.Proofs Require Import OutcomeFacts FieldFacts PolyFacts FFTFacts MultisetFacts DecodeFacts RootBound CairoForge CliFacts ClaimFacts CairoAirFacts.
From Verif.Examples Require Import Toy Stark252 MiniRun.
From Verif.Properties Require Import CairoMemoryProperties.
Import ListNotations.
Local Open Scope felt_scope.

Lemma claim_builtin {C : cairo_env} (pi pi' : public_inputs C) : same_claim pi pi' -> has_rc_builtin pi' = has_rc_builtin pi.
Proof.
  intros S. pose proof (sc_segments _ _ S) as H. unfold has_rc_builtin. destruct (memory_segments pi), (memory_segments pi'); try reflexivity.
  - discriminate (proj1 H eq_refl).
  - discriminate (proj2 H eq_refl).
Qed.

(** The value that the last running product must have. *)
Definition final_product {C : cairo_env} (ch : cairo_challenges C) (cells : list (C * C)) : outcome C :=
  obind (inv_o (fold_left (fun product av => product * (z_memory ch - (fst av + alpha_memory ch * snd av))) cells 1))
    (fun x => Ok (fpow (z_memory ch) (length cells) * x)).

Lemma claim_boundary {C : cairo_env} (pi pi' : public_inputs C) n ch : same_claim pi pi' ->
  final_product ch (public_memory pi') = final_product ch (public_memory pi) -> cairo_boundary pi' n ch = cairo_boundary pi n ch.
Proof.
  intros S H. pose proof (claim_builtin _ _ S) as B. destruct S as [E1 E2 E3 E4 E5 E6 E7 _]. unfold cairo_boundary, builtin_offset.
  rewrite B, E1, E2, E3, E4, E5, E6, E7. apply bind_ext. intro ls. apply bind_ext. intro fi. unfold final_product in H.
  destruct (inv_o (fold_left _ (public_memory pi') 1)) as [x'|e'|], (inv_o (fold_left _ (public_memory pi) 1)) as [x|e|]; cbn [obind] in H |- *; try discriminate H; try reflexivity.
  - apply ok_inj in H. rewrite H. reflexivity.
  - now injection H as ->.
Qed.

Lemma claim_verdict {C : cairo_env} (pi pi' : public_inputs C) fuel q opts : same_claim pi pi' ->
  (forall root ch t, hd_error (lde_trace_merkle_roots q) = Some root -> cairo_build_rap (tr_append tr_new root) = Ok (ch, t) ->
     final_product ch (public_memory pi') = final_product ch (public_memory pi)) ->
  verify_cairo_proof fuel q pi' opts = verify_cairo_proof fuel q pi opts.
Proof.
  intros S H. unfold verify_cairo_proof. apply verify_drawn. cbv zeta. pose proof (claim_builtin _ _ S) as B. set (n := trace_length q).
  exists (cairo_build_aux pi'), (cairo_transition pi'), (cairo_boundary pi' n). split; [|split].
  - unfold cairo_air, variant. cbn [a_rap a_context a_trace_length a_build_rap a_n_aux a_degree_bound]. unfold cairo_context. rewrite B. reflexivity.
  - intros f x. cbn [cairo_air a_transition]. unfold cairo_transition, cairo_constraints, builtin_offset. rewrite B. reflexivity.
  - intros root ch t Hr Hc. cbn [cairo_air a_boundary]. apply claim_boundary; [exact S|]. exact (H root ch t Hr Hc).
Qed.

(** Statements with the same registers, bounds and number of steps, the same public cells in any order, and both or none of which declare
    a segment, get the same verdict on every proof. *)
Theorem C78_verdict_reads_the_claim :
  forall (C : cairo_env) p, cairo_ok C p -> forall (pi pi' : public_inputs C) fuel q opts,
  same_claim pi pi' -> Permutation (public_memory pi) (public_memory pi') ->
  verify_cairo_proof fuel q pi' opts = verify_cairo_proof fuel q pi opts.
Proof.
  intros C p HC pi pi' fuel q opts S P. apply claim_verdict; [exact S|]. intros root ch t _ _. unfold final_product.
  rewrite (fold_product HC ch _ _ P 1), (Permutation_length P). reflexivity.
Qed.
Print Assumptions C78_verdict_reads_the_claim.

(** FINDING. So the declared segments say nothing: neither which builtin they belong to nor which addresses they cover. A proof for a
    statement with some segment is a proof for the same statement with any other. *)
Theorem C78_segments_are_bound_refuted :
  forall (C : cairo_env) p, cairo_ok C p -> forall (pi : public_inputs C) segments fuel q opts, memory_segments pi <> [] -> segments <> [] ->
  verify_cairo_proof fuel q (with_segments pi segments) opts = verify_cairo_proof fuel q pi opts.
Proof.
  intros C p HC pi segments fuel q opts H H'. apply (C78_verdict_reads_the_claim C p HC); [|apply Permutation_refl]. constructor; try reflexivity.
  cbn [with_segments memory_segments]. split; intro E; contradiction.
Qed.
Print Assumptions C78_segments_are_bound_refuted.

(** FINDING. Nor is the public cell at address 0 with value 0 part of the claim: unless the verifier draws the point 0, statements whose
    public cells are the same but for this one get the same verdict. *)
Theorem C78_zero_cell_is_bound_refuted :
  forall (C : cairo_env) p, cairo_ok C p -> forall (pi pi' : public_inputs C) fuel q opts,
  same_claim pi pi' -> Permutation (stated_cells (public_memory pi)) (stated_cells (public_memory pi')) ->
  (forall root ch t, hd_error (lde_trace_merkle_roots q) = Some root -> cairo_build_rap (C := C) (tr_append tr_new root) = Ok (ch, t) -> z_memory ch <> 0) ->
  verify_cairo_proof fuel q pi' opts = verify_cairo_proof fuel q pi opts.
Proof.
  intros C p HC pi pi' fuel q opts S P Hz. apply claim_verdict; [exact S|]. intros root ch t Hr Hc. specialize (Hz root ch t Hr Hc).
  pose proof (co_env _ _ HC) as HE. pose proof (fft_field_ok _ (e_fft_ok _ HE)) as HK.
  assert (G : forall cells : list (C * C), final_product ch cells =
    obind (inv_o (vanish (map (compress (alpha_memory ch)) (stated_cells cells)) (z_memory ch))) (fun x => Ok (fpow (z_memory ch) (length (stated_cells cells)) * x))).
  { intro cells. unfold final_product. rewrite (public_product HE). rewrite <- (stated_length cells).
    destruct (quotient_stated HE (z_memory ch) (vanish (map (compress (alpha_memory ch)) cells) (z_memory ch))
      (vanish (map (compress (alpha_memory ch)) (stated_cells cells)) (z_memory ch)) (length (filter zero_cell cells)) (length (stated_cells cells)) Hz (vanish_stated HE _ _ _)) as [Q|[Q1 Q2]].
    - set (x := vanish (map _ cells) _) in *. set (y := vanish (map _ (stated_cells cells)) _) in *.
      unfold inv_o. destruct (feqb x 0) eqn:Ex, (feqb y 0) eqn:Ey; cbn [obind]; [reflexivity| | |now rewrite Q]; exfalso.
      + apply (feqb_spec C HK) in Ex. unfold x in Ex. rewrite (vanish_stated HE) in Ex. apply (mul_zero HK) in Ex. destruct Ex as [Ex|Ex].
        * revert Ex. apply (fpow_nonzero HK), Hz.
        * fold y in Ex. apply (feqb_spec C HK) in Ex. congruence.
      + apply (feqb_spec C HK) in Ey. assert (Hx : x = 0); [|apply (feqb_spec C HK) in Hx; congruence]. unfold x. rewrite (vanish_stated HE). fold y. rewrite Ey.
        apply (mul_zero_right HE).
    - rewrite Q1, Q2. unfold inv_o. rewrite (proj2 (feqb_spec C HK 0 0) eq_refl). reflexivity. }
  rewrite !G, (Permutation_length P). rewrite (vanish_permutation HK _ _ _ (Permutation_map (compress (alpha_memory ch)) P)). reflexivity.
Qed.
Print Assumptions C78_zero_cell_is_bound_refuted.

(** The rest is part of the claim. For all but few challenges of the memory argument no columns whatsoever satisfy the constraints of two
    statements with the same number of steps, unless these have the same registers, bounds and public cells other than (0, 0). *)
Theorem C78_claim_is_bound :
  forall (C : cairo_env) p, cairo_ok C p -> forall (pi pi' : public_inputs C) opts opts' n lo hi lo' hi',
  has_rc_builtin pi' = has_rc_builtin pi -> num_steps pi' = num_steps pi -> (1 <= num_steps pi)%nat -> (1 <= n)%nat ->
  range_check_min pi = Some lo -> range_check_max pi = Some hi -> range_check_min pi' = Some lo' -> range_check_max pi' = Some hi' ->
  (lo < 2 ^ 16)%N -> (hi < 2 ^ 16)%N -> (lo' < 2 ^ 16)%N -> (hi' < 2 ^ 16)%N ->
  let m := (length (public_memory pi) + length (public_memory pi'))%nat in
  exists bad_alpha, (length bad_alpha <= (2 * m) * (2 * m))%nat /\
  forall alpha, ~ In alpha bad_alpha -> exists bad_z, (length bad_z <= 2 * m + 1)%nat /\
  forall z zrc cols, ~ In z bad_z ->
    trace_satisfies (cairo_air pi opts n) (mk_challenges alpha z zrc) cols n ->
    trace_satisfies (cairo_air pi' opts' n) (mk_challenges alpha z zrc) cols n ->
    pc_init pi' = pc_init pi /\ ap_init pi' = ap_init pi /\ pc_final pi' = pc_final pi /\ ap_final pi' = ap_final pi /\
    lo' = lo /\ hi' = hi /\ Permutation (stated_cells (public_memory pi)) (stated_cells (public_memory pi')).
Proof.
  intros C p HC pi pi' opts opts' n lo hi lo' hi' B Hst Hs1 Hn Hlo Hhi Hlo' Hhi' B1 B2 B3 B4 m.
  pose proof (co_env _ _ HC) as HE. pose proof (fft_field_ok _ (e_fft_ok _ HE)) as HK. pose proof (co_p _ _ HC) as Hp.
  assert (P65 : (2 ^ 16 < 2 ^ 65)%N) by reflexivity.
  set (xs := public_memory pi ++ repeat (0, 0) (length (public_memory pi'))). set (ys := public_memory pi' ++ repeat (0, 0) (length (public_memory pi))).
  assert (Hxl : length xs = m) by (unfold xs; now rewrite app_length, repeat_length).
  assert (Hyl : length ys = m) by (unfold ys, m; rewrite app_length, repeat_length; lia).
  exists (bad_alphas (xs ++ ys)). split; [rewrite bad_alphas_length, app_length; nia|].
  intros alpha Ha. destruct (exceptional_points HC (map (compress alpha) xs) (map (compress alpha) ys)) as (bz & Hbzl & Hbz); [now rewrite !map_length, Hxl, Hyl|].
  rewrite map_length, Hxl in Hbzl.
  exists (0 :: bz ++ map (compress alpha) (public_memory pi ++ public_memory pi')). split; [cbn [length]; rewrite app_length, map_length, app_length; fold m; lia|].
  intros z zrc cols Hz Hs Hs'. set (ch := mk_challenges alpha z zrc) in *.
  assert (Hz0 : z <> 0) by (intro E; apply Hz; left; congruence).
  assert (NV : forall cells, incl cells (public_memory pi ++ public_memory pi') -> vanish (map (compress alpha) cells) z <> 0).
  { intros cells Hi. induction cells as [|av l IH]; [apply (one_neq_zero HK)|]. cbn [map]. rewrite vanish_cons. apply (mul_nonzero HK); [|apply IH; intros x Hx; apply Hi; now right].
    intro E0. apply (proj1 (sub_zero HK _ _)) in E0. apply Hz. right. apply in_or_app. right. apply in_map_iff. exists av. split; [now symmetry|apply Hi; now left]. }
  assert (Hbd : forall (u : public_inputs C) l h, (1 <= num_steps u)%nat -> range_check_min u = Some l -> range_check_max u = Some h -> incl (public_memory u) (public_memory pi ++ public_memory pi') ->
    cairo_boundary u n ch = Ok [mk_bc MEM_A_TRACE_OFFSET 0%nat (pc_init u); mk_bc MEM_P_TRACE_OFFSET 0%nat (ap_init u);
      mk_bc MEM_A_TRACE_OFFSET (num_steps u - 1)%nat (pc_final u); mk_bc MEM_P_TRACE_OFFSET (num_steps u - 1)%nat (ap_final u);
      mk_bc (PERMUTATION_ARGUMENT_COL_3 - builtin_offset u)%nat (n - 1)%nat (fpow z (length (public_memory u)) * finv (vanish (map (compress alpha) (public_memory u)) z));
      mk_bc (PERMUTATION_ARGUMENT_RANGE_CHECK_COL_3 - builtin_offset u)%nat (n - 1)%nat 1;
      mk_bc (RANGE_CHECK_COL_1 - builtin_offset u)%nat 0%nat (e_u64 C l);
      mk_bc (RANGE_CHECK_COL_3 - builtin_offset u)%nat (n - 1)%nat (e_u64 C h)]).
  { intros u l h H1 Hl Hh Hi. unfold cairo_boundary. rewrite Hl, Hh. unfold usub. destruct (Nat.ltb_spec (num_steps u) 1); [lia|]. destruct (Nat.ltb_spec n 1); [lia|]. cbn [obind].
    rewrite (public_product HE). cbn [z_memory alpha_memory ch]. rewrite (proj2 (inv_o_ok HK _ _) (conj (NV _ Hi) eq_refl)). reflexivity. }
  pose proof (Hbd pi lo hi Hs1 Hlo Hhi (incl_appl _ (incl_refl _))) as Q. pose proof (Hbd pi' lo' hi' ltac:(lia) Hlo' Hhi' (incl_appr _ (incl_refl _))) as Q'.
  assert (BO : builtin_offset pi' = builtin_offset pi) by (unfold builtin_offset; now rewrite B). rewrite BO, Hst in Q'.
  assert (V : forall bcs bcs', cairo_boundary pi n ch = Ok bcs -> cairo_boundary pi' n ch = Ok bcs' -> forall k bc bc', nth_error bcs k = Some bc -> nth_error bcs' k = Some bc' ->
    bc_col bc = bc_col bc' -> bc_step bc = bc_step bc' -> bc_value bc' = bc_value bc).
  { intros bcs bcs' G G' k bc bc' N N' Ec Es. apply nth_error_In in N, N'.
    destruct (ts_boundary _ _ _ _ Hs bcs bc G N) as (_ & _ & E1). destruct (ts_boundary _ _ _ _ Hs' bcs' bc' G' N') as (_ & _ & E2). rewrite <- E1, <- E2, Ec, Es. reflexivity. }
  specialize (V _ _ Q Q').
  split; [exact (V 0%nat _ _ eq_refl eq_refl eq_refl eq_refl)|]. split; [exact (V 1%nat _ _ eq_refl eq_refl eq_refl eq_refl)|].
  split; [exact (V 2%nat _ _ eq_refl eq_refl eq_refl eq_refl)|]. split; [exact (V 3%nat _ _ eq_refl eq_refl eq_refl eq_refl)|].
  split; [apply (u64_inj HC); [lia|lia|exact (V 6%nat _ _ eq_refl eq_refl eq_refl eq_refl)]|].
  split; [apply (u64_inj HC); [lia|lia|exact (V 7%nat _ _ eq_refl eq_refl eq_refl eq_refl)]|].
  pose proof (V 4%nat _ _ eq_refl eq_refl eq_refl eq_refl) as E. cbn [bc_value] in E.
  assert (PX : Permutation xs ys).
  { apply (permutation_map_inj (compress alpha)); [intros u w Hu Hw; now apply (good_alpha_inj HK (xs ++ ys))|]. apply (Hbz z).
    - intro Hi. apply Hz. right. apply in_or_app. now left.
    - unfold xs, ys. rewrite !map_app, !(vanish_app HK), !(vanish_zeros HE). apply (cross_quotients HE); [apply NV, incl_appl, incl_refl|apply NV, incl_appr, incl_refl|exact E]. }
  apply stated_permutation in PX. unfold xs, ys in PX. unfold stated_cells in PX. rewrite !filter_app in PX.
  pose proof (stated_zeros HE) as SZ. unfold stated_cells in SZ. rewrite !SZ, !app_nil_r in PX. exact PX.
Qed.
Print Assumptions C78_claim_is_bound.

(** Another initial fp, the public cells in reverse, and one more. *)
Definition mini_other : public_inputs stark :=
  mk_public_inputs (pc_init mini_pi) (ap_init mini_pi) (f252 77 : stark) (pc_final mini_pi) (ap_final mini_pi) (range_check_min mini_pi) (range_check_max mini_pi)
    [] ((0, 0) :: rev (public_memory mini_pi)) (num_steps mini_pi).
Lemma mini_same_claim : same_claim mini_pi mini_other.
Proof. constructor; reflexivity. Qed.
Lemma mini_other_satisfies opts : trace_satisfies (cairo_air mini_other opts 8) mini_challenges mini_cols 8.
Proof. apply (checked_satisfies (co_env _ _ stark_ok)); vm_compute; reflexivity. Qed.

Example C78_example :
  same_claim mini_pi mini_other /\ Permutation (stated_cells (public_memory mini_pi)) (stated_cells (public_memory mini_other)) /\
  length (public_memory mini_other) <> length (public_memory mini_pi) /\ has_rc_builtin mini_other = has_rc_builtin mini_pi /\
  trace_satisfies (cairo_air mini_pi (mk_options 4 3 3 1) 8) mini_challenges mini_cols 8 /\
  trace_satisfies (cairo_air mini_other (mk_options 4 3 3 1) 8) mini_challenges mini_cols 8 /\
  range_check_min mini_pi = Some 32766%N /\ range_check_max mini_pi = Some 32769%N /\ num_steps mini_pi = 3%nat /\
  z_memory mini_challenges <> 0.
Proof.
  pose proof (co_env _ _ stark_ok) as HE. split; [exact mini_same_claim|]. split.
  { change (public_memory mini_other) with ((0, 0) :: rev (public_memory mini_pi) : list (stark * stark)). generalize (public_memory mini_pi). intro l.
    change (stated_cells ((0, 0) :: rev l)) with (if negb (zero_cell ((0, 0) : stark * stark)) then ((0, 0) : stark * stark) :: stated_cells (rev l) else stated_cells (rev l)).
    rewrite (zero_cell_zero HE). cbn [negb]. apply stated_permutation, Permutation_rev. }
  split; [cbn [mini_other public_memory length]; rewrite rev_length; lia|]. split; [reflexivity|]. split; [apply mini_satisfies|]. split; [apply mini_other_satisfies|].
  split; [vm_compute; reflexivity|]. split; [vm_compute; reflexivity|]. split; [vm_compute; reflexivity|].
  intro H. apply (f_equal (fun x : stark => zval (x : zp stark_p))) in H. vm_compute in H. discriminate H.
Qed.

(** A statement that declares a range-check segment, and one that declares an output segment elsewhere. *)
Example C78_segments_example :
  let pi := with_segments mini_pi [(RangeCheck, (7, 9)%N)] in
  memory_segments pi <> [] /\ same_claim pi (with_segments pi [(Output, (100, 200)%N)]) /\ memory_segments (with_segments pi [(Output, (100, 200)%N)]) <> memory_segments pi.
Proof. split; [discriminate|]. split; [constructor; try reflexivity; cbn; split; discriminate|discriminate]. Qed.
