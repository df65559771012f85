(** C56: the prover's own algorithm proves false Cairo statements. *)
From Coq Require Import List Arith NArith ZArith Bool Lia.
From Verif.Base Require Import Outcome Field Poly Zp.
From Verif.Model Require Import Codec PublicInputs Trace Air Transcript Domain Options Prover Verifier CairoDecode CairoTrace CairoAir CairoRunner.
From Verif.Spec Require Import CairoSpec AirSpec ExampleSpec CairoColumns CairoRun Forgery ProvingSpec CairoStatement.
From Verif.Proofs Require Import FieldFacts OutcomeFacts FFTFacts TraceFacts ExampleFacts HonestRun CairoAirFacts CairoForge CairoAdmissible Completeness VerifierTotal ProverTotal StarkFieldFacts.
From Verif.Examples Require Import Toy Stark252 MiniRun Calm.
From Verif.Properties Require Import ExampleProperties VerifierProperties CairoHonestProperties ProverTotalProperties.
Import ListNotations.
Local Open Scope felt_scope.

Lemma table_of_columns {E : env} (cols : list (list E)) n : (forall c, In c cols -> length c = n) -> has_columns (table_of cols n) n cols.
Proof. intro H. split; [reflexivity|]. split; [exact H|reflexivity]. Qed.

Lemma cairo_proving {C : cairo_env} (HS : sampling_ok C) (pi : public_inputs C) opts r b : (1 <= r)%nat -> (r + b <= two_adicity C)%nat ->
  proving_ok (cairo_air pi opts (2 ^ r)) r b.
Proof.
  intros Hr Ht. pose proof (pow2_ge2 r Hr) as H2. constructor; cbn [cairo_air a_context a_degree_bound a_build_rap]; try easy.
  - intros e He. apply In_nth_error in He. destruct He as (j & Hj). apply exemption_inv in Hj. destruct Hj as [_ ->]. unfold exempt. destruct (existsb _ _); lia.
  - intros deg Hd. assert (G : (1 <= deg <= 3)%nat).
    { revert deg Hd. apply Forall_forall. cbn [cairo_context transition_degrees]. destruct (has_rc_builtin pi); cbn; repeat constructor. }
    destruct deg as [|[|[|[|deg]]]]; lia.
  - lia.
  - intro tr. unfold cairo_build_rap. destruct (field_total HS tr) as (x & t1 & ->). cbn [obind]. destruct (field_total HS t1) as (y & t2 & ->). cbn [obind].
    destruct (field_total HS t2) as (z & t3 & ->). cbn [obind]. eauto.
Qed.

(** The verifier does not notice. *)
Definition same_challenges {E : env} (a : air E) build (c : challenges E a) : challenges E (with_aux a build) :=
  Verifier.mk_challenges E (with_aux a build) (c_z E a c) (c_boundary_coeffs E a c) (c_transition_coeffs E a c) (c_trace_term_coeffs E a c)
    (c_gamma_even E a c) (c_gamma_odd E a c) (c_zetas E a c) (c_iotas E a c) (c_rap E a c) (c_leading_zeros E a c).
Lemma step_1_with_aux {E : env} fuel (a : air E) build (q : stark_proof E) d t : step_1 E fuel (with_aux a build) q d t
  = obind (step_1 E fuel a q d t) (fun ct => Ok (same_challenges a build (fst ct), snd ct)).
Proof.
  unfold step_1. cbn [with_aux a_build_rap a_boundary a_context]. change (a_options (with_aux a build)) with (a_options a).
  repeat match goal with
         | |- obind ?x _ = obind (obind ?x _) _ => destruct x as [?| |]; cbn [obind]; [|reflexivity..]
         | |- context [match ?y with pair _ _ => _ end] => destruct y
         end; reflexivity.
Qed.
Lemma verify_with_aux {E : env} fuel (mk : nat -> air E) build opts (q : stark_proof E) :
  verify E fuel (fun n => with_aux (mk n) (build n)) opts q = verify E fuel mk opts q.
Proof.
  unfold verify. destruct (_ <? _)%nat; [reflexivity|]. cbv zeta. set (a := mk (trace_length q)).
  change (domain_new (with_aux a (build (trace_length q)))) with (domain_new a). destruct (domain_new a) as [d| |]; [|reflexivity..]. cbn [obind].
  rewrite step_1_with_aux. destruct (step_1 E fuel a q d tr_new) as [[c t]| |]; [|reflexivity..]. reflexivity.
Qed.

(** The challenges for which a product of the statement or of the empty trace vanishes. *)
Definition pole {C : cairo_env} (pi : public_inputs C) (ch : cairo_challenges C) : Prop :=
  z_memory ch = 0 \/ z_memory ch = pc_final pi \/ exists a v, In (a, v) (public_memory pi) /\ z_memory ch = a + alpha_memory ch * v.

(** For any public inputs of at least two steps there is a main table with selector zero everywhere, no instruction, and
    a way to complete it, such that the prover's own rounds turn it into an accepted proof, unless the challenge drawn
    hits one of the listed values. *)
Theorem C56_empty_execution_is_proved :
  forall (C : cairo_env) p (pi : public_inputs C) opts r b fuel lo hi, cairo_ok C p -> sampling_ok C ->
  usable_options C opts r b -> (r + b <= two_adicity C)%nat ->
  (2 <= num_steps pi <= 2 ^ r)%nat -> range_check_min pi = Some lo -> range_check_max pi = Some hi ->
  (lo <= hi)%N -> (hi - lo < N.of_nat (3 * 2 ^ r))%N ->
  z_found C fuel (cairo_air pi opts (2 ^ r)) -> nonce_found C (grinding_factor opts) ->
  exists main (t : trace_table C) (build : trace_table C -> cairo_challenges C -> outcome (trace_table C)), has_columns t (2 ^ r) main /\
    nth FRAME_SELECTOR main [] = repeat 0 (2 ^ r) /\ nth FRAME_INST main [] = repeat 0 (2 ^ r) /\
    ((exists proof, prove C fuel (fun n => with_aux (cairo_air pi opts n) build) t = Ok proof /\ verify_cairo_proof fuel proof pi opts = Ok true) \/
     exists ch, first_challenges (cairo_air pi opts (2 ^ r)) t ch /\ pole pi ch).
Proof.
  intros C p pi opts r b fuel lo hi HC HS Hu Ht Hsteps Hmin Hmax Hle Hspan Hz Hno.
  pose proof (co_env _ _ HC) as HE. pose proof (fft_field_ok _ (e_fft_ok _ HE)) as HK.
  set (n := (2 ^ r)%nat) in *. pose proof (pow2_ge2 r (proj1 Hu)) as H2. fold n in H2.
  set (main := empty_main pi n lo hi).
  assert (Hml : forall c, In c main -> length c = n) by (intros c Hc; apply (empty_rows pi n lo hi (mk_challenges 0 0 0)); apply in_or_app; now left).
  assert (Hmc : has_columns (table_of main n) n main) by now apply table_of_columns.
  assert (Hne : main <> []) by discriminate.
  set (poleb := fun ch : cairo_challenges C => feqb (z_memory ch) 0 || feqb (z_memory ch) (pc_final pi)
                  || existsb (fun av => feqb (z_memory ch) (fst av + alpha_memory ch * snd av)) (public_memory pi)).
  assert (Hpole : forall ch, poleb ch = true -> pole pi ch).
  { intros ch H. unfold poleb in H. apply orb_true_iff in H. destruct H as [H|H].
    - apply orb_true_iff in H. destruct H as [H|H]; apply (feqb_spec C HK) in H; [now left|right; now left].
    - apply existsb_exists in H. destruct H as ([a v] & Hin & He). apply (feqb_spec C HK) in He. right. right. now exists a, v. }
  set (build := fun (_ : trace_table C) (ch : cairo_challenges C) =>
                  if poleb ch then @Panic (trace_table C) else Ok (table_of (empty_aux pi n lo hi ch) n)).
  exists main, (table_of main n), build. split; [exact Hmc|]. split; [reflexivity|]. split; [reflexivity|].
  set (mk := fun n => with_aux (cairo_air pi opts n) build).
  assert (Hn : tt_n_rows (table_of main n) = n) by now destruct (has_columns_table _ n main Hne Hmc).
  assert (HA : admissible (mk n) r b 2).
  { destruct (cairo_admissible HE pi opts r b Hu) as [A1 A2 A3 A4 A5 A6 A7 A8 A9 A10 A11 A12 A13 A14]. constructor; assumption. }
  assert (HP : proving_ok (mk n) r b).
  { destruct (cairo_proving HS pi opts r b (proj1 Hu) Ht) as [P1 P2 P3 P4 P5 P6]. constructor; assumption. }
  assert (Hv : valid_trace (mk n) r (table_of main n)).
  { exists main. split; [exact Hne|]. split; [exact Hmc|]. intros tr ch tr' aux Hr Ha.
    cbn [mk with_aux a_build_aux] in Ha. unfold build in Ha. destruct (poleb ch) eqn:Ep; [discriminate|]. apply ok_inj in Ha. subst aux.
    unfold poleb in Ep. apply orb_false_iff in Ep. destruct Ep as [Ep _]. apply orb_false_iff in Ep. destruct Ep as [E1 E2].
    apply (feqb_false HK) in E1. apply (feqb_false HK) in E2.
    exists (empty_aux pi n lo hi ch). split; [|split].
    - apply table_of_columns. intros c Hc. apply (empty_rows pi n lo hi ch). apply in_or_app. now right.
    - cbn [mk with_aux a_context cairo_air]. rewrite cairo_width_declared. apply empty_width.
    - destruct (empty_satisfies HC pi n lo hi opts ch Hsteps Hle Hspan Hmin Hmax E1 E2) as [S1 S2]. constructor; [exact S1|exact S2]. }
  assert (Hb : boundary_computable (mk n) (table_of main n)).
  { intros ch aux Ha. cbn [mk with_aux a_build_aux] in Ha. unfold build in Ha. destruct (poleb ch) eqn:Ep; [discriminate|].
    unfold poleb in Ep. apply orb_false_iff in Ep. destruct Ep as [_ Ep].
    cbn [mk with_aux a_boundary cairo_air]. unfold cairo_boundary. rewrite Hmin, Hmax.
    unfold usub. destruct (Nat.ltb_spec (num_steps pi) 1); [lia|]. destruct (Nat.ltb_spec n 1); [lia|]. cbn [obind].
    unfold inv_o. destruct (feqb (fold_left _ _ _) 0) eqn:Ef; [exfalso|cbn [obind unwrap]; eauto].
    apply (feqb_spec C HK) in Ef. clear - Ep Ef HK.
    assert (G : forall l (x : C), existsb (fun av => feqb (z_memory ch) (fst av + alpha_memory ch * snd av)) l = false -> x <> 0 ->
      fold_left (fun product av => product * (z_memory ch - (fst av + alpha_memory ch * snd av))) l x <> 0).
    { induction l as [|av l IH]; intros x Hl Hx; [exact Hx|]. cbn [existsb fold_left] in *. apply orb_false_iff in Hl. destruct Hl as [H1 H2].
      apply IH; [exact H2|]. intro E0. apply (mul_zero HK) in E0. destruct E0 as [E0|E0]; [now apply Hx|].
      apply (feqb_false HK) in H1. exact (H1 (proj1 (sub_zero HK _ _) E0)). }
    refine (G (public_memory pi) 1 Ep _ Ef). apply (one_neq_zero HK). }
  assert (Hz' : z_found C fuel (mk n)) by exact Hz.
  destruct (C55_proof_or_bad_challenges C mk (table_of main n) r b 2 fuel HE HS Hn HA HP Hb Hv Hz' Hno) as [(proof & H1 & H3)|(ch & H1 & H3)].
  - left. exists proof. split; [exact H1|]. unfold mk in H3. rewrite (verify_with_aux fuel (cairo_air pi opts) (fun _ => build)) in H3. exact H3.
  - right. exists ch. split; [exact H1|]. apply Hpole. destruct (poleb ch) eqn:Ep; [reflexivity|].
    exfalso. apply (H3 (table_of (empty_aux pi n lo hi ch) n)). cbn [mk with_aux a_build_aux]. unfold build. now rewrite Ep.
Qed.
Print Assumptions C56_empty_execution_is_proved.

(** A false statement: two steps that start at the instruction [ap] = 3, ap++ and end at pc 77. *)
Definition far_pi : public_inputs calm :=
  mk_public_inputs (f252 1 : calm) (f252 8 : calm) (f252 8 : calm) (f252 77 : calm) (f252 9 : calm) (Some 32766%N) (Some 32769%N) []
    [(f252 1 : calm, f252 0x480680017fff8000 : calm); (f252 2 : calm, f252 3 : calm)] 2.
Lemma far_false m raw : ~ run_for far_pi m raw.
Proof.
  intros [(Hne & Hr & Hv) Hl Hf Hlast Hp]. cbn [far_pi num_steps pc_init pc_final ap_init ap_final public_memory] in *.
  destruct raw as [|t0 [|t1 [|? ?]]]; try discriminate Hl.
  destruct (Hv 0%nat t0 eq_refl) as (s' & (w & dst & op0 & op1 & res & Hst & Hd & _) & Hs'). specialize (Hs' t1 eq_refl).
  destruct (Hf t0 eq_refl) as [F1 _]. destruct (Hlast t1 eq_refl) as [L1 _].
  assert (Hw : w = 0x480680017fff8000%N).
  { destruct (st_inst _ _ _ _ _ _ _ _ Hst) as (k & Hk & Ek & Mk). cbn [state_of s_pc] in Ek. rewrite F1 in Ek.
    destruct (Hp (f252 1 : calm) (f252 0x480680017fff8000 : calm) (or_introl eq_refl)) as (k' & Hk' & Ek' & Mk').
    assert (Ekk : k = k').
    { assert (H : e_u64 calm k = e_u64 calm k') by congruence. apply (f_equal (fun x => ce_repr (c := calm) x)) in H.
      rewrite !(co_repr_u64 _ _ calm_ok) in H. rewrite !N.mod_small in H by (eapply N.lt_trans; [eassumption|reflexivity]). exact H. }
    subst k'. rewrite Mk in Mk'. assert (Ew := f_equal (fun o : option calm => match o with Some x => ce_repr (c := calm) x | None => 0%N end) Mk'). cbv beta iota in Ew.
    rewrite (co_repr_u64 _ _ calm_ok) in Ew. rewrite N.mod_small in Ew by (eapply N.lt_trans; [exact (st_word _ _ _ _ _ _ _ _ Hst)|reflexivity]).
    rewrite Ew. vm_compute. reflexivity. }
  subst w. pose proof (st_pc _ _ _ _ _ _ _ _ Hst) as Hpc. rewrite Hs' in Hpc. cbn [state_of s_pc] in Hpc. rewrite F1, L1 in Hpc.
  apply (f_equal (fun x : calm => zval (x : zp stark_p))) in Hpc. vm_compute in Hpc. discriminate Hpc.
Qed.
(** Nobody can run it, yet the prover's rounds produce a proof of it that the verifier accepts. *)
Theorem C56_false_statement_refuted :
  (forall m raw, ~ run_for far_pi m raw) /\
  exists main (t : trace_table calm) (build : trace_table calm -> cairo_challenges calm -> outcome (trace_table calm)) proof,
    has_columns t 8 main /\ nth FRAME_SELECTOR main [] = repeat 0 8 /\
    prove calm 1 (fun n => with_aux (cairo_air far_pi default_test_options n) build) t = Ok proof /\
    verify_cairo_proof 1 proof far_pi default_test_options = Ok true.
Proof.
  split; [exact far_false|].
  destruct (C56_empty_execution_is_proved calm _ far_pi default_test_options 3 2 1 32766 32769 calm_ok calm_sampling) as (main & t & build & Hc & Hsel & _ & H).
  - apply (default_coset_usable calm_ok); try reflexivity; lia.
  - cbn. lia.
  - cbn. lia.
  - reflexivity.
  - reflexivity.
  - discriminate.
  - reflexivity.
  - exact (calm_z_found far_pi).
  - exact calm_nonce_found.
  - exists main, t, build. destruct H as [(proof & H1 & H2)|(ch & (root & t' & _ & Hr) & Hp)]; [exists proof; repeat split; try assumption; apply Hc|exfalso].
    destruct (tr_append tr_new root). assert (E : cairo_build_rap (C := calm) (tt : e_tr calm) = Ok (mk_challenges (f252 5 : calm) (f252 5 : calm) (f252 5 : calm), tt : e_tr calm)).
    { unfold cairo_build_rap, transcript_to_field. cbn [tr_challenge calm ce_env calm_env e_tr calm_transcript].
      change (randomness_to_field calm (repeat Byte.x00 31 ++ [Byte.x05])) with (Ok (f252 5 : calm)). reflexivity. }
    cbn [cairo_air a_build_rap] in Hr. rewrite E in Hr. apply ok_inj in Hr. injection Hr as <- <-.
    assert (D : forall x y : calm, x = y -> zval (x : zp stark_p) = zval (y : zp stark_p)) by (intros x y ->; reflexivity).
    destruct Hp as [Hp|[Hp|(a & v & Hin & Hp)]]; cbn [z_memory alpha_memory] in Hp.
    + apply D in Hp. vm_compute in Hp. discriminate Hp.
    + apply D in Hp. vm_compute in Hp. discriminate Hp.
    + destruct Hin as [Hin|[Hin|[]]]; injection Hin as <- <-; apply D in Hp; vm_compute in Hp; discriminate Hp.
Qed.
Print Assumptions C56_false_statement_refuted.
