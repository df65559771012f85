(** C67: the verifier built with the release profile, where subtractions wrap instead of panicking. *)
From Coq Require Import List Arith NArith ZArith Bool Lia.
From Verif.Base Require Import Outcome Bytes Field Poly Zp.
From Verif.Model Require Import Codec PublicInputs Trace Air Transcript Domain Options Prover Verifier CairoDecode CairoTrace CairoAir CairoRunner Merkle Release.
From Verif.Spec Require Import CairoSpec AirSpec ExampleSpec CairoColumns CairoRun Forgery ProvingSpec CairoStatement VerifierSpec FriTree FullForgery ReleaseSpec.
From Verif.Proofs Require Import FieldFacts OutcomeFacts FFTFacts TraceFacts ExampleFacts DomainFacts CairoAirFacts CairoAdmissible VerifierTotal StarkFieldFacts VerifierFacts FullForge ReleaseFacts.
From Verif.Properties Require Import ExampleProperties VerifierProperties CairoHonestProperties ProverTotalProperties CairoForgeryProperties FullForgeryProperties.
From Verif.Examples Require Import Toy Stark252 MiniRun Calm.
Import ListNotations.
Local Open Scope felt_scope.

(** Whatever the verifier of the other theorems answers, the verifier of either profile answers: acceptances (completeness, and
    every forgery) and rejections carry over to the release build. *)
Theorem C67_answers_carry_over :
  forall (E : env) m fuel (mk : nat -> air E) opts (p : stark_proof E) v, verify E fuel mk opts p = Ok v -> verify_in m E fuel mk opts p = Ok v.
Proof. intros E m fuel mk opts p v H. exact (verify_le m fuel mk opts p v H). Qed.
Print Assumptions C67_answers_carry_over.

(** With overflow checks the two are the same function; without them they are where no subtraction underflows. *)
Theorem C67_debug_is_the_model :
  forall (E : env) fuel (mk : nat -> air E) opts (p : stark_proof E), verify_in Debug E fuel mk opts p = verify E fuel mk opts p.
Proof. intros E fuel mk opts p. apply verify_same. now left. Qed.
Print Assumptions C67_debug_is_the_model.

Theorem C67_profiles_agree :
  forall (E : env) fuel (mk : nat -> air E) opts (p : stark_proof E),
  (forall d, domain_new (mk (trace_length p)) = Ok d -> no_underflow (mk (trace_length p)) p (lde_root_order d)) ->
  verify_in Release E fuel mk opts p = verify E fuel mk opts p.
Proof. intros E fuel mk opts p H. apply verify_same. now right. Qed.
Print Assumptions C67_profiles_agree.

(** For Cairo: at least one step, at least one row and no more FRI layers than the evaluation domain has halvings plus one. *)
Theorem C67_cairo_profiles_agree :
  forall (C : cairo_env) m fuel (q : stark_proof C) (pi : public_inputs C) opts, (1 <= num_steps pi)%nat -> (1 <= trace_length q)%nat ->
  (forall d, domain_new (cairo_air pi opts (trace_length q)) = Ok d -> (length (fri_layers_merkle_roots q) <= S (lde_root_order d))%nat) ->
  verify_cairo_proof_in m fuel q pi opts = verify_cairo_proof fuel q pi opts.
Proof.
  intros C m fuel q pi opts Hs Hn Hl. unfold verify_cairo_proof_in, verify_cairo_proof.
  transitivity (verify_in m C fuel (cairo_air pi opts) opts q).
  { unfold verify_in. rewrite (cairo_air_in_same m pi opts (trace_length q) Hs Hn). reflexivity. }
  apply verify_same. right. intros d Hd. split; [|split; [|split]]; cbn [cairo_air a_trace_length a_degree_bound a_context a_n_aux].
  - lia.
  - intros deg Hin. assert (G : forall l : list nat, forallb (fun x => (1 <=? x) && (x <=? 3))%nat l = true -> In deg l -> (1 <= deg <= 3)%nat).
    { intros l F Hi. rewrite forallb_forall in F. specialize (F _ Hi). apply andb_true_iff in F. destruct F as [F1 F2]. apply Nat.leb_le in F1, F2. lia. }
    assert (1 <= deg <= 3)%nat; [|nia]. apply (G (transition_degrees (cairo_context pi opts))); [|exact Hin].
    unfold cairo_context. destruct (has_rc_builtin pi); vm_compute; reflexivity.
  - unfold cairo_context. destruct (has_rc_builtin pi); cbn; lia.
  - exact (Hl d Hd).
Qed.
Print Assumptions C67_cairo_profiles_agree.

(** The release profile answers on proofs with any number of FRI layers: the hypotheses are those of C49 without the bound on layers. *)
Theorem C67_release_never_panics_on_layers :
  forall (E : env) fuel (mk : nat -> air E) (p : stark_proof E) r b rows width root, env_ok E -> sampling_ok E ->
  let a := mk (trace_length p) in
  statement_ok E a r b rows width root -> z_found E fuel a -> hd_error (lde_trace_merkle_roots p) = Some root ->
  fr_row_width (trace_ood_frame_evaluations p) = width -> length (fr_data (trace_ood_frame_evaluations p)) = (rows * width)%nat ->
  (forall q, In q (query_list p) -> layers_evaluations q <> []) ->
  (forall o, In o (deep_poly_openings p) -> (trace_columns (a_context a) <= length (lde_trace_evaluations o))%nat) ->
  exists v, verify_in Release E fuel mk (a_options a) p = Ok v.
Proof. intros E fuel mk p r b rows width root HE HS. exact (verify_release_total HE HS fuel mk p r b rows width root). Qed.
Print Assumptions C67_release_never_panics_on_layers.

(** FINDING. The number of steps of the statement counts only modulo the length of the trace which the proof claims: in either
    profile for positive numbers, and in the release profile for all, zero included. *)
Theorem C67_steps_count_modulo_the_trace :
  forall (C : cairo_env) m fuel (q : stark_proof C) (pi : public_inputs C) opts r s s', env_ok C ->
  trace_length q = (2 ^ r)%nat -> (1 <= r <= 64)%nat -> m = Release \/ (1 <= s /\ 1 <= s')%nat -> (s mod 2 ^ r = s' mod 2 ^ r)%nat ->
  verify_cairo_proof_in m fuel q (with_steps s pi) opts = verify_cairo_proof_in m fuel q (with_steps s' pi) opts.
Proof. intros C m fuel q pi opts r s s' HE. exact (steps_modulo HE m fuel q pi opts r s s'). Qed.
Print Assumptions C67_steps_count_modulo_the_trace.

(** Hence a proof accepted for [s] steps is accepted for [s + k * 2 ^ r] steps: more steps than the trace has rows. *)
Theorem C67_more_steps_than_rows_refuted :
  forall (C : cairo_env) fuel (q : stark_proof C) (pi : public_inputs C) opts r k, env_ok C ->
  trace_length q = (2 ^ r)%nat -> (1 <= r <= 64)%nat -> (1 <= num_steps pi)%nat ->
  verify_cairo_proof fuel q pi opts = Ok true -> verify_cairo_proof fuel q (with_steps (num_steps pi + k * 2 ^ r) pi) opts = Ok true.
Proof.
  intros C fuel q pi opts r k HE Hq Hr Hs H.
  assert (D : forall pi', verify_cairo_proof_in Debug fuel q pi' opts = verify_cairo_proof fuel q pi' opts) by (intro pi'; exact (C67_debug_is_the_model C fuel (cairo_air pi' opts) opts q)).
  rewrite <- D in *. rewrite (C67_steps_count_modulo_the_trace C Debug fuel q pi opts r _ (num_steps pi) HE Hq Hr).
  - rewrite <- H. f_equal. now destruct pi.
  - right. lia.
  - apply Nat.mod_add. pose proof (Nat.pow_nonzero 2 r). lia.
Qed.
Print Assumptions C67_more_steps_than_rows_refuted.

Lemma step_1_boundary {E : env} fuel (a : air E) (p : stark_proof E) d t c t' : step_1 E fuel a p d t = Ok (c, t') -> exists rap bcs, a_boundary a rap = Ok bcs.
Proof. intro H. unfold step_1 in H. ok_as H r0 H0. ok_as H s1 H1. destruct s1 as [rap t1]. ok_as H bcs H2. eauto. Qed.

(** FINDING. In the release profile an accepted proof of a run that fills its trace is accepted as a proof of zero steps, on which the
    debug profile panics. *)
Theorem C67_zero_steps_refuted :
  forall (C : cairo_env) fuel (q : stark_proof C) (pi : public_inputs C) opts r, env_ok C ->
  trace_length q = (2 ^ r)%nat -> (1 <= r <= 64)%nat -> num_steps pi = (2 ^ r)%nat ->
  verify_cairo_proof fuel q pi opts = Ok true ->
  verify_cairo_proof_in Release fuel q (with_steps 0 pi) opts = Ok true /\ forall v, verify_cairo_proof fuel q (with_steps 0 pi) opts <> Ok v.
Proof.
  intros C fuel q pi opts r HE Hq Hr Hs H. split.
  - rewrite (C67_steps_count_modulo_the_trace C Release fuel q pi opts r 0 (2 ^ r) HE Hq Hr); [|now left|].
    2:{ pose proof (Nat.pow_nonzero 2 r ltac:(lia)). now rewrite Nat.mod_same, Nat.mod_0_l by assumption. }
    rewrite <- Hs. replace (with_steps (num_steps pi) pi) with pi by now destruct pi.
    assert (Hle : ole (verify_cairo_proof fuel q pi opts) (verify_cairo_proof_in Release fuel q pi opts)).
    { unfold verify_cairo_proof_in. intros v Hv. apply (verify_le Release) in Hv. unfold verify_in in *.
      rewrite (cairo_air_in_same Release pi opts (trace_length q)) by (rewrite ?Hq, ?Hs; apply Nat.neq_0_lt_0, Nat.pow_nonzero; lia). exact Hv. }
    exact (Hle _ H).
  - intros v H0. unfold verify_cairo_proof, verify in H, H0. destruct (_ <? _)%nat; [discriminate|]. clear H.
    ok_as H0 d Hd. ok_as H0 cc Hc. destruct cc as [c t]. apply step_1_boundary in Hc. destruct Hc as (rap & bcs & Hb). discriminate Hb.
Qed.
Print Assumptions C67_zero_steps_refuted.

(** The hypotheses hold: the statement of C56 in eight steps, with the proofs of C65. The proof is accepted for eight steps, for
    8 + 8 k steps whatever k, and by the release profile for none. *)
Definition full_pi : public_inputs calm := with_steps 8 far_pi.
Lemma full_proof : exists q, trace_length q = (2 ^ 3)%nat /\ verify_cairo_proof 1 q full_pi default_test_options = Ok true.
Proof.
  destruct (C65_cairo_statements calm _ full_pi default_test_options 3 2 1 [[Byte.x07]; [Byte.x07]] [Byte.x07] (repeat (0 : calm) 104) 32766 32769 calm_ok calm_sampling) as (q & d & c & t & Hq & Hr & Hf & Hd & Hc & Hv).
  - apply (default_coset_usable calm_ok); try reflexivity; lia.
  - cbn. lia.
  - cbn. lia.
  - reflexivity.
  - reflexivity.
  - intros ch t Hch (a & v & Hin & Hp). destruct (calm_rap _ _ _ Hch) as [Ez Ea]. rewrite Ez, Ea in Hp.
    destruct Hin as [Hin|[Hin|[]]]; injection Hin as <- <-; apply (f_equal (fun y : calm => zval (y : zp stark_p))) in Hp; vm_compute in Hp; discriminate Hp.
  - exact (calm_z_found full_pi).
  - exact calm_nonce_found.
  - reflexivity.
  - apply repeat_length.
  - exists q. split; [exact (cp_length _ _ _ _ Hq)|]. apply Hv. clear Hv.
    intros iota _. exists 0%nat. split; [cbv; lia|]. destruct (steady_step_1 _ calm_field _ _ _ _ _ _ _ Hc) as [Ez Et].
    unfold column_weight. rewrite Ez, Et. cbn [cairo_air a_context cairo_context transition_offsets trace_columns length Nat.add full_pi with_steps far_pi has_rc_builtin memory_segments repeat nth seq combine map fst snd].
    apply (calm_weigh d _ Hd). destruct (nth_in_or_default iota (lde_roots_of_unity_coset d) 0) as [H|H]; [now right|left; now symmetry].
Qed.

Example C67_example : exists q,
  verify_cairo_proof 1 q full_pi default_test_options = Ok true /\
  (forall k, verify_cairo_proof 1 q (with_steps (8 + k * 8) far_pi) default_test_options = Ok true) /\
  verify_cairo_proof_in Release 1 q (with_steps 0 far_pi) default_test_options = Ok true /\
  forall v, verify_cairo_proof 1 q (with_steps 0 far_pi) default_test_options <> Ok v.
Proof.
  destruct full_proof as (q & Hq & H). exists q. split; [exact H|]. split; [|exact (C67_zero_steps_refuted calm 1 q full_pi default_test_options 3 calm_env_ok Hq ltac:(lia) eq_refl H)].
  intro k. exact (C67_more_steps_than_rows_refuted calm 1 q full_pi default_test_options 3 k calm_env_ok Hq ltac:(lia) ltac:(cbn; lia) H).
Qed.

(** The release profile on a proof with more layers than halvings: an answer where the debug profile panics. *)
Example C67_layers_example :
  let p := mk_stark_proof 4 [[Byte.x07]] (mk_frame (map f97 [10; 20; 30]%Z) 1) [] 0 0 (repeat [] 5) (f97 8)
     (repeat (mk_fri_decommitment (repeat [] 5) (repeat (f97 9) 5) (repeat [] 5) (repeat (f97 9) 5)) 2) [] 0 in
  exists v, verify_in Release still 1 still_fib (a_options (still_fib 4)) p = Ok v.
Proof.
  intro p. refine (C67_release_never_panics_on_layers still 1 still_fib p 2 1 3 1 [Byte.x07] still_ok still_sampling (still_statement _) still_z_found eq_refl eq_refl eq_refl _ _).
  - intros q [<-|[<-|[]]]; discriminate.
  - intros o [].
Qed.
