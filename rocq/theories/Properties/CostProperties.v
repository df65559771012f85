(** C68: what the claimed trace length costs the prover of a lie and the verifier. *)
From Coq Require Import List Arith NArith ZArith Bool Lia.
From Verif.Base Require Import Outcome Bytes Field Poly Zp.
From Verif.Model Require Import Codec PublicInputs Trace Air Transcript Domain Options Prover Verifier ExampleAirs CairoDecode CairoTrace CairoAir CairoRunner.
From Verif.Spec Require Import CodecSpec CostSpec CairoSpec AirSpec.
From Verif.Proofs Require Import BytesFacts OutcomeFacts FieldFacts CodecFacts DomainFacts VerifierFacts.
From Verif.Properties Require Import CodecProperties VerifierProperties CliProperties.
From Verif.Examples Require Import Toy Stark252 MiniRun RunExamples.
Import ListNotations.
Local Open Scope felt_scope.

(** The claimed length can be replaced in any proof: eight bytes of the encoding change, and it decodes to the changed proof. *)
Theorem C68_claimed_length_is_eight_bytes :
  forall (F : Type) (C : felt_codec F) (w : nat), codec_ok C w -> forall (p : stark_proof F) bs n, stark_wf C p -> (N.of_nat n < two64)%N ->
  stark_serialize C p = Ok bs ->
  stark_serialize C (with_length n p) = Ok (be8 n ++ skipn 8 bs) /\ length (be8 n ++ skipn 8 bs) = length bs /\
  stark_deserialize C (be8 n ++ skipn 8 bs) = Ok (with_length n p).
Proof.
  intros F C w HC p bs n Hp Hn H.
  assert (Hs : stark_serialize C (with_length n p) = Ok (be8 n ++ skipn 8 bs) /\ length (be8 n ++ skipn 8 bs) = length bs).
  { unfold stark_serialize in *. cbn [with_length query_list trace_length]. ok_as H qs Hq. rewrite Hq. cbn [obind]. apply ok_inj in H. rewrite <- H.
    assert (L : forall k, length (be8 k) = 8%nat) by (intro k; unfold be8; now rewrite length_be_bytes).
    split.
    - reflexivity.
    - rewrite !app_length, skipn_length, !app_length, !L. lia. }
  destruct Hs as [Hs Hl]. split; [exact Hs|]. split; [exact Hl|]. apply (stark_round C w HC); [|exact Hs].
  destruct Hp as (_ & Hp). split; [exact Hn|]. cbn [with_length nonce lde_trace_merkle_roots composition_poly_root fri_layers_merkle_roots trace_ood_frame_evaluations query_list deep_poly_openings].
  repeat match goal with H : _ /\ _ |- _ => destruct H | |- _ /\ _ => split end; try assumption.
  intros bs' Hb'. rewrite Hs in Hb'. apply ok_inj in Hb'. subst bs'. rewrite Hl. auto.
Qed.
Print Assumptions C68_claimed_length_is_eight_bytes.

(** FINDING. So the verifier's first computation is not bounded by the size of what it reads: any proof with enough answers has,
    for every power of two of which the field has roots, a variant of the same size for which two lists of that many elements are built. *)
Theorem C68_work_bounded_by_size_refuted :
  forall (E : env) (mk : nat -> air E) opts b w (p : stark_proof E) bs, env_ok E -> codec_ok (e_codec E) w ->
  (forall n, a_trace_length (mk n) = n /\ a_options (mk n) = opts) -> blowup_factor opts = (2 ^ b)%nat ->
  stark_wf (e_codec E) p -> stark_serialize (e_codec E) p = Ok bs -> (fri_number_of_queries opts <= length (query_list p))%nat ->
  forall r, (1 <= r < 64)%nat -> (r + b <= two_adicity E)%nat ->
  exists bs' q d, length bs' = length bs /\ stark_deserialize (e_codec E) bs' = Ok q /\ (fri_number_of_queries opts <= length (query_list q))%nat /\
    domain_new (mk (trace_length q)) = Ok d /\ length (trace_roots_of_unity d) = (2 ^ r)%nat /\ length (lde_roots_of_unity_coset d) = (2 ^ (r + b))%nat.
Proof.
  intros E mk opts b w p bs HE HC Hmk Hb Hp Hs Hq r Hr Ht.
  assert (Hn : (N.of_nat (2 ^ r) < two64)%N).
  { rewrite Nat2N.inj_pow. change two64 with (2 ^ 64)%N. apply N.pow_lt_mono_r; lia. }
  destruct (C68_claimed_length_is_eight_bytes E (e_codec E) w HC p bs (2 ^ r) Hp Hn Hs) as (_ & Hl & Hd).
  destruct (Hmk (2 ^ r)%nat) as [H1 H2]. assert (Hbl : a_blowup (mk (2 ^ r)%nat) = (2 ^ b)%nat) by (unfold a_blowup; now rewrite H2).
  destruct (domain_new_ok (mk (2 ^ r)%nat) r b H1 Hbl ltac:(lia) Ht) as [d Hdo].
  destruct (domain_new_shape HE _ d r b Hdo H1 Hbl ltac:(lia)) as (g & W & D).
  exists (be8 (2 ^ r) ++ skipn 8 bs), (with_length (2 ^ r) p), d. repeat split; try assumption.
  - rewrite (ds_trace _ _ _ _ _ _ D). now rewrite map_length, seq_length.
  - rewrite (ds_lde _ _ _ _ _ _ D). now rewrite map_length, seq_length.
Qed.
Print Assumptions C68_work_bounded_by_size_refuted.

(** The lists are built whatever else the proof says: no other check comes before them. *)
Theorem C68_domain_before_other_checks :
  forall (E : env) (mk : nat -> air E) fuel opts (p : stark_proof E), (fri_number_of_queries opts <= length (query_list p))%nat ->
  domain_new (mk (trace_length p)) = Panic -> verify E fuel mk opts p = Panic.
Proof.
  intros E mk fuel opts p Hq H. unfold verify. replace (length (query_list p) <? fri_number_of_queries opts)%nat with false by (symmetry; apply Nat.ltb_ge; exact Hq).
  now rewrite H.
Qed.
Print Assumptions C68_domain_before_other_checks.

(** Non-vacuity: with the options of the command line, a buffer of 552 bytes for every length up to 2^63. *)
Definition hollow_proof : stark_proof stark :=
  mk_stark_proof 4 [] (mk_frame [] 1) (repeat Byte.x00 32) 0 0 [] 0 (repeat (mk_fri_decommitment [] [0] [] [0]) 3) [] 7%N.
Lemma hollow_wf : stark_wf (e_codec stark) hollow_proof.
Proof.
  unfold stark_wf, hollow_proof. cbn [trace_length nonce lde_trace_merkle_roots composition_poly_root fri_layers_merkle_roots trace_ood_frame_evaluations fr_row_width query_list deep_poly_openings].
  split; [reflexivity|]. split; [reflexivity|]. split; [constructor|]. split; [reflexivity|]. split; [constructor|]. split; [reflexivity|].
  split; [|split; [constructor|]].
  - apply Forall_forall. intros d Hd. apply repeat_spec in Hd. subst d. cbn. split; [discriminate|]. split; constructor.
  - intros bs H. vm_compute in H. apply ok_inj in H. subst bs. reflexivity.
Qed.
Example C68_example (pi : public_inputs stark) r : (1 <= r < 64)%nat -> exists bs q d, length bs = 552%nat /\ stark_deserialize (e_codec stark) bs = Ok q /\
  (3 <= length (query_list q))%nat /\ domain_new (cairo_air pi default_test_options (trace_length q)) = Ok d /\
  length (trace_roots_of_unity d) = (2 ^ r)%nat /\ length (lde_roots_of_unity_coset d) = (2 ^ (r + 2))%nat.
Proof.
  intro Hr. destruct (stark_serialize (e_codec stark) hollow_proof) as [bs| |] eqn:Hs; [|vm_compute in Hs; discriminate|vm_compute in Hs; discriminate].
  assert (L : length bs = 552%nat) by (vm_compute in Hs; apply ok_inj in Hs; subst bs; reflexivity).
  destruct (C68_work_bounded_by_size_refuted stark (cairo_air pi default_test_options) default_test_options 2 32 hollow_proof bs (co_env _ _ stark_ok) stark_codec_ok
    (fun n => conj eq_refl eq_refl) eq_refl hollow_wf Hs ltac:(cbn; lia) r Hr) as (bs' & q & d & H1 & H2 & H3 & H4 & H5 & H6).
  - change (two_adicity stark) with 192%nat. lia.
  - exists bs', q, d. rewrite L in H1. repeat split; assumption.
Qed.
