(** C75: the feature [parallel] and debug assertions do not change what is proved and what is accepted. *)
From Coq Require Import List Arith Lia Bool NArith ZArith.
From Verif.Base Require Import Outcome Bytes Field Poly Zp.
From Verif.Model Require Import Codec PublicInputs Trace Merkle Air Transcript Domain Options Fri Evaluator Prover Verifier Debug ExampleAirs CairoDecode CairoTrace CairoAir CairoRunner Features.
From Verif.Spec Require Import AirSpec FeatureSpec CairoSpec CairoColumns ExampleSpec ProvingSpec CairoRun.
From Verif.Proofs Require Import OutcomeFacts FieldFacts PolyFacts FFTFacts TraceFacts DomainFacts CpuFacts CairoAirFacts CairoAdmissible Completeness HonestRun FeatureFacts.
From Verif.Examples Require Import Toy.
Import ListNotations.
Local Open Scope felt_scope.

(** ** The two loops over the evaluation domain *)

(** On every domain the code builds, the iterator that starts again at its end gives every row the value that the indexed
    version looks up: the two compiled loops return the same list or stop in the same way. *)
Theorem C75_parallel_evaluator :
  forall (E : env) (a : air E) lde_trace d tcs bco rap, domain_new a = Ok d ->
  evaluate_constraints_in (mk_build false false) a lde_trace d tcs bco rap =
  evaluate_constraints_in (mk_build true false) a lde_trace d tcs bco rap.
Proof. intros E a lt d tcs bco rap Hd. exact (cycled_is_indexed a lt d tcs bco rap Hd). Qed.
Print Assumptions C75_parallel_evaluator.

(** ** Proving *)

(** Without debug assertions both builds are the prover of all other theorems. *)
Theorem C75_release_builds :
  forall (E : env) bld asserts fuel (mk : nat -> air E) mt, b_debug bld = false ->
  prove_in bld asserts fuel mk mt = prove E fuel mk mt.
Proof. intros E bld asserts fuel mk mt. exact (prove_in_release bld asserts fuel mk mt). Qed.
Print Assumptions C75_release_builds.

(** Whatever the build, a returned proof is the proof of every other release build. *)
Theorem C75_builds_agree :
  forall (E : env) bld asserts fuel (mk : nat -> air E) mt p,
  prove_in bld asserts fuel mk mt = Ok p -> prove E fuel mk mt = Ok p.
Proof. intros E bld asserts fuel mk mt p. exact (prove_in_agrees bld asserts fuel mk mt p). Qed.
Print Assumptions C75_builds_agree.

(** A debug build returns the proof too when tables and declarations fit together. No constraint needs to hold: the verdict
    of the validation is dropped, so a false statement is proved by a debug build exactly as by a release build. *)
Theorem C75_debug_build_proves :
  forall (E : env) bld asserts fuel (mk : nat -> air E) mt r b k p, env_ok E ->
  let a := mk (tt_n_rows mt) in
  admissible a r b k -> rectangular_trace a r mt -> boundary_in_table a r mt -> constraints_declared a ->
  asserts (tt_n_rows mt) = true ->
  (prove_in bld asserts fuel mk mt = Ok p <-> prove E fuel mk mt = Ok p).
Proof.
  intros E bld asserts fuel mk mt r b k p HE a A H1 H2 H3 H4. split.
  - exact (prove_in_agrees bld asserts fuel mk mt p).
  - exact (prove_in_complete HE bld asserts fuel mk mt r b k p A H1 H2 H3 H4).
Qed.
Print Assumptions C75_debug_build_proves.

(** ** Cairo *)

Lemma is_power_of_two_spec n : is_power_of_two n = true <-> exists r, n = (2 ^ r)%nat.
Proof.
  unfold is_power_of_two. rewrite andb_true_iff, Nat.ltb_lt, Nat.eqb_eq. split.
  - intros [_ H]. now exists (Nat.log2 n).
  - intros [r ->]. split; [pose proof (Nat.pow_nonzero 2 r); lia|]. now rewrite Nat.log2_pow2 by lia.
Qed.

(** The two assertions on lengths in [CairoAIR::new] always hold; the assertion on the trace length is the only one. *)
Theorem C75_cairo_asserts :
  forall (C : cairo_env) (pi : public_inputs C) opts n, cairo_asserts pi opts n = true <-> exists r, n = (2 ^ r)%nat.
Proof.
  intros C pi opts n. unfold cairo_asserts. rewrite !andb_true_iff, is_power_of_two_spec.
  unfold cairo_context. destruct (has_rc_builtin pi); cbn; tauto.
Qed.
Print Assumptions C75_cairo_asserts.

Lemma cairo_constraints_declared {C : cairo_env} (pi : public_inputs C) opts n : constraints_declared (cairo_air pi opts n).
Proof.
  intros fr rap evals H. cbn [cairo_air a_transition a_context] in *. unfold cairo_transition in H.
  apply obind_ok in H. destruct H as (curr & _ & H). apply obind_ok in H. destruct H as (next & _ & H).
  destruct (_ <=? _)%nat in H; [discriminate|]. apply ok_inj in H. subst evals. rewrite constraints_length.
  unfold cairo_context. destruct (has_rc_builtin pi); cbn; lia.
Qed.

(** Every build proves the honest runs that the release build proves, with the same proof. *)
Theorem C75_cairo_builds :
  forall (C : cairo_env) p (m : @cairo_memory C) raw size rc out t pi opts r b bld fuel proof, cairo_ok C p ->
  provable_run m raw size rc out -> generate_prover_args raw m size rc out = Ok (t, pi) -> tt_n_rows t = (2 ^ r)%nat ->
  usable_options C opts r b ->
  (generate_cairo_proof_in bld fuel t pi opts = Ok proof <-> generate_cairo_proof fuel t pi opts = Ok proof).
Proof.
  intros C p m raw size rc out t pi opts r b bld fuel proof HC HP Hg Hn Hu. pose proof (co_env _ _ HC) as HE.
  destruct (honest_full HC m raw size rc out HP) as (t' & pi' & r' & Hg' & Hn' & _ & _ & _ & Hv). rewrite Hg in Hg'. apply ok_inj in Hg'. injection Hg' as <- <-.
  rewrite Hn in Hn'. apply Nat.pow_inj_r in Hn'; [|lia]. subst r'.
  pose proof (cairo_admissible HE pi opts r b Hu) as A. destruct (valid_trace_shapes _ _ _ (Hv opts)) as [V1 V2].
  unfold generate_cairo_proof_in, generate_cairo_proof.
  pose proof (C75_debug_build_proves C bld (cairo_asserts pi opts) fuel (cairo_air pi opts) t r b 2 proof HE) as H. cbv zeta in H. rewrite Hn in H.
  apply H; [exact A|exact V1|exact V2|apply cairo_constraints_declared|]. apply C75_cairo_asserts. now exists r.
Qed.
Print Assumptions C75_cairo_builds.

(** ** Verifying *)

(** Whatever the build, a returned verdict is the verdict of the release build. *)
Theorem C75_verdicts_agree :
  forall (E : env) bld asserts fuel (mk : nat -> air E) opts p v,
  verify_in_build bld asserts fuel mk opts p = Ok v -> verify E fuel mk opts p = Ok v.
Proof. intros E bld asserts fuel mk opts p v. exact (verify_in_build_agrees bld asserts fuel mk opts p v). Qed.
Print Assumptions C75_verdicts_agree.

(** The builds differ on Cairo proofs exactly when a debug build is given a proof with enough queries that claims a length
    which is no power of two: the assertion is then a panic controlled by the sender of the proof. *)
Theorem C75_cairo_verifier_builds :
  forall (C : cairo_env) bld fuel (p : stark_proof C) (pi : public_inputs C) opts,
  (((length (query_list p) < fri_number_of_queries opts)%nat \/ b_debug bld = false \/ exists r, trace_length p = (2 ^ r)%nat) ->
   verify_cairo_proof_build bld fuel p pi opts = verify_cairo_proof fuel p pi opts) /\
  ((fri_number_of_queries opts <= length (query_list p))%nat -> b_debug bld = true -> ~ (exists r, trace_length p = (2 ^ r)%nat) ->
   verify_cairo_proof_build bld fuel p pi opts = Panic).
Proof.
  intros C bld fuel p pi opts. unfold verify_cairo_proof_build, verify_cairo_proof. split.
  - intros [H|[H|H]].
    + unfold verify_in_build, verify. apply Nat.ltb_lt in H. now rewrite H.
    + apply verify_in_build_eq. now left.
    + apply verify_in_build_eq. right. now apply C75_cairo_asserts.
  - intros Hq Hb Hr. unfold verify_in_build, debug_assert. rewrite (proj2 (Nat.ltb_ge _ _) Hq), Hb.
    destruct (cairo_asserts pi opts (trace_length p)) eqn:Ha; [|reflexivity]. exfalso. apply Hr. now apply C75_cairo_asserts in Ha.
Qed.
Print Assumptions C75_cairo_verifier_builds.

(** ** Debug builds stop where release builds prove *)

(** The Fibonacci air with its first boundary constraint written at row [n] instead of row 0, which is the same point of the
    domain: the release prover proves it and the verifier accepts, the debug prover reads row [n] of the table and panics. *)
Definition wrapped_air (n : nat) : air toy :=
  let a := fibonacci_air toy (f97 1) (f97 1) (mk_options 2 2 5 1) n in
  {| a_rap := a_rap a; a_context := a_context a; a_trace_length := n; a_build_aux := a_build_aux a; a_build_rap := a_build_rap a;
     a_n_aux := a_n_aux a; a_degree_bound := a_degree_bound a; a_transition := a_transition a;
     a_boundary := fun _ => Ok [mk_bc 0%nat n (f97 1); mk_bc 0%nat 1%nat (f97 1)] |}.
Definition build_trace : trace_table toy := mk_trace (map f97 [1; 1; 2; 3]%Z) 1.
Theorem C75_debug_build_refuted :
  ~ (forall bld mt, is_ok (prove toy 20 wrapped_air mt) = true ->
       is_ok (prove_in bld (fun _ => true) 20 wrapped_air mt) = true).
Proof.
  intro H. assert (H1 : is_ok (prove toy 20 wrapped_air build_trace) = true) by (vm_compute; reflexivity).
  apply (H (mk_build false true)) in H1. revert H1. vm_compute. discriminate.
Qed.
Print Assumptions C75_debug_build_refuted.

(** Non-vacuity: the four builds prove the Fibonacci trace, and a wrong trace as well, with one proof each. *)
Definition agreeing_builds (cells : list Z) : list bool :=
  let mk := fibonacci_air toy (f97 1) (f97 1) (mk_options 2 2 5 1) in
  let mt : trace_table toy := mk_trace (map f97 cells) 1 in
  map (fun bld => is_ok (prove_in bld (fun _ => true) 20 mk mt))
      [mk_build false false; mk_build true false; mk_build false true; mk_build true true].
Example C75_example : agreeing_builds [1; 1; 2; 3]%Z = [true; true; true; true] /\ agreeing_builds [1; 1; 2; 4]%Z = [true; true; true; true].
Proof. split; vm_compute; reflexivity. Qed.
