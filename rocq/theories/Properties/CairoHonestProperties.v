(** C53: proofs of valid Cairo runs verify. *)
From Coq Require Import List Arith NArith ZArith Bool Lia.
From Verif.Base Require Import Outcome Field Poly.
From Verif.Model Require Import Codec PublicInputs Trace Air Options Prover Verifier CairoDecode CairoTrace CairoAir CairoRunner.
From Verif.Spec Require Import CairoSpec AirSpec ExampleSpec CairoRun.
From Verif.Proofs Require Import FFTFacts Completeness CairoAdmissible HonestRun StarkFieldFacts.
From Verif.Examples Require Import Toy Stark252 MiniRun RunExamples.
Import ListNotations.
Local Open Scope felt_scope.

(** From every provable run the prover's arguments can be built, and whatever proof the prover returns for them, the verifier accepts. *)
Theorem C53_cairo_end_to_end :
  forall (C : cairo_env) p (m : @cairo_memory C) raw size rc out, cairo_ok C p -> provable_run m raw size rc out ->
  exists t pi r, generate_prover_args raw m size rc out = Ok (t, pi) /\ tt_n_rows t = (2 ^ r)%nat /\ (1 <= r)%nat /\
  forall opts b fuel proof, usable_options C opts r b ->
    generate_cairo_proof fuel t pi opts = Ok proof -> verify_cairo_proof fuel proof pi opts = Ok true.
Proof.
  intros C p m raw size rc out HC HP. destruct (honest_satisfies HC m raw size rc out HP) as (t & pi & r & Hg & Hn & Hr & Hv).
  exists t, pi, r. split; [exact Hg|]. split; [exact Hn|]. split; [exact Hr|]. intros opts b fuel proof Hu Hp.
  pose proof (completeness (co_env _ _ HC) (cairo_air pi opts) t r b 2 fuel proof) as K. cbv zeta in K. rewrite Hn in K.
  exact (K (cairo_admissible (co_env _ _ HC) pi opts r b Hu) eq_refl (Hv opts) Hp).
Qed.
Print Assumptions C53_cairo_end_to_end.

(** In the Stark field, with the options the command line uses, no premise about the coset is left: 3 is not a square. *)
Theorem C53_default_options :
  forall (C : cairo_env) (m : @cairo_memory C) raw size rc out, cairo_ok C (Z.to_N stark_p) -> two_adicity C = 192%nat ->
  provable_run m raw size rc out ->
  exists t pi, generate_prover_args raw m size rc out = Ok (t, pi) /\
  ((Nat.log2 (tt_n_rows t) < 190)%nat -> forall fuel proof, generate_cairo_proof fuel t pi default_test_options = Ok proof ->
   verify_cairo_proof fuel proof pi default_test_options = Ok true).
Proof.
  intros C m raw size rc out HC HT HP. destruct (C53_cairo_end_to_end C _ m raw size rc out HC HP) as (t & pi & r & Hg & Hn & Hr & K).
  exists t, pi. split; [exact Hg|]. rewrite Hn, Nat.log2_pow2 by lia. intros Hlt fuel proof. apply (K default_test_options 2%nat).
  apply (default_coset_usable HC); try assumption; try reflexivity; lia.
Qed.
Print Assumptions C53_default_options.

(** Non-vacuity: the premises hold of the example runs, in the Stark field. *)
Example C53_example : exists t pi, generate_prover_args (C := stark) mini_regs mini_memory 5 None None = Ok (t, pi).
Proof. destruct (C53_default_options stark mini_memory mini_regs 5 None None stark_ok eq_refl mini_provable) as (t & pi & H & _). eauto. Qed.
