(** What the theorems about the release profile speak about. *)
From Coq Require Import List Arith.
From Verif.Base Require Import Outcome Bytes Field Poly.
From Verif.Model Require Import Codec PublicInputs Trace Merkle Air Transcript Domain Prover Verifier CairoDecode CairoTrace CairoAir CairoRunner.
Import ListNotations.
Local Open Scope felt_scope.

Section Verifier.
Context {E : env}.
(** No subtraction of the verifier goes below zero: the first three conditions are about the statement, the last about the proof. *)
Definition no_underflow (a : air E) (p : stark_proof E) (order : nat) : Prop :=
  (a_trace_length a <= a_degree_bound a)%nat /\
  (forall deg, In deg (transition_degrees (a_context a)) -> 1 <= deg /\ a_trace_length a * (deg - 1) <= a_degree_bound a)%nat /\
  (a_n_aux a <= trace_columns (a_context a))%nat /\
  (length (fri_layers_merkle_roots p) <= S order)%nat.

End Verifier.

Section Cairo.
Context {C : cairo_env}.
(** The same public inputs with another number of steps. *)
Definition with_steps (k : nat) (pi : public_inputs C) : public_inputs C :=
  mk_public_inputs (pc_init pi) (ap_init pi) (fp_init pi) (pc_final pi) (ap_final pi) (range_check_min pi) (range_check_max pi)
    (memory_segments pi) (public_memory pi) k.
End Cairo.
