(** The constructor of the Fibonacci RAP with its unsigned subtraction, and the prover and the verifier as they call it. In
    ExampleAirs.v the subtraction is truncated at zero. Source: src/starks/example/fibonacci_rap.rs:49-71, prover.rs:549,
    verifier.rs:569-579. *)
From Coq Require Import List Arith NArith.
From Verif.Base Require Import Outcome Field Poly.
From Verif.Model Require Import Codec Trace Air Options Prover Verifier ExampleAirs Release.
Import ListNotations.
Local Open Scope outcome_scope.

Section RapNew.
Context (m : build) (E : env).

(** fibonacci_rap.rs:56-64: the air with [e] exempted rows. *)
Definition rap_with (e : nat) (opts : proof_options) (n : nat) : air E :=
  let a := fibonacci_rap_air E 0 opts n in
  {| a_rap := a_rap a; a_context := mk_context opts 3 [1; 2] [0; 1; 2] [e; 1] 2 2; a_trace_length := a_trace_length a; a_build_aux := a_build_aux a;
     a_build_rap := a_build_rap a; a_n_aux := a_n_aux a; a_degree_bound := a_degree_bound a; a_transition := a_transition a; a_boundary := a_boundary a |}.

(** fibonacci_rap.rs:49-71: [3 + trace_length - pub_inputs.steps - 1]. The sum is assumed not to overflow. *)
Definition fibonacci_rap_new (steps : nat) (opts : proof_options) (n : nat) : outcome (air E) :=
  s <- usub_in m (3 + n) steps;;
  e <- usub_in m s 1;;
  Ok (rap_with e opts n).

(** prover.rs:532-766: the air is built first. *)
Definition prove_rap (fuel steps : nat) (opts : proof_options) (t : trace_table E) : outcome (stark_proof E) :=
  a <- fibonacci_rap_new steps opts (tt_n_rows t);;
  prove E fuel (fun _ => a) t.
(** verifier.rs:559-657: the air is built after the count of the queries. *)
Definition verify_rap (fuel steps : nat) (opts : proof_options) (p : stark_proof E) : outcome bool :=
  if (length (query_list p) <? fri_number_of_queries opts)%nat then Ok false else
  a <- fibonacci_rap_new steps opts (trace_length p);;
  verify_in m E fuel (fun _ => a) opts p.
End RapNew.
