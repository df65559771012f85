(** Verifiers and provers that differ only in the number of queries and the grinding factor. *)
From Coq Require Import List Arith NArith.
From Verif.Base Require Import Outcome Bytes Field Poly.
From Verif.Model Require Import Codec Trace Merkle Air.
Import ListNotations.

(** The options [o] with [q] queries and grinding factor [g]. *)
Definition tuned (o : proof_options) (q : nat) (g : N) : proof_options := mk_options (blowup_factor o) q (coset_offset o) g.

Section Levels.
Context {E : env}.

(** The AIR [a] with [q] queries and grinding factor [g] in its options, all else unchanged. *)
Definition asking (q : nat) (g : N) (a : air E) : air E :=
  let c := a_context a in
  mk_air E (a_rap a) (mk_context (tuned (ctx_options c) q g) (trace_columns c) (transition_degrees c) (transition_offsets c) (transition_exemptions c)
      (num_transition_constraints c) (num_transition_exemptions c))
    (a_trace_length a) (a_build_aux a) (a_build_rap a) (a_n_aux a) (a_degree_bound a) (a_transition a) (a_boundary a).

(** AIRs that keep the options they are made with, and use the number of queries and the grinding factor for nothing else. *)
Definition keeps_options (mk : proof_options -> nat -> air E) :=
  forall o n, a_options (mk o n) = o /\ forall q g, mk (tuned o q g) n = asking q g (mk o n).

(** The first [q] answers and openings of a proof. *)
Definition cut (q : nat) (p : stark_proof E) : stark_proof E :=
  mk_stark_proof (trace_length p) (lde_trace_merkle_roots p) (trace_ood_frame_evaluations p) (composition_poly_root p)
    (composition_poly_even_ood_evaluation p) (composition_poly_odd_ood_evaluation p) (fri_layers_merkle_roots p) (fri_last_value p)
    (firstn q (query_list p)) (firstn q (deep_poly_openings p)) (nonce p).
(** A proof with [k] more answers, each of them the value [v] and nothing else. *)
Definition padded (k : nat) (v : E) (p : stark_proof E) : stark_proof E :=
  mk_stark_proof (trace_length p) (lde_trace_merkle_roots p) (trace_ood_frame_evaluations p) (composition_poly_root p)
    (composition_poly_even_ood_evaluation p) (composition_poly_odd_ood_evaluation p) (fri_layers_merkle_roots p) (fri_last_value p)
    (query_list p ++ repeat (mk_fri_decommitment [] [] [] [v]) k) (deep_poly_openings p) (nonce p).
End Levels.
