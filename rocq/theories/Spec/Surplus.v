(** Which parts of a proof a verifier looks at when it checks [q] queries, and proofs that are parts of other proofs. *)
From Coq Require Import List Arith NArith.
From Verif.Base Require Import Outcome Bytes Field Poly.
From Verif.Model Require Import Codec Trace Merkle Air.
Import ListNotations.

Section Surplus.
Context {E : env}.

(** Everything but the answers to the queries; of the commitments to the trace the first two. *)
Definition header (p : stark_proof E) :=
  (trace_length p, nth_error (lde_trace_merkle_roots p) 0, nth_error (lde_trace_merkle_roots p) 1, trace_ood_frame_evaluations p, composition_poly_root p,
   (composition_poly_even_ood_evaluation p, composition_poly_odd_ood_evaluation p), fri_layers_merkle_roots p, fri_last_value p, nonce p).
(** The layers for which the answer to a query has all four parts. *)
Definition whole_layers (q : fri_decommitment E) :=
  combine (combine (combine (layers_auth_paths q) (layers_evaluations q)) (layers_auth_paths_sym q)) (layers_evaluations_sym q).
(** An opening but for the authentication paths of the trace. *)
Definition opened (o : deep_openings E) :=
  (lde_composition_poly_proof o, lde_composition_poly_even_evaluation o, lde_composition_poly_odd_evaluation o, lde_trace_evaluations o).

(** The two proofs differ only in the trace commitments from the third on, queries and openings from the [q]-th on, layers from the number of
    committed layers on, parts without counterparts in the other lists of the layer, and trace paths. *)
Record same_where_checked (q : nat) (p p' : stark_proof E) : Prop := {
  sw_header : header p = header p';
  sw_queries : map (fun u => (layers_evaluations u, firstn (length (fri_layers_merkle_roots p)) (whole_layers u))) (firstn q (query_list p)) =
               map (fun u => (layers_evaluations u, firstn (length (fri_layers_merkle_roots p)) (whole_layers u))) (firstn q (query_list p'));
  sw_openings : map opened (firstn q (deep_poly_openings p)) = map opened (firstn q (deep_poly_openings p'))
}.

(** [p'] has the header and the evaluations of [p], and of the openings, and the layers of each query, any number. *)
Record part_of (q : nat) (p p' : stark_proof E) : Prop := {
  po_header : header p = header p';
  po_queries : Forall2 (fun u u' => layers_evaluations u' = layers_evaluations u /\
      exists n, firstn (length (fri_layers_merkle_roots p)) (whole_layers u') = firstn n (whole_layers u)) (firstn q (query_list p)) (firstn q (query_list p'));
  po_openings : exists n, map opened (firstn q (deep_poly_openings p')) = firstn n (map opened (deep_poly_openings p))
}.

(** What is left of a proof without its openings and authentication paths. *)
Definition bare (p : stark_proof E) : stark_proof E :=
  mk_stark_proof (trace_length p) (lde_trace_merkle_roots p) (trace_ood_frame_evaluations p) (composition_poly_root p)
    (composition_poly_even_ood_evaluation p) (composition_poly_odd_ood_evaluation p) (fri_layers_merkle_roots p) (fri_last_value p)
    (map (fun u => mk_fri_decommitment [] [] [] (layers_evaluations u)) (query_list p)) [] (nonce p).
(** A proof with more queries. *)
Definition with_more_queries (us : list (fri_decommitment E)) (p : stark_proof E) : stark_proof E :=
  mk_stark_proof (trace_length p) (lde_trace_merkle_roots p) (trace_ood_frame_evaluations p) (composition_poly_root p)
    (composition_poly_even_ood_evaluation p) (composition_poly_odd_ood_evaluation p) (fri_layers_merkle_roots p) (fri_last_value p)
    (query_list p ++ us) (deep_poly_openings p) (nonce p).
End Surplus.
