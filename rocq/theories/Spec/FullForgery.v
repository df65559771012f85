(** Proofs with all their parts, and how much an opened trace value weighs in the DEEP check. *)
From Coq Require Import List Arith NArith.
From Verif.Base Require Import Outcome Bytes Field Poly.
From Verif.Model Require Import Codec Trace Merkle Air Transcript Domain Verifier.
From Verif.Spec Require Import VerifierSpec FriTree.
Import ListNotations.
Local Open Scope felt_scope.

Section FullForgery.
Context {E : env}.

(** Every part of the proof has the size it has in an honest proof for [2^r] rows and blowup [2^b]: a frame with all rows
    and columns, one root per FRI layer, one answer and one opening per query, in each answer a value and a path of full
    length per layer and side, and in each opening paths of full length into the composition and all trace trees and a value per column. *)
Record complete_proof (a : air E) (p : stark_proof E) (r b : nat) : Prop := {
  cp_length : trace_length p = a_trace_length a;
  cp_frame_width : fr_row_width (trace_ood_frame_evaluations p) = trace_columns (a_context a);
  cp_frame_rows : length (fr_data (trace_ood_frame_evaluations p)) = (length (transition_offsets (a_context a)) * trace_columns (a_context a))%nat;
  cp_layers : length (fri_layers_merkle_roots p) = r;
  cp_queries : length (query_list p) = fri_number_of_queries (a_options a);
  cp_openings : length (deep_poly_openings p) = fri_number_of_queries (a_options a);
  cp_answers : forall q, In q (query_list p) -> answer_shape r q /\
    forall k, (k < r)%nat -> length (nth k (layers_auth_paths q) []) = (r + b - k)%nat /\ length (nth k (layers_auth_paths_sym q) []) = (r + b - k)%nat;
  cp_opening : forall o, In o (deep_poly_openings p) -> length (lde_composition_poly_proof o) = (r + b)%nat /\
    length (lde_trace_merkle_proofs o) = length (lde_trace_merkle_roots p) /\ Forall (fun path => length path = (r + b)%nat) (lde_trace_merkle_proofs o) /\
    length (lde_trace_evaluations o) = trace_columns (a_context a)
}.

(** The factor of the opened value of column [col] in the DEEP value at [x]. *)
Definition column_weight {a : air E} (c : challenges E a) (g : E) (rows col : nat) (x : E) : E :=
  fsum (map (fun rc : nat * E => finv (x - c_z E a c * fpow g (fst rc)) * snd rc)
    (combine (seq 0 rows) (nth col (c_trace_term_coeffs E a c) []))).

(** Some column has weight at the query points. *)
Definition columns_weigh {a : air E} (c : challenges E a) (g : E) (rows width : nat) (lde : list E) : Prop :=
  forall iota, In iota (c_iotas E a c) -> exists col, (col < width)%nat /\ column_weight c g rows col (nth iota lde 0) <> 0.
End FullForgery.
