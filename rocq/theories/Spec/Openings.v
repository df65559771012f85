(** Openings of rows of words: what the roots of the columns and of the composition polynomial commit to. *)
From Coq Require Import List Arith NArith.
From Verif.Base Require Import Outcome Bytes Field Poly.
From Verif.Model Require Import Codec Trace Merkle Air Transcript Domain Options Verifier.
From Verif.Spec Require Import VerifierSpec HashSpec LowDegree FriTree StarkTree Proximity Rounds.
Import ListNotations.
Local Open Scope felt_scope.

Section Openings.
Context {E : env}.

(** The hashed rows of a list of words on the [2^m] points [h * w^i], and their root. *)
Definition row_leaves (m : nat) (h w : E) (f : E -> list E) : list commitment :=
  map (fun i => e_leaves E (f (h * fpow w i))) (seq 0 (2 ^ m)).
Definition row_commit (m : nat) (h w : E) (f : E -> list E) : commitment := mt_root (e_node E) m (row_leaves m h w f).

(** An opening of that root to [xs] at [index] in which two evaluated hashes coincide. *)
Definition row_clash (m : nat) (h w : E) (f : E -> list E) (path : list commitment) (index : nat) (xs : list E) : Prop :=
  let calls := path_calls (e_node E) path index (e_leaves E xs) ++ tree_calls (e_node E) m (row_leaves m h w f) in
  node_clash (e_node E) calls \/ leaf_clash (e_node E) calls (e_leaves E xs :: row_leaves m h w f) \/
  f (h * fpow w index) <> xs /\ e_leaves E (f (h * fpow w index)) = e_leaves E xs.

(** The columns of the two phases, each committed with a root of its own. *)
Definition column_parts (a : air E) (cols : nat -> E -> E) : list (E -> list E) :=
  let main := (trace_columns (a_context a) - a_n_aux a)%nat in
  (fun x => map (fun j => cols j x) (seq 0 main)) ::
  if (a_n_aux a =? 0)%nat then [] else [fun x => map (fun j => cols j x) (seq main (a_n_aux a))].
Definition value_parts (a : air E) (values : list E) : list (list E) :=
  let main := (trace_columns (a_context a) - a_n_aux a)%nat in [firstn main values; skipn main values].

(** The check of the openings of the columns that the verifier computes and then forgets. *)
Definition columns_checked (a : air E) (p : stark_proof E) (iota : nat) (o : deep_openings E) : Prop :=
  forall k root path values, nth_error (lde_trace_merkle_roots p) k = Some root -> nth_error (lde_trace_merkle_proofs o) k = Some path ->
    nth_error (value_parts a (lde_trace_evaluations o)) k = Some values -> opens_to (E := E) path root iota (e_leaves E values).

(** The opening has all its parts, and no hashes coincide in it. *)
Definition columns_complete (a : air E) (cols : nat -> E -> E) (m : nat) (h w : E) (iota : nat) (o : deep_openings E) : Prop :=
  length (lde_trace_evaluations o) = trace_columns (a_context a) /\
  length (lde_trace_merkle_proofs o) = length (column_parts a cols) /\
  forall k f path values, nth_error (column_parts a cols) k = Some f -> nth_error (lde_trace_merkle_proofs o) k = Some path ->
    nth_error (value_parts a (lde_trace_evaluations o)) k = Some values -> ~ row_clash m h w f path iota values.
Definition halves_complete (even odd : E -> E) (m : nat) (h w : E) (iota : nat) (o : deep_openings E) : Prop :=
  ~ row_clash m h w (fun x => [even x; odd x]) (lde_composition_poly_proof o) iota
      [lde_composition_poly_even_evaluation o; lde_composition_poly_odd_evaluation o].

(** An accepted proof whose roots commit to the words, as in [accepted_run] but without the assumption that the openings are
    truthful: instead the check that the verifier forgets succeeds, the answers are complete and no hashes coincide in them. *)
Definition answers_checked (p : stark_proof E) {a : air E} (c : challenges E a) (m : nat) (h w : E)
    (cols : nat -> E -> E) (even odd : E -> E) (words : list (E -> E)) : Prop :=
  forall j iota, nth_error (c_iotas E a c) j = Some iota ->
    exists q o, nth_error (query_list p) j = Some q /\ nth_error (deep_poly_openings p) j = Some o /\
      answer_shape (length words) q /\ clash_free m h w words iota q /\
      columns_checked a p iota o /\ columns_complete a cols m h w iota o /\ halves_complete even odd m h w iota o.
Record committed_run (fuel : nat) (mk : nat -> air E) (opts : proof_options) (p : stark_proof E) (r b k e : nat) (d : domain E)
    (c : challenges E (mk (trace_length p))) (w : E) (rows : list (list E)) (cols : nat -> E -> E) (even odd : E -> E) (words : list (E -> E)) : Prop := {
  cr_accepted : verify E fuel mk opts p = Ok true;
  cr_domain : domain_new (mk (trace_length p)) = Ok d;
  cr_challenges : exists t, step_1 E fuel (mk (trace_length p)) p d tr_new = Ok (c, t);
  cr_root : primitive_root (r + b) = Some w;
  cr_frame : trace_ood_frame_evaluations p = mk_frame (concat rows) (trace_columns (a_context (mk (trace_length p))));
  cr_rows : length rows = k;
  cr_widths : Forall (fun row => length row = trace_columns (a_context (mk (trace_length p)))) rows;
  cr_rounds : length words = r;
  cr_layers : fri_layers_merkle_roots p = layer_roots (r + b) (d_coset_offset d) w words;
  cr_columns : lde_trace_merkle_roots p = map (row_commit (r + b) (d_coset_offset d) w) (column_parts (mk (trace_length p)) cols);
  cr_halves : composition_poly_root p = row_commit (r + b) (d_coset_offset d) w (fun x => [even x; odd x]);
  cr_answers : answers_checked p c (r + b) (d_coset_offset d) w cols even odd words;
  cr_unexceptional : unexceptional (mk (trace_length p)) d r b e w p c rows cols even odd words
}.
End Openings.
