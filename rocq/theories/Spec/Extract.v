(** What somebody who has seen all the hash evaluations knows about the values behind a root, whatever kind of tree it is the root of:
    follow the known pairs downwards, as the bits of the position say. *)
From Coq Require Import List Arith NArith.
From Verif.Base Require Import Outcome Bytes Field Poly.
From Verif.Model Require Import Codec Trace Merkle Air Verifier.
From Verif.Spec Require Import HashSpec FriTree Rounds Openings Oracle.
Import ListNotations.
Local Open Scope felt_scope.

Section Extract.
Context {E : env}.

(** The evaluations of the hash functions that were made: of single values, of rows of values, of pairs of hashes. *)
Record evaluations := mk_evaluations { ev_values : list E; ev_rows : list (list E); ev_pairs : list (commitment * commitment) }.

(** No two of a kind coincide. A value and a pair may well have the same hash. *)
Definition collision_free (K : evaluations) : Prop :=
  (forall x y, In x (ev_values K) -> In y (ev_values K) -> e_leaf E x = e_leaf E y -> x = y) /\
  (forall x y, In x (ev_rows K) -> In y (ev_rows K) -> e_leaves E x = e_leaves E y -> x = y) /\
  ~ node_clash (e_node E) (ev_pairs K).

(** The pair with a hash, and the node [k] levels below it on the way to [index]. *)
Definition pair_of (K : evaluations) (c : commitment) : option (commitment * commitment) :=
  find (fun x => list_byte_eqb (e_node E (fst x) (snd x)) c) (ev_pairs K).
Fixpoint below (K : evaluations) (k : nat) (c : commitment) (index : nat) : option commitment :=
  match k with
  | O => Some c
  | S k' => match pair_of K c with Some (l, r) => below K k' (if Nat.testbit index k' then r else l) index | None => None end
  end.

(** The value or row at that node. *)
Definition value_below (K : evaluations) (k : nat) (root : commitment) (index : nat) : option E :=
  match below K k root index with Some c => find (fun x => list_byte_eqb (e_leaf E x) c) (ev_values K) | None => None end.
Definition row_below (K : evaluations) (k : nat) (root : commitment) (index : nat) : option (list E) :=
  match below K k root index with Some c => find (fun x => list_byte_eqb (e_leaves E x) c) (ev_rows K) | None => None end.

(** The same on the points [h * w^i]; zero or empty where nothing is known. *)
Definition on_points {A} (default : A) (m : nat) (h w : E) (known : nat -> option A) (x : E) : A :=
  match find (fun i => feqb (h * fpow w i) x) (seq 0 (2 ^ m)) with
  | Some i => match known i with Some v => v | None => default end
  | None => default
  end.
Definition word_below (K : evaluations) (m : nat) (h w : E) (root : commitment) : E -> E := on_points 0 m h w (value_below K m root).
Definition words_below (K : evaluations) (a : air E) (m : nat) (h w : E) : words (E := E) :=
  let row := fun root => on_points [] m h w (row_below K m root) in
  let main := (trace_columns (a_context a) - a_n_aux a)%nat in
  mk_words
    (fun root1 root2 j x => if (j <? main)%nat then nth j (row root1 x) 0 else nth (j - main) (row root2 x) 0)
    (fun root x => nth 0 (row root x) 0) (fun root x => nth 1 (row root x) 0)
    (fun l root => word_below K (m - l) (fpow h (2 ^ l)) (fpow w (2 ^ l)) root).

(** An opening whose path has one entry per level and whose hash evaluations are known. *)
Definition known_path (K : evaluations) (m : nat) (path : list commitment) (index : nat) (c : commitment) : Prop :=
  length path = m /\ incl (path_calls (e_node E) path index c) (ev_pairs K).
Definition known_opening (K : evaluations) (m : nat) (path : list commitment) (index : nat) (x : E) : Prop :=
  known_path K m path index (e_leaf E x) /\ In x (ev_values K).
Definition known_row (K : evaluations) (m : nat) (path : list commitment) (index : nat) (xs : list E) : Prop :=
  known_path K m path index (e_leaves E xs) /\ In xs (ev_rows K).

(** The parts of an answer. *)
Fixpoint known_answers (K : evaluations) (m n iota : nat) (q : fri_decommitment E) : Prop :=
  match n with
  | O => True
  | S n' =>
      known_opening K m (hd [] (layers_auth_paths q)) iota (hd 0 (layers_evaluations q)) /\
      known_opening K m (hd [] (layers_auth_paths_sym q)) ((iota + 2 ^ m / 2) mod 2 ^ m) (hd 0 (layers_evaluations_sym q)) /\
      known_answers K (m - 1) n' iota (later_layers q)
  end.
Definition known_columns (K : evaluations) (a : air E) (p : stark_proof E) (m iota : nat) (o : deep_openings E) : Prop :=
  length (lde_trace_evaluations o) = trace_columns (a_context a) /\
  length (lde_trace_merkle_roots p) = (if (a_n_aux a =? 0)%nat then 1 else 2)%nat /\
  length (lde_trace_merkle_proofs o) = length (lde_trace_merkle_roots p) /\
  forall k path values, nth_error (lde_trace_merkle_proofs o) k = Some path -> nth_error (value_parts a (lde_trace_evaluations o)) k = Some values ->
    known_row K m path iota values.
Definition known_halves (K : evaluations) (m iota : nat) (o : deep_openings E) : Prop :=
  known_row K m (lde_composition_poly_proof o) iota [lde_composition_poly_even_evaluation o; lde_composition_poly_odd_evaluation o].

(** A proof with all its parts, openings as long as the trees should be deep, known evaluations, and columns that would pass the check that the
    verifier forgets. Nothing is said about what the roots are roots of. *)
Definition known_proof (K : evaluations) (p : stark_proof E) {a : air E} (c : challenges E a) (m : nat) : Prop :=
  forall j iota, nth_error (c_iotas E a c) j = Some iota ->
    exists q o, nth_error (query_list p) j = Some q /\ nth_error (deep_poly_openings p) j = Some o /\
      answer_shape (length (fri_layers_merkle_roots p)) q /\ known_answers K m (length (fri_layers_merkle_roots p)) iota q /\
      columns_checked a p iota o /\ known_columns K a p m iota o /\ known_halves K m iota o.
End Extract.
Arguments evaluations : clear implicits.
