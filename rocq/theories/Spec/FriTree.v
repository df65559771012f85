(** The FRI protocol seen from outside: committed words, the answers to the verifier's queries, and a tree of
    continuations in which every committed word is continued for two challenges. *)
From Coq Require Import List Arith NArith.
From Verif.Base Require Import Outcome Bytes Field Poly.
From Verif.Model Require Import Codec Trace Merkle Air Verifier.
From Verif.Spec Require Import VerifierSpec HashSpec LowDegree.
Import ListNotations.
Local Open Scope felt_scope.

Section FriTree.
Context {E : env}.

(** The hashed values of a word on the [2^m] points [h * w^i], and their root. *)
Definition word_leaves (m : nat) (h w : E) (f : E -> E) : list commitment :=
  map (fun i => e_leaf E (f (h * fpow w i))) (seq 0 (2 ^ m)).
Definition word_commit (m : nat) (h w : E) (f : E -> E) : commitment := mt_root (e_node E) m (word_leaves m h w f).

(** An opening of that root to [x] at [index] in which two evaluated hashes coincide. *)
Definition opening_clash (m : nat) (h w : E) (f : E -> E) (path : list commitment) (index : nat) (x : E) : Prop :=
  let calls := path_calls (e_node E) path index (e_leaf E x) ++ tree_calls (e_node E) m (word_leaves m h w f) in
  node_clash (e_node E) calls \/ leaf_clash (e_node E) calls (e_leaf E x :: word_leaves m h w f) \/
  f (h * fpow w index) <> x /\ e_leaf E (f (h * fpow w index)) = e_leaf E x.

(** The roots of one word per layer, each layer on the squares of the points of the one before. *)
Fixpoint layer_roots (m : nat) (h w : E) (fs : list (E -> E)) : list commitment :=
  match fs with [] => [] | f :: fs' => word_commit m h w f :: layer_roots (m - 1) (h * h) (w * w) fs' end.

(** Answers with all their parts. *)
Definition answer_shape (k : nat) (q : fri_decommitment E) : Prop :=
  length (layers_auth_paths q) = k /\ length (layers_evaluations q) = k /\
  length (layers_auth_paths_sym q) = k /\ length (layers_evaluations_sym q) = k.

Definition later_layers (q : fri_decommitment E) : fri_decommitment E :=
  mk_fri_decommitment (tl (layers_auth_paths_sym q)) (tl (layers_evaluations_sym q)) (tl (layers_auth_paths q)) (tl (layers_evaluations q)).

Fixpoint clash_free (m : nat) (h w : E) (fs : list (E -> E)) (iota : nat) (q : fri_decommitment E) : Prop :=
  match fs with
  | [] => True
  | f :: fs' =>
      ~ opening_clash m h w f (hd [] (layers_auth_paths q)) iota (hd 0 (layers_evaluations q)) /\
      ~ opening_clash m h w f (hd [] (layers_auth_paths_sym q)) ((iota + 2 ^ m / 2) mod 2 ^ m) (hd 0 (layers_evaluations_sym q)) /\
      clash_free (m - 1) (h * h) (w * w) fs' iota (later_layers q)
  end.

(** An accepted answer at [iota]. *)
Definition answers (m : nat) (h w : E) (fs : list (E -> E)) (zetas : list E) (last : E) (iota : nat) (q : fri_decommitment E) : Prop :=
  answer_shape (length fs) q /\ clash_free m h w fs iota q /\
  fri_query_consistent m (layer_roots m h w fs) zetas last iota (h * fpow w iota) q.

(** Words, challenges and last value fold into each other at the point [x]. *)
Fixpoint folds_at (fs : list (E -> E)) (zetas : list E) (last : E) (x : E) : Prop :=
  match fs, zetas with
  | f :: fs', zeta :: zetas' =>
      fold_value zeta f x = match fs' with f' :: _ => f' (x * x) | [] => last end /\ folds_at fs' zetas' last (x * x)
  | _, _ => True
  end.

(** A word continued for two challenges in every round. *)
Inductive fri_tree := fri_last (v : E) | fri_round (f : E -> E) (zeta zeta' : E) (t t' : fri_tree).
Definition first_word (t : fri_tree) : E -> E := match t with fri_last v => fun _ => v | fri_round f _ _ _ _ => f end.
Fixpoint rounds (k : nat) (t : fri_tree) : Prop :=
  match t, k with
  | fri_last _, O => True
  | fri_round _ zeta zeta' t1 t2, S k' => zeta <> zeta' /\ rounds k' t1 /\ rounds k' t2
  | _, _ => False
  end.
(** Its branches are the runs of the protocol. *)
Fixpoint branches (t : fri_tree) : list (list (E -> E) * list E * E) :=
  match t with
  | fri_last v => [([], [], v)]
  | fri_round f zeta zeta' t1 t2 =>
      map (fun '(fs, zs, v) => (f :: fs, zeta :: zs, v)) (branches t1) ++
      map (fun '(fs, zs, v) => (f :: fs, zeta' :: zs, v)) (branches t2)
  end.

(** Every run is answered at every point. *)
Definition all_answered (m : nat) (h w : E) (t : fri_tree) : Prop :=
  forall fs zs v iota, In (fs, zs, v) (branches t) -> (iota < 2 ^ m)%nat -> exists q, answers m h w fs zs v iota q.
End FriTree.
Arguments fri_tree : clear implicits.
