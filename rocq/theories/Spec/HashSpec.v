(** The hash evaluations behind a Merkle opening, and what counts as two of them coinciding. For a real hash function
    collisions exist but are hard to find: the statements about openings therefore name the evaluations involved. *)
From Coq Require Import List Arith.
From Verif.Base Require Import Outcome Bytes.
From Verif.Model Require Import Codec Merkle.
Import ListNotations.

Section HashSpec.
Context (node : commitment -> commitment -> commitment).

(** The pairs that an opening hashes, from the leaf to the root. *)
Fixpoint path_calls (path : list commitment) (index : nat) (h : commitment) : list (commitment * commitment) :=
  match path with
  | [] => []
  | s :: path' =>
      let x := if Nat.even index then (h, s) else (s, h) in
      x :: path_calls path' (Nat.div2 index) (node (fst x) (snd x))
  end.

(** The pairs that a tree hashes, level by level. *)
Fixpoint level_calls (l : list commitment) : list (commitment * commitment) :=
  match l with a :: b :: r => (a, b) :: level_calls r | _ => [] end.
Fixpoint tree_calls (k : nat) (l : list commitment) : list (commitment * commitment) :=
  match k with O => [] | S k' => level_calls l ++ tree_calls k' (pair_up node l) end.

(** Two different pairs of [calls] with one hash. *)
Definition node_clash (calls : list (commitment * commitment)) : Prop :=
  exists x y, In x calls /\ In y calls /\ x <> y /\ node (fst x) (snd x) = node (fst y) (snd y).

(** A pair of [calls] whose hash is also one of the [leaves]. *)
Definition leaf_clash (calls : list (commitment * commitment)) (leaves : list commitment) : Prop :=
  exists x, In x calls /\ In (node (fst x) (snd x)) leaves.
End HashSpec.

(** Hash functions without any coincidence: a premise only of the statements that show how the other ones are met. *)
Record perfect_hash {A : Type} (leaf : A -> commitment) (node : commitment -> commitment -> commitment) : Prop := {
  ph_node : forall a b c d, node a b = node c d -> a = c /\ b = d;
  ph_leaf : forall x y, leaf x = leaf y -> x = y;
  ph_apart : forall x a b, leaf x <> node a b
}.
