(** Merkle trees of lambdaworks-crypto (external), as used through src/starks/config.rs, in
    executable reference form over arbitrary hash functions. *)
From Coq Require Import List Arith.
From Verif.Base Require Import Outcome Bytes Poly.
From Verif.Model Require Import Codec.
Import ListNotations.
Local Open Scope outcome_scope.

Section Merkle.
Context (node : commitment -> commitment -> commitment). (* IsMerkleTreeBackend::hash_new_parent *)

(** [complete_until_power_of_two]: repeats the last leaf. *)
Definition complete_pow2 (l : list commitment) : list commitment :=
  l ++ repeat (last l []) (next_pow2 (length l) - length l).

(** One level up. *)
Fixpoint pair_up (l : list commitment) : list commitment :=
  match l with a :: b :: r => node a b :: pair_up r | _ => [] end.

(** Root of a complete tree with [2^k] leaves. *)
Fixpoint mt_root (k : nat) (l : list commitment) : commitment :=
  match k with O => hd [] l | S k' => mt_root k' (pair_up l) end.

(** Sibling index: [pos ^ 1]. *)
Definition sibling (pos : nat) : nat := if Nat.even pos then S pos else pred pos.

(** Authentication path of leaf [pos], bottom up. *)
Fixpoint mt_path (k : nat) (l : list commitment) (pos : nat) : list commitment :=
  match k with O => [] | S k' => nth (sibling pos) l [] :: mt_path k' (pair_up l) (Nat.div2 pos) end.

(** A built tree: its padded hashed leaves. *)
Record merkle_tree := mk_tree { tree_leaves : list commitment }.

(** [MerkleTree::build] on hashed leaves; with no leaves the library panics. *)
Definition merkle_build (hashed : list commitment) : outcome merkle_tree :=
  match hashed with [] => Panic | _ => Ok (mk_tree (complete_pow2 hashed)) end.

Definition tree_depth (t : merkle_tree) : nat := Nat.log2 (length (tree_leaves t)).
(** [tree.root] *)
Definition tree_root (t : merkle_tree) : commitment := mt_root (tree_depth t) (tree_leaves t).
(** [MerkleTree::get_proof_by_pos] *)
Definition tree_path (t : merkle_tree) (pos : nat) : option (list commitment) :=
  if pos <? length (tree_leaves t) then Some (mt_path (tree_depth t) (tree_leaves t) pos) else None.

(** [Proof::verify]: the index is consumed bit by bit along the path. *)
Fixpoint fold_path (path : list commitment) (index : nat) (h : commitment) : commitment :=
  match path with
  | [] => h
  | s :: path' => fold_path path' (Nat.div2 index) (if Nat.even index then node h s else node s h)
  end.

Definition list_byte_eqb (a b : list byte) : bool := if list_eq_dec Byte.byte_eq_dec a b then true else false.

Definition path_verify (path : list commitment) (root : commitment) (index : nat) (leaf : commitment) : bool :=
  list_byte_eqb root (fold_path path index leaf).
End Merkle.
