(** Machine integers as byte strings ([to_be_bytes], [from_be_bytes], [to_le_bytes], ...). *)
From Coq Require Import List NArith.
From Coq.Strings Require Import Byte.
Import ListNotations.
Local Open Scope N_scope.

Notation byte := Coq.Init.Byte.byte.

Definition bval (b : byte) : N := Byte.to_N b.

(** [n as u8]. *)
Definition byte_of (n : N) : byte :=
  match Byte.of_N (n mod 256) with Some b => b | None => x00 end.

(** [k]-byte little-endian encoding of [n mod 256^k]. *)
Fixpoint le_bytes (k : nat) (n : N) : list byte :=
  match k with O => [] | S k' => byte_of n :: le_bytes k' (n / 256) end.

Fixpoint le_val (bs : list byte) : N :=
  match bs with [] => 0 | b :: bs' => bval b + 256 * le_val bs' end.

Definition be_bytes (k : nat) (n : N) : list byte := rev (le_bytes k n).
Definition be_val (bs : list byte) : N := le_val (rev bs).

(** [2^64], the number of [usize]/[u64] values (64-bit targets). *)
Definition two64 : N := 18446744073709551616.

(** [usize::to_be_bytes] of a length. *)
Definition be8 (n : nat) : list byte := be_bytes 8 (N.of_nat n).
