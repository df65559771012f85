(** What the command line needs of the hash functions: 32-byte digests. *)
From Verif.Model Require Import Codec Air.
From Verif.Spec Require Import CodecSpec.

Record digest_hashes (E : env) : Prop := {
  dh_leaf : forall x, digest (e_leaf E x);
  dh_leaves : forall l, digest (e_leaves E l);
  dh_node : forall a b, digest (e_node E a b)
}.
