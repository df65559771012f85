(** The size of a proof, in bytes. *)
From Coq Require Import Arith.

(** [w] bytes per field element, [rows] rows of [columns] values in the out-of-domain frame, [roots] trees for the columns, [2^r] rows of the
    trace, blowup [2^b], [queries] queries; hashes have 32 bytes and lengths 8. *)
Record proof_parameters := mk_parameters { ps_w : nat; ps_rows : nat; ps_columns : nat; ps_roots : nat; ps_r : nat; ps_b : nat; ps_queries : nat }.

(** Both sides of all layers: values and paths of lengths [r + b], [r + b - 1], ..., [b + 1]. *)
Definition answer_size (s : proof_parameters) : nat :=
  40 + ps_r s * (2 * ps_w s + 16 + 64 * ps_b s + 32 * (ps_r s + 1)).
(** The values of both halves and all columns, and a path into every tree. *)
Definition opening_size (s : proof_parameters) : nat :=
  24 + (2 + ps_columns s) * ps_w s + (1 + ps_roots s) * (8 + 32 * (ps_r s + ps_b s)).
Definition proof_size (s : proof_parameters) : nat :=
  120 + 32 * ps_roots s + (3 + ps_rows s * ps_columns s) * ps_w s + 32 * ps_r s
  + ps_queries s * (16 + answer_size s + opening_size s).
