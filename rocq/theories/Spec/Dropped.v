(** The accesses that the public memory takes the place of. *)
From Coq Require Import List Arith NArith Permutation.
From Verif.Base Require Import Outcome Field Poly.
From Verif.Model Require Import Codec PublicInputs Trace Air CairoDecode CairoTrace CairoAir.
From Verif.Spec Require Import CairoColumns.
Import ListNotations.
Local Open Scope felt_scope.

Section Dropped.
Context {C : cairo_env}.
(** The last accesses of the table, as many as there are public cells. *)
Definition dropped_accesses (pi : public_inputs C) (main : list (list C)) n : list (C * C) :=
  map (fun k => (access_addr main k, access_value main k)) (seq (4 * n - length (public_memory pi)) (length (public_memory pi))).
(** The addresses that the prover counts as public are those of the public memory, each once. *)
Definition public_addresses_agree (pi : public_inputs C) : Prop :=
  exists addrs, get_pub_memory_addrs pi = Ok addrs /\ NoDup addrs /\ Permutation addrs (map fst (public_memory pi)).
(** For the challenges [al] and [z] these accesses cannot be told from accesses to the cell (0, 0). *)
Definition pass_as_zero (cells : list (C * C)) (al z : C) : Prop :=
  fprod (map (fun e => z - (fst e + al * snd e)) cells) = fpow z (length cells).
End Dropped.
