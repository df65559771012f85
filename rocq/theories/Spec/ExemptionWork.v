(** The size of what the verifier computes for the rows that are exempted from a constraint. *)
From Coq Require Import List Arith.
From Verif.Base Require Import Field Poly.
Import ListNotations.

(** [e] polynomials, of degrees 1 to [e]. *)
Definition of_degrees_up_to {K : field_ops} (e : nat) (polys : list (poly K)) : Prop :=
  length polys = e /\ forall i, (i < e)%nat -> length (nth i polys []) = (i + 2)%nat.
(** The number of their coefficients. *)
Definition coefficients {K : field_ops} (polys : list (poly K)) : nat := list_sum (map (@length K) polys).
