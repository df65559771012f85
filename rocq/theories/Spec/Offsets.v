(** The instruction offsets in the execution columns and the range they have to be in. *)
From Coq Require Import List Arith NArith.
From Verif.Base Require Import Outcome Field Poly.
From Verif.Model Require Import Codec PublicInputs Trace Air CairoDecode CairoTrace CairoAir.
From Verif.Spec Require Import CairoColumns.
Import ListNotations.
Local Open Scope felt_scope.

Section Offsets.
Context {C : cairo_env}.
(** The three offset cells of every row. *)
Definition offsets_of (main : list (list C)) n : list C := map (offset_cell main) (seq 0 (3 * n)).
(** The low sixteen bits of a cell, which is what the prover sorts. *)
Definition low16 (x : C) : N := (ce_repr x mod 2 ^ 16)%N.
Definition least (lo : N) (l : list N) : Prop := In lo l /\ forall x, In x l -> (lo <= x)%N.
Definition greatest (hi : N) (l : list N) : Prop := In hi l /\ forall x, In x l -> (x <= hi)%N.
Definition missing_value (l : list N) : Prop := exists x y h, In x l /\ In y l /\ (x < h < y)%N /\ ~ In h l.
(** For the challenge [z] the offsets cannot be told from their low sixteen bits. *)
Definition pass_as_low (l : list C) (z : C) : Prop := fprod (map (fun x => z - x) l) = fprod (map (fun x => z - e_u64 C (low16 x)) l).
End Offsets.
