(** Reading the columns of a Cairo trace, and the validity of single constraints of an AIR. *)
From Coq Require Import List Arith NArith.
From Verif.Base Require Import Outcome Field Poly.
From Verif.Model Require Import Codec PublicInputs Trace Air CairoDecode CairoTrace CairoAir.
Import ListNotations.
Local Open Scope felt_scope.

(** Constraint [j] of an AIR holds on every row of the columns where the AIR enforces it. *)
Definition constraint_holds {E : env} (a : air E) (rap : a_rap a) (cols : list (list E)) (n j : nat) : Prop :=
  forall i e evals, (i < n - e)%nat -> nth_error (transition_exemptions (a_context a)) j = Some e ->
    a_transition a (mk_frame (concat (map (fun o => map (fun c => nth ((i + o) mod n) c 0) cols)
                                        (transition_offsets (a_context a)))) (length cols)) rap = Ok evals ->
    nth j evals 0 = 0.

Section Columns.
Context {C : cairo_env}.

(** The cell of row [i] and column [j]. *)
Definition cell (cols : list (list C)) (i j : nat) : C := nth i (nth j cols []) 0.
(** [w] adjacent columns from [base] on, read row by row. *)
Definition flat (cols : list (list C)) (base w k : nat) : C := cell cols (k / w) (base + k mod w)%nat.

(** The [k]-th entry, reading row by row, of the sorted memory columns (addresses and values), of the memory running
    products, of the memory accesses in the execution columns; and likewise of the sorted range-check columns, their
    running products and the offset columns. *)
Definition sorted_addr (pi : public_inputs C) cols k := flat cols (MEMORY_ADDR_SORTED_0 - builtin_offset pi) 4 k.
Definition sorted_value (pi : public_inputs C) cols k := flat cols (MEMORY_VALUES_SORTED_0 - builtin_offset pi) 4 k.
Definition mem_product (pi : public_inputs C) cols k := flat cols (PERMUTATION_ARGUMENT_COL_0 - builtin_offset pi) 4 k.
Definition access_addr (cols : list (list C)) k := flat cols FRAME_PC 4 k.
Definition access_value (cols : list (list C)) k := flat cols FRAME_INST 4 k.
Definition sorted_offset (pi : public_inputs C) cols k := flat cols (RANGE_CHECK_COL_1 - builtin_offset pi) 3 k.
Definition rc_product (pi : public_inputs C) cols k := flat cols (PERMUTATION_ARGUMENT_RANGE_CHECK_COL_1 - builtin_offset pi) 3 k.
Definition offset_cell (cols : list (list C)) k := flat cols OFF_DST 3 k.
End Columns.
