(** What a table has to be like, apart from the running products, to be accepted by the repaired Cairo constraints. *)
From Coq Require Import List Arith NArith Permutation.
From Verif.Base Require Import Outcome Field Poly.
From Verif.Model Require Import Codec PublicInputs Trace Air CairoDecode CairoTrace CairoAir.
From Verif.Spec Require Import CairoColumns.
Import ListNotations.
Local Open Scope felt_scope.

Section Fitting.
Context {C : cairo_env}.
(** The [4 n] memory cells that the rows access, and those of the sorted columns. *)
Definition accessed (cols : list (list C)) n : list (C * C) := map (fun k => (access_addr cols k, access_value cols k)) (seq 0 (4 * n)).
Definition listed (pi : public_inputs C) (cols : list (list C)) n : list (C * C) := map (fun k => (sorted_addr pi cols k, sorted_value pi cols k)) (seq 0 (4 * n)).
(** The entry after an entry of the sorted memory is the same or has the next address; likewise for the sorted offsets. *)
Definition cell_follows (e e' : C * C) : Prop := e' = e \/ fst e' = fst e + 1.
Definition value_follows (x y : C) : Prop := y = x \/ y = x + 1.

(** No challenge occurs in this: the registers begin and end as claimed; the constraints of single rows and steps hold; the sorted columns go up in steps of one, without two values
    at one address; and they list what is accessed, where as many accesses to (0, 0) as there are public cells are exchanged for the public memory. *)
Record fitting (pi : public_inputs C) (opts : proof_options) (cols : list (list C)) (n : nat) (lo hi : N) : Prop := {
  fit_first : cell cols 0 FRAME_PC = pc_init pi /\ cell cols 0 FRAME_AP = ap_init pi;
  fit_last : cell cols (num_steps pi - 1) FRAME_PC = pc_final pi /\ cell cols (num_steps pi - 1) FRAME_AP = ap_final pi;
  fit_steps : forall j ch, (j < 31 \/ j = 49)%nat -> constraint_holds (cairo_air pi opts n) ch cols n j;
  fit_sorted : forall k, (k + 1 < 4 * n)%nat -> cell_follows (sorted_addr pi cols k, sorted_value pi cols k) (sorted_addr pi cols (k + 1), sorted_value pi cols (k + 1));
  fit_memory : Permutation (listed pi cols n ++ repeat (0, 0) (length (public_memory pi))) (accessed cols n ++ public_memory pi);
  fit_offsets_sorted : forall k, (k + 1 < 3 * n)%nat -> value_follows (sorted_offset pi cols k) (sorted_offset pi cols (k + 1));
  fit_offsets_ends : sorted_offset pi cols 0 = e_u64 C lo /\ sorted_offset pi cols (3 * n - 1) = e_u64 C hi;
  fit_offsets : Permutation (map (sorted_offset pi cols) (seq 0 (3 * n))) (map (offset_cell cols) (seq 0 (3 * n)))
}.

(** The same without the condition on the memory. *)
Record loosely_fitting (pi : public_inputs C) (opts : proof_options) (cols : list (list C)) (n : nat) (lo hi : N) : Prop := {
  loose_first : cell cols 0 FRAME_PC = pc_init pi /\ cell cols 0 FRAME_AP = ap_init pi;
  loose_last : cell cols (num_steps pi - 1) FRAME_PC = pc_final pi /\ cell cols (num_steps pi - 1) FRAME_AP = ap_final pi;
  loose_steps : forall j ch, (j < 31 \/ j = 49)%nat -> constraint_holds (cairo_air pi opts n) ch cols n j;
  loose_sorted : forall k, (k + 1 < 4 * n)%nat -> cell_follows (sorted_addr pi cols k, sorted_value pi cols k) (sorted_addr pi cols (k + 1), sorted_value pi cols (k + 1));
  loose_offsets_sorted : forall k, (k + 1 < 3 * n)%nat -> value_follows (sorted_offset pi cols k) (sorted_offset pi cols (k + 1));
  loose_offsets_ends : sorted_offset pi cols 0 = e_u64 C lo /\ sorted_offset pi cols (3 * n - 1) = e_u64 C hi;
  loose_offsets : Permutation (map (sorted_offset pi cols) (seq 0 (3 * n))) (map (offset_cell cols) (seq 0 (3 * n)))
}.

(** What is asked of the execution columns alone. *)
Record main_fits (pi : public_inputs C) (opts : proof_options) (cols : list (list C)) (n : nat) : Prop := {
  main_first : cell cols 0 FRAME_PC = pc_init pi /\ cell cols 0 FRAME_AP = ap_init pi;
  main_last : cell cols (num_steps pi - 1) FRAME_PC = pc_final pi /\ cell cols (num_steps pi - 1) FRAME_AP = ap_final pi;
  main_steps : forall j ch, (j < 31 \/ j = 49)%nat -> constraint_holds (cairo_air pi opts n) ch cols n j
}.
(** [m] values from [lo] to [hi], in steps of zero or one. *)
Definition climbs (m : nat) (s : nat -> C) (lo hi : N) : Prop :=
  (forall k, (k + 1 < m)%nat -> value_follows (s k) (s (k + 1)%nat)) /\ s 0%nat = e_u64 C lo /\ s (m - 1)%nat = e_u64 C hi.
(** [cols] agrees with [base] on the execution columns. *)
Definition same_main (pi : public_inputs C) (base cols : list (list C)) : Prop :=
  length cols = length base /\ forall j, (j < RANGE_CHECK_COL_1 - builtin_offset pi)%nat -> nth j cols [] = nth j base [].
End Fitting.
