(** Valid runs of the Cairo machine, as the register trace and memory dumped by a run. *)
From Coq Require Import List NArith ZArith Bool.
From Verif.Base Require Import Outcome Field Poly.
From Verif.Model Require Import Codec PublicInputs Trace Air CairoDecode CairoTrace CairoAir.
From Verif.Spec Require Import CairoSpec AirSpec CairoColumns.
Import ListNotations.

Section Run.
Context {C : cairo_env}.

(** The relocated memory as a relation between field elements. *)
Definition reads (m : @cairo_memory C) (a v : C) : Prop := exists n, (n < 2 ^ 64)%N /\ a = e_u64 C n /\ mem_get m n = Some v.
Definition state_of (t : registers_state) : cpu_state C := mk_state (e_u64 C (r_pc t)) (e_u64 C (r_ap t)) (e_u64 C (r_fp t)).
(** The registers are 64-bit words and the return address of a call does not wrap around. *)
Definition in_range (t : registers_state) : Prop := (r_pc t + 2 < 2 ^ 64 /\ r_ap t < 2 ^ 64 /\ r_fp t < 2 ^ 64)%N.
(** One step from [t] to [s']; a dereferenced first operand is a 64-bit address. *)
Definition executes (m : @cairo_memory C) (t : registers_state) (s' : cpu_state C) : Prop :=
  exists w dst op0 op1 res, cpu_step (reads m) w dst op0 op1 res (state_of t) s' /\ defined_instruction w /\
    (op1_src_of w = 0%N -> (ce_repr op0 < 2 ^ 64)%N).
(** The addresses one step reads: the instruction's, and those of its three operands. *)
Definition touches (m : @cairo_memory C) (t : registers_state) (a : C) : Prop :=
  exists w op0, (w < 2 ^ 63)%N /\ reads m (e_u64 C (r_pc t)) (e_u64 C w) /\
    let base r := if (r =? 1)%N then e_u64 C (r_fp t) else e_u64 C (r_ap t) in
    let a0 := fadd (base (op0_reg_of w)) (offset_value (off_op0 w)) in
    reads m a0 op0 /\
    (a = e_u64 C (r_pc t) \/ a = fadd (base (dst_reg_of w)) (offset_value (off_dst w)) \/ a = a0 \/
     a = fadd (op1_base w (state_of t) op0) (offset_value (off_op1 w))).
Definition valid_run (m : @cairo_memory C) (raw : list registers_state) : Prop :=
  raw <> [] /\ Forall in_range raw /\
  forall i t, nth_error raw i = Some t ->
    exists s', executes m t s' /\ forall t', nth_error raw (i + 1) = Some t' -> s' = state_of t'.

(** A run the prover is meant to handle: it is valid and starts in the program; program and outputs are in memory, cell
    0 is unused (or zero); range-checked cells hold 128-bit values; an output segment comes with a range-check segment
    and lies after the program, every output cell is read by some step, and so is every cell between the program's end
    and as many cells further as there are outputs, as far as anything beyond it is read. *)
Record provable_run (m : @cairo_memory C) (raw : list registers_state) (size : N) (rc out : option (N * N)) : Prop := {
  pr_valid : valid_run m raw;
  pr_entry : forall t, hd_error raw = Some t -> (r_pc t <= size)%N;
  pr_size : (size < 2 ^ 64)%N;
  pr_program : forall i, (1 <= i <= size)%N -> mem_get m i <> None;
  pr_zero : mem_get m 0 = None \/ mem_get m 0 = Some fzero;
  pr_rc : forall lo hi a, rc = Some (lo, hi) -> (lo <= a < hi)%N -> exists v, mem_get m a = Some v /\ (ce_repr v < 2 ^ 128)%N;
  pr_out : forall lo hi, out = Some (lo, hi) ->
    rc <> None /\ (size < lo <= hi)%N /\ (hi <= 2 ^ 64)%N /\
    (forall i, (lo <= i < hi)%N -> mem_get m i <> None /\ exists t, In t raw /\ touches m t (e_u64 C i)) /\
    (forall i, (size < i <= size + (hi - lo))%N -> (exists t a, In t raw /\ touches m t a /\ i < ce_repr a)%N ->
       exists t, In t raw /\ touches m t (e_u64 C i))
}.

(** [cols] are the columns, main and auxiliary, of the trace the prover builds from a run for given challenges. *)
Definition honest_columns (raw : list registers_state) (m : @cairo_memory C) (pi : public_inputs C) (ch : cairo_challenges C)
  (pi' : public_inputs C) (n : nat) (cols : list (list C)) : Prop :=
  exists t aux main acols, build_main_trace raw m pi = Ok (t, pi') /\ cairo_build_aux pi' t ch = Ok aux /\
    main <> [] /\ has_columns t n main /\ has_columns aux n acols /\ cols = main ++ acols.

(** One of the challenges is one of the values the auxiliary columns divide by: [a + alpha v] for a cell [(a, v)] of
    the public memory or of the table's memory columns, or a cell of its offset columns. *)
Definition unlucky (pi : public_inputs C) (t : trace_table C) (ch : cairo_challenges C) : Prop :=
  exists n main, has_columns t n main /\
  ((exists a v, z_memory ch = fadd a (fmul (alpha_memory ch) v) /\
      (In (a, v) (public_memory pi) \/ exists k, (k < 4 * n)%nat /\ a = access_addr main k /\ v = access_value main k)) \/
   exists k, (k < 3 * n)%nat /\ z_range_check ch = offset_cell main k).
End Run.
