(** Rows of the Cairo trace at which the CPU constraints hold, whether or not their instruction is defined. *)
From Coq Require Import List Arith NArith Bool.
From Verif.Base Require Import Outcome Field Poly.
From Verif.Model Require Import Codec PublicInputs Trace Air CairoDecode CairoTrace CairoAir.
From Verif.Spec Require Import CairoSpec.
Import ListNotations.
Local Open Scope felt_scope.

Section AnyWord.
Context {C : cairo_env}.

(** Flag [i] of an instruction word. *)
Definition flag_set (w : N) (i : nat) : bool := N.testbit w (48 + N.of_nat i).

(** The row [curr] with successor [next] executes the word [w]: both have the declared width, the selector is one, the cell of the
    instruction and those of the offsets hold [w] and its offsets, and the 31 flag and CPU constraints vanish. *)
Record executes (pi : public_inputs C) opts len ch (w : N) (curr next : list C) : Prop := {
  ex_width : length curr = trace_columns (a_context (cairo_air pi opts len));
  ex_next : length next = length curr;
  ex_vanish : exists evals, a_transition (cairo_air pi opts len) (mk_frame (curr ++ next) (length curr)) ch = Ok evals /\
    forall j, (j <= ASSERT_EQ)%nat -> nth j evals 0 = 0;
  ex_selector : nth FRAME_SELECTOR curr 0 = 1;
  ex_word : (w < 2 ^ 63)%N;
  ex_inst : nth FRAME_INST curr 0 = e_u64 C w;
  ex_dst : nth OFF_DST curr 0 = e_u64 C (off_dst w);
  ex_op0 : nth OFF_OP0 curr 0 = e_u64 C (off_op0 w);
  ex_op1 : nth OFF_OP1 curr 0 = e_u64 C (off_op1 w)
}.

(** The cells that a row touches: its instruction and its operands. *)
Definition touched (row : list C) : list (C * C) :=
  [(nth FRAME_PC row 0, nth FRAME_INST row 0); (nth FRAME_DST_ADDR row 0, nth FRAME_DST row 0);
   (nth FRAME_OP0_ADDR row 0, nth FRAME_OP0 row 0); (nth FRAME_OP1_ADDR row 0, nth FRAME_OP1 row 0)].
Definition registers (row : list C) : cpu_state C := mk_state (nth FRAME_PC row 0) (nth FRAME_AP row 0) (nth FRAME_FP row 0).
End AnyWord.
