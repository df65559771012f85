(** What the command needs of a finished VM run, and how the VM lays out its segments. *)
From Coq Require Import List Arith NArith.
From Verif.Base Require Import Outcome Bytes Field.
From Verif.Model Require Import Codec PublicInputs Trace Air CairoDecode CairoTrace CairoAir CairoRunner Main.
Import ListNotations.

(** The relocated memory is an unused cell 0 followed by the segments, one after the other. *)
Record laid_out (segments : list (list (option N))) (v : vm_run) : Prop := {
  lo_memory : v_memory v = None :: concat segments;
  lo_sizes : forall i s, nth_error segments i = Some s -> v_segment_size v i = Some (length s)
}.

(** Registers are 64-bit words and cells 256-bit integers, at 64-bit addresses. *)
Record word_sized (v : vm_run) : Prop := {
  ws_regs : Forall (fun e => r_pc e < 2 ^ 64 /\ r_fp e < 2 ^ 64 /\ r_ap e < 2 ^ 64)%N (v_trace v);
  ws_cells : forall x, In (Some x) (v_memory v) -> (x < 2 ^ 256)%N;
  ws_length : (N.of_nat (length (v_memory v)) <= 2 ^ 64)%N
}.

(** A memory holds the cells of the run. *)
Definition holds_cells {C : cairo_env} (v : vm_run) (m : @cairo_memory C) : Prop :=
  forall a, mem_get m a = match nth_error (v_memory v) (N.to_nat a) with Some (Some x) => Some (e_u64 C x) | _ => None end.
