(** The trace validator used with debug assertions. Source: src/starks/debug.rs. *)
From Coq Require Import List Arith Bool.
From Verif.Base Require Import Outcome Field Poly.
From Verif.Model Require Import Codec Trace Air Domain.
Import ListNotations.
Local Open Scope outcome_scope.

(** debug.rs:14-82. The error messages are not modelled. *)
Definition validate_trace {E : env} (a : air E) (polys : list (poly E)) (d : domain E) (rap : a_rap a) : outcome bool :=
  columns <- traverse (fun p => unwrap_r (evaluate_offset_fft p 1 (interpolation_domain_size d) (fone : E))) polys;;
  trace <- tt_new_from_cols columns;;
  bcs <- a_boundary a rap;;
  ret <- ofold (fun ret bc =>
      v <- tt_get trace (bc_step bc) (bc_col bc);;
      Ok (if feqb (bc_value bc) v then ret else false)) bcs true;;
  steps <- traverse (fun x : nat * nat => usub (fst x) (snd x))
      (combine (repeat (tt_n_rows trace) (num_transition_constraints (a_context a))) (transition_exemptions (a_context a)));;
  ofold (fun ret step =>
    fr <- fr_read_from_trace trace step 1 (transition_offsets (a_context a));;
    evaluations <- a_transition a fr rap;;
    ofold (fun ret (x : nat * E) => let '(i, eval) := x in
      s <- idx steps i;;
      Ok (if (step <? s) && negb (feqb eval fzero) then false else ret))
      (combine (seq 0 (length evaluations)) evaluations) ret)
    (seq 0 (tt_n_rows trace)) ret.
