(** Trace tables and evaluation frames. Sources: src/starks/trace.rs, src/starks/frame.rs. *)
From Coq Require Import List Arith.
From Verif.Base Require Import Outcome Field Poly.
From Verif.Model Require Import Codec.
Import ListNotations.
Local Open Scope outcome_scope.

(** src/starks/trace.rs:9-13: row-major table. *)
Record trace_table (A : Type) := mk_trace { tt_table : list A; tt_n_cols : nat }.
Arguments mk_trace {A}. Arguments tt_table {A}. Arguments tt_n_cols {A}.

Section Trace.
Context {A : Type}.

(** trace.rs:23-25 *)
Definition tt_is_empty (t : trace_table A) : bool := tt_n_cols t =? 0.

(** trace.rs:61-67 *)
Definition tt_n_rows (t : trace_table A) : nat :=
  if tt_n_cols t =? 0 then 0 else length (tt_table t) / tt_n_cols t.

(** trace.rs:31-43 *)
Definition tt_get_cols (t : trace_table A) (columns : list nat) : outcome (trace_table A) :=
  rows <- traverse (fun row => traverse (fun c => idx (tt_table t) (row * tt_n_cols t + c)) columns)
            (seq 0 (tt_n_rows t));;
  Ok (mk_trace (concat rows) (length columns)).

(** trace.rs:45-59 (release build: the [debug_assert] on lengths is off) *)
Definition tt_new_from_cols (cols : list (list A)) : outcome (trace_table A) :=
  c0 <- idx cols 0;;
  rows <- traverse (fun row => traverse (fun col => idx col row) cols) (seq 0 (length c0));;
  Ok (mk_trace (concat rows) (length cols)).

(** trace.rs:69-76 *)
Definition tt_rows (t : trace_table A) : outcome (list (list A)) :=
  traverse (fun r => slice (tt_table t) (r * tt_n_cols t) (r * tt_n_cols t + tt_n_cols t)) (seq 0 (tt_n_rows t)).

(** trace.rs:78-81 *)
Definition tt_get_row (t : trace_table A) (r : nat) : outcome (list A) :=
  slice (tt_table t) (r * tt_n_cols t) (r * tt_n_cols t + tt_n_cols t).

(** trace.rs:83-85 *)
Definition tt_last_row (t : trace_table A) : outcome (list A) :=
  r <- usub (tt_n_rows t) 1;; tt_get_row t r.

(** trace.rs:87-96 *)
Definition tt_cols (t : trace_table A) : outcome (list (list A)) :=
  traverse (fun c => traverse (fun r => idx (tt_table t) (r * tt_n_cols t + c)) (seq 0 (tt_n_rows t)))
    (seq 0 (tt_n_cols t)).

(** trace.rs:99-102 *)
Definition tt_get (t : trace_table A) (step col : nat) : outcome A := idx (tt_table t) (step * tt_n_cols t + col).

(** trace.rs:112-124 *)
Definition tt_concatenate (t : trace_table A) (new_cols : list A) (n_cols : nat) : outcome (trace_table A) :=
  (* [(0..len).step_by(self.n_cols)] *)
  starts <- step_by (tt_n_cols t) (seq 0 (length (tt_table t)));;
  rows <- traverse (fun ki => let '(k, row_index) := ki in
            a <- slice (tt_table t) row_index (row_index + tt_n_cols t);;
            b <- slice new_cols (k * n_cols) (k * n_cols + n_cols);;
            Ok (a ++ b)) (combine (seq 0 (length starts)) starts);;
  Ok (mk_trace (concat rows) (tt_n_cols t + n_cols)).

(** ** Frames *)

(** frame.rs:22-24: integer division by the row width. *)
Definition fr_num_rows (f : frame A) : outcome nat :=
  if fr_row_width f =? 0 then Panic else Ok (length (fr_data f) / fr_row_width f).

(** frame.rs:26-28 *)
Definition fr_num_columns (f : frame A) : nat := fr_row_width f.

(** frame.rs:30-33 *)
Definition fr_get_row (f : frame A) (r : nat) : outcome (list A) :=
  slice (fr_data f) (r * fr_row_width f) (r * fr_row_width f + fr_row_width f).

(** frame.rs:40-59; a remainder by zero rows is a panic. *)
Definition fr_read_from_trace (t : trace_table A) (step blowup : nat) (offsets : list nat) : outcome (frame A) :=
  let trace_steps := tt_n_rows t in
  rows <- traverse (fun o => if trace_steps =? 0 then Panic
                             else tt_get_row t ((step + o * blowup) mod trace_steps)) offsets;;
  Ok (mk_frame (concat rows) (tt_n_cols t)).
End Trace.

Section TracePolys.
Context {K : fft_ops}.

(** trace.rs:104-110 *)
Definition tt_compute_trace_polys (t : trace_table K) : outcome (list (poly K)) :=
  cols <- tt_cols t;; unwrap_r (traverse interpolate_fft cols).

(** frame.rs:67-83 *)
Definition fr_get_trace_evaluations (polys : list (poly K)) (x : K) (offsets : list nat) (root : K)
  : list (list K) :=
  map (fun o => map (fun p => peval p (fmul x (fpow root o))) polys) offsets.
End TracePolys.
