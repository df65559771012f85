(** The example AIRs and their trace builders. Sources: src/starks/example/*.rs. *)
From Coq Require Import List Arith.
From Verif.Base Require Import Outcome Field Poly.
From Verif.Model Require Import Codec Trace Air Transcript.
Import ListNotations.
Local Open Scope outcome_scope.
Local Open Scope felt_scope.

Section Examples.
Context (E : env).

(** [TraceTable::empty()], trace.rs:27-29 *)
Definition tt_empty : trace_table E := mk_trace [] 0%nat.

(** The loops [for i in 2..n { ret.push(ret[i - 1] + ret[i - 2]) }]. *)
Definition push_fib (ret : list E) (i : nat) : outcome (list E) :=
  x <- idx ret (i - 1)%nat;; y <- idx ret (i - 2)%nat;; Ok (ret ++ [x + y]).

(** ** example/simple_fibonacci.rs *)

(** simple_fibonacci.rs:40-113 *)
Definition fibonacci_air (a0 a1 : E) (opts : proof_options) (n : nat) : air E := {|
  a_rap := unit;
  a_context := (mk_context opts 1 [1] [0; 1; 2] [2] 1 1)%nat;
  a_trace_length := n;
  a_build_aux := fun _ _ => Ok tt_empty;
  a_build_rap := fun t => Ok (tt, t);
  a_n_aux := 0%nat;
  a_degree_bound := n;
  a_transition := fun fr _ =>
    first <- fr_get_row fr 0%nat;; second <- fr_get_row fr 1%nat;; third <- fr_get_row fr 2%nat;;
    x <- idx third 0%nat;; y <- idx second 0%nat;; z <- idx first 0%nat;;
    Ok [x - y - z];
  a_boundary := fun _ => Ok [mk_bc 0%nat 0%nat a0; mk_bc 0%nat 1%nat a1]
|}.

(** simple_fibonacci.rs:115-129 *)
Definition fibonacci_trace (a0 a1 : E) (n : nat) : outcome (trace_table E) :=
  ret <- ofold push_fib (seq 2%nat (n - 2)%nat) [a0; a1];;
  tt_new_from_cols [ret].

(** ** example/fibonacci_2_columns.rs *)

(** fibonacci_2_columns.rs:33-110 *)
Definition fibonacci_2_cols_air (a0 a1 : E) (opts : proof_options) (n : nat) : air E := {|
  a_rap := unit;
  a_context := (mk_context opts 2 [1; 1] [0; 1] [1; 1] 2 1)%nat;
  a_trace_length := n;
  a_build_aux := fun _ _ => Ok tt_empty;
  a_build_rap := fun t => Ok (tt, t);
  a_n_aux := 0%nat;
  a_degree_bound := n;
  a_transition := fun fr _ =>
    first <- fr_get_row fr 0%nat;; second <- fr_get_row fr 1%nat;;
    s0 <- idx second 0%nat;; f0 <- idx first 0%nat;; f1 <- idx first 1%nat;; s1 <- idx second 1%nat;;
    Ok [s0 - f0 - f1; s1 - f1 - s0];
  a_boundary := fun _ => Ok [mk_bc 0%nat 0%nat a0; mk_bc 1%nat 0%nat a1]
|}.

(** fibonacci_2_columns.rs:113-131 *)
Definition fibonacci_trace_2_columns (a0 a1 : E) (n : nat) : outcome (trace_table E) :=
  '(ret1, ret2) <- ofold (fun (st : list E * list E) i => let '(ret1, ret2) := st in
      x <- idx ret1 (i - 1)%nat;; y <- idx ret2 (i - 1)%nat;;
      Ok (ret1 ++ [x + y], ret2 ++ [x + y + y])) (seq 1%nat (n - 1)%nat) ([a0], [a1]);;
  tt_new_from_cols [ret1; ret2].

(** ** example/quadratic_air.rs *)

(** quadratic_air.rs:39-109 *)
Definition quadratic_air (a0 : E) (opts : proof_options) (n : nat) : air E := {|
  a_rap := unit;
  a_context := (mk_context opts 1 [2] [0; 1] [1] 1 1)%nat;
  a_trace_length := n;
  a_build_aux := fun _ _ => Ok tt_empty;
  a_build_rap := fun t => Ok (tt, t);
  a_n_aux := 0%nat;
  a_degree_bound := (2 * n)%nat;
  a_transition := fun fr _ =>
    first <- fr_get_row fr 0%nat;; second <- fr_get_row fr 1%nat;;
    s <- idx second 0%nat;; f <- idx first 0%nat;;
    Ok [s - f * f];
  a_boundary := fun _ => Ok [mk_bc 0%nat 0%nat a0]
|}.

(** quadratic_air.rs:112-125 *)
Definition quadratic_trace (a0 : E) (n : nat) : outcome (trace_table E) :=
  ret <- ofold (fun ret i => x <- idx ret (i - 1)%nat;; Ok (ret ++ [x * x])) (seq 1%nat (n - 1)%nat) [a0];;
  tt_new_from_cols [ret].

(** ** example/dummy_air.rs *)

(** dummy_air.rs:27-101 *)
Definition dummy_air (opts : proof_options) (n : nat) : air E := {|
  a_rap := unit;
  a_context := (mk_context opts 2 [2; 1] [0; 1; 2] [0; 2] 2 1)%nat;
  a_trace_length := n;
  a_build_aux := fun _ _ => Ok tt_empty;
  a_build_rap := fun t => Ok (tt, t);
  a_n_aux := 0%nat;
  a_degree_bound := n;
  a_transition := fun fr _ =>
    first <- fr_get_row fr 0%nat;; second <- fr_get_row fr 1%nat;; third <- fr_get_row fr 2%nat;;
    f <- idx first 0%nat;;
    x <- idx third 1%nat;; y <- idx second 1%nat;; z <- idx first 1%nat;;
    Ok [f * (f - 1); x - y - z];
  a_boundary := fun _ => Ok [mk_bc 1%nat 0%nat 1; mk_bc 1%nat 1%nat 1]
|}.

(** dummy_air.rs:104-119 *)
Definition dummy_trace (n : nat) : outcome (trace_table E) :=
  ret <- ofold push_fib (seq 2%nat (n - 2)%nat) [1; 1];;
  tt_new_from_cols [repeat 1 n; ret].

(** ** example/fibonacci_rap.rs *)

(** fibonacci_rap.rs:73-97: the running quotient column. *)
Definition fibonacci_rap_aux (main : trace_table E) (gamma : E) : outcome (trace_table E) :=
  cols <- tt_cols main;;
  not_perm <- idx cols 0%nat;;
  perm <- idx cols 1%nat;;
  aux_col <- ofold (fun aux i =>
      match i with
      | O => Ok (aux ++ [1])
      | S _ =>
          z_i <- idx aux (i - 1)%nat;;
          np <- idx not_perm (i - 1)%nat;; p <- idx perm (i - 1)%nat;;
          q <- div_o (np + gamma) (p + gamma);;
          Ok (aux ++ [z_i * q])
      end) (seq 0%nat (tt_n_rows main)) [];;
  tt_new_from_cols [aux_col].

(** fibonacci_rap.rs:49-161. The public inputs [a0], [a1] are stored but used nowhere, so only
    [steps] appears. The subtraction in line 54 underflows for [steps > n + 2], which would
    be a panic of the constructor; here it is truncated at zero. *)
Definition fibonacci_rap_air (steps : nat) (opts : proof_options) (n : nat) : air E := {|
  a_rap := E;
  a_context := (mk_context opts 3 [1; 2] [0; 1; 2] [3 + n - steps - 1; 1] 2 2)%nat;
  a_trace_length := n;
  a_build_aux := fibonacci_rap_aux;
  a_build_rap := transcript_to_field E;
  a_n_aux := 1%nat;
  a_degree_bound := n;
  a_transition := fun fr gamma =>
    first <- fr_get_row fr 0%nat;; second <- fr_get_row fr 1%nat;; third <- fr_get_row fr 2%nat;;
    x <- idx third 0%nat;; y <- idx second 0%nat;; z <- idx first 0%nat;;
    z_i <- idx first 2%nat;; z_i_plus_one <- idx second 2%nat;;
    a_i <- idx first 0%nat;; b_i <- idx first 1%nat;;
    Ok [x - y - z; z_i_plus_one * (b_i + gamma) - z_i * (a_i + gamma)];
  a_boundary := fun _ => Ok [mk_bc 0%nat 0%nat 1; mk_bc 0%nat 1%nat 1; mk_bc 2%nat 0%nat 1]
|}.

(** [resize_to_next_power_of_two] (lambdaworks-math helpers) on one column *)
Definition resize_pow2 (col : list E) : list E := col ++ repeat 0 (next_pow2 (length col) - length col)%nat.

(** fibonacci_rap.rs:164-190; [v[i] = x] *)
Definition set_at (l : list E) (i : nat) (x : E) : outcome (list E) :=
  if (i <? length l)%nat then Ok (firstn i l ++ x :: skipn (S i) l) else Panic.
Definition fibonacci_rap_trace (a0 a1 : E) (n : nat) : outcome (trace_table E) :=
  fib_seq <- ofold push_fib (seq 2%nat (n - 2)%nat) [a0; a1];;
  last_index <- usub n 1%nat;;
  last_value <- idx fib_seq last_index;;
  fib_permuted <- set_at fib_seq 0%nat last_value;;
  fib_permuted <- set_at fib_permuted last_index a0;;
  tt_new_from_cols [resize_pow2 (fib_seq ++ [0]); resize_pow2 (fib_permuted ++ [0])].
End Examples.
