(** The sequences the example programs are meant to compute. *)
From Coq Require Import List Arith.
From Verif.Base Require Import Field Poly.
From Verif.Model Require Import Air Transcript.
Local Open Scope felt_scope.

Section Sequences.
Context {K : field_ops}.

(** Generalised Fibonacci numbers. *)
Fixpoint fib_pair (a0 a1 : K) (n : nat) : K * K :=
  match n with O => (a0, a1) | S m => let '(x, y) := fib_pair a0 a1 m in (y, x + y) end.
Definition fib (a0 a1 : K) (n : nat) : K := fst (fib_pair a0 a1 n).

(** Iterated squaring. *)
Definition squaring (a0 : K) (n : nat) : K := fpow a0 (2 ^ n).

Definition fibs (a0 a1 : K) (n : nat) : list K := map (fib a0 a1) (seq 0 n).
End Sequences.

(** Options usable with a trace of [2^r] rows: blowup [2^b] and a coset without squares. *)
Definition usable_options (E : env) (opts : proof_options) (r b : nat) : Prop :=
  (1 <= r)%nat /\ (1 <= b)%nat /\ blowup_factor opts = (2 ^ b)%nat /\
  forall (y : E) w i, primitive_root (r + b) = Some w -> y * y <> e_u64 E (coset_offset opts) * fpow w i.
