(** Fields as records of operations and laws: the interface of lambdaworks-math used by the code. *)
From Coq Require Import List Arith Lia Setoid.
From Coq Require Export Field.
From Verif.Base Require Import Outcome.
Import ListNotations.

(** [FieldElement<F>] operations. [finv] is only meaningful on nonzero elements;
    the Rust [inv] panics on zero, see [inv_o]. *)
Record field_ops := mk_field_ops {
  carrier :> Type;
  fzero : carrier;
  fone : carrier;
  fadd : carrier -> carrier -> carrier;
  fmul : carrier -> carrier -> carrier;
  fsub : carrier -> carrier -> carrier;
  fopp : carrier -> carrier;
  finv : carrier -> carrier;
  feqb : carrier -> carrier -> bool
}.
Arguments fzero {_}. Arguments fone {_}. Arguments fadd {_}. Arguments fmul {_}. Arguments fsub {_}.
Arguments fopp {_}. Arguments finv {_}. Arguments feqb {_}.

Definition fdiv {K : field_ops} (a b : K) : K := fmul a (finv b).

Record field_ok (K : field_ops) : Prop := {
  fld_th : field_theory (@fzero K) fone fadd fmul fsub fopp fdiv finv eq;
  feqb_spec : forall a b : K, feqb a b = true <-> a = b
}.

Declare Scope felt_scope.
Delimit Scope felt_scope with felt.
Notation "0" := fzero : felt_scope.
Notation "1" := fone : felt_scope.
Notation "x + y" := (fadd x y) : felt_scope.
Notation "x * y" := (fmul x y) : felt_scope.
Notation "x - y" := (fsub x y) : felt_scope.
Notation "- x" := (fopp x) : felt_scope.
Notation "x / y" := (fdiv x y) : felt_scope.

Section Ops.
Context {K : field_ops}.
Local Open Scope felt_scope.

(** [FieldElement::pow(n)] *)
Fixpoint fpow (x : K) (n : nat) : K :=
  match n with O => 1 | S n' => x * fpow x n' end.

(** [FieldElement::square] *)
Definition fsquare (x : K) : K := x * x.

(** [x.square()] applied [n] times: x^(2^n). *)
Fixpoint fsquare_n (n : nat) (x : K) : K :=
  match n with O => x | S n' => fsquare_n n' (fsquare x) end.

(** [FieldElement::inv]: panics on zero. *)
Definition inv_o (x : K) : outcome K := if feqb x 0 then Panic else Ok (finv x).

(** [a / b], which is [a * b.inv()]. *)
Definition div_o (a b : K) : outcome K := obind (inv_o b) (fun i => Ok (a * i)).

(** [FieldElement::inplace_batch_inverse]: inverts the product of all entries, hence panics
    as soon as one of them is zero; otherwise every entry is replaced by its inverse. *)
Definition batch_inverse (l : list K) : outcome (list K) :=
  if existsb (fun x => feqb x 0) l then Panic else Ok (map finv l).

(** Sum and product of a list. *)
Definition fsum (l : list K) : K := fold_right fadd 0 l.
Definition fprod (l : list K) : K := fold_right fmul 1 l.

(** [1 + 1 + ... + 1]; [FieldElement::from(n)]. *)
Fixpoint fnat (n : nat) : K := match n with O => 0 | S n' => 1 + fnat n' end.
End Ops.
