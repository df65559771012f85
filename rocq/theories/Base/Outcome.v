(** Results of modelled Rust computations: a value, a returned error, or a panic. *)
From Coq Require Import List Arith.
Import ListNotations.

(** src/cairo/errors.rs:11-29 *)
Inductive decoding_error :=
  InvalidOpcode | InvalidPcUpdate | InvalidApUpdate | InvalidResLogic | InvalidOp1Src | InvalidOp0Reg
| InvalidDstReg | InstructionNotFound.

(** Why a call returned [Err]; only the kinds the modelled code distinguishes. *)
Inductive error :=
  InvalidAmountOfBytes | FieldFromBytesError | OtherError
| IncorrectNumberOfBytes                       (* src/cairo/errors.rs:3-9 *)
| InstructionError (e : decoding_error).

Inductive outcome (A : Type) : Type :=
| Ok (a : A)
| Err (e : error)
| Panic.
Arguments Ok {A} a.
Arguments Err {A} e.
Arguments Panic {A}.

Definition obind {A B} (x : outcome A) (f : A -> outcome B) : outcome B :=
  match x with Ok a => f a | Err e => Err e | Panic => Panic end.

Definition omap {A B} (f : A -> B) (x : outcome A) : outcome B :=
  obind x (fun a => Ok (f a)).

(** [Option::unwrap] / slice indexing: [None] is a panic. *)
Definition unwrap {A} (x : option A) : outcome A :=
  match x with Some a => Ok a | None => Panic end.

(** [Option::ok_or(e)?] *)
Definition ok_or {A} (e : error) (x : option A) : outcome A :=
  match x with Some a => Ok a | None => Err e end.

Declare Scope outcome_scope.
Delimit Scope outcome_scope with outcome.
Notation "x <- a ;; b" := (obind a (fun x => b))
  (at level 100, a at next level, right associativity) : outcome_scope.
Notation "' p <- a ;; b" := (obind a (fun p => b))
  (at level 100, p pattern, a at next level, right associativity) : outcome_scope.

(** Map a fallible function over a list, stopping at the first failure
    ([iter().map().collect::<Result<_,_>>()], or a panic inside the closure). *)
Fixpoint traverse {A B} (f : A -> outcome B) (l : list A) : outcome (list B) :=
  match l with
  | [] => Ok []
  | a :: l' => obind (f a) (fun b => obind (traverse f l') (fun bs => Ok (b :: bs)))
  end.

Definition is_ok {A} (x : outcome A) : bool :=
  match x with Ok _ => true | _ => false end.

(** [Result::unwrap]: a returned error becomes a panic. *)
Definition unwrap_r {A} (x : outcome A) : outcome A :=
  match x with Ok a => Ok a | _ => Panic end.

(** [iter().fold(init, |acc, a| ..)] where the closure may panic. *)
Fixpoint ofold {A B} (f : B -> A -> outcome B) (l : list A) (b : B) : outcome B :=
  match l with
  | [] => Ok b
  | a :: l' => obind (f b a) (ofold f l')
  end.

(** [v[i]] *)
Definition idx {A} (l : list A) (i : nat) : outcome A := unwrap (nth_error l i).

(** [a - b] on [usize]: underflow is a panic (debug semantics). *)
Definition usub (a b : nat) : outcome nat := if Nat.ltb a b then Panic else Ok (a - b).

(** [&v[a..b]] *)
Definition slice {A} (l : list A) (a b : nat) : outcome (list A) :=
  if Nat.ltb b a then Panic else if Nat.ltb (length l) b then Panic else Ok (firstn (b - a) (skipn a l)).

(** [iter().step_by(s)], [s > 0]. *)
Fixpoint every {A} (s k : nat) (l : list A) : list A :=
  match l with
  | [] => []
  | a :: r => match k with O => a :: every s (s - 1) r | S k' => every s k' r end
  end.
Definition step_by {A} (s : nat) (l : list A) : outcome (list A) :=
  match s with O => Panic | _ => Ok (every s 0 l) end.
