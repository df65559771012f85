(** Words over sets of field elements, closeness to polynomials, and folding, as functions; independent of the prover's
    and verifier's data structures. *)
From Coq Require Import List Arith NArith.
From Verif.Base Require Import Outcome Field Poly.
From Verif.Model Require Import Codec Trace Air Verifier.
From Verif.Spec Require Import VerifierSpec.
Import ListNotations.
Local Open Scope felt_scope.

Section LowDegree.
Context {K : field_ops}.

(** [f] is a polynomial with at most [m] coefficients on [S]. *)
Definition low_degree (S : K -> Prop) (f : K -> K) (m : nat) : Prop :=
  exists q : poly K, (length q <= m)%nat /\ forall x, S x -> f x = peval q x.

(** The value that a word and a challenge determine at the square of [x]. *)
Definition fold_value (zeta : K) (w : K -> K) (x : K) : K :=
  (w x + w (- x)) * finv (1 + 1) + zeta * (w x - w (- x)) * finv ((1 + 1) * x).

(** [w'] is the folding of [w] over [S]. *)
Definition is_fold (S : K -> Prop) (zeta : K) (w w' : K -> K) : Prop := forall x, S x -> w' (x * x) = fold_value zeta w x.

Definition squares_of (S : K -> Prop) (y : K) : Prop := exists x, S x /\ y = x * x.

(** [w] folds down to constants in [k] rounds, for two different challenges in every round, the later words being chosen
    after the challenges. *)
Fixpoint folds_to_constants (k : nat) (S : K -> Prop) (w : K -> K) : Prop :=
  match k with
  | O => exists v, forall x, S x -> w x = v
  | S k' => exists zeta zeta' w1 w2, zeta <> zeta' /\ is_fold S zeta w w1 /\ is_fold S zeta' w w2 /\
      folds_to_constants k' (squares_of S) w1 /\ folds_to_constants k' (squares_of S) w2
  end.

(** The points [h * w^i]. *)
Definition on_coset (h w : K) (x : K) : Prop := exists i : nat, x = h * fpow w i.
End LowDegree.

(** The list with another element at [j]. *)
Definition set_nth {A} (j : nat) (y : A) (l : list A) : list A := firstn j l ++ y :: skipn (S j) l.

(** Coefficients of the trace terms with another value for column [col] and frame row [row]. *)
Definition set_coeff {K : Type} (col row : nat) (gamma : K) (ms : list (list K)) : list (list K) :=
  set_nth col (set_nth row gamma (nth col ms [])) ms.

Section Deep.
Context {E : env}.
(** The challenges with another coefficient for the term of column [col] and row [row] ... *)
Definition with_trace_coeff {a : air E} (col row : nat) (gamma : E) (c : challenges E a) : challenges E a :=
  mk_challenges E a (c_z E a c) (c_boundary_coeffs E a c) (c_transition_coeffs E a c)
    (set_coeff col row gamma (c_trace_term_coeffs E a c)) (c_gamma_even E a c) (c_gamma_odd E a c)
    (c_zetas E a c) (c_iotas E a c) (c_rap E a c) (c_leading_zeros E a c).
(** ... and with other coefficients for the two halves of the composition polynomial. *)
Definition with_gammas {a : air E} (even odd : E) (c : challenges E a) : challenges E a :=
  mk_challenges E a (c_z E a c) (c_boundary_coeffs E a c) (c_transition_coeffs E a c)
    (c_trace_term_coeffs E a c) even odd (c_zetas E a c) (c_iotas E a c) (c_rap E a c) (c_leading_zeros E a c).

(** [op] answers every point of the evaluation domain; [deep_word] is the word that the verifier's step 4 expects there. *)
Definition deep_word (p : stark_proof E) {a : air E} (c : challenges E a) (g : E) (rows : list (list E))
    (op : E -> deep_openings E) (x : E) : E := deep_value p c g rows x (op x).
End Deep.
