(** Words that agree with polynomials at most points, and the challenges that hide that they do not. *)
From Coq Require Import List Arith NArith.
From Verif.Base Require Import Outcome Field Poly.
From Verif.Model Require Import Codec Trace Air Verifier.
From Verif.Spec Require Import LowDegree.
Import ListNotations.
Local Open Scope felt_scope.

Section Proximity.
Context {K : field_ops}.

(** At most [B] field elements have the property. *)
Definition few (B : nat) (P : K -> Prop) : Prop := forall l, NoDup l -> (forall x, In x l -> P x) -> (length l <= B)%nat.

(** [A] consists of all but at most [e] of the points [D]. *)
Definition all_but (e : nat) (D A : list K) : Prop := NoDup A /\ incl A D /\ (length D <= length A + e)%nat.

(** At the indices [A] the word [f] has the values, at the points [pt i], of a polynomial with at most [d] coefficients. *)
Definition fits (pt : K -> K) (A : list K) (f : K -> K) (d : nat) : Prop :=
  exists q : poly K, (length q <= d)%nat /\ forall i, In i A -> f i = peval q (pt i).

(** The combination [u + gamma v] is a polynomial at almost all indices, but [u] and [v] are not polynomials there. *)
Definition hides (pt : K -> K) (D : list K) (e d : nat) (u v : K -> K) (gamma : K) : Prop :=
  exists A, all_but e D A /\ fits pt A (fun i => u i + gamma * v i) d /\ ~ (fits pt A u d /\ fits pt A v d).

(** Folding with [zeta] gives a polynomial with [d] coefficients on almost all squares of [H], but where it does the word itself,
    on the square roots, is no polynomial with [2 d] coefficients. *)
Definition fold_exception (H : list K) (e d : nat) (f : K -> K) (zeta : K) : Prop :=
  exists A, all_but e H A /\ fits (fun x => x * x) A (fold_value zeta f) d /\
    ~ low_degree (fun x => In x A \/ In (- x) A) f (2 * d).

(** The first [n] points [h * w^i]. *)
Definition points (h w : K) (n : nat) : list K := map (fun i => h * fpow w i) (seq 0 n).

(** Challenge [zeta] of round [i] of [k] rounds of FRI, on [2^m] points of which [e] may be lost, is exceptional for the word [f]
    of that round. It is the word committed before the challenge, and nothing later, that decides this. *)
Definition round_exception (m e k : nat) (h w : K) (i : nat) (f : K -> K) (zeta : K) : Prop :=
  fold_exception (points (fpow h (2 ^ i)) (fpow w (2 ^ i)) (2 ^ (m - 1 - i))) (e / 2 ^ (i + 1)) (2 ^ (k - 1 - i)) f zeta.
(** Some challenge is. *)
Definition fri_exception (m e : nat) (h w : K) (fs : list (K -> K)) (zetas : list K) : Prop :=
  exists i f zeta, nth_error fs i = Some f /\ nth_error zetas i = Some zeta /\ round_exception m e (length fs) h w i f zeta.

(** A polynomial with at most [m] coefficients with the values of [f] at all but [e] of the points [D]. *)
Definition near_poly (D : list K) (e m : nat) (f : K -> K) (q : poly K) : Prop :=
  (length q <= m)%nat /\ exists A, all_but e D A /\ forall x, In x A -> f x = peval q x.
Definition near_polys (D : list K) (e m : nat) (cols : nat -> K -> K) (polys : list (poly K)) : Prop :=
  forall j, (j < length polys)%nat -> near_poly D e m (cols j) (nth j polys []).
End Proximity.
