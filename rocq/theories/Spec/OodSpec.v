(** The out-of-domain check against fixed polynomials: a prover that has committed to column polynomials and to the two
    halves of a composition polynomial before the point is drawn. *)
From Coq Require Import List Arith NArith.
From Verif.Base Require Import Outcome Field Poly.
From Verif.Model Require Import Codec Trace Air Domain Verifier.
From Verif.Spec Require Import AirSpec CairoColumns.
Import ListNotations.
Local Open Scope felt_scope.

Section OodSpec.
Context {E : env}.

(** The verifier's second step succeeds at [z] when the proof's frame holds the values of the column polynomials and
    the two composition values are those of [h1] and [h2]. *)
Definition passes_at (a : air E) (d : domain E) (rap : a_rap a) (polys : list (poly E)) (bco tco : list (E * E)) (h1 h2 : poly E) (z : E) : Prop :=
  exists p c, step_2 E a p d c = Ok true /\
    trace_ood_frame_evaluations p = shifted_frame polys (transition_offsets (a_context a)) (trace_primitive_root d) z /\
    composition_poly_even_ood_evaluation p = peval h1 (z * z) /\ composition_poly_odd_ood_evaluation p = peval h2 (z * z) /\
    c_z E a c = z /\ c_rap E a c = rap /\ c_boundary_coeffs E a c = bco /\ c_transition_coeffs E a c = tco.

(** It succeeds at more than [m] points. *)
Definition passes_often a d rap polys bco tco h1 h2 (m : nat) : Prop :=
  exists zs, NoDup zs /\ (m < length zs)%nat /\ forall z, In z zs -> passes_at a d rap polys bco tco h1 h2 z.

(** The trace that the column polynomials stand for. *)
Definition domain_columns (polys : list (poly E)) (g : E) (n : nat) : list (list E) :=
  map (fun p => map (fun i => peval p (fpow g i)) (seq 0 n)) polys.

(** The list of coefficient pairs with another second component at [j]. *)
Definition with_beta (j : nat) (beta : E) (l : list (E * E)) : list (E * E) :=
  firstn j l ++ (fst (nth j l (0, 0)), beta) :: skipn (S j) l.

(** The number of points that fixed columns of length at most [m] and halves of length at most [h] may pass by chance. *)
Definition ood_bound (a : air E) (n m h : nat) : nat := Nat.max (2 * h + 1 + n) (a_degree_bound a + n + m).

(** Two different values of the second coefficient of transition constraint [j], all other coefficients and the columns
    being the same, let composition polynomials of the prover's choice (halves of length at most [h]) pass at more
    points than the bound. *)
Definition transition_passes_twice (a : air E) (d : domain E) (rap : a_rap a) (polys : list (poly E)) (n m h j : nat) (beta beta' : E) : Prop :=
  exists bco tco h1 h2 h1' h2', (j < length tco)%nat /\
    (length h1 <= h)%nat /\ (length h2 <= h)%nat /\ (length h1' <= h)%nat /\ (length h2' <= h)%nat /\
    passes_often a d rap polys bco (with_beta j beta tco) h1 h2 (ood_bound a n m h) /\
    passes_often a d rap polys bco (with_beta j beta' tco) h1' h2' (ood_bound a n m h).

(** The same for boundary constraint [j]. *)
Definition boundary_passes_twice (a : air E) (d : domain E) (rap : a_rap a) (polys : list (poly E)) (n m h j : nat) (beta beta' : E) : Prop :=
  exists bco tco h1 h2 h1' h2', (j < length bco)%nat /\
    (length h1 <= h)%nat /\ (length h2 <= h)%nat /\ (length h1' <= h)%nat /\ (length h2' <= h)%nat /\
    passes_often a d rap polys (with_beta j beta bco) tco h1 h2 (ood_bound a n m h) /\
    passes_often a d rap polys (with_beta j beta' bco) tco h1' h2' (ood_bound a n m h).
End OodSpec.
