(** The whole protocol seen from outside: words for the columns and for the two halves of the composition polynomial are
    fixed before the challenges that follow them, and the verifier is convinced again and again. *)
From Coq Require Import List Arith NArith.
From Verif.Base Require Import Outcome Bytes Field Poly.
From Verif.Model Require Import Codec Trace Merkle Air Domain Verifier.
From Verif.Spec Require Import AirSpec VerifierSpec LowDegree FriTree OodSpec.
Import ListNotations.
Local Open Scope felt_scope.

Section StarkTree.
Context {E : env}.

(** FRI with [r] rounds on the [2^(r+b)] points [h * w^i] is passed by a first layer with the values of [f]. *)
Definition fri_convinced (r b : nat) (h w : E) (f : E -> E) : Prop :=
  exists t, rounds r t /\ all_answered (r + b) h w t /\ forall x, on_coset h w x -> first_word t x = f x.

(** [op] opens the words of the columns and of the halves at every point of [S]. *)
Definition opens_words (S : E -> Prop) (width : nat) (cols : nat -> E -> E) (even odd : E -> E) (op : E -> deep_openings E) : Prop :=
  forall x, S x -> (forall j, (j < width)%nat -> nth j (lde_trace_evaluations (op x)) 0 = cols j x) /\
    lde_composition_poly_even_evaluation (op x) = even x /\ lde_composition_poly_odd_evaluation (op x) = odd x.

(** A proof and challenges with the point [z] outside the evaluation domain and the given coefficients: the second step
    succeeds; and FRI is passed by the word that the fourth step expects, for two values of each coefficient of that word,
    the words being opened truthfully. *)
Definition convinces_at (a : air E) (d : domain E) (r b : nat) (w : E) (rap : a_rap a) (cols : nat -> E -> E)
    (bco tco : list (E * E)) (even odd : E -> E) (z : E) : Prop :=
  let h := d_coset_offset d in let g := trace_primitive_root d in
  let width := trace_columns (a_context a) in let k := length (transition_offsets (a_context a)) in
  exists p (c : challenges E a) rows op,
    c_z E a c = z /\ c_rap E a c = rap /\ c_boundary_coeffs E a c = bco /\ c_transition_coeffs E a c = tco /\
    ~ on_coset h w z /\ step_2 E a p d c = Ok true /\
    trace_ood_frame_evaluations p = mk_frame (concat rows) width /\ length rows = k /\ Forall (fun row => length row = width) rows /\
    length (c_trace_term_coeffs E a c) = width /\ Forall (fun l => length l = k) (c_trace_term_coeffs E a c) /\
    opens_words (on_coset h w) width cols even odd op /\
    (forall col row, (col < width)%nat -> (row < k)%nat -> exists gamma gamma', gamma <> gamma' /\
       fri_convinced r b h w (deep_word p (with_trace_coeff col row gamma c) g rows op) /\
       fri_convinced r b h w (deep_word p (with_trace_coeff col row gamma' c) g rows op)) /\
    (exists gamma gamma' delta, gamma <> gamma' /\
       fri_convinced r b h w (deep_word p (with_gammas gamma delta c) g rows op) /\
       fri_convinced r b h w (deep_word p (with_gammas gamma' delta c) g rows op)) /\
    (exists gamma gamma' delta, gamma <> gamma' /\
       fri_convinced r b h w (deep_word p (with_gammas delta gamma c) g rows op) /\
       fri_convinced r b h w (deep_word p (with_gammas delta gamma' c) g rows op)).

(** This happens at more than [bound] points, with halves fixed before the points. *)
Definition convinces_often a d r b w rap cols bco tco (bound : nat) : Prop :=
  exists even odd zs, NoDup zs /\ (bound < length zs)%nat /\ forall z, In z zs -> convinces_at a d r b w rap cols bco tco even odd z.

(** It happens for two values of the second coefficient of transition constraint [j] ... *)
Definition convinces_of_transition (a : air E) d r b w rap cols j (bound : nat) : Prop :=
  exists bco tco beta beta', (j < length tco)%nat /\ beta <> beta' /\
    convinces_often a d r b w rap cols bco (with_beta j beta tco) bound /\
    convinces_often a d r b w rap cols bco (with_beta j beta' tco) bound.
(** ... of boundary constraint [j]. *)
Definition convinces_of_boundary (a : air E) d r b w rap cols j (bound : nat) : Prop :=
  exists bco tco beta beta', (j < length bco)%nat /\ beta <> beta' /\
    convinces_often a d r b w rap cols (with_beta j beta bco) tco bound /\
    convinces_often a d r b w rap cols (with_beta j beta' bco) tco bound.

(** The number of points: columns and halves have one coefficient more than the trace has rows. *)
Definition stark_bound (a : air E) (n : nat) : nat := ood_bound a n (n + 1) (n + 1).

(** Every constraint in turn. *)
Definition convincing (a : air E) d r b w rap (cols : nat -> E -> E) : Prop :=
  (forall j, (j < length (transition_degrees (a_context a)))%nat ->
     convinces_of_transition a d r b w rap cols j (stark_bound a (2 ^ r))) /\
  (forall bcs j, a_boundary a rap = Ok bcs -> (j < length bcs)%nat ->
     convinces_of_boundary a d r b w rap cols j (stark_bound a (2 ^ r))).

(** The words are polynomials of length at most [m] on [S]. *)
Definition interpolated_by (S : E -> Prop) (cols : nat -> E -> E) (polys : list (poly E)) (m : nat) : Prop :=
  Forall (fun p : poly E => (length p <= m)%nat) polys /\
  forall j x, (j < length polys)%nat -> S x -> cols j x = peval (nth j polys []) x.
End StarkTree.
