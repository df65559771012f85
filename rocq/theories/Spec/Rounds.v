(** A single run of the whole protocol: which challenges are exceptional, given what is fixed before them, and which queries are lucky. *)
From Coq Require Import List Arith NArith.
From Verif.Base Require Import Outcome Bytes Field Poly.
From Verif.Model Require Import Codec Trace Merkle Air Transcript Domain Options Verifier.
From Verif.Spec Require Import AirSpec CairoColumns VerifierSpec LowDegree FriTree OodSpec StarkTree Proximity.
Import ListNotations.
Local Open Scope felt_scope.

Section Rounds.
Context {E : env}.

(** The words of the columns and of the two halves of the composition polynomial, opened at [x]. *)
Definition opened (width : nat) (cols : nat -> E -> E) (even odd : E -> E) (x : E) : deep_openings E :=
  mk_deep_openings [] (even x) (odd x) [] (map (fun j => cols j x) (seq 0 width)).

(** ** Exceptional coefficients of the constraints: the columns near the words violate constraint [j], and yet with this value
    of its second coefficient some composition polynomial passes the out-of-domain check more often than chance allows. *)
Definition transition_exception (a : air E) (d : domain E) (r e : nat) (pts : list E) (rap : a_rap a) (cols : nat -> E -> E)
    (bco tco : list (E * E)) (j : nat) (beta : E) : Prop :=
  exists polys h1 h2, length polys = trace_columns (a_context a) /\ near_polys pts e (2 ^ r + 1) cols polys /\
    (length h1 <= 2 ^ r + 1)%nat /\ (length h2 <= 2 ^ r + 1)%nat /\
    passes_often a d rap polys bco (with_beta j beta tco) h1 h2 (stark_bound a (2 ^ r)) /\
    ~ constraint_holds a rap (domain_columns polys (trace_primitive_root d) (2 ^ r)) (2 ^ r) j.
Definition boundary_exception (a : air E) (d : domain E) (r e : nat) (pts : list E) (rap : a_rap a) (cols : nat -> E -> E)
    (bco tco : list (E * E)) (j : nat) (bc : boundary_constraint E) (beta : E) : Prop :=
  exists polys h1 h2, length polys = trace_columns (a_context a) /\ near_polys pts e (2 ^ r + 1) cols polys /\
    (length h1 <= 2 ^ r + 1)%nat /\ (length h2 <= 2 ^ r + 1)%nat /\
    passes_often a d rap polys (with_beta j beta bco) tco h1 h2 (stark_bound a (2 ^ r)) /\
    nth (bc_step bc) (nth (bc_col bc) (domain_columns polys (trace_primitive_root d) (2 ^ r)) []) 0 <> bc_value bc.

(** ** Exceptional points: the polynomials near the words pass the out-of-domain check at [z], but only by chance. *)
Definition point_exception (a : air E) (d : domain E) (r e : nat) (pts : list E) (rap : a_rap a) (cols : nat -> E -> E) (even odd : E -> E)
    (bco tco : list (E * E)) (z : E) : Prop :=
  exists polys h1 h2, length polys = trace_columns (a_context a) /\ near_polys pts e (2 ^ r + 1) cols polys /\
    near_poly pts e (2 ^ r + 1) even h1 /\ near_poly pts e (2 ^ r + 1) odd h2 /\
    passes_at a d rap polys bco tco h1 h2 z /\ ~ passes_often a d rap polys bco tco h1 h2 (stark_bound a (2 ^ r)).

(** ** Exceptional coefficients of the DEEP composition: the combination hides that the term is no polynomial. *)
Definition term_exception (p : stark_proof E) {a : air E} (c : challenges E a) (g : E) (rows : list (list E)) (r e : nat) (pts : list E)
    (cols : nat -> E -> E) (even odd : E -> E) (col row : nat) (gamma : E) : Prop :=
  hides (fun x => x) pts e (2 ^ r)
    (deep_word p (with_trace_coeff col row 0 c) g rows (opened (trace_columns (a_context a)) cols even odd))
    (fun x => (cols col x - nth col (nth row rows []) 0) * finv (x - c_z E a c * fpow g row)) gamma.
Definition even_exception (p : stark_proof E) {a : air E} (c : challenges E a) (g : E) (rows : list (list E)) (r e : nat) (pts : list E)
    (cols : nat -> E -> E) (even odd : E -> E) (gamma : E) : Prop :=
  hides (fun x => x) pts e (2 ^ r)
    (deep_word p (with_gammas 0 (c_gamma_odd E a c) c) g rows (opened (trace_columns (a_context a)) cols even odd))
    (fun x => (even x - composition_poly_even_ood_evaluation p) * finv (x - c_z E a c * c_z E a c)) gamma.
Definition odd_exception (p : stark_proof E) {a : air E} (c : challenges E a) (g : E) (rows : list (list E)) (r e : nat) (pts : list E)
    (cols : nat -> E -> E) (even odd : E -> E) (gamma : E) : Prop :=
  hides (fun x => x) pts e (2 ^ r)
    (deep_word p (with_gammas (c_gamma_even E a c) 0 c) g rows (opened (trace_columns (a_context a)) cols even odd))
    (fun x => (odd x - composition_poly_odd_ood_evaluation p) * finv (x - c_z E a c * c_z E a c)) gamma.

(** ** No challenge of the run is exceptional. The words of the columns precede the coefficients of the constraints, those of
    the halves precede the point, the frame [rows] precedes the coefficients of the DEEP composition, and every word of FRI
    precedes the challenge with which it is folded. *)
Record unexceptional (a : air E) (d : domain E) (r b e : nat) (w : E) (p : stark_proof E) (c : challenges E a) (rows : list (list E))
    (cols : nat -> E -> E) (even odd : E -> E) (words : list (E -> E)) : Prop := {
  un_transition : forall j, (j < length (transition_degrees (a_context a)))%nat ->
    ~ transition_exception a d r e (points (d_coset_offset d) w (2 ^ (r + b))) (c_rap E a c) cols
        (c_boundary_coeffs E a c) (c_transition_coeffs E a c) j (snd (nth j (c_transition_coeffs E a c) (0, 0)));
  un_boundary : forall bcs j bc, a_boundary a (c_rap E a c) = Ok bcs -> nth_error bcs j = Some bc ->
    ~ boundary_exception a d r e (points (d_coset_offset d) w (2 ^ (r + b))) (c_rap E a c) cols
        (c_boundary_coeffs E a c) (c_transition_coeffs E a c) j bc (snd (nth j (c_boundary_coeffs E a c) (0, 0)));
  un_point : ~ point_exception a d r e (points (d_coset_offset d) w (2 ^ (r + b))) (c_rap E a c) cols even odd
        (c_boundary_coeffs E a c) (c_transition_coeffs E a c) (c_z E a c);
  un_term : forall col row, (col < trace_columns (a_context a))%nat -> (row < length rows)%nat ->
    ~ term_exception p c (trace_primitive_root d) rows r e (points (d_coset_offset d) w (2 ^ (r + b))) cols even odd col row
        (nth row (nth col (c_trace_term_coeffs E a c) []) 0);
  un_even : ~ even_exception p c (trace_primitive_root d) rows r e (points (d_coset_offset d) w (2 ^ (r + b))) cols even odd (c_gamma_even E a c);
  un_odd : ~ odd_exception p c (trace_primitive_root d) rows r e (points (d_coset_offset d) w (2 ^ (r + b))) cols even odd (c_gamma_odd E a c);
  un_fri : ~ fri_exception (r + b) e (d_coset_offset d) w words (c_zetas E a c)
}.

(** ** The points at which the words fold into each other and the first one is the DEEP composition of the others. *)
Definition consistent_at (p : stark_proof E) {a : air E} (c : challenges E a) (g : E) (rows : list (list E))
    (cols : nat -> E -> E) (even odd : E -> E) (words : list (E -> E)) (x : E) : Prop :=
  folds_at words (c_zetas E a c) (fri_last_value p) x /\
  match words with
  | f :: _ => f x = deep_word p c g rows (opened (trace_columns (a_context a)) cols even odd) x
  | [] => True
  end.

(** The parts of the proof that the verifier's answer depends on are there, and they are what the commitments say: every query
    is answered in full, without coincidences of hashes, and the columns and halves are opened truthfully. *)
Definition truthful (p : stark_proof E) {a : air E} (c : challenges E a) (m : nat) (h w : E)
    (cols : nat -> E -> E) (even odd : E -> E) (words : list (E -> E)) : Prop :=
  forall j iota, nth_error (c_iotas E a c) j = Some iota ->
    exists q o, nth_error (query_list p) j = Some q /\ nth_error (deep_poly_openings p) j = Some o /\
      answer_shape (length words) q /\ clash_free m h w words iota q /\
      (forall i, (i < trace_columns (a_context a))%nat -> nth i (lde_trace_evaluations o) 0 = cols i (h * fpow w iota)) /\
      lde_composition_poly_even_evaluation o = even (h * fpow w iota) /\ lde_composition_poly_odd_evaluation o = odd (h * fpow w iota).

(** The words are inconsistent at more than [e] of the positions, and yet all queries fall where they are consistent. *)
Definition lucky_run {a : air E} (d : domain E) (r b e : nat) (w : E) (p : stark_proof E) (c : challenges E a) (rows : list (list E))
    (cols : nat -> E -> E) (even odd : E -> E) (words : list (E -> E)) : Prop :=
  exists lucky, NoDup lucky /\ (length lucky + e < 2 ^ (r + b))%nat /\
    (forall i, In i lucky <-> (i < 2 ^ (r + b))%nat /\
       consistent_at p c (trace_primitive_root d) rows cols even odd words (d_coset_offset d * fpow w i)) /\
    forall iota, In iota (c_iotas E a c) -> In iota lucky.

(** A proof that is accepted, with the words behind its commitments: it answers truthfully and no challenge is exceptional. *)
Record accepted_run (fuel : nat) (mk : nat -> air E) (opts : proof_options) (p : stark_proof E) (r b k e : nat) (d : domain E)
    (c : challenges E (mk (trace_length p))) (w : E) (rows : list (list E)) (cols : nat -> E -> E) (even odd : E -> E) (words : list (E -> E)) : Prop := {
  ar_accepted : verify E fuel mk opts p = Ok true;
  ar_domain : domain_new (mk (trace_length p)) = Ok d;
  ar_challenges : exists t, step_1 E fuel (mk (trace_length p)) p d tr_new = Ok (c, t);
  ar_root : primitive_root (r + b) = Some w;
  ar_frame : trace_ood_frame_evaluations p = mk_frame (concat rows) (trace_columns (a_context (mk (trace_length p))));
  ar_rows : length rows = k;
  ar_widths : Forall (fun row => length row = trace_columns (a_context (mk (trace_length p)))) rows;
  ar_rounds : length words = r;
  ar_layers : fri_layers_merkle_roots p = layer_roots (r + b) (d_coset_offset d) w words;
  ar_truthful : truthful p c (r + b) (d_coset_offset d) w cols even odd words;
  ar_unexceptional : unexceptional (mk (trace_length p)) d r b e w p c rows cols even odd words
}.

(** The columns of a main table, followed by those of the auxiliary table built from it. *)
Definition trace_of (a : air E) (main : trace_table E) (rap : a_rap a) (n : nat) (cols : list (list E)) : Prop :=
  exists aux mcols acols, a_build_aux a main rap = Ok aux /\ has_columns main n mcols /\ has_columns aux n acols /\ cols = mcols ++ acols.
End Rounds.
