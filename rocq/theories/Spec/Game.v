(** The protocol as a game: the verifier's challenges are a tape of random field elements followed by random positions, and a
    prover is a strategy that answers every prefix of the tape. The game is only about words; commitments, transcripts and hashes
    do not occur. Then the error: how many tapes and positions a strategy can win with. *)
From Coq Require Import List Arith NArith.
From Verif.Base Require Import Outcome Bytes Field Poly.
From Verif.Model Require Import Codec Merkle Air Domain Verifier.
From Verif.Spec Require Import AirSpec ProvingSpec LowDegree FriTree OodSpec StarkTree Proximity Rounds.
Import ListNotations.
Local Open Scope felt_scope.

(** All vectors whose entries come from the given lists, and how many there are. *)
Fixpoint product {A} (ls : list (list A)) : list (list A) :=
  match ls with
  | [] => [[]]
  | l :: ls => flat_map (fun x => map (cons x) (product ls)) l
  end.
Definition volume {A} (ls : list (list A)) : nat := fold_right Nat.mul 1%nat (map (@length A) ls).

(** [l] elements of the tape from position [o] on. *)
Definition part {A} (o l : nat) (t : list A) : list A := firstn l (skipn o t).

Section Game.
Context {E : env} (a : air E) (kr nb r : nat) (pick : list E -> a_rap a).
Local Notation nt := (num_transition_constraints (a_context a)).
Local Notation width := (trace_columns (a_context a)).
Local Notation k := (length (transition_offsets (a_context a))).

(** The tape: [kr] elements for the challenges of the randomized AIR, first and second coefficients of the [nb] boundary constraints,
    first and second coefficients of the transition constraints, the out-of-domain point, the coefficients of the two halves in the DEEP
    composition, those of the columns, [k] for each, and the [r] challenges of FRI. This is the order of C76. *)
Definition at_boundary : nat := (kr + nb)%nat.
Definition at_transition : nat := (kr + nb + nb + nt)%nat.
Definition at_point : nat := (kr + nb + nb + nt + nt)%nat.
Definition at_terms : nat := (at_point + 3)%nat.
Definition at_folding : nat := (at_terms + width * k)%nat.
Definition tape_length : nat := (at_folding + r)%nat.

Definition tape_rap (t : list E) : a_rap a := pick (part 0 kr t).
Definition tape_boundary (t : list E) : list (E * E) := combine (part kr nb t) (part at_boundary nb t).
Definition tape_transition (t : list E) : list (E * E) := combine (part (kr + nb + nb) nt t) (part at_transition nt t).
Definition tape_terms (t : list E) : list (list E) := map (fun col => part (at_terms + col * k) k t) (seq 0 width).

(** The verifier's view of tape and positions. *)
Definition tape_challenges (t : list E) (queries : list nat) : challenges E a :=
  mk_challenges E a (nth at_point t 0) (tape_boundary t) (tape_transition t) (tape_terms t)
    (nth (at_point + 1) t 0) (nth (at_point + 2) t 0) (part at_folding r t) queries (tape_rap t) 0%N.

(** A prover: words for the columns, given the challenges of the randomized AIR; words for the halves of the composition polynomial,
    given also all coefficients of the constraints; stated values and frame, given also the point; a word for FRI layer [l], given all
    that precedes its challenge; and the last value, given the whole tape. *)
Record strategy := mk_strategy {
  s_columns : list E -> nat -> E -> E;
  s_even : list E -> E -> E;
  s_odd : list E -> E -> E;
  s_even_value : list E -> E;
  s_odd_value : list E -> E;
  s_frame : list E -> list (list E);
  s_layer : nat -> list E -> E -> E;
  s_last : list E -> E
}.

Section Play.
Context (s : strategy).
Definition play_columns (t : list E) : nat -> E -> E := s_columns s (firstn kr t).
Definition play_even (t : list E) : E -> E := s_even s (firstn at_point t).
Definition play_odd (t : list E) : E -> E := s_odd s (firstn at_point t).
Definition play_frame (t : list E) : list (list E) := s_frame s (firstn (at_point + 1) t).
Definition play_words (t : list E) : list (E -> E) := map (fun l => s_layer s l (firstn (at_folding + l) t)) (seq 0 r).
(** Only the parts of a proof that are not commitments or openings. *)
Definition play_proof (t : list E) : stark_proof E :=
  mk_stark_proof 0 [] (mk_frame (concat (play_frame t)) width) [] (s_even_value s (firstn (at_point + 1) t)) (s_odd_value s (firstn (at_point + 1) t))
    [] (s_last s t) [] [] 0%N.

(** A frame of the right shape, whatever the tape. *)
Definition well_formed : Prop := forall u, length (s_frame s u) = k /\ Forall (fun row => length row = width) (s_frame s u).

(** The prover wins when the verifier's out-of-domain check succeeds and, at every queried position, the words fold into each other and the
    first one is the DEEP composition. *)
Definition wins (d : domain E) (w : E) (t : list E) (queries : list nat) : Prop :=
  step_2 E a (play_proof t) d (tape_challenges t queries) = Ok true /\
  forall i, In i queries -> consistent_at (play_proof t) (tape_challenges t queries) (trace_primitive_root d) (play_frame t)
    (play_columns t) (play_even t) (play_odd t) (play_words t) (d_coset_offset d * fpow w i).

(** After the challenges [xs] of the randomized AIR the committed columns are near polynomials that satisfy every constraint. *)
Definition commits_to_solution (d : domain E) (b e : nat) (w : E) (xs : list E) : Prop :=
  exists polys, length polys = width /\ near_polys (points (d_coset_offset d) w (2 ^ (r + b))) e (2 ^ r + 1) (s_columns s xs) polys /\
    trace_satisfies a (pick xs) (domain_columns polys (trace_primitive_root d) (2 ^ r)) (2 ^ r).
End Play.

(** The sum of the numbers of exceptional values: one for the second coefficient of each constraint, [stark_bound] for the point, [e + 1] for
    each coefficient of the DEEP composition, [e / 2^(l+1) + 1] for folding [l]. *)
Definition error_weight (e : nat) : nat :=
  (nb + nt + stark_bound a (2 ^ r) + (e + 1) * (2 + width * k) + list_sum (map (fun l => e / 2 ^ (l + 1) + 1) (seq 0 r)))%nat.

(** An air that the protocol can be played for, with [2^r] rows, blowup [2^b] and decoding radius [e]. *)
Record playable (b e : nat) (d : domain E) (w : E) : Prop := {
  pl_admissible : admissible a r b k;
  pl_proving : proving_ok a r b;
  pl_domain : domain_new a = Ok d;
  pl_root : primitive_root (r + b) = Some w;
  pl_polynomial : forall g, primitive_root r = Some g -> transition_is_polynomial a (2 ^ r + 1) g;
  pl_transitions : (length (transition_exemptions (a_context a)) <= length (transition_degrees (a_context a)) <= nt)%nat;
  pl_boundary : forall rap bcs, a_boundary a rap = Ok bcs -> length bcs = nb /\
    forall bc, In bc bcs -> (bc_step bc < 2 ^ r)%nat /\ (bc_col bc < width)%nat;
  pl_radius : (3 * e + 2 ^ r <= 2 ^ (r + b))%nat
}.

(** The verifier draws every entry of the tape from a list of at least [size] different elements; the point is drawn from outside of the
    evaluation domain. *)
Record fair (d : domain E) (size : nat) (samples : list (list E)) : Prop := {
  fa_length : length samples = tape_length;
  fa_size : forall l, In l samples -> NoDup l /\ (size <= length l)%nat;
  fa_point : forall z, In z (nth at_point samples []) -> ~ In z (lde_roots_of_unity_coset d)
}.

(** Different pairs of a tape and [q] positions that the prover wins with. *)
Definition winning (s : strategy) (d : domain E) (w : E) (b q : nat) (samples : list (list E)) (W : list (list E * list nat)) : Prop :=
  NoDup W /\ forall t v, In (t, v) W ->
    In t (product samples) /\ length v = q /\ (forall i, In i v -> (i < 2 ^ (r + b))%nat) /\ wins s d w t v.

(** The tape of challenges [c], with [xs] for those of the randomized AIR. *)
Definition tape_of (xs : list E) (c : challenges E a) : list E :=
  xs ++ map fst (c_boundary_coeffs E a c) ++ map snd (c_boundary_coeffs E a c) ++ map fst (c_transition_coeffs E a c) ++ map snd (c_transition_coeffs E a c) ++
  [c_z E a c; c_gamma_even E a c; c_gamma_odd E a c] ++ concat (c_trace_term_coeffs E a c) ++ c_zetas E a c.

(** The proof [p] states the values of the strategy, and its FRI layers commit to the words of the strategy. *)
Definition proof_plays (s : strategy) (b : nat) (d : domain E) (w : E) (t : list E) (p : stark_proof E) : Prop :=
  trace_ood_frame_evaluations p = trace_ood_frame_evaluations (play_proof s t) /\
  composition_poly_even_ood_evaluation p = composition_poly_even_ood_evaluation (play_proof s t) /\
  composition_poly_odd_ood_evaluation p = composition_poly_odd_ood_evaluation (play_proof s t) /\
  fri_last_value p = s_last s t /\
  fri_layers_merkle_roots p = layer_roots (r + b) (d_coset_offset d) w (play_words s t).
End Game.
