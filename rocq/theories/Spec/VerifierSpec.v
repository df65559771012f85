(** What the verifier checks, written out as formulas and without loops, truncating zips or panics. *)
From Coq Require Import List Arith NArith.
From Verif.Base Require Import Outcome Bytes Field Poly.
From Verif.Model Require Import Codec Trace Merkle Air Domain Verifier.
Import ListNotations.
Local Open Scope felt_scope.

Section VerifierSpec.
Context {E : env}.

(** The composition polynomial's value at [z] computed from the first row of the out-of-domain frame and
    the values [evals] of the transition constraints; [g] generates the trace domain of size [n]. *)
Definition composition_value (a : air E) (n : nat) (g z : E) (bcs : list (boundary_constraint E)) (bco : list (E * E))
    (row0 evals : list E) (tco : list (E * E)) : E :=
  fsum (map (fun x : boundary_constraint E * (E * E) => let '(bc, (alpha, beta)) := x in
         (nth (bc_col bc) row0 0 - bc_value bc) * finv (z - fpow g (bc_step bc)) *
         (alpha * fpow z (a_degree_bound a - n) + beta)) (combine bcs bco)) +
  fsum (map (fun x : E * nat * nat * (E * E) => let '(eval, degree, exempt, (alpha, beta)) := x in
         eval * finv (fpow z n - 1) * (alpha * fpow z (a_degree_bound a - n * (degree - 1)) + beta) *
         fprod (map (fun k => z - fpow g (n - k)) (seq 1 exempt)))
       (combine (combine (combine evals (transition_degrees (a_context a))) (transition_exemptions (a_context a))) tco)).

(** A Merkle opening. *)
Definition opens_to (path : list commitment) (root : commitment) (index : nat) (leaf : commitment) : Prop :=
  fold_path (e_node E) path index leaf = root.

(** The FRI checks of one query, at every layer [k] for which the proof has all parts. [x] is the query
    point in the first domain, of size [2^m]. *)
Definition fri_query_consistent (m : nat) (roots : list commitment) (zetas : list E) (last : E) (iota : nat) (x : E)
    (q : fri_decommitment E) : Prop :=
  forall k root path ev psym esym zeta,
    nth_error roots k = Some root -> nth_error zetas k = Some zeta ->
    nth_error (layers_auth_paths q) k = Some path -> nth_error (layers_evaluations q) k = Some ev ->
    nth_error (layers_auth_paths_sym q) k = Some psym -> nth_error (layers_evaluations_sym q) k = Some esym ->
    let size := (2 ^ (m - k))%nat in
    opens_to path root iota (e_leaf E ev) /\
    opens_to psym root ((iota + size / 2) mod size) (e_leaf E esym) /\
    (ev + esym) * finv (1 + 1) + zeta * (ev - esym) * finv ((1 + 1) * fpow x (2 ^ k)) =
      (if (k + 1 <? length (layers_evaluations q))%nat then nth (k + 1) (layers_evaluations q) 0 else last).

(** The value of the DEEP composition polynomial at [x] according to an opening. *)
Definition deep_value (p : stark_proof E) {a : air E} (c : challenges E a) (g : E) (rows : list (list E)) (x : E)
    (o : deep_openings E) : E :=
  let z := c_z E a c in
  fsum (map (fun cc : nat * list E => fsum (map (fun rc : nat * E =>
          (nth (fst cc) (lde_trace_evaluations o) 0 - nth (fst cc) (nth (fst rc) rows []) 0) *
          finv (x - z * fpow g (fst rc)) * snd rc) (combine (seq 0 (length rows)) (snd cc))))
        (combine (seq 0 (fr_num_columns (trace_ood_frame_evaluations p))) (c_trace_term_coeffs E a c)))
  + (lde_composition_poly_even_evaluation o - composition_poly_even_ood_evaluation p) * finv (x - z * z) * c_gamma_even E a c
  + (lde_composition_poly_odd_evaluation o - composition_poly_odd_ood_evaluation p) * finv (x - z * z) * c_gamma_odd E a c.

(** All that acceptance means, for the challenges [c]: [g] generates the trace domain of size [2^r] and
    [lde] lists the [2^(r+b)] points of the evaluation domain. *)
Record accepted (a : air E) (opts : proof_options) (p : stark_proof E) (c : challenges E a) (r b : nat) (g : E) (lde : list E) : Prop := {
  acc_queries : (fri_number_of_queries opts <= length (query_list p))%nat;
  acc_grinding : (grinding_factor (a_options a) <= c_leading_zeros E a c)%N;
  acc_ood : exists bcs row0 evals,
      a_boundary a (c_rap E a c) = Ok bcs /\
      (bcs <> [] -> fr_get_row (trace_ood_frame_evaluations p) 0 = Ok row0) /\
      a_transition a (trace_ood_frame_evaluations p) (c_rap E a c) = Ok evals /\
      composition_poly_even_ood_evaluation p + c_z E a c * composition_poly_odd_ood_evaluation p =
      composition_value a (2 ^ r) g (c_z E a c) bcs (c_boundary_coeffs E a c) row0 evals (c_transition_coeffs E a c);
  acc_fri : forall j iota q, nth_error (c_iotas E a c) j = Some iota -> nth_error (query_list p) j = Some q ->
      fri_query_consistent (r + b) (fri_layers_merkle_roots p) (c_zetas E a c) (fri_last_value p) iota (nth iota lde 0) q;
  acc_openings : forall j iota o, nth_error (c_iotas E a c) j = Some iota -> nth_error (deep_poly_openings p) j = Some o ->
      opens_to (lde_composition_poly_proof o) (composition_poly_root p) iota
        (e_leaves E [lde_composition_poly_even_evaluation o; lde_composition_poly_odd_evaluation o]) /\
      exists rows q, nth_error (query_list p) j = Some q /\
        fr_num_rows (trace_ood_frame_evaluations p) = Ok (length rows) /\
        (forall i, (i < length rows)%nat -> fr_get_row (trace_ood_frame_evaluations p) i = Ok (nth i rows [])) /\
        hd_error (layers_evaluations q) = Some (deep_value p c g rows (nth iota lde 0) o)
}.
End VerifierSpec.
