(** The verifier. Source: src/starks/verifier.rs (release build, no optional features). *)
From Coq Require Import List Arith NArith Bool.
From Verif.Base Require Import Outcome Bytes Field Poly.
From Verif.Model Require Import Codec Trace Merkle Air Transcript Domain Fri Prover.
Import ListNotations.
Local Open Scope outcome_scope.
Local Open Scope felt_scope.

Section Verifier.
Context (E : env).
Notation T := (e_tr E).

(** verifier.rs:42-57 *)
Record challenges (a : air E) := mk_challenges {
  c_z : E;
  c_boundary_coeffs : list (E * E);
  c_transition_coeffs : list (E * E);
  c_trace_term_coeffs : list (list E);
  c_gamma_even : E;
  c_gamma_odd : E;
  c_zetas : list E;
  c_iotas : list nat;
  c_rap : a_rap a;
  c_leading_zeros : N
}.

(** verifier.rs:154-160 *)
Fixpoint sample_rows (rows len : nat) (t : T) : outcome (list (list E) * T) :=
  match rows with
  | O => Ok ([], t)
  | S r => '(x, t) <- batch_sample_challenges E len t;; '(xs, t) <- sample_rows r len t;; Ok (x :: xs, t)
  end.

(** verifier.rs:165-174 *)
Fixpoint sample_zetas (roots : list commitment) (t : T) : outcome (list E * T) :=
  match roots with
  | [] => Ok ([], t)
  | r :: rs => '(x, t) <- transcript_to_field E (tr_append t r);; '(xs, t) <- sample_zetas rs t;; Ok (x :: xs, t)
  end.

(** verifier.rs:59-206 *)
Definition step_1 (fuel : nat) (a : air E) (p : stark_proof E) (d : domain E) (t : T) : outcome (challenges a * T) :=
  root0 <- idx (lde_trace_merkle_roots p) 0;;
  let t := tr_append t root0 in
  '(rap, t) <- a_build_rap a t;;
  let t := match nth_error (lde_trace_merkle_roots p) 1 with Some r => tr_append t r | None => t end in
  bcs <- a_boundary a rap;;
  '(ba, t) <- batch_sample_challenges E (length bcs) t;;
  '(bb, t) <- batch_sample_challenges E (length bcs) t;;
  '(ta, t) <- batch_sample_challenges E (num_transition_constraints (a_context a)) t;;
  '(tb, t) <- batch_sample_challenges E (num_transition_constraints (a_context a)) t;;
  let t := tr_append t (composition_poly_root p) in
  '(z, t) <- sample_z_ood E fuel (lde_roots_of_unity_coset d) (trace_roots_of_unity d) t;;
  let t := tr_append t (fe_to (e_codec E) (composition_poly_even_ood_evaluation p)) in
  let t := tr_append t (fe_to (e_codec E) (composition_poly_odd_ood_evaluation p)) in
  n_rows <- fr_num_rows (trace_ood_frame_evaluations p);;
  rows <- traverse (fr_get_row (trace_ood_frame_evaluations p)) (seq 0 n_rows);;
  let t := fold_left (append_felts E) rows t in
  '(gamma_even, t) <- transcript_to_field E t;;
  '(gamma_odd, t) <- transcript_to_field E t;;
  '(ttc, t) <- sample_rows (trace_columns (a_context a)) (length (transition_offsets (a_context a))) t;;
  '(zetas, t) <- sample_zetas (fri_layers_merkle_roots p) t;;
  let t := tr_append t (fe_to (e_codec E) (fri_last_value p)) in
  let '(challenge, t) := tr_challenge t in
  lz <- grind_zeros E challenge (nonce p);;
  let t := tr_append t (be_bytes 8 (nonce p)) in
  '(iotas, t) <- sample_indices E (fri_number_of_queries (a_options a)) (2 ^ lde_root_order d) t;;
  Ok (mk_challenges a z (combine ba bb) (combine ta tb) ttc gamma_even gamma_odd zetas iotas rap lz, t).

(** verifier.rs:229-260: the boundary quotient at [z]. *)
Definition boundary_ood (bcs : list (boundary_constraint E)) (fr : frame E) (root z : E) (adj : nat)
    (coeffs : list (E * E)) : outcome E :=
  nums <- traverse (fun bc => row <- fr_get_row fr 0;; v <- idx row (bc_col bc);; Ok (v - bc_value bc)) bcs;;
  dens <- batch_inverse (map (fun bc => z - fpow root (bc_step bc)) bcs);;
  Ok (fold_left (fun acc (x : E * E * (E * E)) => let '(num, den, (alpha, beta)) := x in
        acc + num * den * (alpha * fpow z adj + beta)) (combine (combine nums dens) coeffs) 0).

(** verifier.rs:262-308: the transition quotients at [z]. *)
Definition transition_ood (a : air E) (evals : list E) (z last_root : E) (coeffs : list (E * E)) : outcome E :=
  let ctx := a_context a in
  denominator <- inv_o (fpow z (a_trace_length a) - 1);;
  polys <- transition_exemptions_verifier a last_root;;
  let exemption := map (fun p => peval p z) polys in
  mx <- unwrap (list_max_o (transition_degrees ctx));;
  dadj <- traverse (fun deg => e <- usub (a_degree_bound a) (a_trace_length a * (deg - 1))%nat;; Ok (fpow z e)) (seq 1 mx);;
  ofold (fun acc (x : E * nat * nat * (E * E)) =>
    let '(eval, degree, except, (alpha, beta)) := x in
    ex <- (match except with O => Ok 1 | S i => idx exemption i end);;
    k <- usub degree 1;;
    dj <- idx dadj k;;
    Ok (acc + denominator * eval * (alpha * dj + beta) * ex))
    (combine (combine (combine evals (transition_degrees ctx)) (transition_exemptions ctx)) coeffs) 0.

(** verifier.rs:208-317 *)
Definition step_2 (a : air E) (p : stark_proof E) (d : domain E) (c : challenges a) : outcome bool :=
  bcs <- a_boundary a (c_rap a c);;
  adj <- usub (a_degree_bound a) (a_trace_length a);;
  b <- boundary_ood bcs (trace_ood_frame_evaluations p) (trace_primitive_root d) (c_z a c) adj (c_boundary_coeffs a c);;
  evals <- a_transition a (trace_ood_frame_evaluations p) (c_rap a c);;
  last_root <- unwrap (hd_error (rev (trace_roots_of_unity d)));;
  t <- transition_ood a evals (c_z a c) last_root (c_transition_coeffs a c);;
  Ok (feqb (composition_poly_even_ood_evaluation p + c_z a c * composition_poly_odd_ood_evaluation p) (b + t)).

(** [iter().successors(..)]: x, x^2, x^4, .. *)
Fixpoint squares (n : nat) (x : E) : list E :=
  match n with O => [] | S n' => x :: squares n' (fsquare x) end.

(** verifier.rs:443-523; the loop state is the running value [v] and the result. *)
Definition verify_query (p : stark_proof E) (zetas : list E) (iota : nat) (q : fri_decommitment E) (d : domain E)
    (evaluation_point_inv two_inv : E) : outcome bool :=
  let roots := fri_layers_merkle_roots p in
  v0 <- idx (layers_evaluations q) 0;;
  '(v, result) <- ofold (fun (st : E * bool) (x : nat * commitment * list commitment * E * list commitment * E * E) =>
      let '(v, result) := st in
      let '(k, root, auth_path, evaluation, auth_path_sym, evaluation_sym, xinv) := x in
      depth <- usub (lde_root_order d) k;;
      let domain_length := (2 ^ depth)%nat in
      let index_sym := ((iota + domain_length / 2) mod domain_length)%nat in
      let auth_sym := path_verify (e_node E) auth_path_sym root index_sym (e_leaf E evaluation_sym) in
      let auth_point := path_verify (e_node E) auth_path root iota (e_leaf E evaluation) in
      beta <- idx zetas k;;
      let v := (v + evaluation_sym) * two_inv + beta * (v - evaluation_sym) * two_inv * xinv in
      last <- usub (length (layers_evaluations q)) 1;;
      next <- (if (k <? last)%nat then idx (layers_evaluations q) (k + 1)%nat else Ok (fri_last_value p));;
      Ok (v, result && feqb v next && auth_point && auth_sym))
    (combine (combine (combine (combine (combine (combine (seq 0 (length roots)) roots) (layers_auth_paths q))
       (layers_evaluations q)) (layers_auth_paths_sym q)) (layers_evaluations_sym q))
       (squares (length roots) evaluation_point_inv)) (v0, true);;
  Ok result.

(** verifier.rs:319-356 *)
Definition step_3 (a : air E) (p : stark_proof E) (d : domain E) (c : challenges a) : outcome bool :=
  two_inv <- inv_o (e_u64 E 2);;
  points <- traverse (idx (lde_roots_of_unity_coset d)) (c_iotas a c);;
  points_inv <- batch_inverse points;;
  ofold (fun result (x : fri_decommitment E * nat * E) => let '(q, iota, xinv) := x in
      r <- verify_query p (c_zetas a c) iota q d xinv two_inv;;
      Ok (result && r)) (combine (combine (query_list p) (c_iotas a c)) points_inv) true.

(** verifier.rs:526-557; [o] is [proof.deep_poly_openings[i]]. *)
Definition reconstruct_deep (p : stark_proof E) (a : air E) (c : challenges a) (denom_inv : E) (divisors : list E)
    (o : deep_openings E) : outcome E :=
  let fr := trace_ood_frame_evaluations p in
  n_rows <- fr_num_rows fr;; (* the caller has already evaluated it, verifier.rs:426 *)
  trace_term <- ofold (fun acc (x : nat * list E) => let '(col, coeff_row) := x in
      inner <- ofold (fun acc2 (y : nat * E) => let '(row, coeff) := y in
          tv <- idx (lde_trace_evaluations o) col;;
          rw <- fr_get_row fr row;;
          ov <- idx rw col;;
          dv <- idx divisors row;;
          Ok (acc2 + (tv - ov) * dv * coeff)) (combine (seq 0 n_rows) coeff_row) 0;;
      Ok (acc + inner)) (combine (seq 0 (fr_num_columns fr)) (c_trace_term_coeffs a c)) 0;;
  let h_1 := (lde_composition_poly_even_evaluation o - composition_poly_even_ood_evaluation p) * denom_inv in
  let h_2 := (lde_composition_poly_odd_evaluation o - composition_poly_odd_ood_evaluation p) * denom_inv in
  Ok (trace_term + h_1 * c_gamma_even a c + h_2 * c_gamma_odd a c).

(** verifier.rs:411-422: the openings of the columns, folded into the verdict so far. *)
Definition trace_openings_check (p : stark_proof E) (iota : nat) (o : deep_openings E) (main_evals aux_evals : list E) (result : bool) : bool :=
  fold_left (fun acc (x : commitment * list commitment * list E) =>
       let '(mroot, mproof, ev) := x in acc && path_verify (e_node E) mproof mroot iota (e_leaves E ev))
     (combine (combine (lde_trace_merkle_roots p) (lde_trace_merkle_proofs o)) [main_evals; aux_evals]) result.

(** verifier.rs:384-440: one query. The value of the fold over the trace openings
    (lines 411-422) is discarded by the code; the model computes it to show this. *)
Definition verify_opening (a : air E) (p : stark_proof E) (d : domain E) (c : challenges a) (root : E)
    (i iota : nat) (o : deep_openings E) (denom_inv : E) (result : bool) : outcome bool :=
  let evaluations := [lde_composition_poly_even_evaluation o; lde_composition_poly_odd_evaluation o] in
  let result := result && path_verify (e_node E) (lde_composition_poly_proof o) (composition_poly_root p) iota
                            (e_leaves E evaluations) in
  num_main <- usub (trace_columns (a_context a)) (a_n_aux a);;
  main_evals <- slice (lde_trace_evaluations o) 0 num_main;;
  aux_evals <- slice (lde_trace_evaluations o) num_main (length (lde_trace_evaluations o));;
  let _discarded := trace_openings_check p iota o main_evals aux_evals result in
  n_rows <- fr_num_rows (trace_ood_frame_evaluations p);;
  x <- idx (lde_roots_of_unity_coset d) iota;;
  divisors <- batch_inverse (map (fun row => x - c_z a c * fpow root row) (seq 0 n_rows));;
  deep <- reconstruct_deep p a c denom_inv divisors o;;
  q <- idx (query_list p) i;;
  claimed <- idx (layers_evaluations q) 0;;
  Ok (result && feqb claimed deep).

(** verifier.rs:358-441 *)
Definition step_4 (a : air E) (p : stark_proof E) (d : domain E) (c : challenges a) : outcome bool :=
  root <- unwrap (primitive_root (root_order d));;
  let z_squared := fsquare (c_z a c) in
  dens <- traverse (fun iota => x <- idx (lde_roots_of_unity_coset d) iota;; Ok (x - z_squared)) (c_iotas a c);;
  denom_inv <- batch_inverse dens;;
  let l := combine (combine (c_iotas a c) (deep_poly_openings p)) denom_inv in
  ofold (fun result (x : nat * (nat * deep_openings E * E)) => let '(i, (iota, o, dinv)) := x in
      verify_opening a p d c root i iota o dinv result) (combine (seq 0 (length l)) l) true.

(** verifier.rs:559-657 *)
Definition verify (fuel : nat) (mk : nat -> air E) (opts : proof_options) (p : stark_proof E) : outcome bool :=
  if (length (query_list p) <? fri_number_of_queries opts)%nat then Ok false else
  let a := mk (trace_length p) in
  d <- domain_new a;;
  '(c, t) <- step_1 fuel a p d tr_new;;
  if (c_leading_zeros a c <? grinding_factor (a_options a))%N then Ok false else
  b2 <- step_2 a p d c;;
  if negb b2 then Ok false else
  b3 <- step_3 a p d c;;
  if negb b3 then Ok false else
  b4 <- step_4 a p d c;;
  Ok b4.
End Verifier.
