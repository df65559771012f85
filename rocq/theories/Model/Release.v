(** The verifier under both build profiles. Verifier.v and CairoAir.v stop at an underflow of an unsigned subtraction, as the debug
    profile does; Cargo.toml:67-70 does not enable overflow checks for the release profile, where the same subtractions wrap. Here they
    take the profile as an argument; everything else is as in Verifier.v and CairoAir.v. Source: src/starks/verifier.rs and
    src/cairo/air.rs:777-849. *)
From Coq Require Import List Arith NArith ZArith Bool.
From Verif.Base Require Import Outcome Bytes Field Poly.
From Verif.Model Require Import Codec PublicInputs Trace Merkle Air Transcript Domain Fri Prover Verifier Options CairoDecode CairoTrace CairoAir.
Import ListNotations.
Local Open Scope outcome_scope.
Local Open Scope felt_scope.

(** [a - b] on [usize]. *)
Definition usub_in (m : build) (a b : nat) : outcome nat :=
  if (a <? b)%nat then match m with Debug => Panic | Release => Ok (N.to_nat (2 ^ 64 + N.of_nat a - N.of_nat b)) end else Ok (a - b)%nat.

(** The exponent of [1 << (a - b)] with [a], [b] of type [u32]: the difference wraps modulo 2^32 and the shift of a [usize] uses its
    low six bits, so an underflow leaves the difference modulo 64. *)
Definition shift_in (m : build) (a b : nat) : outcome nat :=
  if (a <? b)%nat then match m with Debug => Panic | Release => Ok (Z.to_nat ((Z.of_nat a - Z.of_nat b) mod 64)) end else Ok (a - b)%nat.

Section Verifier.
Context (m : build) (E : env).

(** verifier.rs:262-308 *)
Definition transition_ood_in (a : air E) (evals : list E) (z last_root : E) (coeffs : list (E * E)) : outcome E :=
  let ctx := a_context a in
  denominator <- inv_o (fpow z (a_trace_length a) - 1);;
  polys <- transition_exemptions_verifier a last_root;;
  let exemption := map (fun p => peval p z) polys in
  mx <- unwrap (list_max_o (transition_degrees ctx));;
  dadj <- traverse (fun deg => e <- usub_in m (a_degree_bound a) (a_trace_length a * (deg - 1))%nat;; Ok (fpow z e)) (seq 1 mx);;
  ofold (fun acc (x : E * nat * nat * (E * E)) =>
    let '(eval, degree, except, (alpha, beta)) := x in
    ex <- (match except with O => Ok 1 | S i => idx exemption i end);;
    k <- usub_in m degree 1;;
    dj <- idx dadj k;;
    Ok (acc + denominator * eval * (alpha * dj + beta) * ex))
    (combine (combine (combine evals (transition_degrees ctx)) (transition_exemptions ctx)) coeffs) 0.

(** verifier.rs:208-317 *)
Definition step_2_in (a : air E) (p : stark_proof E) (d : domain E) (c : challenges E a) : outcome bool :=
  bcs <- a_boundary a (c_rap E a c);;
  adj <- usub_in m (a_degree_bound a) (a_trace_length a);;
  b <- boundary_ood E bcs (trace_ood_frame_evaluations p) (trace_primitive_root d) (c_z E a c) adj (c_boundary_coeffs E a c);;
  evals <- a_transition a (trace_ood_frame_evaluations p) (c_rap E a c);;
  last_root <- unwrap (hd_error (rev (trace_roots_of_unity d)));;
  t <- transition_ood_in a evals (c_z E a c) last_root (c_transition_coeffs E a c);;
  Ok (feqb (composition_poly_even_ood_evaluation p + c_z E a c * composition_poly_odd_ood_evaluation p) (b + t)).

(** verifier.rs:443-523: the body of the loop, and the loop *)
Definition query_step_in (p : stark_proof E) (zetas : list E) (iota : nat) (q : fri_decommitment E) (d : domain E) (two_inv : E)
    (st : E * bool) (x : nat * commitment * list commitment * E * list commitment * E * E) : outcome (E * bool) :=
  let '(v, result) := st in
  let '(k, root, auth_path, evaluation, auth_path_sym, evaluation_sym, xinv) := x in
  depth <- shift_in m (lde_root_order d) k;;
  let domain_length := (2 ^ depth)%nat in
  let index_sym := ((iota + domain_length / 2) mod domain_length)%nat in
  let auth_sym := path_verify (e_node E) auth_path_sym root index_sym (e_leaf E evaluation_sym) in
  let auth_point := path_verify (e_node E) auth_path root iota (e_leaf E evaluation) in
  beta <- idx zetas k;;
  let v := (v + evaluation_sym) * two_inv + beta * (v - evaluation_sym) * two_inv * xinv in
  last <- usub_in m (length (layers_evaluations q)) 1;;
  next <- (if (k <? last)%nat then idx (layers_evaluations q) (k + 1)%nat else Ok (fri_last_value p));;
  Ok (v, result && feqb v next && auth_point && auth_sym).
Definition verify_query_in (p : stark_proof E) (zetas : list E) (iota : nat) (q : fri_decommitment E) (d : domain E)
    (evaluation_point_inv two_inv : E) : outcome bool :=
  let roots := fri_layers_merkle_roots p in
  v0 <- idx (layers_evaluations q) 0;;
  '(v, result) <- ofold (query_step_in p zetas iota q d two_inv)
    (combine (combine (combine (combine (combine (combine (seq 0 (length roots)) roots) (layers_auth_paths q))
       (layers_evaluations q)) (layers_auth_paths_sym q)) (layers_evaluations_sym q))
       (squares E (length roots) evaluation_point_inv)) (v0, true);;
  Ok result.

(** verifier.rs:319-356 *)
Definition step_3_in (a : air E) (p : stark_proof E) (d : domain E) (c : challenges E a) : outcome bool :=
  two_inv <- inv_o (e_u64 E 2);;
  points <- traverse (idx (lde_roots_of_unity_coset d)) (c_iotas E a c);;
  points_inv <- batch_inverse points;;
  ofold (fun result (x : fri_decommitment E * nat * E) => let '(q, iota, xinv) := x in
      r <- verify_query_in p (c_zetas E a c) iota q d xinv two_inv;;
      Ok (result && r)) (combine (combine (query_list p) (c_iotas E a c)) points_inv) true.

(** verifier.rs:384-440: one query *)
Definition verify_opening_in (a : air E) (p : stark_proof E) (d : domain E) (c : challenges E a) (root : E)
    (i iota : nat) (o : deep_openings E) (denom_inv : E) (result : bool) : outcome bool :=
  let evaluations := [lde_composition_poly_even_evaluation o; lde_composition_poly_odd_evaluation o] in
  let result := result && path_verify (e_node E) (lde_composition_poly_proof o) (composition_poly_root p) iota
                            (e_leaves E evaluations) in
  num_main <- usub_in m (trace_columns (a_context a)) (a_n_aux a);;
  main_evals <- slice (lde_trace_evaluations o) 0 num_main;;
  aux_evals <- slice (lde_trace_evaluations o) num_main (length (lde_trace_evaluations o));;
  n_rows <- fr_num_rows (trace_ood_frame_evaluations p);;
  x <- idx (lde_roots_of_unity_coset d) iota;;
  divisors <- batch_inverse (map (fun row => x - c_z E a c * fpow root row) (seq 0 n_rows));;
  deep <- reconstruct_deep E p a c denom_inv divisors o;;
  q <- idx (query_list p) i;;
  claimed <- idx (layers_evaluations q) 0;;
  Ok (result && feqb claimed deep).

(** verifier.rs:358-441 *)
Definition step_4_in (a : air E) (p : stark_proof E) (d : domain E) (c : challenges E a) : outcome bool :=
  root <- unwrap (primitive_root (root_order d));;
  let z_squared := fsquare (c_z E a c) in
  dens <- traverse (fun iota => x <- idx (lde_roots_of_unity_coset d) iota;; Ok (x - z_squared)) (c_iotas E a c);;
  denom_inv <- batch_inverse dens;;
  let l := combine (combine (c_iotas E a c) (deep_poly_openings p)) denom_inv in
  ofold (fun result (x : nat * (nat * deep_openings E * E)) => let '(i, (iota, o, dinv)) := x in
      verify_opening_in a p d c root i iota o dinv result) (combine (seq 0 (length l)) l) true.

(** verifier.rs:559-657 *)
Definition verify_in (fuel : nat) (mk : nat -> air E) (opts : proof_options) (p : stark_proof E) : outcome bool :=
  if (length (query_list p) <? fri_number_of_queries opts)%nat then Ok false else
  let a := mk (trace_length p) in
  d <- domain_new a;;
  '(c, t) <- step_1 E fuel a p d tr_new;;
  if (c_leading_zeros E a c <? grinding_factor (a_options a))%N then Ok false else
  b2 <- step_2_in a p d c;;
  if negb b2 then Ok false else
  b3 <- step_3_in a p d c;;
  if negb b3 then Ok false else
  b4 <- step_4_in a p d c;;
  Ok b4.
End Verifier.

Section Cairo.
Context (m : build) {C : cairo_env}.

(** air.rs:777-849 *)
Definition cairo_boundary_in (pi : public_inputs C) (n : nat) (ch : cairo_challenges C) : outcome (list (boundary_constraint C)) :=
  let off := builtin_offset pi in
  last_step <- usub_in m (num_steps pi) 1;;
  final_index <- usub_in m n 1;;
  cumulative_product <- inv_o (fold_left (fun product av =>
      product * (z_memory ch - (fst av + alpha_memory ch * snd av))) (public_memory pi) 1);;
  let permutation_final := fpow (z_memory ch) (length (public_memory pi)) * cumulative_product in
  rc_min <- unwrap (range_check_min pi);;
  rc_max <- unwrap (range_check_max pi);;
  Ok [mk_bc MEM_A_TRACE_OFFSET 0%nat (pc_init pi);
      mk_bc MEM_P_TRACE_OFFSET 0%nat (ap_init pi);
      mk_bc MEM_A_TRACE_OFFSET last_step (pc_final pi);
      mk_bc MEM_P_TRACE_OFFSET last_step (ap_final pi);
      mk_bc (PERMUTATION_ARGUMENT_COL_3 - off)%nat final_index permutation_final;
      mk_bc (PERMUTATION_ARGUMENT_RANGE_CHECK_COL_3 - off)%nat final_index 1;
      mk_bc (RANGE_CHECK_COL_1 - off)%nat 0%nat (e_u64 C rc_min);
      mk_bc (RANGE_CHECK_COL_3 - off)%nat final_index (e_u64 C rc_max)].

(** air.rs:574-866 *)
Definition cairo_air_in (pi : public_inputs C) (opts : proof_options) (n : nat) : air C := {|
  a_rap := cairo_challenges C;
  a_context := cairo_context pi opts;
  a_trace_length := n;
  a_build_aux := cairo_build_aux pi;
  a_build_rap := cairo_build_rap;
  a_n_aux := number_auxiliary_rap_columns;
  a_degree_bound := (2 * n)%nat;
  a_transition := cairo_transition pi;
  a_boundary := cairo_boundary_in pi n
|}.

(** air.rs:1176-1182 *)
Definition verify_cairo_proof_in (fuel : nat) (p : stark_proof C) (pi : public_inputs C) (opts : proof_options) : outcome bool :=
  verify_in m C fuel (cairo_air_in pi opts) opts p.
End Cairo.
