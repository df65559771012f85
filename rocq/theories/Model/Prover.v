(** The prover. Source: src/starks/prover.rs (release build, no optional features). *)
From Coq Require Import List Arith NArith.
From Verif.Base Require Import Outcome Bytes Field Poly.
From Verif.Model Require Import Codec Trace Merkle Air Transcript Domain Fri Evaluator.
Import ListNotations.
Local Open Scope outcome_scope.

Section Prover.
Context (E : env).
Notation T := (e_tr E).

(** prover.rs:45-56 *)
Record round1 (a : air E) := mk_round1 {
  r1_trace_polys : list (poly E);
  r1_lde_trace : trace_table E;
  r1_trees : list merkle_tree;
  r1_roots : list commitment;
  r1_rap : a_rap a
}.

(** prover.rs:58-69 *)
Record round2 := mk_round2 {
  r2_even : poly E;
  r2_even_evals : list E;
  r2_tree : merkle_tree;
  r2_root : commitment;
  r2_odd : poly E;
  r2_odd_evals : list E
}.

(** prover.rs:71-75 *)
Record round3 := mk_round3 {
  r3_trace_ood : list (list E);
  r3_even_ood : E;
  r3_odd_ood : E
}.

(** prover.rs:77-83 *)
Record round4 := mk_round4 {
  r4_last_value : E;
  r4_fri_roots : list commitment;
  r4_deep_openings : list (deep_openings E);
  r4_query_list : list (fri_decommitment E);
  r4_nonce : N
}.

(** prover.rs:96-104 *)
Definition batch_commit (vectors : list (list E)) : outcome (merkle_tree * commitment) :=
  tree <- merkle_build (map (e_leaves E) vectors);;
  Ok (tree, tree_root (e_node E) tree).

(** prover.rs:161-185 *)
Definition compute_lde_trace_evaluations (polys : list (poly E)) (d : domain E) : outcome (list (list E)) :=
  unwrap_r (traverse (fun p => evaluate_polynomial_on_lde_domain p (d_blowup_factor d)
                                 (interpolation_domain_size d) (d_coset_offset d)) polys).

(** prover.rs:126-159 *)
Definition interpolate_and_commit (trace : trace_table E) (d : domain E) (t : T)
  : outcome (list (poly E) * list (list E) * merkle_tree * commitment * T) :=
  polys <- tt_compute_trace_polys trace;;
  evals <- compute_lde_trace_evaluations polys d;;
  lde_trace <- tt_new_from_cols evals;;
  rows <- tt_rows lde_trace;;
  '(tree, root) <- batch_commit rows;;
  Ok (polys, evals, tree, root, tr_append t root).

(** prover.rs:187-224 *)
Definition round_1 (a : air E) (main_trace : trace_table E) (d : domain E) (t : T)
  : outcome (round1 a * T) :=
  '(polys, evals, main_tree, main_root, t) <- interpolate_and_commit main_trace d t;;
  '(rap, t) <- a_build_rap a t;;
  aux_trace <- a_build_aux a main_trace rap;;
  if tt_is_empty aux_trace then
    lde_trace <- tt_new_from_cols evals;;
    Ok (mk_round1 a polys lde_trace [main_tree] [main_root] rap, t)
  else
    '(aux_polys, aux_evals, aux_tree, aux_root, t) <- interpolate_and_commit aux_trace d t;;
    lde_trace <- tt_new_from_cols (evals ++ aux_evals);;
    Ok (mk_round1 a (polys ++ aux_polys) lde_trace [main_tree; aux_tree] [main_root; aux_root] rap, t).

(** prover.rs:226-286 *)
Definition round_2 (a : air E) (d : domain E) (r1 : round1 a) (transition_coeffs boundary_coeffs : list (E * E))
  : outcome round2 :=
  evals <- evaluate_constraints a (r1_lde_trace a r1) d transition_coeffs boundary_coeffs (r1_rap a r1);;
  h <- unwrap_r (interpolate_offset_fft evals (d_coset_offset d));;
  let '(even, odd) := even_odd h in
  even_evals <- unwrap_r (evaluate_polynomial_on_lde_domain even (d_blowup_factor d)
                            (interpolation_domain_size d) (d_coset_offset d));;
  odd_evals <- unwrap_r (evaluate_polynomial_on_lde_domain odd (d_blowup_factor d)
                            (interpolation_domain_size d) (d_coset_offset d));;
  '(tree, root) <- batch_commit (map (fun ab => [fst ab; snd ab]) (combine even_evals odd_evals));;
  Ok (mk_round2 even even_evals tree root odd odd_evals).

(** prover.rs:288-325 *)
Definition round_3 (a : air E) (d : domain E) (r1 : round1 a) (r2 : round2) (z : E) : round3 :=
  let z_squared := fsquare z in
  mk_round3 (fr_get_trace_evaluations (r1_trace_polys a r1) z (transition_offsets (a_context a)) (trace_primitive_root d))
            (peval (r2_even r2) z_squared) (peval (r2_odd r2) z_squared).

(** prover.rs:456-479: the trace terms *)
Definition deep_trace_term (a : air E) (polys : list (poly E)) (trace_ood : list (list E)) (z root : E)
    (gammas : list E) : outcome (poly E) :=
  ofold (fun acc (x : nat * poly E) => let '(i, t_j) := x in
    inner <- ofold (fun acc2 (y : list E * nat * E) => let '(eval, offset, gamma) := y in
        t_j_z <- idx eval i;;
        let z_shifted := fmul z (fpow root offset) in
        let p := ruffini (psub_const t_j t_j_z) z_shifted in
        Ok (padd acc2 (pscale gamma p)))
      (combine (combine trace_ood (transition_offsets (a_context a))) (skipn (i * length trace_ood) gammas)) [];;
    Ok (padd acc inner)) (combine (seq 0 (length polys)) polys) [].

(** prover.rs:410-482 *)
Definition compute_deep_composition_poly (a : air E) (polys : list (poly E)) (r2 : round2) (r3 : round3)
    (z root gamma gamma_p : E) (trace_gammas : list E) : outcome (poly E) :=
  let z_squared := fsquare z in
  let h_1_term := ruffini (pscale gamma (psub_const (r2_even r2) (r3_even_ood r3))) z_squared in
  let h_2_term := ruffini (pscale gamma_p (psub_const (r2_odd r2) (r3_odd_ood r3))) z_squared in
  trace_term <- deep_trace_term a polys (r3_trace_ood r3) z root trace_gammas;;
  Ok (padd (padd h_1_term h_2_term) trace_term).

(** prover.rs:484-529 *)
Definition open_deep_composition_poly (a : air E) (d : domain E) (r1 : round1 a) (r2 : round2) (indexes : list nat)
  : outcome (list (deep_openings E)) :=
  traverse (fun i =>
    if length (lde_roots_of_unity_coset d) =? 0 then Panic else
    let index := i mod length (lde_roots_of_unity_coset d) in
    comp_proof <- unwrap (tree_path (e_node E) (r2_tree r2) index);;
    even <- idx (r2_even_evals r2) index;;
    odd <- idx (r2_odd_evals r2) index;;
    trace_proofs <- traverse (fun tree => unwrap (tree_path (e_node E) tree index)) (r1_trees a r1);;
    row <- tt_get_row (r1_lde_trace a r1) index;;
    Ok (mk_deep_openings comp_proof even odd trace_proofs row)) indexes.

(** prover.rs:327-404 *)
Definition round_4 (a : air E) (d : domain E) (r1 : round1 a) (r2 : round2) (r3 : round3) (z : E) (t : T)
  : outcome (round4 * T) :=
  let offset := e_u64 E (coset_offset (a_options a)) in
  '(gamma, t) <- transcript_to_field E t;;
  '(gamma_p, t) <- transcript_to_field E t;;
  '(trace_gammas, t) <- batch_sample_challenges E
       (length (transition_offsets (a_context a)) * trace_columns (a_context a)) t;;
  deep <- compute_deep_composition_poly a (r1_trace_polys a r1) r2 r3 z (trace_primitive_root d) gamma gamma_p trace_gammas;;
  let domain_size := length (lde_roots_of_unity_coset d) in
  '(last_value, layers, t) <- fri_commit_phase E (root_order d) deep t offset domain_size;;
  let '(challenge, t) := tr_challenge t in
  nonce_o <- generate_nonce E challenge (grinding_factor (a_options a));;
  nonce <- unwrap nonce_o;;
  let t := tr_append t (be_bytes 8 nonce) in
  '(query_list, iotas, t) <- fri_query_phase E (fri_number_of_queries (a_options a)) domain_size layers t;;
  openings <- open_deep_composition_poly a d r1 r2 iotas;;
  Ok (mk_round4 last_value (map (fl_root E) layers) openings query_list nonce, t).

(** The loop of prover.rs:680-684: appends every element's bytes. *)
Definition append_felts (t : T) (l : list E) : T :=
  fold_left (fun t x => tr_append t (fe_to (e_codec E) x)) l t.

(** prover.rs:532-766; [mk] is [A::new(_, pub_inputs, proof_options)]. *)
Definition prove (fuel : nat) (mk : nat -> air E) (main_trace : trace_table E) : outcome (stark_proof E) :=
  let a := mk (tt_n_rows main_trace) in
  d <- domain_new a;;
  let t := tr_new in
  '(r1, t) <- round_1 a main_trace d t;;
  bcs <- a_boundary a (r1_rap a r1);;
  '(ba, t) <- batch_sample_challenges E (length bcs) t;;
  '(bb, t) <- batch_sample_challenges E (length bcs) t;;
  '(ta, t) <- batch_sample_challenges E (num_transition_constraints (a_context a)) t;;
  '(tb, t) <- batch_sample_challenges E (num_transition_constraints (a_context a)) t;;
  let boundary_coeffs := combine ba bb in
  let transition_coeffs := combine ta tb in
  r2 <- round_2 a d r1 transition_coeffs boundary_coeffs;;
  let t := tr_append t (r2_root r2) in
  '(z, t) <- sample_z_ood E fuel (lde_roots_of_unity_coset d) (trace_roots_of_unity d) t;;
  let r3 := round_3 a d r1 r2 z in
  let t := tr_append t (fe_to (e_codec E) (r3_even_ood r3)) in
  let t := tr_append t (fe_to (e_codec E) (r3_odd_ood r3)) in
  let t := fold_left append_felts (r3_trace_ood r3) t in
  '(r4, t) <- round_4 a d r1 r2 r3 z t;;
  Ok (mk_stark_proof (a_trace_length a) (r1_roots a r1)
        (mk_frame (concat (r3_trace_ood r3)) (length (r1_trace_polys a r1)))
        (r2_root r2) (r3_even_ood r3) (r3_odd_ood r3) (r4_fri_roots r4) (r4_last_value r4)
        (r4_query_list r4) (r4_deep_openings r4) (r4_nonce r4)).
End Prover.
