(** The prover again, this time also reporting the challenges it drew, so that one can say "the
    verifier derives the same challenges as the prover used". [C28_log_is_the_prover] shows that
    dropping the report gives the prover back. *)
From Coq Require Import List Arith NArith.
From Verif.Base Require Import Outcome Bytes Field Poly.
From Verif.Model Require Import Codec Trace Merkle Air Transcript Domain Fri Evaluator Prover Verifier.
Import ListNotations.
Local Open Scope outcome_scope.

Section ProverLog.
Context (E : env).
Notation T := (e_tr E).

(** [k] consecutive blocks of a flat list. *)
Fixpoint blocks {A} (count size : nat) (l : list A) : list (list A) :=
  match count with O => [] | S c => firstn size l :: blocks c size (skipn size l) end.

(** The commit phase of FRI with the folding challenges it used. *)
Fixpoint fri_loop_log (rounds : nat) (p : poly E) (offset : E) (domain_size : nat) (t : T)
  : outcome (list (fri_layer E) * poly E * list E * T) :=
  match rounds with
  | O => Ok ([], p, [], t)
  | S r =>
      '(zeta, t) <- transcript_to_field E t;;
      let offset := fsquare offset in
      let domain_size := domain_size / 2 in
      let p := fold_polynomial p zeta in
      layer <- fri_layer_new E p offset domain_size;;
      let t := tr_append t (fl_root E layer) in
      '(layers, p', zetas, t) <- fri_loop_log r p offset domain_size t;;
      Ok (layer :: layers, p', zeta :: zetas, t)
  end.

Definition fri_commit_log (number_layers : nat) (p_0 : poly E) (t : T) (offset : E) (domain_size : nat)
  : outcome (E * list (fri_layer E) * list E * T) :=
  layer0 <- fri_layer_new E p_0 offset domain_size;;
  let t := tr_append t (fl_root E layer0) in
  '(layers, p, zetas, t) <- fri_loop_log (number_layers - 1) p_0 offset domain_size t;;
  '(zeta, t) <- transcript_to_field E t;;
  let last_poly := fold_polynomial p zeta in
  let last_value := nth 0 last_poly fzero in
  let t := tr_append t (fe_to (e_codec E) last_value) in
  Ok (last_value, layer0 :: layers, zetas ++ [zeta], t).

Definition prove_log (fuel : nat) (mk : nat -> air E) (main_trace : trace_table E)
  : outcome (stark_proof E * challenges E (mk (tt_n_rows main_trace))) :=
  let a := mk (tt_n_rows main_trace) in
  d <- domain_new a;;
  let t := tr_new in
  '(r1, t) <- round_1 E a main_trace d t;;
  bcs <- a_boundary a (r1_rap E a r1);;
  '(ba, t) <- batch_sample_challenges E (length bcs) t;;
  '(bb, t) <- batch_sample_challenges E (length bcs) t;;
  '(ta, t) <- batch_sample_challenges E (num_transition_constraints (a_context a)) t;;
  '(tb, t) <- batch_sample_challenges E (num_transition_constraints (a_context a)) t;;
  let boundary_coeffs := combine ba bb in
  let transition_coeffs := combine ta tb in
  r2 <- round_2 E a d r1 transition_coeffs boundary_coeffs;;
  let t := tr_append t (r2_root E r2) in
  '(z, t) <- sample_z_ood E fuel (lde_roots_of_unity_coset d) (trace_roots_of_unity d) t;;
  let r3 := round_3 E a d r1 r2 z in
  let t := tr_append t (fe_to (e_codec E) (r3_even_ood E r3)) in
  let t := tr_append t (fe_to (e_codec E) (r3_odd_ood E r3)) in
  let t := fold_left (append_felts E) (r3_trace_ood E r3) t in
  '(gamma, t) <- transcript_to_field E t;;
  '(gamma_p, t) <- transcript_to_field E t;;
  '(trace_gammas, t) <- batch_sample_challenges E
       (length (transition_offsets (a_context a)) * trace_columns (a_context a)) t;;
  deep <- compute_deep_composition_poly E a (r1_trace_polys E a r1) r2 r3 z (trace_primitive_root d) gamma gamma_p trace_gammas;;
  let domain_size := length (lde_roots_of_unity_coset d) in
  '(last_value, layers, zetas, t) <-
     fri_commit_log (root_order d) deep t (e_u64 E (coset_offset (a_options a))) domain_size;;
  let '(challenge, t) := tr_challenge t in
  nonce_o <- generate_nonce E challenge (grinding_factor (a_options a));;
  nonce <- unwrap nonce_o;;
  zeros <- grind_zeros E challenge nonce;;
  let t := tr_append t (be_bytes 8 nonce) in
  '(query_list, iotas, t) <- fri_query_phase E (fri_number_of_queries (a_options a)) domain_size layers t;;
  openings <- open_deep_composition_poly E a d r1 r2 iotas;;
  Ok (mk_stark_proof (a_trace_length a) (r1_roots E a r1)
        (mk_frame (concat (r3_trace_ood E r3)) (length (r1_trace_polys E a r1)))
        (r2_root E r2) (r3_even_ood E r3) (r3_odd_ood E r3) (map (fl_root E) layers) last_value
        query_list openings nonce,
      mk_challenges E a z boundary_coeffs transition_coeffs
        (blocks (trace_columns (a_context a)) (length (transition_offsets (a_context a))) trace_gammas)
        gamma gamma_p zetas iotas (r1_rap E a r1) zeros).
End ProverLog.
