(** What the cargo feature [parallel] and the profile setting [debug_assertions] change in the prover and the verifier.
    Sources: src/starks/constraints/evaluator.rs:176-192, src/starks/prover.rs:533-580, src/starks/trace.rs:45-47,
    src/cairo/air.rs:592 and 641-650, src/starks/debug.rs. *)
From Coq Require Import List Arith Bool NArith.
From Verif.Base Require Import Outcome Bytes Field Poly.
From Verif.Model Require Import Codec Trace Merkle Air Transcript Domain Fri Evaluator Prover Verifier Debug PublicInputs CairoDecode CairoAir CairoRunner.
Import ListNotations.
Local Open Scope outcome_scope.

(** A way of compiling the crate (Cargo.toml:34-39 and the profiles). *)
Record build := mk_build {
  b_parallel : bool;
  b_debug : bool
}.

(** [Iterator::cycle]: the first [n] items of the list repeated for ever; no item at all when it is empty. *)
Definition cycle {A} (l : list A) (n : nat) : list A := firstn n (concat (repeat l n)).

Section Features.
Context {E : env} (bld : build).
Notation T := (e_tr E).

(** evaluator.rs:38-260 as compiled without [parallel]: the inverses of the zerofier are an iterator that starts again
    at its end (183-187), zipped with the rows, where the other build indexes the list (176-182). The code that
    [debug_assertions] adds to this build (84, 117-121, 125, 202) fills vectors that nothing reads and calls
    [check_boundary_polys_divisibility] on two empty lists. *)
Definition evaluate_constraints_cycled (a : air E) (lde_trace : trace_table E) (d : domain E)
    (transition_coeffs boundary_coeffs : list (E * E)) (rap : a_rap a) : outcome (list E) :=
  bcs <- a_boundary a rap;;
  zinv <- boundary_zerofiers_inverse d bcs;;
  adj <- usub (a_degree_bound a) (a_trace_length a);;
  let d_adj := map (fun x => fpow x adj) (lde_roots_of_unity_coset d) in
  bev <- boundary_polys_evaluations d lde_trace bcs;;
  let n_elem := length (lde_roots_of_unity_coset d) in
  boundary_evaluation <- traverse (fun x : nat * E => let '(i, dd) := x in
      boundary_evaluation_at zinv bev (length bcs) boundary_coeffs i dd) (combine (seq 0 n_elem) d_adj);;
  polys <- transition_exemption_polys a;;
  ex_evals <- evaluate_transition_exemptions d polys;;
  dadj <- degree_adjustments_lde a d;;
  zer <- zerofier_inverses a;;
  traverse (fun x : nat * E * E => let '(i, boundary, zerofier) := x in
    fr <- fr_read_from_trace lde_trace i (a_blowup a) (transition_offsets (a_context a));;
    evals <- a_transition a fr rap;;
    acc <- transition_acc a ex_evals dadj zerofier i evals transition_coeffs;;
    Ok (fadd acc boundary)) (combine (combine (seq 0 n_elem) boundary_evaluation) (cycle zer n_elem)).

(** [debug_assert!] *)
Definition debug_assert (c : bool) : outcome unit := if b_debug bld && negb c then Panic else Ok tt.

(** trace.rs:47: all columns are as long as the first. *)
Definition same_lengths {A} (cols : list (list A)) : bool :=
  match cols with [] => true | c0 :: _ => forallb (fun c => (length c =? length c0)%nat) cols end.

(** trace.rs:45-59 *)
Definition tt_new_from_cols_in {A} (cols : list (list A)) : outcome (trace_table A) :=
  _ <- debug_assert (same_lengths cols);;
  tt_new_from_cols cols.

(** prover.rs:126-159 *)
Definition interpolate_and_commit_in (trace : trace_table E) (d : domain E) (t : T)
  : outcome (list (poly E) * list (list E) * merkle_tree * commitment * T) :=
  polys <- tt_compute_trace_polys trace;;
  evals <- compute_lde_trace_evaluations E polys d;;
  lde_trace <- tt_new_from_cols_in evals;;
  rows <- tt_rows lde_trace;;
  '(tree, root) <- batch_commit E rows;;
  Ok (polys, evals, tree, root, tr_append t root).

(** prover.rs:187-224 *)
Definition round_1_in (a : air E) (main_trace : trace_table E) (d : domain E) (t : T)
  : outcome (round1 E a * T) :=
  '(polys, evals, main_tree, main_root, t) <- interpolate_and_commit_in main_trace d t;;
  '(rap, t) <- a_build_rap a t;;
  aux_trace <- a_build_aux a main_trace rap;;
  if tt_is_empty aux_trace then
    lde_trace <- tt_new_from_cols_in evals;;
    Ok (mk_round1 E a polys lde_trace [main_tree] [main_root] rap, t)
  else
    '(aux_polys, aux_evals, aux_tree, aux_root, t) <- interpolate_and_commit_in aux_trace d t;;
    lde_trace <- tt_new_from_cols_in (evals ++ aux_evals);;
    Ok (mk_round1 E a (polys ++ aux_polys) lde_trace [main_tree; aux_tree] [main_root; aux_root] rap, t).

(** prover.rs:574-580: with debug assertions the trace is validated and the verdict dropped. The table that
    [validate_trace] builds (debug.rs:22-30) passes through the assertion of trace.rs:47 too. *)
Definition debug_validate (a : air E) (polys : list (poly E)) (d : domain E) (rap : a_rap a) : outcome unit :=
  if b_debug bld then
    columns <- traverse (fun p => unwrap_r (evaluate_offset_fft p 1 (interpolation_domain_size d) (fone : E))) polys;;
    _ <- debug_assert (same_lengths columns);;
    _verdict <- validate_trace a polys d rap;;
    Ok tt
  else Ok tt.

(** evaluator.rs:176-192 *)
Definition evaluate_constraints_in (a : air E) :=
  if b_parallel bld then evaluate_constraints a else evaluate_constraints_cycled a.

(** prover.rs:226-286 *)
Definition round_2_in (a : air E) (d : domain E) (r1 : round1 E a) (transition_coeffs boundary_coeffs : list (E * E))
  : outcome (round2 E) :=
  evals <- evaluate_constraints_in a (r1_lde_trace E a r1) d transition_coeffs boundary_coeffs (r1_rap E a r1);;
  h <- unwrap_r (interpolate_offset_fft evals (d_coset_offset d));;
  let '(even, odd) := even_odd h in
  even_evals <- unwrap_r (evaluate_polynomial_on_lde_domain even (d_blowup_factor d)
                            (interpolation_domain_size d) (d_coset_offset d));;
  odd_evals <- unwrap_r (evaluate_polynomial_on_lde_domain odd (d_blowup_factor d)
                            (interpolation_domain_size d) (d_coset_offset d));;
  '(tree, root) <- batch_commit E (map (fun ab => [fst ab; snd ab]) (combine even_evals odd_evals));;
  Ok (mk_round2 E even even_evals tree root odd odd_evals).

(** prover.rs:531-720. [asserts n]: the debug assertions of [A::new] for a trace of [n] rows hold. *)
Definition prove_in (asserts : nat -> bool) (fuel : nat) (mk : nat -> air E) (main_trace : trace_table E)
  : outcome (stark_proof E) :=
  _ <- debug_assert (asserts (tt_n_rows main_trace));;
  let a := mk (tt_n_rows main_trace) in
  d <- domain_new a;;
  let t := tr_new in
  '(r1, t) <- round_1_in a main_trace d t;;
  _ <- debug_validate a (r1_trace_polys E a r1) d (r1_rap E a r1);;
  bcs <- a_boundary a (r1_rap E a r1);;
  '(ba, t) <- batch_sample_challenges E (length bcs) t;;
  '(bb, t) <- batch_sample_challenges E (length bcs) t;;
  '(ta, t) <- batch_sample_challenges E (num_transition_constraints (a_context a)) t;;
  '(tb, t) <- batch_sample_challenges E (num_transition_constraints (a_context a)) t;;
  let boundary_coeffs := combine ba bb in
  let transition_coeffs := combine ta tb in
  r2 <- round_2_in a d r1 transition_coeffs boundary_coeffs;;
  let t := tr_append t (r2_root E r2) in
  '(z, t) <- sample_z_ood E fuel (lde_roots_of_unity_coset d) (trace_roots_of_unity d) t;;
  let r3 := round_3 E a d r1 r2 z in
  let t := tr_append t (fe_to (e_codec E) (r3_even_ood E r3)) in
  let t := tr_append t (fe_to (e_codec E) (r3_odd_ood E r3)) in
  let t := fold_left (append_felts E) (r3_trace_ood E r3) t in
  '(r4, t) <- round_4 E a d r1 r2 r3 z t;;
  Ok (mk_stark_proof (a_trace_length a) (r1_roots E a r1)
        (mk_frame (concat (r3_trace_ood E r3)) (length (r1_trace_polys E a r1)))
        (r2_root E r2) (r3_even_ood E r3) (r3_odd_ood E r3) (r4_fri_roots E r4) (r4_last_value E r4)
        (r4_query_list E r4) (r4_deep_openings E r4) (r4_nonce E r4)).

(** verifier.rs:559-657: the verifier calls [A::new] with the length named in the proof, after the count of queries. *)
Definition verify_in_build (asserts : nat -> bool) (fuel : nat) (mk : nat -> air E) (opts : proof_options) (p : stark_proof E)
  : outcome bool :=
  if (length (query_list p) <? fri_number_of_queries opts)%nat then Ok false else
  _ <- debug_assert (asserts (trace_length p));;
  verify E fuel mk opts p.
End Features.

Section CairoBuilds.
Context {C : cairo_env} (bld : build).

(** [usize::is_power_of_two] *)
Definition is_power_of_two (n : nat) : bool := (0 <? n)%nat && (n =? 2 ^ Nat.log2 n)%nat.

(** air.rs:592 and 641-650 *)
Definition cairo_asserts (pi : public_inputs C) (opts : proof_options) (n : nat) : bool :=
  is_power_of_two n &&
  (length (transition_degrees (cairo_context pi opts)) =? num_transition_constraints (cairo_context pi opts))%nat &&
  (length (transition_exemptions (cairo_context pi opts)) =? num_transition_constraints (cairo_context pi opts))%nat.

(** air.rs:1167-1174 *)
Definition generate_cairo_proof_in (fuel : nat) (main : trace_table C) (pi : public_inputs C) (opts : proof_options)
  : outcome (stark_proof C) := prove_in bld (cairo_asserts pi opts) fuel (cairo_air pi opts) main.

(** air.rs:1176-1182 *)
Definition verify_cairo_proof_build (fuel : nat) (p : stark_proof C) (pi : public_inputs C) (opts : proof_options)
  : outcome bool := verify_in_build bld (cairo_asserts pi opts) fuel (cairo_air pi opts) opts p.
End CairoBuilds.
