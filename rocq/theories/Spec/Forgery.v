(** What the totality and forgery theorems assume of the external functions and of the statement, and the
    forger: a program which builds a proof without looking at any trace. *)
From Coq Require Import List Arith NArith.
From Verif.Base Require Import Outcome Bytes Field Poly.
From Verif.Model Require Import Codec Trace Merkle Air Transcript Domain Prover Verifier.
Import ListNotations.
Local Open Scope outcome_scope.
Local Open Scope felt_scope.

Section Forgery.
Context (E : env).

(** Challenges and digests have 32 bytes, the field has between 2 and 257 bits, and every 32-byte
    number of fewer bits than the modulus decodes: so challenge derivation never panics. *)
Record sampling_ok : Prop := {
  so_challenge : forall t : e_tr E, length (fst (tr_challenge t)) = 32%nat;
  so_bits : (2 <= e_bits E <= 257)%nat;
  so_decode : forall bs, length bs = 32%nat -> (be_val bs < 2 ^ N.of_nat (e_bits E - 1))%N -> exists x, fe_from (e_codec E) bs = Some x;
  so_keccak : forall bs, (8 <= length (e_keccak E bs))%nat
}.

(** The statement's own functions do not panic on frames of [rows] rows and [width] columns, with the challenges that
    follow the commitment [root] to the main trace, and its declared degrees and exemptions make sense. *)
Record statement_ok (a : air E) (r b rows width : nat) (root : commitment) : Prop := {
  st_n : a_trace_length a = (2 ^ r)%nat;
  st_r : (1 <= r)%nat;
  st_blowup : a_blowup a = (2 ^ b)%nat;
  st_two_adicity : (r + b <= two_adicity E)%nat;
  st_coset : forall y w i, primitive_root (r + b) = Some w ->
      y * y <> e_u64 E (coset_offset (a_options a)) * fpow w i;
  st_width : (0 < width)%nat;
  st_aux : (a_n_aux a <= trace_columns (a_context a))%nat;
  st_rap : exists rap t, a_build_rap a (tr_append tr_new root) = Ok (rap, t);
  st_boundary : forall rap t, a_build_rap a (tr_append tr_new root) = Ok (rap, t) -> exists bcs, a_boundary a rap = Ok bcs /\ (bcs <> [] -> 1 <= rows)%nat /\
      forall bc, In bc bcs -> (bc_col bc < width)%nat;
  st_transition : forall rap data, length data = (rows * width)%nat -> exists evals, a_transition a (mk_frame data width) rap = Ok evals;
  st_ex_ne : transition_exemptions (a_context a) <> [];
  st_ex_le : forall e, In e (transition_exemptions (a_context a)) -> (e <= 2 ^ r)%nat;
  st_deg_ne : transition_degrees (a_context a) <> [];
  st_deg : forall deg, In deg (transition_degrees (a_context a)) -> (1 <= deg /\ 2 ^ r * (deg - 1) <= a_degree_bound a)%nat;
  st_bound : (2 ^ r <= a_degree_bound a)%nat
}.

(** The shape of a proof: at least one trace commitment, a rectangular frame, no more FRI layers than the
    evaluation domain has halvings, no empty decommitment, and openings of at least all columns. *)
Record proof_shape (a : air E) (p : stark_proof E) (r b rows width : nat) : Prop := {
  ps_roots : lde_trace_merkle_roots p <> [];
  ps_width : fr_row_width (trace_ood_frame_evaluations p) = width;
  ps_data : length (fr_data (trace_ood_frame_evaluations p)) = (rows * width)%nat;
  ps_layers : (length (fri_layers_merkle_roots p) <= r + b)%nat;
  ps_evals : forall q, In q (query_list p) -> layers_evaluations q <> [];
  ps_openings : forall o, In o (deep_poly_openings p) -> (trace_columns (a_context a) <= length (lde_trace_evaluations o))%nat
}.

(** The sampling loop for the out-of-domain point ends. *)
Definition z_found (fuel : nat) (a : air E) : Prop :=
  forall d t, domain_new a = Ok d ->
  exists z t', sample_z_ood E fuel (lde_roots_of_unity_coset d) (trace_roots_of_unity d) t = Ok (z, t').

(** Some nonce meets the grinding factor, whatever the challenge. *)
Definition nonce_found (factor : N) : Prop := forall challenge, exists nonce, generate_nonce E challenge factor = Ok (Some nonce).

(** The forger picks the commitments, the frame, the FRI part and the openings as it likes; it then follows
    the verifier's transcript, solves the out-of-domain identity for the even part, and grinds a nonce. *)
Definition forge (fuel : nat) (a : air E) (n : nat) (roots : list commitment) (comp_root : commitment) (fr : frame E)
    (fri_roots : list commitment) (last : E) (queries : list (fri_decommitment E)) (openings : list (deep_openings E))
    : outcome (stark_proof E) :=
  d <- domain_new a;;
  root0 <- idx roots 0;;
  '(rap, t) <- a_build_rap a (tr_append tr_new root0);;
  let t := match nth_error roots 1 with Some r => tr_append t r | None => t end in
  bcs <- a_boundary a rap;;
  '(ba, t) <- batch_sample_challenges E (length bcs) t;;
  '(bb, t) <- batch_sample_challenges E (length bcs) t;;
  '(ta, t) <- batch_sample_challenges E (num_transition_constraints (a_context a)) t;;
  '(tb, t) <- batch_sample_challenges E (num_transition_constraints (a_context a)) t;;
  '(z, t) <- sample_z_ood E fuel (lde_roots_of_unity_coset d) (trace_roots_of_unity d) (tr_append t comp_root);;
  adj <- usub (a_degree_bound a) (a_trace_length a);;
  bv <- boundary_ood E bcs fr (trace_primitive_root d) z adj (combine ba bb);;
  evals <- a_transition a fr rap;;
  last_root <- unwrap (hd_error (rev (trace_roots_of_unity d)));;
  tv <- transition_ood E a evals z last_root (combine ta tb);;
  let even := bv + tv in
  let odd := 0 in
  let t := tr_append (tr_append t (fe_to (e_codec E) even)) (fe_to (e_codec E) odd) in
  n_rows <- fr_num_rows fr;;
  rows <- traverse (fr_get_row fr) (seq 0 n_rows);;
  '(_, t) <- transcript_to_field E (fold_left (append_felts E) rows t);;
  '(_, t) <- transcript_to_field E t;;
  '(_, t) <- sample_rows E (trace_columns (a_context a)) (length (transition_offsets (a_context a))) t;;
  '(_, t) <- sample_zetas E fri_roots t;;
  let '(challenge, _) := tr_challenge (tr_append t (fe_to (e_codec E) last)) in
  found <- generate_nonce E challenge (grinding_factor (a_options a));;
  nonce <- unwrap found;;
  Ok (mk_stark_proof n roots fr comp_root even odd fri_roots last queries openings nonce).
End Forgery.

Section Replacements.
Context {E : env}.

(** An opening with other authentication paths for the trace rows. *)
Definition with_trace_paths (paths : list (list commitment)) (o : deep_openings E) : deep_openings E :=
  mk_deep_openings (lde_composition_poly_proof o) (lde_composition_poly_even_evaluation o)
    (lde_composition_poly_odd_evaluation o) paths (lde_trace_evaluations o).

Definition with_openings (os : list (deep_openings E)) (p : stark_proof E) : stark_proof E :=
  mk_stark_proof (trace_length p) (lde_trace_merkle_roots p) (trace_ood_frame_evaluations p) (composition_poly_root p)
    (composition_poly_even_ood_evaluation p) (composition_poly_odd_ood_evaluation p) (fri_layers_merkle_roots p)
    (fri_last_value p) (query_list p) os (nonce p).

(** The same AIR for other public inputs: only the boundary and transition constraints change. *)
Definition with_constraints (a : air E) (tr : frame E -> a_rap a -> outcome (list E))
    (bd : a_rap a -> outcome (list (boundary_constraint E))) : air E :=
  mk_air E (a_rap a) (a_context a) (a_trace_length a) (a_build_aux a) (a_build_rap a) (a_n_aux a) (a_degree_bound a) tr bd.

(** All challenges, with the type of the RAP challenges exposed. *)
Definition all_challenges {a : air E} (c : challenges E a) :=
  (c_z E a c, c_boundary_coeffs E a c, c_transition_coeffs E a c, c_trace_term_coeffs E a c,
   (c_gamma_even E a c, c_gamma_odd E a c, c_zetas E a c, c_iotas E a c, c_leading_zeros E a c), c_rap E a c).

(** Boundary constraints on the same cells. *)
Definition same_cells (bcs bcs' : list (boundary_constraint E)) : Prop :=
  map bc_col bcs = map bc_col bcs' /\ map bc_step bcs = map bc_step bcs'.

(** What the out-of-domain check sees of a change of the boundary values. *)
Definition boundary_shift (g z : E) (adj : nat) (bcs bcs' : list (boundary_constraint E)) (coeffs : list (E * E)) : E :=
  fsum (map (fun x : boundary_constraint E * boundary_constraint E * (E * E) => let '(bc, bc', (alpha, beta)) := x in
     (bc_value bc - bc_value bc') * finv (z - fpow g (bc_step bc)) * (alpha * fpow z adj + beta)) (combine (combine bcs bcs') coeffs)).
End Replacements.
