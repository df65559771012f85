(** Options, contexts, AIRs and the environment of external functions.
    Sources: src/starks/proof/options.rs, context.rs, traits.rs, constraints/boundary.rs. *)
From Coq Require Import List Arith NArith Bool.
From Verif.Base Require Import Outcome Bytes Field Poly.
From Verif.Model Require Import Codec Trace.
Import ListNotations.
Local Open Scope outcome_scope.

(** [lambdaworks_crypto::fiat_shamir::transcript::Transcript] (external). *)
Record transcript_ops := mk_transcript_ops {
  tr_state :> Type;
  tr_new : tr_state;
  tr_append : tr_state -> list byte -> tr_state;
  tr_challenge : tr_state -> list byte * tr_state    (* 32 bytes *)
}.
Arguments tr_new {_}. Arguments tr_append {_}. Arguments tr_challenge {_}.

(** Everything the prover and the verifier take from external crates. *)
Record env := mk_env {
  e_K :> fft_ops;
  e_codec : felt_codec e_K;              (* FieldElement: ByteConversion *)
  e_bits : nat;                          (* IsPrimeField::field_bit_size() *)
  e_u64 : N -> e_K;                      (* FieldElement::from(u64) *)
  e_tr : transcript_ops;                 (* DefaultTranscript *)
  e_leaf : e_K -> commitment;            (* Keccak256Tree::hash_data *)
  e_leaves : list e_K -> commitment;     (* BatchKeccak256Tree::hash_data *)
  e_node : commitment -> commitment -> commitment; (* hash_new_parent, the same for both backends *)
  e_keccak : list byte -> list byte      (* sha3::Keccak256::digest *)
}.

(** What the completeness theorems use of it: the field laws and [from(2) = 1 + 1]. *)
Record env_ok (E : env) : Prop := {
  e_fft_ok : fft_ok E;
  e_two : e_u64 E 2 = fadd (fone : E) fone
}.

(** proof/options.rs:20-26 *)
Record proof_options := mk_options {
  blowup_factor : nat;          (* u8 *)
  fri_number_of_queries : nat;  (* usize *)
  coset_offset : N;             (* u64 *)
  grinding_factor : N           (* u8 *)
}.

(** context.rs:3-18 *)
Record air_context := mk_context {
  ctx_options : proof_options;
  trace_columns : nat;
  transition_degrees : list nat;
  transition_offsets : list nat;
  transition_exemptions : list nat;
  num_transition_constraints : nat;
  num_transition_exemptions : nat
}.

(** constraints/boundary.rs:13-17 *)
Record boundary_constraint (F : Type) := mk_bc { bc_col : nat; bc_step : nat; bc_value : F }.
Arguments mk_bc {F}. Arguments bc_col {F}. Arguments bc_step {F}. Arguments bc_value {F}.

(** traits.rs:15-119: an instance of the AIR trait, i.e. the result of [A::new] for some public
    inputs and options. User code may panic, hence the outcomes. *)
Record air (E : env) := mk_air {
  a_rap : Type;
  a_context : air_context;
  a_trace_length : nat;
  a_build_aux : trace_table E -> a_rap -> outcome (trace_table E);
  a_build_rap : e_tr E -> outcome (a_rap * e_tr E);
  a_n_aux : nat;
  a_degree_bound : nat;
  a_transition : frame E -> a_rap -> outcome (list E);
  a_boundary : a_rap -> outcome (list (boundary_constraint E))
}.
Arguments a_rap {E}. Arguments a_context {E}. Arguments a_trace_length {E}. Arguments a_build_aux {E}.
Arguments a_build_rap {E}. Arguments a_n_aux {E}. Arguments a_degree_bound {E}.
Arguments a_transition {E}. Arguments a_boundary {E}.

(** [itertools::unique_by(|e| *e)]: keeps first occurrences. *)
Fixpoint uniq_from (seen : list nat) (l : list nat) : list nat :=
  match l with
  | [] => []
  | x :: r => if existsb (Nat.eqb x) seen then uniq_from seen r else x :: uniq_from (x :: seen) r
  end.
Definition uniq := uniq_from [].

(** [iter().max()] *)
Definition list_max_o (l : list nat) : option nat := match l with [] => None | _ => Some (list_max l) end.

(** [iter().position(|e| e == x)] *)
Fixpoint position (x : nat) (l : list nat) : option nat :=
  match l with
  | [] => None
  | y :: r => if Nat.eqb y x then Some 0 else option_map S (position x r)
  end.

Section AirDefaults.
Context {E : env}.
Implicit Types (a : air E).

(** traits.rs:84-90 *)
Definition a_options a : proof_options := ctx_options (a_context a).
Definition a_blowup a : nat := blowup_factor (a_options a).

(** [&x - root] for the monomial [x]. *)
Definition x_minus (r : E) : poly E := psub_const (monomial fone 1) r.

(** traits.rs:49-79 *)
Definition transition_exemption_polys a : outcome (list (poly E)) :=
  roots <- unwrap_r (powers_coset (trailing_zeros (a_trace_length a)) (a_trace_length a) (fone : E));;
  Ok (map (fun cant_take =>
             fold_left (fun acc r => pmul acc (x_minus r)) (firstn cant_take (rev roots)) (monomial fone 0))
       (filter (fun v => 0 <? v) (uniq (transition_exemptions (a_context a))))).

(** traits.rs:98-118 *)
Definition transition_exemptions_verifier a (root : E) : outcome (list (poly E)) :=
  mx <- unwrap (list_max_o (transition_exemptions (a_context a)));;
  Ok (map (fun index => fold_left (fun acc k => pmul acc (x_minus (fpow root k))) (seq 1 index) (monomial fone 0))
       (seq 1 mx)).
End AirDefaults.

(** ** constraints/boundary.rs *)
Section Boundary.
Context {K : field_ops}.

(** boundary.rs:55-61 *)
Definition bc_steps (bcs : list (boundary_constraint K)) (col : nat) : list nat :=
  map bc_step (filter (fun c => bc_col c =? col) bcs).

(** boundary.rs:63-69 *)
Definition bc_steps_for_boundary (bcs : list (boundary_constraint K)) : list nat := uniq (map bc_step bcs).

(** boundary.rs:71-77 *)
Definition bc_cols_for_boundary (bcs : list (boundary_constraint K)) : list nat := uniq (map bc_col bcs).

(** boundary.rs:82-96 *)
Definition bc_roots_of_unity (bcs : list (boundary_constraint K)) (root : K) (cols : list nat) : list (list K) :=
  map (fun i => map (fun s => fpow root s) (bc_steps bcs i)) cols.

(** boundary.rs:99-111 *)
Definition bc_values (bcs : list (boundary_constraint K)) (cols : list nat) : list (list K) :=
  map (fun i => map bc_value (filter (fun c => bc_col c =? i) bcs)) cols.

(** boundary.rs:119-133 *)
Definition bc_compute_zerofier (bcs : list (boundary_constraint K)) (root : K) (col : nat) : poly K :=
  fold_left (fun z step => pmul z (trim [fopp (fpow root step); fone])) (bc_steps bcs col) (monomial fone 0).
End Boundary.
