(** What a Cairo statement claims, and provers that fill in the auxiliary columns in their own way. *)
From Coq Require Import List Arith NArith.
From Verif.Base Require Import Outcome Field Poly.
From Verif.Model Require Import Codec PublicInputs Trace Air CairoDecode CairoTrace CairoAir.
From Verif.Spec Require Import CairoSpec CairoColumns CairoRun.
Import ListNotations.

(** The run is what the public inputs claim: that many steps, from the initial to the final pc and ap, over a memory
    that contains the public cells. *)
Record run_for {C : cairo_env} (pi : public_inputs C) (m : @cairo_memory C) (raw : list registers_state) : Prop := {
  rf_valid : valid_run m raw;
  rf_steps : length raw = num_steps pi;
  rf_first : forall t, nth_error raw 0 = Some t -> e_u64 C (r_pc t) = pc_init pi /\ e_u64 C (r_ap t) = ap_init pi;
  rf_last : forall t, nth_error raw (num_steps pi - 1) = Some t -> e_u64 C (r_pc t) = pc_final pi /\ e_u64 C (r_ap t) = ap_final pi;
  rf_public : forall a v, In (a, v) (public_memory pi) -> reads m a v
}.

(** The same statement, with another way of computing the auxiliary table: the verifier never calls it. *)
Definition with_aux {E : env} (a : air E) (build : trace_table E -> a_rap a -> outcome (trace_table E)) : air E :=
  mk_air E (a_rap a) (a_context a) (a_trace_length a) build (a_build_rap a) (a_n_aux a) (a_degree_bound a) (a_transition a) (a_boundary a).

(** The row-major table with the given columns of [n] entries. *)
Definition table_of {E : env} (cols : list (list E)) (n : nat) : trace_table E :=
  mk_trace (concat (map (fun i => map (fun c => nth i c fzero) cols) (seq 0 n))) (length cols).
