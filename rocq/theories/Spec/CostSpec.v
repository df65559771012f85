(** A proof with another claimed trace length. *)
From Coq Require Import List.
From Verif.Base Require Import Outcome Bytes.
From Verif.Model Require Import Codec.

Definition with_length {F : Type} (n : nat) (p : stark_proof F) : stark_proof F :=
  mk_stark_proof n (lde_trace_merkle_roots p) (trace_ood_frame_evaluations p) (composition_poly_root p) (composition_poly_even_ood_evaluation p)
    (composition_poly_odd_ood_evaluation p) (fri_layers_merkle_roots p) (fri_last_value p) (query_list p) (deep_poly_openings p) (nonce p).
