(** AIRs that differ in their boundary values, and Cairo statements with another end. *)
From Coq Require Import List Arith NArith.
From Verif.Base Require Import Outcome Bytes Field Poly.
From Verif.Model Require Import Codec Trace Merkle Air PublicInputs CairoDecode CairoAir.
Import ListNotations.
Local Open Scope felt_scope.

Section Restated.
Context {E : env}.
(** The AIR [a] with another auxiliary table and other constraints. *)
Definition restated (a : air E) aux tr bd : air E :=
  mk_air E (a_rap a) (a_context a) (a_trace_length a) aux (a_build_rap a) (a_n_aux a) (a_degree_bound a) tr bd.
(** What a difference of one boundary value contributes to the composition at [z]: the value of the vanishing quotient times the adjusted coefficient. *)
Definition weight (g z : E) (adj step : nat) (coeffs : list (E * E)) (j : nat) : E :=
  match nth_error coeffs j with Some (alpha, beta) => finv (z - fpow g step) * (alpha * fpow z adj + beta) | None => 0 end.
End Restated.

Section Ends.
Context {C : cairo_env}.
(** The same statement with another program counter and allocation pointer at the end. *)
Definition with_ends (pi : public_inputs C) (pc ap : C) : public_inputs C :=
  mk_public_inputs (pc_init pi) (ap_init pi) (fp_init pi) pc ap (range_check_min pi) (range_check_max pi) (memory_segments pi) (public_memory pi) (num_steps pi).
(** The product of the public cells under the challenges, and the value that the permutation argument should end with. *)
Definition cells_product (alpha z : C) (cells : list (C * C)) : C := fprod (map (fun av => z - (fst av + alpha * snd av)) cells).
Definition memory_claim (alpha z : C) (cells : list (C * C)) : C := fpow z (length cells) * finv (cells_product alpha z cells).
(** The differences of the claimed values, weighed: the two initial registers, the two final ones, the product of the public cells and the two range-check bounds. *)
Definition claims_differ (pi pi' : public_inputs C) (alpha z : C) (lo hi lo' hi' : N) (k : nat -> C) : C :=
  (pc_init pi - pc_init pi') * k 0%nat + (ap_init pi - ap_init pi') * k 1%nat + (pc_final pi - pc_final pi') * k 2%nat + (ap_final pi - ap_final pi') * k 3%nat +
  (memory_claim alpha z (public_memory pi) - memory_claim alpha z (public_memory pi')) * k 4%nat + (e_u64 C lo - e_u64 C lo') * k 6%nat + (e_u64 C hi - e_u64 C hi') * k 7%nat.
(** The claims one by one, in the order of the boundary constraints. *)
Definition claims (pi : public_inputs C) (alpha z : C) (lo hi : N) : list C :=
  [pc_init pi; ap_init pi; pc_final pi; ap_final pi; memory_claim alpha z (public_memory pi); 1; e_u64 C lo; e_u64 C hi].
(** Elements that are not 64-bit words, as registers and addresses are. *)
Definition no_word (x : C) : Prop := forall w, (w < 2 ^ 64)%N -> x <> e_u64 C w.
End Ends.
