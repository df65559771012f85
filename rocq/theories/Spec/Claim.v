(** The part of a Cairo statement that a proof is about. *)
From Coq Require Import List Arith NArith Bool Permutation.
From Verif.Base Require Import Outcome Field Poly.
From Verif.Model Require Import PublicInputs Air CairoDecode CairoTrace CairoAir.
Import ListNotations.
Local Open Scope felt_scope.

Section Claim.
Context {C : cairo_env}.

(** Two statements that claim the same but for the public memory: they may differ in the initial fp, and in the names and ranges of the
    memory segments, as long as both or none declare a segment. *)
Record same_claim (pi pi' : public_inputs C) : Prop := {
  sc_pc_init : pc_init pi' = pc_init pi;
  sc_ap_init : ap_init pi' = ap_init pi;
  sc_pc_final : pc_final pi' = pc_final pi;
  sc_ap_final : ap_final pi' = ap_final pi;
  sc_min : range_check_min pi' = range_check_min pi;
  sc_max : range_check_max pi' = range_check_max pi;
  sc_steps : num_steps pi' = num_steps pi;
  sc_segments : memory_segments pi = [] <-> memory_segments pi' = []
}.

(** The public cells without the cell at address 0 with value 0. *)
Definition stated_cells (cells : list (C * C)) : list (C * C) := filter (fun av => negb (feqb (fst av) 0 && feqb (snd av) 0)) cells.

(** The statement with other segments. *)
Definition with_segments (pi : public_inputs C) (segments : list (memory_segment * (N * N))) : public_inputs C :=
  mk_public_inputs (pc_init pi) (ap_init pi) (fp_init pi) (pc_final pi) (ap_final pi) (range_check_min pi) (range_check_max pi) segments (public_memory pi) (num_steps pi).
End Claim.
