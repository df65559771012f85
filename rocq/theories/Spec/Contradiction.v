(** Execution columns that no memory agrees with. *)
From Coq Require Import List Arith NArith.
From Verif.Base Require Import Outcome Field Poly.
From Verif.Model Require Import Codec PublicInputs Trace Air CairoDecode CairoTrace CairoAir.
From Verif.Spec Require Import CairoColumns.
Import ListNotations.

Section Contradiction.
Context {C : cairo_env}.

(** A cell accessed by a row, not counting the last accesses, as many as there are public cells (the prover puts the public
    memory in their place). *)
Definition kept_access (pi : public_inputs C) (main : list (list C)) n (e : C * C) : Prop :=
  exists k, (k < 4 * n - length (public_memory pi))%nat /\ e = (access_addr main k, access_value main k).
(** A cell of the public memory at one of the addresses that the prover counts as public. *)
Definition claimed_cell (pi : public_inputs C) (e : C * C) : Prop :=
  exists addrs, get_pub_memory_addrs pi = Ok addrs /\ In (fst e) addrs /\ map_get feqb (fst e) (public_memory pi) = Some (snd e).
Definition used_cell pi main n e : Prop := kept_access pi main n e \/ claimed_cell pi e.

(** One address with two values. *)
Definition two_values pi main n : Prop :=
  exists a v v', used_cell pi main n (a, v) /\ used_cell pi main n (a, v') /\ v <> v'.
(** An address between two used ones that is not used. *)
Definition skipped_address pi main n : Prop :=
  exists e e' h, used_cell pi main n e /\ used_cell pi main n e' /\ (ce_repr (fst e) < h < ce_repr (fst e'))%N /\
  forall u, used_cell pi main n u -> ce_repr (fst u) <> h.
End Contradiction.
