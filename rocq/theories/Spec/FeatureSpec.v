(** What an AIR and a table must look like for the checks of a debug build to go through: shapes only, no constraint
    needs to hold. *)
From Coq Require Import List Arith.
From Verif.Base Require Import Outcome Field Poly.
From Verif.Model Require Import Codec Trace Air.
From Verif.Spec Require Import AirSpec.
Import ListNotations.

Section FeatureSpec.
Context {E : env}.

(** The main table has [2^r] rows; so has the auxiliary table built from it for any
    challenges that can be drawn, and together they are as wide as declared. *)
Definition rectangular_trace (a : air E) (r : nat) (main : trace_table E) : Prop :=
  exists mcols, mcols <> [] /\ has_columns main (2 ^ r) mcols /\
  forall t rap t' aux, a_build_rap a t = Ok (rap, t') -> a_build_aux a main rap = Ok aux ->
    exists acols, has_columns aux (2 ^ r) acols /\ length (mcols ++ acols) = trace_columns (a_context a).

(** Boundary constraints name cells of the table. *)
Definition boundary_in_table (a : air E) (r : nat) (main : trace_table E) : Prop :=
  forall t rap t' aux bcs bc, a_build_rap a t = Ok (rap, t') -> a_build_aux a main rap = Ok aux -> a_boundary a rap = Ok bcs -> In bc bcs ->
    (bc_step bc < 2 ^ r)%nat /\ (bc_col bc < trace_columns (a_context a))%nat.

(** The transition function returns at most as many values as the context declares constraints and exemptions. *)
Definition constraints_declared (a : air E) : Prop :=
  forall fr rap evals, a_transition a fr rap = Ok evals ->
    (length evals <= num_transition_constraints (a_context a))%nat /\
    (length evals <= length (transition_exemptions (a_context a)))%nat.
End FeatureSpec.
