(** The prover's own code run on a table that need not satisfy the constraints. *)
From Coq Require Import List Arith.
From Verif.Base Require Import Outcome Field Poly.
From Verif.Model Require Import Codec Trace Merkle Air Transcript Domain Evaluator Prover Verifier.
From Verif.Spec Require Import AirSpec CairoColumns OodSpec.
Import ListNotations.
Local Open Scope felt_scope.

Section WrongTable.
Context {E : env}.

(** The main table is rectangular with [2^r] rows, and so is the auxiliary table whatever the challenges; nothing is said
    about the constraints. *)
Definition shaped_trace (a : air E) (r : nat) (main : trace_table E) : Prop :=
  exists mcols, mcols <> [] /\ has_columns main (2 ^ r) mcols /\
  forall t rap t' aux, a_build_rap a t = Ok (rap, t') -> a_build_aux a main rap = Ok aux ->
    exists acols, has_columns aux (2 ^ r) acols /\ length (mcols ++ acols) = trace_columns (a_context a).

(** The halves of the composition polynomial that the prover computes in its second round from the first round and the
    coefficients; they are committed to before the out-of-domain point is drawn. *)
Definition own_halves (a : air E) (d : domain E) (r1 : round1 E a) (bco tco : list (E * E)) : poly E * poly E :=
  match round_2 E a d r1 tco bco with Ok r2 => (r2_even E r2, r2_odd E r2) | _ => ([], []) end.

(** With these coefficients and at this point the out-of-domain check accepts what the prover computes. *)
Definition own_passes (a : air E) (d : domain E) (r1 : round1 E a) (bco tco : list (E * E)) (z : E) : Prop :=
  passes_at a d (r1_rap E a r1) (r1_trace_polys E a r1) bco tco (fst (own_halves a d r1 bco tco)) (snd (own_halves a d r1 bco tco)) z.

(** At most so many pairs of a coefficient from [S] and a point from [Z] are in [P]. *)
Definition few_pairs (P : E -> E -> Prop) (B : nat) : Prop :=
  forall S Z W : list _, NoDup S -> NoDup Z -> NoDup W ->
    (forall beta z, In (beta, z) W -> In beta S /\ In z Z /\ P beta z) -> (length W <= length Z + B * length S)%nat.
End WrongTable.
