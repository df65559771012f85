(** What the prover needs beyond an admissible statement and a valid trace in order not to panic. *)
From Coq Require Import List Arith NArith.
From Verif.Base Require Import Outcome Field Poly.
From Verif.Model Require Import Codec Trace Air Transcript Domain Prover.
Import ListNotations.

Section ProvingSpec.
Context {E : env}.

(** The evaluation domain exists in the field, fewer rows are exempted than there are rows, the declared degrees
    are positive and do not exceed the bound on the composition polynomial, and challenges can always be drawn. *)
Record proving_ok (a : air E) (r b : nat) : Prop := {
  pk_two_adicity : (r + b <= two_adicity E)%nat;
  pk_ex_lt : forall e, In e (transition_exemptions (a_context a)) -> (e < 2 ^ r)%nat;
  pk_deg_ne : transition_degrees (a_context a) <> [];
  pk_deg : forall deg, In deg (transition_degrees (a_context a)) -> (1 <= deg /\ 2 ^ r * (deg - 1) <= a_degree_bound a)%nat;
  pk_bound : (2 ^ r <= a_degree_bound a)%nat;
  pk_rap : forall t, exists rap t', a_build_rap a t = Ok (rap, t')
}.
(** Whenever the auxiliary table can be built, so can the list of boundary constraints. *)
Definition boundary_computable (a : air E) (main : trace_table E) : Prop :=
  forall rap aux, a_build_aux a main rap = Ok aux -> exists bcs, a_boundary a rap = Ok bcs.

(** The commitment to the main table that the first round makes. *)
Definition main_commitment (a : air E) (main : trace_table E) (root : commitment) : Prop :=
  exists d polys evals tree t, domain_new a = Ok d /\ interpolate_and_commit E main d tr_new = Ok (polys, evals, tree, root, t).

(** [rap] are the challenges the first round draws, after committing to the main table. *)
Definition first_challenges (a : air E) (main : trace_table E) (rap : a_rap a) : Prop :=
  exists root t', main_commitment a main root /\ a_build_rap a (tr_append tr_new root) = Ok (rap, t').

(** The auxiliary table cannot be built from the main table for the challenges drawn. *)
Definition aux_fails (a : air E) (main : trace_table E) : Prop :=
  exists rap, first_challenges a main rap /\ forall aux, a_build_aux a main rap <> Ok aux.
End ProvingSpec.
