(** Specification side of the completeness theorems: what it means for an AIR's constraints to be
    polynomial of the declared degrees, for a trace to satisfy an AIR, and for parameters to be
    admissible. Independent of the prover and the verifier. *)
From Coq Require Import List Arith NArith.
From Verif.Base Require Import Outcome Field Poly.
From Verif.Model Require Import Codec Trace Air.
Import ListNotations.
Local Open Scope felt_scope.

Section AirSpec.
Context {E : env}.

(** The frame whose rows are the column polynomials at [x * g^o], for every offset [o]. *)
Definition shifted_rows (polys : list (poly E)) (offsets : list nat) (g x : E) : list (list E) :=
  map (fun o => map (fun p => peval p (x * fpow g o)) polys) offsets.
Definition shifted_frame polys offsets g x : frame E :=
  mk_frame (concat (shifted_rows polys offsets g x)) (length polys).

(** On columns given by polynomials of length at most [n], every transition constraint is a
    polynomial in the point, of the degree declared in the context. *)
Definition transition_is_polynomial (a : air E) (n : nat) (g : E) : Prop :=
  forall rap polys, length polys = trace_columns (a_context a) -> Forall (fun p => (length p <= n)%nat) polys ->
  exists cs : list (poly E),
    (forall x, a_transition a (shifted_frame polys (transition_offsets (a_context a)) g x) rap
               = Ok (map (fun c => peval c x) cs)) /\
    (forall j, (j < length cs)%nat -> (j < length (transition_degrees (a_context a)))%nat ->
       (length (nth j cs []) <= nth j (transition_degrees (a_context a)) O * (n - 1) + 1)%nat).

(** A list of [n]-row columns satisfies the constraints of the AIR for given RAP challenges. *)
Record trace_satisfies (a : air E) (rap : a_rap a) (cols : list (list E)) (n : nat) : Prop := {
  ts_boundary : forall bcs bc, a_boundary a rap = Ok bcs -> In bc bcs ->
      (bc_step bc < n)%nat /\ (bc_col bc < length cols)%nat /\ nth (bc_step bc) (nth (bc_col bc) cols []) 0 = bc_value bc;
  ts_transition : forall i, (i < n)%nat ->
      exists evals, a_transition a (mk_frame (concat (map (fun o => map (fun c => nth ((i + o) mod n) c 0) cols)
                                                        (transition_offsets (a_context a)))) (length cols)) rap = Ok evals /\
      forall j e, nth_error (transition_exemptions (a_context a)) j = Some e -> (i < n - e)%nat ->
        nth j evals 0 = 0
}.

(** [t] is the row-major table with the given columns of [n] entries each; [cols = []] is the empty
    table, which an AIR without auxiliary columns returns. *)
Definition has_columns (t : trace_table E) (n : nat) (cols : list (list E)) : Prop :=
  tt_n_cols t = length cols /\ (forall c, In c cols -> length c = n) /\
  tt_table t = concat (map (fun i => map (fun c => nth i c 0) cols) (seq 0 n)).

(** Parameters for which an honest proof is meant to be accepted: trace length [2^r], blowup [2^b],
    consecutive frame rows, sensible exemptions, polynomial constraints whose declared degrees fit
    a composition polynomial of degree below [2 * 2^r], and a coset without squares (with a square
    in it, the verifier divides by zero when the out-of-domain point happens to be its root). *)
Record admissible (a : air E) (r b k : nat) : Prop := {
  ad_n : a_trace_length a = (2 ^ r)%nat;
  ad_r : (1 <= r)%nat;
  ad_blowup : a_blowup a = (2 ^ b)%nat;
  ad_b : (1 <= b)%nat;
  ad_coset : forall y w i, primitive_root (r + b) = Some w ->
      y * y <> e_u64 E (coset_offset (a_options a)) * fpow w i;
  ad_offsets : transition_offsets (a_context a) = seq 0 k;
  ad_k : (1 <= k)%nat;
  ad_aux : (a_n_aux a <= trace_columns (a_context a))%nat;
  ad_ex_ne : transition_exemptions (a_context a) <> [];
  ad_ex_le : forall e, In e (transition_exemptions (a_context a)) -> (e <= 2 ^ r)%nat;
  ad_ex_one : num_transition_exemptions (a_context a) = 1%nat ->
      forall e e', In e (transition_exemptions (a_context a)) -> In e' (transition_exemptions (a_context a)) ->
      e <> O -> e' <> O -> e = e';
  ad_bound : (a_degree_bound a <= 2 * 2 ^ r + 1)%nat;
  ad_degrees : forall j e deg, nth_error (transition_exemptions (a_context a)) j = Some e ->
      nth_error (transition_degrees (a_context a)) j = Some deg ->
      (a_degree_bound a + 1 + e <= 2 * 2 ^ r + deg)%nat;
  ad_poly : forall g, primitive_root r = Some g -> transition_is_polynomial a (2 ^ r) g
}.

(** The main table is rectangular with [2^r] rows, and whatever challenges are drawn, the auxiliary
    table built from it is too and the columns together satisfy the constraints. *)
Definition valid_trace (a : air E) (r : nat) (main : trace_table E) : Prop :=
  exists mcols, mcols <> [] /\ has_columns main (2 ^ r) mcols /\
  forall t rap t' aux, a_build_rap a t = Ok (rap, t') -> a_build_aux a main rap = Ok aux ->
    exists acols, has_columns aux (2 ^ r) acols /\
      length (mcols ++ acols) = trace_columns (a_context a) /\
      trace_satisfies a rap (mcols ++ acols) (2 ^ r).
End AirSpec.
