(** Constraint evaluation on the LDE domain.
    Sources: src/starks/constraints/evaluator.rs, evaluation_table.rs, prover.rs:106-123. *)
From Coq Require Import List Arith NArith.
From Verif.Base Require Import Outcome Field Poly.
From Verif.Model Require Import Codec Trace Air Domain.
Import ListNotations.
Local Open Scope outcome_scope.
Local Open Scope felt_scope.

(** prover.rs:106-123 *)
Definition evaluate_polynomial_on_lde_domain {K : fft_ops} (p : poly K) (blowup domain_size : nat) (offset : K)
  : outcome (list K) :=
  evaluations <- evaluate_offset_fft p blowup domain_size offset;;
  let total := (domain_size * blowup)%nat in
  if (total =? 0)%nat then Panic else
  let step := (length evaluations / total)%nat in
  match step with
  | 1%nat => Ok evaluations
  | _ => step_by step evaluations
  end.

Section Evaluator.
Context {E : env} (a : air E).
Notation pair := (E * E)%type.

(** evaluator.rs:58-72 *)
Definition boundary_zerofiers_inverse (d : domain E) (bcs : list (boundary_constraint E)) : outcome (list (list E)) :=
  traverse (fun bc =>
    let point := fpow (trace_primitive_root d) (bc_step bc) in
    batch_inverse (map (fun v => v - point) (lde_roots_of_unity_coset d))) bcs.

(** evaluator.rs:89-103 *)
Definition boundary_polys_evaluations (d : domain E) (lde_trace : trace_table E) (bcs : list (boundary_constraint E))
  : outcome (list (list E)) :=
  traverse (fun bc =>
    col <- step_by (tt_n_cols lde_trace) (skipn (bc_col bc) (tt_table lde_trace));;
    Ok (map (fun v => v - bc_value bc) (firstn (length (lde_roots_of_unity_coset d)) col))) bcs.

(** evaluator.rs:104-115, one row *)
Definition boundary_evaluation_at (zinv bev : list (list E)) (nb : nat) (coeffs : list pair) (i : nat) (dd : E)
  : outcome E :=
  ofold (fun acc (x : nat * pair) =>
    let '(index, (alpha, beta)) := x in
    z <- (l <- idx zinv index;; idx l i);;
    b <- (l <- idx bev index;; idx l i);;
    Ok (acc + z * (alpha * dd + beta) * b)) (combine (seq 0 nb) coeffs) 0.

(** evaluator.rs:299-323 *)
Definition evaluate_transition_exemptions (d : domain E) (polys : list (poly E)) : outcome (list (list E)) :=
  traverse (fun p => unwrap_r (evaluate_polynomial_on_lde_domain p (d_blowup_factor d)
                        (interpolation_domain_size d) (d_coset_offset d))) polys.

(** evaluator.rs:142-154 *)
Definition degree_adjustments_lde (d : domain E) : outcome (list (list E)) :=
  mx <- unwrap (list_max_o (transition_degrees (a_context a)));;
  traverse (fun deg =>
    traverse (fun x => e <- usub (a_degree_bound a) (a_trace_length a * (deg - 1))%nat;; Ok (fpow x e))
      (lde_roots_of_unity_coset d)) (seq 1 mx).

(** evaluator.rs:156-171 *)
Definition zerofier_inverses : outcome (list E) :=
  let blowup := a_blowup a in
  let offset := e_u64 E (coset_offset (a_options a)) in
  let offset_pow := fpow offset (a_trace_length a) in
  vs <- unwrap_r (powers_coset ((match blowup with O => 8 | _ => trailing_zeros blowup end)) blowup offset_pow);;
  batch_inverse (map (fun v => v - 1) vs).

(** evaluator.rs:205-250: the weighted sum of the transition constraints at one point. *)
Definition transition_acc (ex_evals dadj : list (list E)) (zerofier : E) (i : nat)
    (evals : list E) (coeffs : list pair) : outcome E :=
  let ctx := a_context a in
  ofold (fun acc (x : E * nat * nat * pair) =>
    let '(eval, exemption, degree, (alpha, beta)) := x in
    k <- usub degree 1;;
    dj <- (l <- idx dadj k;; idx l i);;
    if (exemption =? 0)%nat then Ok (acc + zerofier * (alpha * dj + beta) * eval)
    else if (num_transition_exemptions ctx =? 1)%nat then
      ex <- (l <- idx ex_evals 0;; idx l i);;
      Ok (acc + zerofier * (alpha * dj + beta) * eval * ex)
    else
      let vector := uniq (filter (fun e => (0 <? e)%nat) (transition_exemptions ctx)) in
      index <- unwrap (position exemption vector);;
      ex <- (l <- idx ex_evals index;; idx l i);;
      Ok (acc + zerofier * (alpha * dj + beta) * eval * ex))
    (combine (combine (combine evals (transition_exemptions ctx)) (transition_degrees ctx)) coeffs) 0.

(** evaluator.rs:38-260, with the zerofier looked up by index as under the feature [parallel] (176-182); the iterator of the
    default build is in Features.v and C75 shows that it gives the same list. *)
Definition evaluate_constraints (lde_trace : trace_table E) (d : domain E)
    (transition_coeffs boundary_coeffs : list pair) (rap : a_rap a) : outcome (list E) :=
  bcs <- a_boundary a rap;;
  zinv <- boundary_zerofiers_inverse d bcs;;
  adj <- usub (a_degree_bound a) (a_trace_length a);;
  let d_adj := map (fun x => fpow x adj) (lde_roots_of_unity_coset d) in
  bev <- boundary_polys_evaluations d lde_trace bcs;;
  let n_elem := length (lde_roots_of_unity_coset d) in
  boundary_evaluation <- traverse (fun x : nat * E => let '(i, dd) := x in
      boundary_evaluation_at zinv bev (length bcs) boundary_coeffs i dd) (combine (seq 0 n_elem) d_adj);;
  polys <- transition_exemption_polys a;;
  ex_evals <- evaluate_transition_exemptions d polys;;
  dadj <- degree_adjustments_lde d;;
  zer <- zerofier_inverses;;
  traverse (fun x : nat * E => let '(i, boundary) := x in
    fr <- fr_read_from_trace lde_trace i (a_blowup a) (transition_offsets (a_context a));;
    evals <- a_transition a fr rap;;
    zerofier <- idx zer (i mod length zer);;
    acc <- transition_acc ex_evals dadj zerofier i evals transition_coeffs;;
    Ok (acc + boundary)) (combine (seq 0 n_elem) boundary_evaluation).
End Evaluator.
