(** Reading the columns of the trace out of a proof: interpolation through the values it contains. *)
From Coq Require Import List Arith Bool.
From Verif.Base Require Import Outcome Field Poly.
From Verif.Model Require Import Codec Trace Air Transcript Domain Verifier.
From Verif.Spec Require Import AirSpec HashSpec Openings Extract.
Import ListNotations.
Local Open Scope outcome_scope.
Local Open Scope felt_scope.

Section Interpolation.
Context {K : field_ops}.

(** The product of [X - a]. *)
Fixpoint zero_poly (l : list K) : poly K :=
  match l with [] => [1] | a :: r => pmul_raw [fopp a; 1] (zero_poly r) end.

(** Newton's interpolation through points with different first coordinates. *)
Fixpoint through (pts : list (K * K)) : poly K :=
  match pts with
  | [] => []
  | (x, y) :: r =>
      let v := zero_poly (map fst r) in
      padd_raw (through r) (pscale_raw ((y - peval (through r) x) * finv (peval v x)) v)
  end.

(** One point for each first coordinate. *)
Fixpoint distinct (pts : list (K * K)) : list (K * K) :=
  match pts with
  | [] => []
  | (x, y) :: r => if existsb (fun q => feqb (fst q) x) r then distinct r else (x, y) :: distinct r
  end.
End Interpolation.

Section Reader.
Context {E : env}.

(** The values of column [j] that a proof states: at the queried positions and in the frame outside the domain. *)
Definition stated {a : air E} (p : stark_proof E) (d : domain E) (w : E) (c : challenges E a) (k j : nat) : list (E * E) :=
  map (fun x => (d_coset_offset d * fpow w (fst x), nth j (lde_trace_evaluations (snd x)) 0)) (combine (c_iotas E a c) (deep_poly_openings p)) ++
  map (fun i => (c_z E a c * fpow (trace_primitive_root d) i,
    match fr_get_row (trace_ood_frame_evaluations p) i with Ok row => nth j row 0 | _ => 0 end)) (seq 0 k).

(** What anyone can compute from a proof: replay the transcript, interpolate, evaluate on the trace domain. *)
Definition read_columns (fuel : nat) (mk : nat -> air E) (p : stark_proof E) : outcome (list (list E)) :=
  let a := mk (trace_length p) in
  d <- domain_new a;;
  ct <- step_1 E fuel a p d tr_new;;
  w <- unwrap (primitive_root (lde_root_order d));;
  Ok (map (fun j =>
    let q := through (distinct (stated p d w (fst ct) (length (transition_offsets (a_context a))) j)) in
    map (peval q) (trace_roots_of_unity d)) (seq 0 (trace_columns (a_context a)))).
End Reader.

(** Among the evaluations [K] are those made in committing to a table of [n] rows: the rows of values, at the points [h * w^i], of the polynomials of degree below [n] through its columns,
    and the pairs of the tree over them. *)
Definition commits_to {E : env} (K : evaluations E) (m : nat) (h w g : E) (n : nat) (mt : trace_table E) : Prop :=
  exists polys : list (poly E), Forall (fun q => (length q <= n)%nat) polys /\
    has_columns mt n (map (fun q => map (fun i => peval q (fpow g i)) (seq 0 n)) polys) /\
    let row := fun x => map (fun q => peval q x) polys in
    (forall i, (i < 2 ^ m)%nat -> In (row (h * fpow w i)) (ev_rows K)) /\
    incl (tree_calls (e_node E) m (row_leaves m h w row)) (ev_pairs K).
