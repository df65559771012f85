(** Code that nothing calls, or that is called on nothing.
    Sources: src/starks/constraints/evaluator.rs:85, 117-121 and 262-298, src/starks/debug.rs:84-98, src/cairo/runner/file_writer.rs. *)
From Coq Require Import List Arith Bool NArith.
From Verif.Base Require Import Outcome Bytes Field Poly.
Import ListNotations.
Local Open Scope outcome_scope.
Local Open Scope felt_scope.

Section Leftover.
Context {K : field_ops}.

(** evaluator.rs:281-298 [compute_constraint_composition_poly_evaluations_sum]: no caller, although its comment names two. *)
Definition composition_sum (evaluations inverse_denominators degree_adjustments : list K) (constraint_coeffs : list (K * K)) : K :=
  fold_left (fun acc (x : K * K * K * (K * K)) => let '(ev, degree, inv, (alpha, beta)) := x in
    acc + ev * (alpha * degree + beta) * inv)
    (combine (combine (combine evaluations degree_adjustments) inverse_denominators) constraint_coeffs) 0.

(** [&p - &q] of lambdaworks, as a reference implementation. *)
Definition psub (p q : poly K) : poly K := trim (padd_raw p (map fopp q)).
(** [Polynomial::degree] and [leading_coefficient] *)
Definition pdegree (p : poly K) : nat := (length p - 1)%nat.
Definition pleading (p : poly K) : K := last p 0.

(** [Polynomial::long_division_with_remainder] of lambdaworks, as a reference implementation: the loop subtracts the multiple of the divisor
    that cancels the leading coefficient, until the degree is less than that of the divisor. Only the remainder; debug.rs:93 drops the quotient.
    [fuel] bounds the number of rounds; the number of coefficients is enough. *)
Fixpoint reduce (fuel : nat) (n z : poly K) (denominator : K) : poly K :=
  match fuel with
  | O => n
  | S fuel' =>
      if negb (length n =? 0)%nat && (pdegree z <=? pdegree n)%nat
      then reduce fuel' (psub n (pmul z (monomial (pleading n * denominator) (pdegree n - pdegree z)))) z denominator
      else n
  end.
Definition long_remainder (p z : poly K) : outcome (poly K) :=
  if (pdegree p <? pdegree z)%nat then Ok p else
  denominator <- inv_o (pleading z);;
  Ok (reduce (length p) p z denominator).

(** debug.rs:84-98: the indices that are reported with [error!]; nothing else comes of it. *)
Definition check_boundary_polys_divisibility (boundary_polys boundary_zerofiers : list (poly K)) : outcome (list nat) :=
  ofold (fun acc (x : nat * (poly K * poly K)) => let '(i, (p, z)) := x in
    b <- long_remainder p z;;
    Ok (if (length b =? 0)%nat then acc else acc ++ [i]))
    (combine (seq 0 (length boundary_polys)) (combine boundary_polys boundary_zerofiers)) [].

(** evaluator.rs:85 and 117-121: both vectors are new and never filled. *)
Definition debug_boundary_check : outcome (list nat) := check_boundary_polys_divisibility [] [].
End Leftover.

(** file_writer.rs. What [write_all] and [BufWriter] do with a file is a parameter: [None] is an error. *)
Section FileWriter.
Context (write_all : list byte -> list byte -> option (list byte)).
Record file_writer := mk_file_writer { buf_writer : list byte; bytes_written : nat }.

(** file_writer.rs:25-30 *)
Definition fw_new (contents : list byte) : file_writer := mk_file_writer contents 0.

(** file_writer.rs:9-22; the error carries an index. *)
Definition fw_write (w : file_writer) (bytes : list byte) : file_writer + nat :=
  match write_all (buf_writer w) bytes with
  | None => inr (bytes_written w)
  | Some contents => inl (mk_file_writer contents (bytes_written w + length bytes)%nat)
  end.

(** A bincode encoder writes its parts in order and stops at the first error. *)
Fixpoint fw_write_parts (w : file_writer) (parts : list (list byte)) : file_writer + nat :=
  match parts with
  | [] => inl w
  | p :: ps => match fw_write w p with inl w' => fw_write_parts w' ps | inr i => inr i end
  end.
End FileWriter.
