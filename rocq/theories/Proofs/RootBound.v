(** Bounded sets of exceptional challenges in a finite field. *)
From Coq Require Import List Arith NArith Bool Lia Permutation.
From Verif.Base Require Import Outcome Field Poly.
From Verif.Model Require Import Codec Air CairoDecode.
From Verif.Spec Require Import CairoSpec.
From Verif.Proofs Require Import FieldFacts PolyFacts MultisetFacts.
Import ListNotations.

Section Bound.
Context {C : cairo_env} {p : N} (HC : cairo_ok C p).
Let HK : field_ok C := fft_field_ok _ (e_fft_ok _ (co_env _ _ HC)).
Local Open Scope felt_scope.

Definition all_elements : list C := nodup (feq_dec HK) (map (fun k => e_u64 C (N.of_nat k)) (seq 0 (N.to_nat p))).
Lemma all_elements_in x : In x all_elements.
Proof using HC.
  apply nodup_In. rewrite <- (co_u64_repr _ _ HC x). pose proof (co_repr_lt _ _ HC x) as H. rewrite <- (N2Nat.id (ce_repr x)).
  apply (in_map (fun k => e_u64 C (N.of_nat k))). apply in_seq. lia.
Qed.

(** Two lists of the same length have different products [prod (z - x)] outside a list of at most that many [z],
    unless they are permutations of each other. *)
Theorem exceptional_points (xs ys : list C) : length ys = length xs ->
  exists bad : list C, (length bad <= length xs)%nat /\ forall z, ~ In z bad -> vanish xs z = vanish ys z -> Permutation xs ys.
Proof using HC.
  intro Hl. set (roots := filter (fun z => feqb (vanish xs z) (vanish ys z)) all_elements).
  destruct (Nat.lt_ge_cases (length xs) (length roots)) as [H|H].
  - exists []. split; [cbn; lia|]. intros z _ _. apply (products_permutation HK roots); [apply NoDup_filter, NoDup_nodup|exact Hl|exact H|].
    intros w Hw. apply filter_In in Hw. now apply (feqb_spec C HK).
  - exists roots. split; [exact H|]. intros z Hz E. exfalso. apply Hz. apply filter_In. split; [apply all_elements_in|]. now apply (feqb_spec C HK).
Qed.
End Bound.
