(** Low-degree words: folding and the DEEP quotients. *)
From Coq Require Import List Arith NArith Bool Lia.
From Verif.Base Require Import Outcome Field Poly.
From Verif.Model Require Import Codec Trace Air Domain Verifier.
From Verif.Spec Require Import AirSpec VerifierSpec LowDegree.
From Verif.Proofs Require Import FieldFacts PolyFacts FFTFacts OutcomeFacts DomainFacts FriFacts VerifierFacts OodFacts.
Import ListNotations.

Section LowDegree.
Context {E : env} (HE : env_ok E).
Let HF : fft_ok E := e_fft_ok E HE.
Let HK : field_ok E := fft_field_ok E HF.
Add Field Kfield54 : (fld_th E HK).
Local Open Scope felt_scope.

(** ** Folding *)
Fixpoint odd_part (p : poly E) : poly E := match p with [] => [] | c :: p' => 0 :: c :: odd_part p' end.
Lemma odd_part_length p : length (odd_part p) = (2 * length p)%nat.
Proof using Type. induction p; cbn [odd_part length]; lia. Qed.
Lemma odd_part_eval p x : peval (odd_part p) x = x * peval p (x * x).
Proof using HE. induction p as [|c p IH]; cbn [odd_part peval]; [ring|]. rewrite IH. ring. Qed.

Lemma fold_step (S : E -> Prop) d zeta zeta' w w1 w2 :
  (forall x, S x -> x <> 0 /\ S (- x)) -> zeta <> zeta' ->
  is_fold S zeta w w1 -> is_fold S zeta' w w2 ->
  low_degree (squares_of S) w1 d -> low_degree (squares_of S) w2 d -> low_degree S w (2 * d).
Proof using HE.
  intros HS Hz F1 F2 (q1 & L1 & E1) (q2 & L2 & E2). pose proof (two_neq E HE) as H2.
  assert (Hd : zeta - zeta' <> 0) by (intro H; apply (proj1 (sub_zero HK _ _)) in H; contradiction).
  (* odd part and even part *)
  set (B := pscale_raw (finv (zeta - zeta')) (pdiff q1 q2) : poly E).
  set (A := pdiff q1 (pscale_raw zeta B) : poly E).
  exists (padd_raw (spread A) (odd_part B)).
  assert (LB : (length B <= d)%nat) by (unfold B; rewrite pscale_raw_length; now apply pdiff_length).
  assert (LA : (length A <= d)%nat) by (unfold A; apply pdiff_length; [exact L1|now rewrite pscale_raw_length]).
  split.
  - rewrite padd_raw_length. rewrite spread_length, odd_part_length. lia.
  - intros x Hx. destruct (HS x Hx) as [Hx0 _].
    assert (V1 : peval q1 (x * x) = fold_value zeta w x) by (rewrite <- E1 by (exists x; auto); apply F1, Hx).
    assert (V2 : peval q2 (x * x) = fold_value zeta' w x) by (rewrite <- E2 by (exists x; auto); apply F2, Hx).
    rewrite (peval_padd_raw HK), (spread_eval HE), odd_part_eval. unfold A. rewrite (pdiff_eval HE), (peval_pscale_raw HK).
    unfold B. rewrite (peval_pscale_raw HK), (pdiff_eval HE), V1, V2. unfold fold_value. field. repeat split; assumption.
Qed.

Lemma prim_half m (w : E) : is_prim w (2 ^ S m) -> fpow w (2 ^ m) = - (1).
Proof using HE.
  intros [H1 H2]. assert (P := pow2_pos m).
  assert (N : fpow w (2 ^ m) <> 1) by (apply H2; cbn [Nat.pow]; lia).
  replace (2 ^ S m)%nat with (2 ^ m + 2 ^ m)%nat in H1 by (cbn [Nat.pow]; lia). rewrite (fpow_add HK) in H1.
  assert (Z : (fpow w (2 ^ m) - 1) * (fpow w (2 ^ m) + 1) = 0).
  { transitivity (fpow w (2 ^ m) * fpow w (2 ^ m) - 1); [ring|]. rewrite H1. ring. }
  apply (mul_zero HK) in Z. destruct Z as [Z|Z].
  - exfalso. apply N. exact (proj1 (sub_zero HK _ _) Z).
  - transitivity (fpow w (2 ^ m) + 1 - 1); [ring|]. rewrite Z. ring.
Qed.
Lemma prim_square m (w : E) : is_prim w (2 ^ S m) -> is_prim (w * w) (2 ^ m).
Proof using HE.
  intros [H1 H2]. assert (Q : forall i, fpow (w * w) i = fpow w (2 * i)) by (intro i; rewrite (fpow_mul HK), (fpow_2 HK); reflexivity).
  split; [rewrite Q; exact H1|]. intros i Hi. rewrite Q. apply H2. cbn [Nat.pow]. lia.
Qed.
Lemma coset_squares (h w : E) x : squares_of (on_coset h w) x <-> on_coset (h * h) (w * w) x.
Proof using HE.
  split.
  - intros (y & (i & ->) & ->). exists i. rewrite (fpow_mul_base HK). ring.
  - intros (i & ->). exists (h * fpow w i). split; [now exists i|]. rewrite (fpow_mul_base HK). ring.
Qed.
Lemma low_degree_ext (S S' : E -> Prop) f m : (forall x, S' x -> S x) -> low_degree S f m -> low_degree S' f m.
Proof using Type. intros H (q & Hq & Hv). exists q. split; [exact Hq|auto]. Qed.
Lemma folds_ext k : forall (S S' : E -> Prop) w, (forall x, S' x -> S x) -> folds_to_constants k S w -> folds_to_constants k S' w.
Proof using Type.
  induction k as [|k IH]; intros S S' w H F; cbn [folds_to_constants] in *.
  - destruct F as [v Hv]. exists v. auto.
  - destruct F as (z1 & z2 & w1 & w2 & Hz & F1 & F2 & R1 & R2). exists z1, z2, w1, w2. split; [exact Hz|].
    split; [intros x Hx; apply F1; auto|]. split; [intros x Hx; apply F2; auto|].
    split; [revert R1|revert R2]; apply IH; intros y (x & Hx & ->); exists x; auto.
Qed.

(** [k] rounds of folding over a coset of [2^m] points, [k <= m]. *)
Theorem folds_low_degree k : forall m (h w : E) f, (k <= m)%nat -> h <> 0 -> is_prim w (2 ^ m) ->
  folds_to_constants k (on_coset h w) f -> low_degree (on_coset h w) f (2 ^ k).
Proof using HE.
  induction k as [|k IH]; intros m h w f Hk Hh Hw F; cbn [folds_to_constants] in F.
  - destruct F as [v Hv]. exists [v]. split; [reflexivity|]. intros x Hx. rewrite (Hv x Hx). cbn [peval]. ring.
  - destruct F as (z1 & z2 & w1 & w2 & Hz & F1 & F2 & R1 & R2). destruct m as [|m]; [lia|].
    assert (Hsq : is_prim (w * w) (2 ^ m)) by exact (prim_square m w Hw).
    assert (Hhh : h * h <> 0) by (intro H; apply (mul_zero HK) in H; tauto).
    replace (2 ^ S k)%nat with (2 * 2 ^ k)%nat by reflexivity.
    apply (fold_step (on_coset h w) (2 ^ k) z1 z2 f w1 w2); [|exact Hz|exact F1|exact F2| |].
    + intros x (i & ->). split.
      * intro H. apply (mul_zero HK) in H. destruct H as [H|H]; [contradiction|]. revert H. apply (fpow_nonzero HK).
        apply (prim_nonzero HK w (2 ^ S m)); [apply pow2_pos|exact Hw].
      * exists (i + 2 ^ m)%nat. rewrite (fpow_add HK), (prim_half m w Hw). ring.
    + apply (low_degree_ext (on_coset (h * h) (w * w))); [intro x; apply coset_squares|].
      apply (IH m); [lia|exact Hhh|exact Hsq|]. revert R1. apply folds_ext. intro x. apply coset_squares.
    + apply (low_degree_ext (on_coset (h * h) (w * w))); [intro x; apply coset_squares|].
      apply (IH m); [lia|exact Hhh|exact Hsq|]. revert R2. apply folds_ext. intro x. apply coset_squares.
Qed.
End LowDegree.

(** ** Quotients *)
Section Deep.
Context {E : env} (HE : env_ok E).
Let HF : fft_ok E := e_fft_ok E HE.
Let HK : field_ok E := fft_field_ok E HF.
Add Field Kfield55 : (fld_th E HK).
Local Open Scope felt_scope.

(** Where [delta * ((f x - v) / (x - y))] is a polynomial with [m] coefficients, [f] is one with [m + 1] and value [v] at [y]. *)
Lemma quotient_low_degree (S : E -> Prop) (f A B : E -> E) (delta v y : E) m : delta <> 0 -> (forall x, S x -> x <> y) ->
  (forall x, S x -> A x - B x = (f x - v) * finv (x - y) * delta) -> low_degree S A m -> low_degree S B m ->
  exists q : poly E, (length q <= m + 1)%nat /\ peval q y = v /\ forall x, S x -> f x = peval q x.
Proof using HE.
  intros Hd Hy Hab (A' & LA & HA) (B' & LB & HB).
  set (Q := pscale_raw (finv delta) (pdiff A' B')).
  assert (HQ : forall x, peval Q x = finv delta * (peval A' x - peval B' x)).
  { intro x. unfold Q. rewrite (peval_pscale_raw HK), (pdiff_eval HE). reflexivity. }
  exists (padd_raw [v] (padd_raw (0 :: Q) (pscale_raw (- y) Q))).
  assert (Ev : forall x, peval (padd_raw [v] (padd_raw (0 :: Q) (pscale_raw (- y) Q))) x = v + (x - y) * peval Q x).
  { intro x. rewrite !(peval_padd_raw HK), (peval_pscale_raw HK). cbn [peval]. ring. }
  split; [|split].
  - assert (LQ : (length Q <= m)%nat) by (unfold Q; rewrite pscale_raw_length; now apply pdiff_length).
    rewrite !padd_raw_length, pscale_raw_length. cbn [length]. lia.
  - rewrite Ev. ring.
  - intros x Hx. rewrite Ev, HQ, <- (HA x Hx), <- (HB x Hx), (Hab x Hx). field. split; [|exact Hd].
    intro H. apply (Hy x Hx). exact (proj1 (sub_zero HK _ _) H).
Qed.

Lemma deep_value_coeff (p : stark_proof E) {a : air E} (c : challenges E a) g rows x o col row gamma cl old :
  nth_error (c_trace_term_coeffs E a c) col = Some cl -> nth_error cl row = Some old ->
  (col < fr_num_columns (trace_ood_frame_evaluations p))%nat -> (row < length rows)%nat ->
  deep_value p (with_trace_coeff col row gamma c) g rows x o =
  deep_value p c g rows x o +
  (nth col (lde_trace_evaluations o) 0 - nth col (nth row rows []) 0) * finv (x - c_z E a c * fpow g row) * (gamma - old).
Proof using HE.
  intros Hc Hr Hcol Hrow. unfold deep_value, with_trace_coeff, set_coeff. cbv zeta.
  cbn [c_z c_trace_term_coeffs c_gamma_even c_gamma_odd].
  rewrite (nth_error_nth _ _ [] Hc). unfold set_nth at 1.
  erewrite (fsum_update HE _ col _ _ col cl); [|rewrite nth_error_nth' with (d := 0%nat) by (rewrite seq_length; exact Hcol); rewrite seq_nth by exact Hcol; reflexivity|exact Hc].
  cbn [fst snd]. unfold set_nth.
  erewrite (fsum_update HE _ row _ cl row old); [|rewrite nth_error_nth' with (d := 0%nat) by (rewrite seq_length; exact Hrow); rewrite seq_nth by exact Hrow; reflexivity|exact Hr].
  cbn [fst snd]. ring.
Qed.
Lemma deep_value_two (p : stark_proof E) {a : air E} (c : challenges E a) g rows x o col row gamma gamma' cl old :
  nth_error (c_trace_term_coeffs E a c) col = Some cl -> nth_error cl row = Some old ->
  (col < fr_num_columns (trace_ood_frame_evaluations p))%nat -> (row < length rows)%nat ->
  deep_value p (with_trace_coeff col row gamma c) g rows x o - deep_value p (with_trace_coeff col row gamma' c) g rows x o =
  (nth col (lde_trace_evaluations o) 0 - nth col (nth row rows []) 0) * finv (x - c_z E a c * fpow g row) * (gamma - gamma').
Proof using HE. intros Hc Hr Hcol Hrow. rewrite !(deep_value_coeff p c g rows x o col row _ cl old Hc Hr Hcol Hrow). ring. Qed.
Lemma deep_value_gammas (p : stark_proof E) {a : air E} (c : challenges E a) g rows x o gamma gamma' delta :
  deep_value p (with_gammas gamma delta c) g rows x o - deep_value p (with_gammas gamma' delta c) g rows x o =
    (lde_composition_poly_even_evaluation o - composition_poly_even_ood_evaluation p) * finv (x - c_z E a c * c_z E a c) * (gamma - gamma') /\
  deep_value p (with_gammas delta gamma c) g rows x o - deep_value p (with_gammas delta gamma' c) g rows x o =
    (lde_composition_poly_odd_evaluation o - composition_poly_odd_ood_evaluation p) * finv (x - c_z E a c * c_z E a c) * (gamma - gamma').
Proof using HE.
  unfold deep_value, with_gammas. cbv zeta. cbn [c_z c_trace_term_coeffs c_gamma_even c_gamma_odd]. split; ring.
Qed.
End Deep.
