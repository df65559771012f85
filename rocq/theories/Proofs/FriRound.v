(** A single run of FRI: unless a challenge is exceptional, words that fold consistently at most points are polynomials there. *)
From Coq Require Import List Arith NArith Bool Lia.
From Verif.Base Require Import Outcome Field Poly.
From Verif.Model Require Import Codec Trace Air Domain Verifier.
From Verif.Spec Require Import AirSpec VerifierSpec LowDegree FriTree Proximity.
From Verif.Proofs Require Import FieldFacts PolyFacts FFTFacts OutcomeFacts MultisetFacts FriFacts OodFacts LowDegreeFacts LineFacts.
Import ListNotations.

Section FriRound.
Context {E : env} (HE : env_ok E).
Let HF : fft_ok E := e_fft_ok E HE.
Let HK : field_ok E := fft_field_ok E HF.
Add Field Kfield64 : (fld_th E HK).
Local Open Scope felt_scope.

Lemma fits_low_degree (A : list E) f d : fits (fun x => x) A f d <-> low_degree (fun x => In x A) f d.
Proof using Type. reflexivity. Qed.

Lemma nodup_id (A : list E) : NoDup A -> NoDup (map (fun x : E => x) A).
Proof using Type. now rewrite map_id. Qed.

Lemma low_degree_in_dec (A : list E) f d : low_degree (fun x => In x A) f d \/ ~ low_degree (fun x => In x A) f d.
Proof using HE.
  set (B := nodup (feq_dec HK) A).
  assert (Q : forall g, low_degree (fun x => In x A) g d <-> fits (fun x => x) B g d).
  { intro g. split; intros (q & L & H); exists q; (split; [exact L|]); intros x Hx; apply H; [apply (nodup_In (feq_dec HK))|apply nodup_In]; exact Hx. }
  destruct (fits_dec HE (fun x => x) B f d) as [Y|N].
  - apply nodup_id, NoDup_nodup.
  - left. now apply Q.
  - right. intro H. apply N. now apply Q.
Qed.

Lemma low_degree_pm_dec (A : list E) f d :
  low_degree (fun x => In x A \/ In (- x) A) f d \/ ~ low_degree (fun x => In x A \/ In (- x) A) f d.
Proof using HE.
  assert (Q : forall x, (In x A \/ In (- x) A) <-> In x (A ++ map fopp A)).
  { intro x. rewrite in_app_iff, in_map_iff. split; intros [H|H]; auto.
    - right. exists (- x). split; [ring|exact H].
    - right. destruct H as (y & <- & Hy). now replace (- - y) with y by ring. }
  destruct (low_degree_in_dec (A ++ map fopp A) f d) as [(q & L & H)|N]; [left|right].
  - exists q. split; [exact L|]. intros x Hx. apply H, Q, Hx.
  - intros (q & L & H). apply N. exists q. split; [exact L|]. intros x Hx. apply H, Q, Hx.
Qed.

Theorem fold_few (H : list E) e d f : (forall x, In x H -> x <> 0) -> NoDup (map (fun x => x * x) H) ->
  (3 * e + d <= length H)%nat -> few (e + 1) (fold_exception H e d f).
Proof using HE.
  intros Hz HD Hn l Hl Hb. pose proof (two_neq E HE) as H2.
  set (u := fun x => (f x + f (- x)) * finv (1 + 1)). set (v := fun x => (f x - f (- x)) * finv ((1 + 1) * x)).
  apply (line_few HE (fun x => x * x) H e d u v HD Hn l Hl). intros zeta Hi.
  destruct (Hb zeta Hi) as (A & BA & (q & Lq & Eq) & N). exists A. split; [exact BA|]. split.
  - exists q. split; [exact Lq|]. intros x Hx. rewrite <- (Eq x Hx). unfold fold_value, u, v. field. split; [apply Hz, (proj1 (proj2 BA)), Hx|exact H2].
  - intros [(qu & Lu & Eu) (qv & Lv & Ev)]. apply N. exists (padd_raw (spread qu) (odd_part qv)). split.
    + rewrite padd_raw_length, spread_length, odd_part_length. lia.
    + intros x Hx. rewrite (peval_padd_raw HK), (spread_eval HE), (odd_part_eval HE). destruct Hx as [Hx|Hx].
      * rewrite <- (Eu x Hx), <- (Ev x Hx). unfold u, v. field. split; [apply Hz, (proj1 (proj2 BA)), Hx|exact H2].
      * specialize (Eu _ Hx). specialize (Ev _ Hx). replace (- x * - x) with (x * x) in Eu, Ev by ring. rewrite <- Eu, <- Ev. unfold u, v.
        replace (- - x) with x by ring. assert (X : - x <> 0) by (apply Hz, (proj1 (proj2 BA)), Hx).
        field. repeat split; try exact H2; try exact X; intro Z; apply X; rewrite Z; ring.
Qed.

Definition first_word (fs : list (E -> E)) (last : E) : E -> E := match fs with f :: _ => f | [] => fun _ => last end.

Lemma fold_value_even zeta f (x : E) : x <> 0 -> fold_value zeta f (- x) = fold_value zeta f x.
Proof using HE. intro Hx. pose proof (two_neq E HE) as H2. unfold fold_value. replace (- - x) with x by ring. field.
  repeat split; try exact H2; try exact Hx; intro Z; apply Hx; transitivity (- - x); [ring|]; rewrite Z; ring. Qed.
Lemma folds_at_even fs zetas last (x : E) : x <> 0 -> folds_at fs zetas last (- x) -> folds_at fs zetas last x.
Proof using HE.
  destruct fs as [|f fs], zetas as [|z zetas]; intros Hx H; try exact I. cbn [folds_at] in *. destruct H as [H1 H2].
  replace (- x * - x) with (x * x) in * by ring. rewrite fold_value_even in H1 by exact Hx. now split.
Qed.

Lemma half_points m (h w x : E) : is_prim w (2 ^ S m) -> In x (points h w (2 ^ S m)) ->
  In x (points h w (2 ^ m)) \/ In (- x) (points h w (2 ^ m)).
Proof using HE.
  intros Hw Hx. apply (coset_in w h) in Hx. destruct Hx as (i & Hi & ->). cbn [Nat.pow] in Hi.
  destruct (lt_dec i (2 ^ m)) as [L|L].
  - left. apply (coset_in w h). eauto.
  - right. apply (coset_in w h). exists (i - 2 ^ m)%nat. split; [lia|].
    replace i with ((i - 2 ^ m) + 2 ^ m)%nat at 1 by lia. rewrite (fpow_add HK), (prim_half HE m w Hw). ring.
Qed.

Lemma points_nonzero m (h w x : E) : h <> 0 -> is_prim w (2 ^ m) -> In x (points h w (2 ^ m)) -> x <> 0.
Proof using HE.
  intros Hh Hw Hx. apply (coset_in w h) in Hx. destruct Hx as (i & _ & ->). intro Z. apply (mul_zero HK) in Z. destruct Z as [Z|Z]; [contradiction|].
  assert (w <> 0) by (apply (prim_nonzero HK w (2 ^ m)); [apply pow2_pos|exact Hw]). now apply (fpow_nonzero HK w i) in H.
Qed.
Lemma half_nonzero m (h w x : E) : h <> 0 -> is_prim w (2 ^ S m) -> In x (points h w (2 ^ m)) -> x <> 0.
Proof using HE.
  intros Hh Hw Hx. apply (points_nonzero (S m) h w x Hh Hw). apply (coset_in w h) in Hx. destruct Hx as (i & Hi & ->). apply (coset_in w h). exists i. split; [cbn [Nat.pow]; lia|reflexivity].
Qed.

Lemma square_points (h w : E) n : map (fun x => x * x) (points h w n) = points (h * h) (w * w) n.
Proof using HE.
  unfold points. rewrite map_map. apply map_ext. intro i. assert (Q : fpow (w * w) i = fpow w i * fpow w i) by apply (fpow_mul_base HK). rewrite Q. ring.
Qed.

Lemma half_squares_nodup m (h w : E) : h <> 0 -> is_prim w (2 ^ S m) -> NoDup (map (fun x => x * x) (points h w (2 ^ m))).
Proof using HE.
  intros Hh Hw. rewrite square_points. apply (coset_nodup HK); [now apply (prim_square HE)|].
  intro Z. apply (mul_zero HK) in Z. tauto.
Qed.

(** The exceptions, round by round. *)
Fixpoint exceptions (m e : nat) (h w : E) (fs : list (E -> E)) (zetas : list E) : Prop :=
  match fs, zetas with
  | f :: fs', zeta :: zetas' =>
      fold_exception (points h w (2 ^ (m - 1))) (e / 2) (2 ^ length fs') f zeta \/
      exceptions (m - 1) (e / 2) (h * h) (w * w) fs' zetas'
  | _, _ => False
  end.
Lemma exceptions_in fs : forall m e (h w : E) zetas, exceptions m e h w fs zetas -> fri_exception m e h w fs zetas.
Proof using HE.
  induction fs as [|f fs IH]; intros m e h w [|zeta zetas] H; cbn [exceptions] in H; try contradiction. destruct H as [H|H].
  - exists 0%nat, f, zeta. split; [reflexivity|]. split; [reflexivity|]. unfold round_exception. cbn [length].
    change (2 ^ 0)%nat with 1%nat. change (2 ^ (0 + 1))%nat with 2%nat. rewrite !(fpow_1 HK), Nat.sub_0_r.
    replace (S (length fs) - 1 - 0)%nat with (length fs) by lia. exact H.
  - apply IH in H. destruct H as (i & f' & zeta' & H1 & H2 & H3). exists (S i), f', zeta'. split; [exact H1|]. split; [exact H2|].
    unfold round_exception in *. cbn [length].
    assert (Q : forall x : E, fpow (x * x) (2 ^ i) = fpow x (2 ^ S i)).
    { intro x. cbn [Nat.pow]. rewrite (fpow_mul HK), (fpow_2 HK). reflexivity. }
    rewrite !Q, Nat.div_div in H3 by (try apply Nat.pow_nonzero; lia).
    replace (2 * 2 ^ (i + 1))%nat with (2 ^ (S i + 1))%nat in H3 by (cbn [Nat.add Nat.pow]; lia).
    replace (m - 1 - 1 - i)%nat with (m - 1 - S i)%nat in H3 by lia.
    replace (S (length fs) - 1 - S i)%nat with (length fs - 1 - i)%nat by lia. exact H3.
Qed.

Lemma fri_run_rec : forall fs m e (h w : E) zetas last A,
  (length fs <= m)%nat -> length zetas = length fs -> h <> 0 -> is_prim w (2 ^ m) ->
  (3 * e + 2 ^ length fs <= 2 ^ m)%nat -> all_but e (points h w (2 ^ m)) A ->
  (forall x, In x A -> folds_at fs zetas last x) -> ~ exceptions m e h w fs zetas ->
  low_degree (fun x => In x A) (first_word fs last) (2 ^ length fs).
Proof using HE.
  induction fs as [|f fs IH]; intros m e h w zetas last A Hm Hz Hh Hw Hn HA HF' HX.
  - exists [last]. split; [cbn; lia|]. intros x _. cbn. ring.
  - destruct zetas as [|zeta zetas]; [discriminate|]. cbn [length] in *. destruct m as [|m]; [lia|]. cbn [first_word].
    cbn [exceptions] in HX. replace (S m - 1)%nat with m in HX by lia.
    set (Hf := points h w (2 ^ m)) in *.
    set (A1 := filter (fun x => isin HE A x || isin HE A (- x)) Hf).
    assert (A1in : forall x, In x A1 <-> In x Hf /\ (In x A \/ In (- x) A)).
    { intro x. unfold A1. rewrite filter_In, orb_true_iff, !isin_true. reflexivity. }
    assert (NHf : NoDup Hf) by (eapply NoDup_map_inv, half_squares_nodup; eassumption).
    assert (N1 : NoDup A1) by (now apply NoDup_filter).
    assert (LHf : length Hf = (2 ^ m)%nat) by apply (coset_length w h).
    destruct HA as (NA & IA & CA).
    assert (Cover : forall x, In x A -> In x A1 \/ In (- x) A1).
    { intros x Hx. destruct (half_points m h w x Hw (IA x Hx)) as [H|H]; [left|right]; apply A1in; (split; [exact H|]); [now left|].
      right. now replace (- - x) with x by ring. }
    assert (L1 : (length A <= 2 * length A1)%nat).
    { assert (length A <= length (A1 ++ map fopp A1))%nat; [|rewrite app_length, map_length in *; lia].
      apply NoDup_incl_length; [exact NA|]. intros x Hx. apply in_or_app. destruct (Cover x Hx) as [H|H]; [now left|right].
      apply in_map_iff. exists (- x). split; [ring|exact H]. }
    assert (B1 : all_but (e / 2) Hf A1).
    { split; [exact N1|]. split; [intros x Hx; apply A1in in Hx; tauto|].
      pose proof (coset_length w h (2 ^ S m)) as LC. fold (points h w (2 ^ S m)) in LC. rewrite LHf.
      change (length (points h w (2 ^ S m)) = (2 ^ S m)%nat) in LC. rewrite LC in CA. cbn [Nat.pow] in CA.
      pose proof (Nat.div_mod e 2). pose proof (Nat.mod_upper_bound e 2). lia. }
    assert (Nz : forall x, In x Hf -> x <> 0) by (intros x; now apply half_nonzero).
    assert (FA : forall x, In x A1 -> folds_at (f :: fs) (zeta :: zetas) last x).
    { intros x Hx. apply A1in in Hx. destruct Hx as [Hx [H|H]]; [now apply HF'|]. apply folds_at_even; [now apply Nz|now apply HF']. }
    assert (Hn' : (3 * (e / 2) + 2 ^ length fs <= 2 ^ m)%nat).
    { cbn [Nat.pow] in Hn. pose proof (Nat.div_mod e 2). pose proof (Nat.mod_upper_bound e 2). lia. }
    assert (Next : low_degree (fun x => In x (map (fun x => x * x) A1)) (first_word fs last) (2 ^ length fs)).
    { apply (IH m (e / 2)%nat (h * h) (w * w) zetas last).
      - lia.
      - now injection Hz.
      - intro Z. apply (mul_zero HK) in Z. tauto.
      - now apply (prim_square HE).
      - exact Hn'.
      - split; [|split].
        + apply (nodup_sub _ Hf); [now apply half_squares_nodup|exact N1|apply B1].
        + rewrite <- square_points. fold Hf. apply incl_map, B1.
        + rewrite <- square_points, !map_length. apply B1.
      - intros y Hy. apply in_map_iff in Hy. destruct Hy as (x & <- & Hx). now destruct (FA x Hx).
      - intro X. apply HX. now right. }
    destruct (low_degree_pm_dec A1 f (2 * 2 ^ length fs)) as [(q & Lq & Eq)|No].
    + exists q. split; [exact Lq|]. intros x Hx. apply Eq. now apply Cover.
    + exfalso. apply HX. left. exists A1. split; [exact B1|]. split; [|exact No].
      destruct Next as (q & Lq & Eq). exists q. split; [exact Lq|]. intros x Hx. destruct (FA x Hx) as [Fx _]. rewrite Fx.
      assert (Q : first_word fs last (x * x) = peval q (x * x)) by (apply Eq, (in_map (fun x => x * x)), Hx). rewrite <- Q. destruct fs; reflexivity.
Qed.
Theorem fri_run fs m e (h w : E) zetas last A :
  (length fs <= m)%nat -> length zetas = length fs -> h <> 0 -> is_prim w (2 ^ m) ->
  (3 * e + 2 ^ length fs <= 2 ^ m)%nat -> all_but e (points h w (2 ^ m)) A ->
  (forall x, In x A -> folds_at fs zetas last x) -> ~ fri_exception m e h w fs zetas ->
  low_degree (fun x => In x A) (first_word fs last) (2 ^ length fs).
Proof using HE.
  intros H1 H2 H3 H4 H5 H6 H7 H8. apply (fri_run_rec fs m e h w zetas last A); try assumption. intro X. apply H8. now apply exceptions_in.
Qed.

Lemma prim_squares i : forall m (w : E), (i <= m)%nat -> is_prim w (2 ^ m) -> is_prim (fpow w (2 ^ i)) (2 ^ (m - i)).
Proof using HE.
  induction i as [|i IH]; intros m w Hi Hw.
  - change (2 ^ 0)%nat with 1%nat. now rewrite (fpow_1 HK), Nat.sub_0_r.
  - destruct m as [|m]; [lia|]. replace (fpow w (2 ^ S i)) with (fpow (w * w) (2 ^ i)) by (cbn [Nat.pow]; rewrite (fpow_mul HK), (fpow_2 HK); reflexivity).
    apply (IH m); [lia|]. now apply (prim_square HE).
Qed.
Theorem round_few m e k (h w : E) i f : (k <= m)%nat -> (i < k)%nat -> h <> 0 -> is_prim w (2 ^ m) -> (3 * e + 2 ^ k <= 2 ^ m)%nat ->
  few (e / 2 ^ (i + 1) + 1) (round_exception m e k h w i f).
Proof using HE.
  intros Hk Hi Hh Hw Hn. pose proof (prim_squares i m w ltac:(lia) Hw) as Hp. replace (m - i)%nat with (S (m - 1 - i)) in Hp by lia.
  assert (Hh' : fpow h (2 ^ i) <> 0) by (now apply (fpow_nonzero HK)).
  unfold round_exception. apply fold_few.
  - intros x. now apply half_nonzero.
  - now apply half_squares_nodup.
  - pose proof (coset_length (fpow w (2 ^ i)) (fpow h (2 ^ i)) (2 ^ (m - 1 - i))) as L. unfold coset in L. unfold points. rewrite L.
    assert (P := Nat.pow_nonzero 2 (i + 1) ltac:(lia)).
    assert (Q1 : (2 ^ m = 2 ^ (i + 1) * 2 ^ (m - 1 - i))%nat) by (rewrite <- Nat.pow_add_r; f_equal; lia).
    assert (Q2 : (2 ^ k = 2 ^ (i + 1) * 2 ^ (k - 1 - i))%nat) by (rewrite <- Nat.pow_add_r; f_equal; lia).
    pose proof (Nat.mul_div_le e _ P) as Q3. rewrite Q1, Q2 in Hn. clear L Q1 Q2. nia.
Qed.
End FriRound.
