(** Algebra of coefficient-list polynomials: evaluation is a ring morphism, division by X - a,
    number of roots, divisibility, uniqueness of interpolation. *)
From Coq Require Import List Arith Lia Bool.
From Verif.Base Require Import Outcome Field Poly.
From Verif.Proofs Require Import FieldFacts.
Import ListNotations.

Section PolyFacts.
Context {K : field_ops} (HK : field_ok K).
Local Open Scope felt_scope.
Add Field Kfield2 : (fld_th K HK).
Implicit Types (p q : poly K) (x a b c : K).

Lemma peval_trim p x : peval (trim p) x = peval p x.
Proof using HK.
  induction p as [|c p IH]; [reflexivity|]. cbn [trim peval]. rewrite <- IH.
  destruct (trim p) as [|d t].
  - destruct (feqb c 0) eqn:E.
    + apply (feqb_spec K HK) in E. subst. cbn. ring.
    + cbn. ring.
  - reflexivity.
Qed.

Lemma trim_length p : length (trim p) <= length p.
Proof using Type.
  induction p as [|c p IH]; [cbn; lia|]. cbn [trim].
  destruct (trim p) as [|d t]; [destruct (feqb c 0); cbn; lia|]. cbn in *; lia.
Qed.

Definition coef p (i : nat) : K := nth i p 0.

Lemma trim_coef p i : coef (trim p) i = coef p i.
Proof using HK.
  unfold coef. revert i; induction p as [|c p IH]; intro i; [reflexivity|]. cbn [trim].
  destruct (trim p) as [|d t] eqn:E.
  - destruct (feqb c 0) eqn:Ec.
    + apply (feqb_spec K HK) in Ec. subst. destruct i; [reflexivity|]. cbn. rewrite <- IH. now destruct i.
    + destruct i; [reflexivity|]. cbn. rewrite <- IH. now destruct i.
  - destruct i; [reflexivity|]. cbn [nth]. now rewrite <- IH.
Qed.

(** The trimmed length is bounded by any index from which all coefficients vanish. *)
Lemma trim_length_le p m : (forall i, m <= i -> coef p i = 0) -> length (trim p) <= m.
Proof using HK.
  unfold coef. revert m; induction p as [|c p IH]; intros m H; [cbn; lia|]. cbn [trim].
  destruct m as [|m].
  - assert (Hp : length (trim p) <= 0%nat). { apply IH. intros i Hi. apply (H (S i)). lia. }
    destruct (trim p); [|cbn in Hp; lia].
    assert (E : c = 0) by (apply (H 0%nat); lia). rewrite E, (feqb_refl HK). cbn. lia.
  - assert (Hp : length (trim p) <= m). { apply IH. intros i Hi. apply (H (S i)). lia. }
    destruct (trim p); [destruct (feqb c 0); cbn; lia|]. cbn in *; lia.
Qed.

Lemma peval_padd_raw p q x : peval (padd_raw p q) x = peval p x + peval q x.
Proof using HK.
  revert q; induction p as [|a p IH]; intros [|b q]; cbn [padd_raw peval]; try ring.
  rewrite IH. ring.
Qed.

Lemma padd_raw_length p q : length (padd_raw p q) = Nat.max (length p) (length q).
Proof using Type.
  revert q; induction p as [|a p IH]; intros [|b q]; cbn [padd_raw length]; try reflexivity; try lia.
  rewrite IH. lia.
Qed.

Lemma padd_raw_coef p q i : coef (padd_raw p q) i = coef p i + coef q i.
Proof using HK.
  unfold coef. revert q i; induction p as [|a p IH]; intros q i.
  - cbn [padd_raw]. replace (nth i [] (0:K)) with (0:K) by (now destruct i). ring.
  - destruct q as [|b q].
    + cbn [padd_raw]. replace (nth i [] (0:K)) with (0:K) by (now destruct i). ring.
    + destruct i; cbn [padd_raw nth]; [ring|]. apply IH.
Qed.

Lemma peval_padd p q x : peval (padd p q) x = peval p x + peval q x.
Proof using HK. unfold padd. rewrite peval_trim. apply peval_padd_raw. Qed.

Lemma padd_length p q : length (padd p q) <= Nat.max (length p) (length q).
Proof using Type. unfold padd. rewrite <- padd_raw_length. apply trim_length. Qed.

Lemma peval_pscale_raw c p x : peval (pscale_raw c p) x = c * peval p x.
Proof using HK. induction p as [|a p IH]; cbn [pscale_raw map peval]; [ring|]. fold (pscale_raw c p). rewrite IH. ring. Qed.

Lemma pscale_raw_length c p : length (pscale_raw c p) = length p.
Proof using Type. apply map_length. Qed.

Lemma peval_pscale c p x : peval (pscale c p) x = c * peval p x.
Proof using HK. unfold pscale. rewrite peval_trim. apply peval_pscale_raw. Qed.

Lemma pscale_length c p : length (pscale c p) <= length p.
Proof using Type. unfold pscale. rewrite <- (pscale_raw_length c p). apply trim_length. Qed.

Lemma peval_psub_const p c x : peval (psub_const p c) x = peval p x - c.
Proof using HK. unfold psub_const. rewrite peval_trim, peval_padd_raw. cbn [peval]. ring. Qed.

Lemma psub_const_length p c : length (psub_const p c) <= Nat.max (length p) 1.
Proof using Type.
  unfold psub_const. etransitivity; [apply trim_length|]. rewrite padd_raw_length. reflexivity.
Qed.

Lemma peval_pmul_raw p q x : peval (pmul_raw p q) x = peval p x * peval q x.
Proof using HK.
  induction p as [|c p IH]; cbn [pmul_raw peval]; [ring|].
  rewrite peval_padd_raw, peval_pscale_raw. cbn [peval]. rewrite IH. ring.
Qed.

Lemma pmul_raw_length_le p q m n : length p <= S m -> length q <= S n -> length (pmul_raw p q) <= S (m + n)%nat.
Proof using Type.
  intros Hp Hq. revert m Hp; induction p as [|c p IH]; intros m Hp; [cbn; lia|].
  cbn [pmul_raw]. rewrite padd_raw_length, pscale_raw_length. cbn [length] in *.
  destruct m as [|m].
  - destruct p; [|cbn in Hp; lia]. cbn [pmul_raw length]. lia.
  - assert (length (pmul_raw p q) <= S (m + n)%nat) by (apply IH; lia). lia.
Qed.

Lemma peval_pmul p q x : peval (pmul p q) x = peval p x * peval q x.
Proof using HK. unfold pmul. rewrite peval_trim. apply peval_pmul_raw. Qed.

Lemma pmul_length_le p q m n : length p <= S m -> length q <= S n -> length (pmul p q) <= S (m + n)%nat.
Proof using Type.
  intros. unfold pmul. etransitivity; [apply trim_length|]. now apply pmul_raw_length_le.
Qed.

Lemma peval_app p q x : peval (p ++ q) x = peval p x + fpow x (length p) * peval q x.
Proof using HK. induction p as [|c p IH]; cbn [app peval length fpow]; [ring|]. rewrite IH. ring. Qed.

Lemma peval_zeros n x : peval (repeat 0 n) x = 0.
Proof using HK. induction n as [|n IH]; cbn [repeat peval]; [reflexivity|]. rewrite IH. ring. Qed.

Lemma peval_monomial c d x : peval (monomial c d) x = c * fpow x d.
Proof using HK.
  unfold monomial. rewrite peval_trim, peval_app, peval_zeros, repeat_length. cbn [peval]. ring.
Qed.

(** [X^d] as a raw list. *)
Definition xpow (d : nat) : poly K := repeat 0 d ++ [1].
Lemma peval_xpow d x : peval (xpow d) x = fpow x d.
Proof using HK. unfold xpow. rewrite peval_app, peval_zeros, repeat_length. cbn [peval]. ring. Qed.
Lemma xpow_length d : length (xpow d) = S d.
Proof using Type. unfold xpow. rewrite app_length, repeat_length. cbn. lia. Qed.

(** Evaluation as a sum of monomials. *)
Lemma peval_sum p x : peval p x = fsum (map (fun i => coef p i * fpow x i) (seq 0 (length p))).
Proof using HK.
  induction p as [|c p IH]; [reflexivity|].
  cbn [length seq map peval]. rewrite <- seq_shift, map_map. cbn [fsum fold_right].
  rewrite IH. unfold coef. cbn [nth fpow].
  replace (map (fun y : nat => nth y p 0 * (x * fpow x y)) (seq 0 (length p)))
    with (map (fun y : nat => x * (nth y p 0 * fpow x y)) (seq 0 (length p))).
  2:{ apply map_ext. intro. ring. }
  fold (fsum (map (fun y : nat => x * (nth y p 0 * fpow x y)) (seq 0 (length p)))).
  rewrite (fsum_scale HK). ring.
Qed.

Lemma peval_coef_ext p q x : (forall i, coef p i = coef q i) -> peval p x = peval q x.
Proof using HK.
  revert q; induction p as [|c p IH]; intros q H.
  - induction q as [|d q IHq]; [reflexivity|]. cbn [peval].
    assert (Hd : d = 0) by (symmetry; apply (H 0%nat)).
    rewrite <- IHq, Hd; [cbn [peval]; ring|]. intro i. specialize (H (S i)). unfold coef in *. cbn in H.
    rewrite <- H. now destruct i.
  - destruct q as [|d q].
    + cbn [peval]. assert (Hc : c = 0) by apply (H 0%nat).
      rewrite (IH []), Hc; [cbn [peval]; ring|]. intro i. specialize (H (S i)). unfold coef in *. cbn in H.
      rewrite H. now destruct i.
    + cbn [peval]. assert (Hc : c = d) by apply (H 0%nat). rewrite (IH q), Hc; [reflexivity|].
      intro i. exact (H (S i)).
Qed.

(** ** Division by X - b *)
Lemma horner_length p b : length (horner_list p b) = length p.
Proof using Type. induction p as [|c p IH]; cbn [horner_list length]; congruence. Qed.

Lemma horner_hd p b : hd 0 (horner_list p b) = peval p b.
Proof using HK. induction p as [|c p IH]; cbn [horner_list hd peval]; [reflexivity|]. now rewrite IH. Qed.

Lemma ruffini_length p b : length (ruffini p b) = (length p - 1)%nat.
Proof using Type.
  unfold ruffini. rewrite <- (horner_length p b). destruct (horner_list p b); cbn; lia.
Qed.

Lemma ruffini_spec p b x : peval p x = (x - b) * peval (ruffini p b) x + peval p b.
Proof using HK.
  unfold ruffini. induction p as [|c p IH]; [cbn; ring|].
  cbn [horner_list tl peval]. rewrite IH.
  assert (E : peval (horner_list p b) x = peval p b + x * peval (tl (horner_list p b)) x).
  { destruct p as [|d p]; [cbn; ring|]. cbn [horner_list peval tl]. rewrite horner_hd. ring. }
  rewrite E. ring.
Qed.

Lemma ruffini_root p b x : peval p b = 0 -> peval p x = (x - b) * peval (ruffini p b) x.
Proof using HK. intro H. rewrite (ruffini_spec p b x), H. ring. Qed.

Lemma ruffini_last p b : 2 <= length p -> last (ruffini p b) 0 = last p 0.
Proof using HK.
  unfold ruffini. intro H. destruct p as [|c p]; [cbn in H; lia|]. cbn [horner_list tl].
  destruct p as [|d p]; [cbn in H; lia|]. clear H.
  transitivity (last (d :: p) 0); [|reflexivity].
  revert d. induction p as [|e p IH]; intro d.
  - cbn. ring.
  - cbn [horner_list]. specialize (IH e). cbn [horner_list] in IH.
    transitivity (last ((e + b * hd 0 (horner_list p b)) :: horner_list p b) 0); [reflexivity|].
    rewrite IH. reflexivity.
Qed.

Lemma horner_zero p b : Forall (fun c => c = 0) (horner_list p b) -> Forall (fun c => c = 0) p.
Proof using HK.
  induction p as [|c p IH]; cbn [horner_list]; intro H; [constructor|].
  inversion H as [|? ? Hc Ht]; subst. constructor; [|now apply IH].
  assert (E : hd 0 (horner_list p b) = 0). { destruct (horner_list p b); [reflexivity|]. now inversion Ht. }
  rewrite E in Hc. rewrite <- Hc. ring.
Qed.

(** ** Roots *)
Theorem many_roots_zero (l : list K) p :
  NoDup l -> (forall a, In a l -> peval p a = 0) -> length p <= length l -> Forall (fun c => c = 0) p.
Proof using HK.
  revert p; induction l as [|a l IH]; intros p Hnd Hr Hlen.
  - destruct p; [constructor|cbn in Hlen; lia].
  - inversion Hnd as [|? ? Hni Hnd']; subst.
    assert (Ha : peval p a = 0) by (apply Hr; now left).
    assert (Hq : Forall (fun c => c = 0) (ruffini p a)).
    { apply IH; [exact Hnd'| |rewrite ruffini_length; cbn in Hlen; lia].
      intros b Hb. assert (Hpb : peval p b = 0) by (apply Hr; now right).
      rewrite (ruffini_root p a b Ha) in Hpb. apply (mul_zero HK) in Hpb. destruct Hpb as [E|E]; [|exact E].
      apply (proj1 (sub_zero HK _ _)) in E. subst. contradiction. }
    apply (horner_zero p a). unfold ruffini in Hq. pose proof (horner_hd p a) as Hh.
    destruct (horner_list p a); constructor; [cbn in Hh; congruence|exact Hq].
Qed.

Lemma all_zero_eval p x : Forall (fun c => c = 0) p -> peval p x = 0.
Proof using HK. induction 1 as [|c p Hc _ IH]; cbn [peval]; [reflexivity|]. rewrite Hc, IH. ring. Qed.

Lemma all_zero_coef p i : Forall (fun c => c = 0) p -> coef p i = 0.
Proof using HK.
  intro H. unfold coef. destruct (Nat.lt_ge_cases i (length p)) as [L|L].
  - rewrite Forall_forall in H. apply H. now apply nth_In.
  - now apply nth_overflow.
Qed.

(** Two polynomials that agree on enough points have the same coefficients. *)
Theorem agree_coef (l : list K) p q :
  NoDup l -> (forall a, In a l -> peval p a = peval q a) ->
  length p <= length l -> length q <= length l -> forall i, coef p i = coef q i.
Proof using HK.
  intros Hnd Hag Hp Hq i.
  assert (Hz : Forall (fun c => c = 0) (padd_raw p (pscale_raw (- (1)) q))).
  { apply (many_roots_zero l); [exact Hnd| |rewrite padd_raw_length, pscale_raw_length; lia].
    intros a Ha. rewrite peval_padd_raw, peval_pscale_raw, (Hag a Ha). ring. }
  apply (all_zero_coef _ i) in Hz. rewrite padd_raw_coef in Hz.
  assert (Hs : coef (pscale_raw (- (1)) q) i = - coef q i).
  { unfold coef, pscale_raw. replace (0:K) with (- (1) * (0:K)) at 1 by ring. rewrite map_nth. ring. }
  rewrite Hs in Hz. apply (sub_zero HK). rewrite <- Hz. ring.
Qed.

Theorem agree_eval (l : list K) p q x :
  NoDup l -> (forall a, In a l -> peval p a = peval q a) ->
  length p <= length l -> length q <= length l -> peval p x = peval q x.
Proof using HK. intros. apply peval_coef_ext. now apply (agree_coef l). Qed.

(** Product of [x - a]. *)
Definition vanish (l : list K) (x : K) : K := fprod (map (fun a => x - a) l).

Theorem roots_divide (l : list K) p :
  NoDup l -> (forall a, In a l -> peval p a = 0) ->
  exists q, length q = (length p - length l)%nat /\ (forall x, peval p x = vanish l x * peval q x) /\
            (length l < length p -> last q 0 = last p 0).
Proof using HK.
  revert p; induction l as [|a l IH]; intros p Hnd Hr.
  - exists p. split; [cbn; lia|]. split; [intro; unfold vanish; cbn; ring|]. reflexivity.
  - inversion Hnd as [|? ? Hni Hnd']; subst.
    assert (Ha : peval p a = 0) by (apply Hr; now left).
    destruct (IH (ruffini p a)) as (q & Hlen & Hq & Hlast); [exact Hnd'| |].
    { intros b Hb. assert (Hpb : peval p b = 0) by (apply Hr; now right).
      rewrite (ruffini_root p a b Ha) in Hpb. apply (mul_zero HK) in Hpb. destruct Hpb as [E|E]; [|exact E].
      apply (proj1 (sub_zero HK _ _)) in E. subst. contradiction. }
    exists q. rewrite ruffini_length in *. split; [cbn; lia|]. split.
    + intro x. rewrite (ruffini_root p a x Ha), Hq. unfold vanish. cbn [map fprod fold_right].
      fold (fprod (map (fun b => x - b) l)). ring.
    + cbn [length]. intro L. rewrite Hlast by lia. apply ruffini_last. lia.
Qed.

Lemma vanish_zero l x : vanish l x = 0 <-> In x l.
Proof using HK.
  unfold vanish. rewrite (fprod_zero HK), in_map_iff. split.
  - intros (a & E & Ha). apply (proj1 (sub_zero HK _ _)) in E. now subst.
  - intro H. exists x. split; [ring|exact H].
Qed.

(** The polynomial prod (X - a), by repeated multiplication. *)
Definition vanish_poly (l : list K) : poly K :=
  fold_right (fun a acc => pmul_raw [ - a ; 1] acc) [1] l.
Lemma peval_vanish_poly l x : peval (vanish_poly l) x = vanish l x.
Proof using HK.
  unfold vanish. induction l as [|a l IH]; cbn [vanish_poly fold_right map fprod]; [cbn; ring|].
  rewrite peval_pmul_raw. fold (vanish_poly l). rewrite IH. cbn [peval]. fold (fprod (map (fun b => x - b) l)). ring.
Qed.
Lemma vanish_poly_length l : length (vanish_poly l) <= S (length l).
Proof using Type.
  induction l as [|a l IH]; [cbn; lia|]. cbn [vanish_poly fold_right]. fold (vanish_poly l).
  change (S (length (a :: l))) with (S (1 + length l)%nat). apply pmul_raw_length_le; [cbn; lia|exact IH].
Qed.

(** ** Even / odd parts *)
Lemma list_pair_ind {A} (P : list A -> Prop) :
  P [] -> (forall a : A, P [a]) -> (forall (a b : A) l, P l -> P (a :: b :: l)) -> forall l, P l.
Proof using Type.
  intros H0 H1 H2. fix IH 1. intros [|a [|b l]]; [exact H0|apply H1|apply H2, IH].
Qed.

Lemma even_odd_eval p x : peval p x = peval (evens p) (x * x) + x * peval (odds p) (x * x).
Proof using HK.
  induction p as [|a|a b p IH] using list_pair_ind; [cbn; ring|cbn; ring|].
  unfold odds in *. cbn [evens tl peval] in *. rewrite IH. destruct p as [|c p]; cbn [evens tl peval]; ring.
Qed.

Lemma evens_length {A} (l : list A) : length (evens l) = Nat.div2 (S (length l)).
Proof using Type.
  induction l as [|a|a b l IH] using list_pair_ind; [reflexivity|reflexivity|].
  cbn [evens length]. rewrite IH. reflexivity.
Qed.
Lemma odds_length {A} (l : list A) : length (odds l) = Nat.div2 (length l).
Proof using Type. unfold odds. destruct l; [reflexivity|]. cbn [tl]. rewrite evens_length. reflexivity. Qed.

Lemma evens_length_le {A} (l : list A) m : length l <= (2 * m)%nat -> length (evens l) <= m.
Proof using Type.
  intro H. rewrite evens_length. 
  destruct (Nat.Even_or_Odd (length l)) as [[k Hk]|[k Hk]].
  - rewrite Hk. rewrite Nat.div2_succ_double. lia.
  - rewrite Hk. replace (S (2 * k + 1)%nat) with (2 * (S k))%nat by lia. rewrite Nat.div2_double. lia.
Qed.
Lemma odds_length_le {A} (l : list A) m : length l <= (2 * m)%nat -> length (odds l) <= m.
Proof using Type.
  intro H. rewrite odds_length. destruct (Nat.Even_or_Odd (length l)) as [[k Hk]|[k Hk]].
  - rewrite Hk, Nat.div2_double. lia.
  - rewrite Hk. replace (2 * k + 1)%nat with (S (2 * k)%nat) by lia. rewrite Nat.div2_succ_double. lia.
Qed.
End PolyFacts.
