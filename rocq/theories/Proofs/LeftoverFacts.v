(** Long division and the code nothing calls. *)
From Coq Require Import List Arith Lia Bool.
From Verif.Base Require Import Outcome Field Poly.
From Verif.Model Require Import Leftover.
From Verif.Proofs Require Import OutcomeFacts FieldFacts PolyFacts.
Import ListNotations.
Local Open Scope felt_scope.

Section Division.
Context {K : field_ops} (HK : field_ok K).
Add Field Kfield76 : (fld_th K HK).
Implicit Types (p q z n : poly K).

Definition trimmed p : Prop := trim p = p.

Lemma trim_nonzero p : trim p <> [] -> last (trim p) 0 <> 0.
Proof using HK.
  induction p as [|c p IH]; [easy|]. cbn [trim]. destruct (trim p) as [|d t] eqn:E.
  - destruct (feqb c 0) eqn:Ec; [easy|]. intros _ Q. cbn in Q. subst c. rewrite (feqb_refl HK) in Ec. discriminate.
  - intros _. change (last (c :: d :: t) 0) with (last (d :: t) 0). now apply IH.
Qed.
Lemma trim_trim p : trim (trim p) = trim p.
Proof using HK.
  induction p as [|c p IH]; [reflexivity|]. cbn [trim]. destruct (trim p) as [|d t] eqn:E.
  - destruct (feqb c 0) eqn:Ec; [reflexivity|]. cbn. now rewrite Ec.
  - cbn [trim] in *. rewrite IH. reflexivity.
Qed.
Lemma peval_opp p x : peval (map fopp p) x = fopp (peval p x).
Proof using HK. induction p as [|c p IH]; cbn [map peval]; [ring|]. rewrite IH. ring. Qed.
Lemma peval_psub p q x : peval (psub p q) x = peval p x - peval q x.
Proof using HK. unfold psub. rewrite (peval_trim HK), (peval_padd_raw HK), peval_opp. ring. Qed.

Lemma coef_monomial_raw k c i : coef (repeat 0 k ++ [c]) i = if (i =? k)%nat then c else (0 : K).
Proof using Type.
  unfold coef. destruct (i =? k)%nat eqn:E.
  - apply Nat.eqb_eq in E. subst. rewrite app_nth2 by (rewrite repeat_length; lia). now rewrite repeat_length, Nat.sub_diag.
  - apply Nat.eqb_neq in E. destruct (lt_dec i k) as [L|L].
    + rewrite app_nth1 by (rewrite repeat_length; lia). apply nth_repeat.
    + rewrite nth_overflow; [reflexivity|]. rewrite app_length, repeat_length. cbn. lia.
Qed.
Lemma coef_scale c p i : coef (pscale_raw c p) i = c * coef p i.
Proof using HK. unfold coef, pscale_raw. revert i. induction p as [|x p IH]; intros [|i]; cbn; try ring. apply IH. Qed.
Lemma coef_monomial k c i : coef (monomial c k) i = if (i =? k)%nat then c else (0 : K).
Proof using HK. unfold monomial. rewrite (trim_coef HK). apply coef_monomial_raw. Qed.
Lemma coef_shift z k c i : coef (pmul_raw z (monomial c k)) i = if (i <? k)%nat then 0 else coef z (i - k) * c.
Proof using HK.
  revert i. induction z as [|a z IH]; intro i.
  - cbn [pmul_raw]. assert (Q : forall j, coef ([] : poly K) j = 0) by (intros [|j]; reflexivity). rewrite !Q. destruct (i <? k)%nat; ring.
  - cbn [pmul_raw]. rewrite (padd_raw_coef HK), coef_scale, coef_monomial. destruct i as [|i].
    + change (coef (0 :: _) 0) with (0 : K). destruct k as [|k]; cbn; [unfold coef; cbn; ring|ring].
    + change (coef (0 :: pmul_raw z (monomial c k)) (S i)) with (coef (pmul_raw z (monomial c k)) i). rewrite IH.
      destruct (lt_eq_lt_dec (S i) k) as [[L|L]|L].
      * rewrite (proj2 (Nat.eqb_neq _ _)), !(proj2 (Nat.ltb_lt _ _)) by lia. ring.
      * subst k. rewrite Nat.eqb_refl, (proj2 (Nat.ltb_lt i _)), (proj2 (Nat.ltb_ge (S i) _)), Nat.sub_diag by lia. unfold coef. cbn. ring.
      * rewrite (proj2 (Nat.eqb_neq _ _)), !(proj2 (Nat.ltb_ge _ _)) by lia. replace (S i - k)%nat with (S (i - k)) by lia. unfold coef. cbn [nth]. ring.
Qed.
Lemma coef_opp p i : coef (map fopp p) i = fopp (coef p i).
Proof using HK. unfold coef. revert i. induction p as [|x p IH]; intros [|i]; cbn; try ring. apply IH. Qed.
Lemma coef_last p : p <> [] -> coef p (length p - 1) = last p 0.
Proof using Type.
  intro H. unfold coef. induction p as [|x p IH]; [easy|]. destruct p as [|y p]; [reflexivity|]. change (last (x :: y :: p) 0) with (last (y :: p) 0).
  rewrite <- IH by easy. cbn [length]. rewrite !Nat.sub_succ, !Nat.sub_0_r. reflexivity.
Qed.
Lemma coef_beyond p i : (length p <= i)%nat -> coef p i = 0.
Proof using Type. intro H. now apply nth_overflow. Qed.

(** One round of the division lowers the degree. *)
Lemma round_shorter n z : n <> [] -> z <> [] -> last z 0 <> 0 -> (length z <= length n)%nat ->
  (length (psub n (pmul z (monomial (fmul (pleading n) (finv (pleading z))) (pdegree n - pdegree z)))) < length n)%nat.
Proof using HK.
  intros Hn Hz Hl Hle. unfold psub. assert (Ln : (0 < length n)%nat) by (destruct n; [easy|cbn; lia]). assert (Lz : (0 < length z)%nat) by (destruct z; [easy|cbn; lia]).
  apply (Nat.le_lt_trans _ (length n - 1)); [|lia]. apply (trim_length_le HK). intros i Hi. rewrite (padd_raw_coef HK), coef_opp. unfold pmul. rewrite (trim_coef HK), coef_shift.
  unfold pdegree. rewrite (proj2 (Nat.ltb_ge _ _)) by lia. destruct (Nat.eq_dec i (length n - 1)) as [->|Ne].
  - rewrite (coef_last n Hn). replace (length n - 1 - (length n - 1 - (length z - 1)))%nat with (length z - 1)%nat by lia. rewrite (coef_last z Hz). unfold pleading. field. exact Hl.
  - rewrite (coef_beyond n), (coef_beyond z) by lia. ring.
Qed.

Lemma reduce_spec z : z <> [] -> last z 0 <> 0 -> forall fuel n, (length n <= fuel)%nat -> trimmed n ->
  let rem := reduce fuel n z (finv (pleading z)) in
  trimmed rem /\ (length rem < length z)%nat /\ exists q, forall x, peval n x = peval q x * peval z x + peval rem x.
Proof using HK.
  intros Hz Hl. assert (Lz : (0 < length z)%nat) by (destruct z; [easy|cbn; lia]).
  induction fuel as [|fuel IH]; intros n Hf Ht; cbn [reduce].
  - destruct n; [|cbn in Hf; lia]. split; [exact Ht|]. split; [exact Lz|]. exists []. intro x. cbn. ring.
  - destruct (negb (length n =? 0) && (pdegree z <=? pdegree n))%nat eqn:E.
    + apply andb_prop in E. destruct E as [E1 E2]. apply negb_true_iff, Nat.eqb_neq in E1. apply Nat.leb_le in E2. unfold pdegree in E2.
      assert (Hn : n <> []) by (destruct n; [now cbn in E1|easy]).
      set (d := pmul z (monomial (pleading n * finv (pleading z)) (pdegree n - pdegree z))).
      pose proof (round_shorter n z Hn Hz Hl ltac:(lia)) as Sh. fold d in Sh.
      destruct (IH (psub n d) ltac:(lia) (trim_trim _)) as (H1 & H2 & q & Hq). split; [exact H1|]. split; [exact H2|].
      exists (padd_raw q (monomial (pleading n * finv (pleading z)) (pdegree n - pdegree z))). intro x. specialize (Hq x). rewrite peval_psub in Hq.
      assert (Q : peval n x = peval d x + (peval q x * peval z x + peval (reduce fuel (psub n d) z (finv (pleading z))) x)) by (rewrite <- Hq; ring).
      rewrite Q. unfold d at 1. rewrite (peval_pmul HK), (peval_padd_raw HK). ring.
    + split; [exact Ht|]. split.
      * apply andb_false_iff in E. destruct E as [E|E]; [apply negb_false_iff, Nat.eqb_eq in E; lia|]. apply Nat.leb_gt in E. unfold pdegree in E. lia.
      * exists []. intro x. cbn. ring.
Qed.

Lemma long_remainder_spec p z : trimmed p -> trimmed z -> z <> [] -> exists rem, long_remainder p z = Ok rem /\ trimmed rem /\
  (length rem < length z)%nat /\ exists q, forall x, peval p x = peval q x * peval z x + peval rem x.
Proof using HK.
  intros Hp Hz Hn. unfold long_remainder. assert (Lz : (0 < length z)%nat) by (destruct z; [easy|cbn; lia]).
  assert (Hl : last z 0 <> 0) by (rewrite <- Hz; apply trim_nonzero; now rewrite Hz).
  destruct (pdegree p <? pdegree z)%nat eqn:E.
  - apply Nat.ltb_lt in E. unfold pdegree in E. exists p. split; [reflexivity|]. split; [exact Hp|]. split; [lia|]. exists []. intro x. cbn. ring.
  - unfold inv_o. destruct (feqb (pleading z) 0) eqn:Ez; [apply (feqb_spec K HK) in Ez; now unfold pleading in Ez|]. cbn [obind].
    exists (reduce (length p) p z (finv (pleading z))). split; [reflexivity|]. now apply reduce_spec.
Qed.
End Division.
