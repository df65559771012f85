(** Elementary consequences of the field laws. *)
From Coq Require Import List Arith Lia.
From Verif.Base Require Import Outcome Field.
Import ListNotations.

Section FieldFacts.
Context {K : field_ops} (HK : field_ok K).
Local Open Scope felt_scope.
Add Field Kfield : (fld_th K HK).

Lemma one_neq_zero : (1 : K) <> 0.
Proof using HK. exact (F_1_neq_0 (fld_th K HK)). Qed.

Lemma feqb_refl (a : K) : feqb a a = true.
Proof using HK. now apply (feqb_spec K HK). Qed.

Lemma feqb_false (a b : K) : feqb a b = false <-> a <> b.
Proof using HK.
  split; intro H.
  - intro E. apply (feqb_spec K HK) in E. congruence.
  - destruct (feqb a b) eqn:E; [apply (feqb_spec K HK) in E; congruence|reflexivity].
Qed.

Lemma felt_dec (a b : K) : {a = b} + {a <> b}.
Proof using HK.
  destruct (feqb a b) eqn:E; [left; now apply (feqb_spec K HK)|right; now apply feqb_false].
Qed.

Lemma inv_l (a : K) : a <> 0 -> finv a * a = 1.
Proof using HK. intro H. exact (Finv_l (fld_th K HK) _ H). Qed.

Lemma inv_r (a : K) : a <> 0 -> a * finv a = 1.
Proof using HK. intro H. field. exact H. Qed.

Lemma mul_zero (a b : K) : a * b = 0 -> a = 0 \/ b = 0.
Proof using HK.
  intro H. destruct (felt_dec a 0) as [E|E]; [now left|right].
  replace b with (finv a * (a * b)) by (field; exact E). rewrite H. ring.
Qed.

Lemma mul_nonzero (a b : K) : a <> 0 -> b <> 0 -> a * b <> 0.
Proof using HK. intros Ha Hb H. apply mul_zero in H. tauto. Qed.

Lemma mul_cancel_l (a b c : K) : a <> 0 -> a * b = a * c -> b = c.
Proof using HK.
  intros Ha H. replace b with (finv a * (a * b)) by (field; exact Ha). rewrite H. field. exact Ha.
Qed.

Lemma sub_zero (a b : K) : a - b = 0 <-> a = b.
Proof using HK.
  split; intro H.
  - replace a with ((a - b) + b) by ring. rewrite H. ring.
  - rewrite H. ring.
Qed.

Lemma sub_nonzero (a b : K) : a <> b <-> a - b <> 0.
Proof using HK. rewrite sub_zero. reflexivity. Qed.

Lemma inv_nonzero (a : K) : a <> 0 -> finv a <> 0.
Proof using HK. intros H E. apply one_neq_zero. rewrite <- (inv_l a H), E. ring. Qed.

Lemma inv_unique (a b : K) : a * b = 1 -> b = finv a.
Proof using HK.
  intro H. assert (Ha : a <> 0). { intro E. apply one_neq_zero. rewrite <- H, E. ring. }
  apply (mul_cancel_l a); [exact Ha|]. rewrite H. symmetry. now apply inv_r.
Qed.

(** ** Powers *)
Lemma fpow_add (x : K) m n : fpow x (m + n) = fpow x m * fpow x n.
Proof using HK. induction m as [|m IH]; cbn [fpow Nat.add]; [ring|]. rewrite IH. ring. Qed.

Lemma fpow_one n : fpow (1 : K) n = 1.
Proof using HK. induction n as [|n IH]; cbn [fpow]; [reflexivity|]. rewrite IH. ring. Qed.

Lemma fpow_zero n : n <> 0%nat -> fpow (0 : K) n = 0.
Proof using HK. destruct n; cbn [fpow]; [congruence|]. intros _. ring. Qed.

Lemma fpow_mul_base (x y : K) n : fpow (x * y) n = fpow x n * fpow y n.
Proof using HK. induction n as [|n IH]; cbn [fpow]; [ring|]. rewrite IH. ring. Qed.

Lemma fpow_mul (x : K) m n : fpow x (m * n) = fpow (fpow x m) n.
Proof using HK.
  induction n as [|n IH]; [rewrite Nat.mul_0_r; reflexivity|].
  rewrite Nat.mul_succ_r, Nat.add_comm, fpow_add, IH. reflexivity.
Qed.

Lemma fpow_1 (x : K) : fpow x 1 = x.
Proof using HK. cbn [fpow]. ring. Qed.

Lemma fpow_2 (x : K) : fpow x 2 = x * x.
Proof using HK. cbn [fpow]. ring. Qed.

Lemma fpow_nonzero (x : K) n : x <> 0 -> fpow x n <> 0.
Proof using HK.
  intro H. induction n as [|n IH]; cbn [fpow]; [apply one_neq_zero|]. now apply mul_nonzero.
Qed.

Lemma fpow_comm (x : K) m n : fpow (fpow x m) n = fpow (fpow x n) m.
Proof using HK. rewrite <- !fpow_mul. f_equal. lia. Qed.

Lemma fpow_inv (x : K) n : x <> 0 -> fpow (finv x) n = finv (fpow x n).
Proof using HK.
  intro H. apply inv_unique. rewrite <- fpow_mul_base, inv_r by exact H. apply fpow_one.
Qed.

Lemma fsquare_n_pow n (x : K) : fsquare_n n x = fpow x (2 ^ n).
Proof using HK.
  revert x; induction n as [|n IH]; intro x; cbn [fsquare_n]; [cbn; ring|].
  rewrite IH. unfold fsquare. rewrite <- fpow_2, <- fpow_mul. f_equal.
Qed.

(** ** inv / batch inverse *)
Lemma inv_o_ok (x y : K) : inv_o x = Ok y <-> x <> 0 /\ y = finv x.
Proof using HK.
  unfold inv_o. destruct (feqb x 0) eqn:E.
  - apply (feqb_spec K HK) in E. split; [discriminate|]. tauto.
  - apply feqb_false in E. split; [intro H; injection H as <-; tauto|]. intros [_ ->]. reflexivity.
Qed.

Lemma batch_inverse_ok (l : list K) : (forall x, In x l -> x <> 0) -> batch_inverse l = Ok (map finv l).
Proof using HK.
  intro H. unfold batch_inverse. destruct (existsb (fun x => feqb x 0) l) eqn:E; [|reflexivity].
  apply existsb_exists in E. destruct E as (x & Hx & E). apply (feqb_spec K HK) in E. now apply H in Hx.
Qed.

Lemma batch_inverse_inv (l r : list K) : batch_inverse l = Ok r -> r = map finv l /\ forall x, In x l -> x <> 0.
Proof using HK.
  unfold batch_inverse. destruct (existsb (fun x => feqb x 0) l) eqn:E; [discriminate|].
  intro H. injection H as <-. split; [reflexivity|]. intros x Hx E0.
  assert (existsb (fun x => feqb x 0) l = true); [|congruence].
  apply existsb_exists. exists x. split; [exact Hx|]. now apply (feqb_spec K HK).
Qed.

(** ** Sums *)
Lemma fsum_app (a b : list K) : fsum (a ++ b) = fsum a + fsum b.
Proof using HK. unfold fsum. induction a as [|x a IH]; cbn [app fold_right]; [ring|]. rewrite IH. ring. Qed.

Lemma fprod_app (a b : list K) : fprod (a ++ b) = fprod a * fprod b.
Proof using HK. unfold fprod. induction a as [|x a IH]; cbn [app fold_right]; [ring|]. rewrite IH. ring. Qed.

Lemma fsum_scale {A} (c : K) (f : A -> K) l : fsum (map (fun a => c * f a) l) = c * fsum (map f l).
Proof using HK. unfold fsum. induction l as [|x l IH]; cbn [map fold_right]; [ring|]. rewrite IH. ring. Qed.

Lemma fsum_add {A} (f g : A -> K) l : fsum (map (fun a => f a + g a) l) = fsum (map f l) + fsum (map g l).
Proof using HK. unfold fsum. induction l as [|x l IH]; cbn [map fold_right]; [ring|]. rewrite IH. ring. Qed.

Lemma fsum_const_zero {A} (l : list A) : fsum (map (fun _ => (0 : K)) l) = 0.
Proof using HK. unfold fsum. induction l as [|x l IH]; cbn [map fold_right]; [reflexivity|]. rewrite IH. ring. Qed.

Lemma fold_left_fadd {A} (f : A -> K) l a : fold_left (fun acc x => acc + f x) l a = a + fsum (map f l).
Proof using HK.
  revert a; induction l as [|x l IH]; intro a; cbn [fold_left map fsum fold_right]; [ring|].
  rewrite IH. fold (fsum (map f l)). ring.
Qed.

Lemma fsum_swap {A B} (f : A -> B -> K) la lb :
  fsum (map (fun a => fsum (map (f a) lb)) la) = fsum (map (fun b => fsum (map (fun a => f a b) la)) lb).
Proof using HK.
  induction la as [|a la IH].
  - cbn [map]. symmetry. apply fsum_const_zero.
  - cbn [map fsum fold_right]. fold (fsum (map (fun a => fsum (map (f a) lb)) la)). rewrite IH.
    rewrite <- fsum_add. reflexivity.
Qed.

Lemma fprod_nonzero (l : list K) : (forall x, In x l -> x <> 0) -> fprod l <> 0.
Proof using HK.
  induction l as [|x l IH]; intro H; cbn; [apply one_neq_zero|].
  apply mul_nonzero; [apply H; now left|]. apply IH. intros y Hy. apply H. now right.
Qed.

Lemma fprod_zero (l : list K) : fprod l = 0 <-> In 0 l.
Proof using HK.
  induction l as [|x l IH]; cbn; [split; [intro H; now apply one_neq_zero in H|tauto]|].
  fold (fprod l). split.
  - intro H. apply mul_zero in H. destruct H as [->|H]; [now left|right; now apply IH].
  - intros [->|H]; [ring|]. apply IH in H. rewrite H. ring.
Qed.
End FieldFacts.
