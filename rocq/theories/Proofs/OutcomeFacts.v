(** Reasoning about fallible loops. *)
From Coq Require Import List Arith Lia.
From Verif.Base Require Import Outcome.
Import ListNotations.

Lemma obind_ok {A B} (x : outcome A) (f : A -> outcome B) b :
  obind x f = Ok b -> exists a, x = Ok a /\ f a = Ok b.
Proof. destruct x; cbn; try discriminate. eauto. Qed.

Lemma ok_inj {A} (a b : A) : Ok a = Ok b -> a = b.
Proof. intro H. exact (f_equal (fun o => match o with Ok x => x | _ => a end) H). Qed.

Lemma unwrap_ok {A} (x : option A) a : unwrap x = Ok a -> x = Some a.
Proof. destruct x; cbn; [|discriminate]. intro H. apply ok_inj in H. congruence. Qed.

Lemma unwrap_r_ok {A} (x : outcome A) a : unwrap_r x = Ok a -> x = Ok a.
Proof. destruct x; cbn; try discriminate. auto. Qed.

Lemma idx_ok {A} (l : list A) i a : idx l i = Ok a -> nth_error l i = Some a.
Proof. apply unwrap_ok. Qed.

Lemma idx_nth {A} (l : list A) i d : i < length l -> idx l i = Ok (nth i l d).
Proof. intro H. unfold idx. now rewrite (nth_error_nth' l d H). Qed.

Lemma idx_lt {A} (l : list A) i a : idx l i = Ok a -> i < length l.
Proof. intro H. apply idx_ok in H. apply nth_error_Some. congruence. Qed.

Lemma idx_val {A} (l : list A) i a d : idx l i = Ok a -> nth i l d = a.
Proof. intro H. apply idx_ok in H. now apply nth_error_nth. Qed.

Lemma idx_panic {A} (l : list A) i : length l <= i -> idx l i = Panic.
Proof. intro H. unfold idx. now rewrite (proj2 (nth_error_None l i) H). Qed.

Lemma usub_ok a b : b <= a -> usub a b = Ok (a - b).
Proof. intro H. unfold usub. destruct (Nat.ltb_spec a b); [lia|reflexivity]. Qed.

Lemma usub_inv a b c : usub a b = Ok c -> b <= a /\ c = a - b.
Proof. unfold usub. destruct (Nat.ltb_spec a b); [discriminate|]. intro E. apply ok_inj in E. lia. Qed.

(** Opens the first failing-or-not steps of a computation known to succeed. *)
Ltac ok_step H :=
  let a := fresh "v" in let Ha := fresh "Hv" in
  apply obind_ok in H; destruct H as (a & Ha & H).

Lemma traverse_map {A B} (f : A -> outcome B) (g : A -> B) l :
  (forall a, In a l -> f a = Ok (g a)) -> traverse f l = Ok (map g l).
Proof.
  induction l as [|a l IH]; intro H; [reflexivity|]. cbn [traverse map].
  rewrite (H a) by (now left). cbn [obind]. rewrite IH; [reflexivity|]. intros b Hb. apply H. now right.
Qed.

Lemma traverse_inv {A B} (f : A -> outcome B) l r :
  traverse f l = Ok r -> Forall2 (fun a b => f a = Ok b) l r.
Proof.
  revert r; induction l as [|a l IH]; intros r H; cbn [traverse] in H.
  - apply ok_inj in H. subst. constructor.
  - ok_step H. ok_step H. apply ok_inj in H. subst. constructor; [exact Hv|]. now apply IH.
Qed.

Lemma traverse_length {A B} (f : A -> outcome B) l r : traverse f l = Ok r -> length r = length l.
Proof. intro H. apply traverse_inv in H. induction H; cbn; congruence. Qed.

Lemma traverse_ok_map {A B} (f : A -> outcome B) (g : A -> B) l r :
  (forall a b, In a l -> f a = Ok b -> b = g a) -> traverse f l = Ok r -> r = map g l.
Proof.
  intros H Ht. apply traverse_inv in Ht. induction Ht as [|a b l r Hab _ IH]; [reflexivity|].
  cbn [map]. f_equal; [apply H; [now left|exact Hab]|]. apply IH. intros. apply H; [now right|assumption].
Qed.

Lemma traverse_nth {A B} (f : A -> outcome B) l r i (da : A) (db : B) :
  traverse f l = Ok r -> i < length l -> f (nth i l da) = Ok (nth i r db).
Proof.
  intros H. apply traverse_inv in H. revert i. induction H as [|a b l r Hab _ IH]; intros i Hi; cbn in *; [lia|].
  destruct i; [exact Hab|]. apply IH. lia.
Qed.

Lemma traverse_ext {A B} (f g : A -> outcome B) l :
  (forall a, In a l -> f a = g a) -> traverse f l = traverse g l.
Proof.
  induction l as [|a l IH]; intro H; [reflexivity|]. cbn [traverse]. rewrite (H a) by (now left).
  destruct (g a); cbn [obind]; try reflexivity. rewrite IH; [reflexivity|]. intros; apply H; now right.
Qed.

Lemma traverse_app {A B} (f : A -> outcome B) l1 l2 :
  traverse f (l1 ++ l2) = obind (traverse f l1) (fun r1 => obind (traverse f l2) (fun r2 => Ok (r1 ++ r2))).
Proof.
  induction l1 as [|a l1 IH]; cbn [traverse app].
  - cbn [obind]. destruct (traverse f l2); reflexivity.
  - destruct (f a); cbn [obind]; try reflexivity. rewrite IH. destruct (traverse f l1); cbn [obind]; try reflexivity.
    destruct (traverse f l2); reflexivity.
Qed.

Lemma ofold_ext {A B} (f g : B -> A -> outcome B) l b :
  (forall a b, In a l -> f b a = g b a) -> ofold f l b = ofold g l b.
Proof.
  revert b; induction l as [|a l IH]; intros b H; [reflexivity|]. cbn [ofold]. rewrite H by (now left).
  destruct (g b a); cbn [obind]; try reflexivity. apply IH. intros; apply H; now right.
Qed.

Lemma ofold_pure {A B} (f : B -> A -> outcome B) (g : B -> A -> B) l b :
  (forall a b, In a l -> f b a = Ok (g b a)) -> ofold f l b = Ok (fold_left g l b).
Proof.
  revert b; induction l as [|a l IH]; intros b H; [reflexivity|]. cbn [ofold fold_left]. rewrite H by (now left).
  cbn [obind]. apply IH. intros; apply H; now right.
Qed.

(** Invariant rule for a fold that succeeded. *)
Lemma ofold_inv {A B} (P : B -> Prop) (f : B -> A -> outcome B) l b r :
  P b -> (forall a b b', In a l -> P b -> f b a = Ok b' -> P b') -> ofold f l b = Ok r -> P r.
Proof.
  revert b; induction l as [|a l IH]; intros b Hb Hs H; cbn [ofold] in H.
  - apply ok_inj in H. now subst.
  - ok_step H. apply (IH v); [|intros; eapply Hs; eauto; now right|exact H].
    eapply Hs; [now left|exact Hb|exact Hv].
Qed.

Lemma slice_ok {A} (l : list A) a b r : slice l a b = Ok r -> a <= b /\ b <= length l /\ r = firstn (b - a) (skipn a l).
Proof.
  unfold slice. destruct (Nat.ltb_spec b a); [discriminate|]. destruct (Nat.ltb_spec (length l) b); [discriminate|].
  intro E. apply ok_inj in E. auto.
Qed.

Lemma slice_in {A} (l : list A) a b : a <= b -> b <= length l -> slice l a b = Ok (firstn (b - a) (skipn a l)).
Proof.
  intros H1 H2. unfold slice. destruct (Nat.ltb_spec b a); [lia|]. destruct (Nat.ltb_spec (length l) b); [lia|reflexivity].
Qed.

Lemma skipn_skipn' {A} (a b : nat) (l : list A) : skipn a (skipn b l) = skipn (a + b) l.
Proof.
  revert a l; induction b as [|b IH]; intros a l; [now rewrite Nat.add_0_r|].
  rewrite Nat.add_succ_r. destruct l; [now rewrite !skipn_nil|]. cbn [skipn]. apply IH.
Qed.

Ltac ok_as H a Ha := apply obind_ok in H; destruct H as (a & Ha & H).
