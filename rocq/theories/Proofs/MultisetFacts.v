(** Multisets and products of linear factors: the algebra behind permutation arguments. *)
From Coq Require Import List Arith Bool Lia Permutation Ring.
From Verif.Base Require Import Outcome Field Poly.
From Verif.Proofs Require Import FieldFacts PolyFacts.
Import ListNotations.

Section Multiset.
Context {K : field_ops} (HK : field_ok K).
Add Field Kfield34 : (fld_th K HK).
Local Open Scope felt_scope.

Lemma feq_dec (a b : K) : {a = b} + {a <> b}.
Proof using HK. destruct (feqb a b) eqn:E; [left; now apply (feqb_spec K HK)|right; now apply (feqb_false HK)]. Qed.

Lemma vanish_app (l1 l2 : list K) x : vanish (l1 ++ l2) x = vanish l1 x * vanish l2 x.
Proof using HK. unfold vanish. rewrite map_app. apply (fprod_app HK). Qed.
Lemma vanish_cons (a : K) (l : list K) x : vanish (a :: l) x = (x - a) * vanish l x.
Proof using Type. reflexivity. Qed.
Lemma vanish_repeat (a : K) k x : vanish (repeat a k) x = fpow (x - a) k.
Proof using Type. induction k as [|k IH]; [reflexivity|]. cbn [repeat]. rewrite vanish_cons, IH. reflexivity. Qed.
Lemma vanish_permutation (l1 l2 : list K) x : Permutation l1 l2 -> vanish l1 x = vanish l2 x.
Proof using HK.
  induction 1 as [|a l l' _ IH|a b l|l l' l'' _ IH1 _ IH2]; [reflexivity| | |congruence].
  - now rewrite !vanish_cons, IH.
  - rewrite !vanish_cons. ring.
Qed.

Lemma remove_all_length (a : K) (l : list K) : NoDup l -> (length l <= S (length (remove feq_dec a l)))%nat.
Proof using Type.
  induction l as [|b l IH]; intro H; [cbn; lia|]. inversion H as [|? ? Hni Hnd]; subst. cbn [remove].
  destruct (feq_dec a b) as [<-|Hne].
  - rewrite notin_remove by exact Hni. reflexivity.
  - cbn [length]. specialize (IH Hnd). lia.
Qed.
Lemma remove_nodup (a : K) (l : list K) : NoDup l -> NoDup (remove feq_dec a l).
Proof using Type.
  induction l as [|b l IH]; intro H; [exact H|]. inversion H as [|? ? Hni Hnd]; subst. cbn [remove].
  destruct (feq_dec a b); [now apply IH|]. constructor; [|now apply IH]. intro Hin. apply in_remove in Hin. tauto.
Qed.

(** If the products agree on more points than there are factors, the factors are the same. *)
Theorem products_permutation (zs : list K) : forall xs ys : list K, NoDup zs -> length ys = length xs -> (length xs < length zs)%nat ->
  (forall z, In z zs -> vanish xs z = vanish ys z) -> Permutation xs ys.
Proof using HK.
  intros xs. revert zs. induction xs as [|x xs IH]; intros zs ys Hnd Hlen Hlt Hag.
  - destruct ys; [constructor|discriminate].
  - assert (Hx : In x ys).
    { apply (vanish_zero HK). rewrite <- peval_vanish_poly by exact HK.
      rewrite <- (agree_eval HK zs (vanish_poly (x :: xs)) (vanish_poly ys) x Hnd).
      - rewrite peval_vanish_poly by exact HK. apply (vanish_zero HK). now left.
      - intros a Ha. rewrite !peval_vanish_poly by exact HK. now apply Hag.
      - pose proof (vanish_poly_length (x :: xs)). lia.
      - pose proof (vanish_poly_length ys). lia. }
    destruct (in_split _ _ Hx) as (l1 & l2 & ->). apply Permutation_cons_app.
    apply (IH (remove feq_dec x zs)).
    + now apply remove_nodup.
    + rewrite app_length in *. cbn [length] in *. lia.
    + pose proof (remove_all_length x zs Hnd). cbn [length] in Hlt. lia.
    + intros z Hz. apply in_remove in Hz. destruct Hz as [Hz Hzx].
      specialize (Hag z Hz). rewrite vanish_app, !vanish_cons in Hag.
      assert (Hne : z - x <> 0) by (intro E; apply Hzx; now apply (sub_zero HK)).
      apply (mul_cancel_l HK (z - x)); [exact Hne|]. rewrite Hag, vanish_app. ring.
Qed.

(** Pairs are compressed to [a + alpha * v]. *)
Definition compress (alpha : K) (av : K * K) : K := fst av + alpha * snd av.
Definition collision (u w : K * K) : K := (fst u - fst w) / (snd w - snd u).

Lemma compress_collision alpha u w : u <> w -> compress alpha u = compress alpha w -> alpha = collision u w.
Proof using HK.
  destruct u as [a v], w as [b t]; unfold compress, collision; cbn [fst snd]; intros Hne H.
  assert (Hd : t - v <> 0).
  { intro E. apply (proj1 (sub_zero HK _ _)) in E. subst t. apply Hne. f_equal.
    apply (sub_zero HK). etransitivity; [|exact (proj2 (sub_zero HK _ _) H)]. ring. }
  assert (E : alpha * (t - v) = a - b).
  { apply (sub_zero HK). assert (E : (b + alpha * t) - (a + alpha * v) = 0) by (apply (sub_zero HK); congruence).
    etransitivity; [|exact E]. ring. }
  rewrite <- E. field. exact Hd.
Qed.

Lemma zero_pairs (z alpha : K) k : fprod (map (fun av => z - (fst av + alpha * snd av)) (repeat (0, 0) k)) = fpow z k.
Proof using HK.
  induction k as [|k IH]; [reflexivity|]. cbn [repeat map fprod fold_right fst snd fpow].
  fold (fprod (map (fun av => z - (fst av + alpha * snd av)) (repeat (0, 0) k))). rewrite IH. ring.
Qed.
Lemma quotient_final (s z v w : K) : v <> 0 -> z * finv v * s = w -> s * z = w * v.
Proof using HK. intros Hv <-. field. exact Hv. Qed.

Definition bad_alphas (l : list (K * K)) : list K := map (fun uw => collision (fst uw) (snd uw)) (list_prod l l).
Lemma bad_alphas_length l : length (bad_alphas l) = (length l * length l)%nat.
Proof using Type. unfold bad_alphas. now rewrite map_length, prod_length. Qed.
Lemma good_alpha_inj l alpha u w : ~ In alpha (bad_alphas l) -> In u l -> In w l ->
  compress alpha u = compress alpha w -> u = w.
Proof using HK.
  intros Ha Hu Hw H. assert (D : {u = w} + {u <> w}).
  { destruct u as [a v], w as [b t]. destruct (feq_dec a b), (feq_dec v t); [left; congruence|right; congruence..]. }
  destruct D as [D|D]; [exact D|]. exfalso. apply Ha. unfold bad_alphas.
  apply in_map_iff. exists (u, w). split; [symmetry; now apply compress_collision|]. now apply in_prod.
Qed.

Lemma permutation_map_inj {A B} (f : A -> B) : forall l1 l2 : list A,
  (forall u w, In u (l1 ++ l2) -> In w (l1 ++ l2) -> f u = f w -> u = w) ->
  Permutation (map f l1) (map f l2) -> Permutation l1 l2.
Proof using Type.
  induction l1 as [|a l1 IH]; intros l2 Hinj Hp.
  - apply Permutation_nil in Hp. destruct l2; [constructor|discriminate].
  - cbn [map] in Hp. assert (Hin : In (f a) (map f l2)) by (eapply Permutation_in; [exact Hp|now left]).
    apply in_map_iff in Hin. destruct Hin as (b & Hb & Hb2).
    assert (b = a). { apply Hinj; [apply in_or_app; now right|now left|exact Hb]. } subst b.
    destruct (in_split _ _ Hb2) as (u1 & u2 & ->). rewrite map_app in Hp. cbn [map] in Hp.
    apply Permutation_cons_app. apply Permutation_cons_app_inv in Hp. rewrite <- map_app in Hp. apply IH; [|exact Hp].
    intros u w Hu Hw. apply Hinj; apply in_app_or in Hu, Hw.
    + destruct Hu as [Hu|Hu]; [right; apply in_or_app; now left|]. apply in_or_app. right. apply in_app_or in Hu.
      apply in_or_app. cbn [In]. tauto.
    + destruct Hw as [Hw|Hw]; [right; apply in_or_app; now left|]. apply in_or_app. right. apply in_app_or in Hw.
      apply in_or_app. cbn [In]. tauto.
Qed.

(** For all but at most [(2m)^2] values of [alpha], at most [m] values of [z] make two different multisets of
    [m] pairs indistinguishable. *)
Theorem compressed_products_permutation (xs ys : list (K * K)) : length ys = length xs ->
  forall alpha, ~ In alpha (bad_alphas (xs ++ ys)) ->
  forall zs, NoDup zs -> (length xs < length zs)%nat ->
  (forall z, In z zs -> vanish (map (compress alpha) xs) z = vanish (map (compress alpha) ys) z) -> Permutation xs ys.
Proof using HK.
  intros Hl alpha Ha zs Hnd Hlt Hag. apply (permutation_map_inj (compress alpha)).
  - intros u w Hu Hw. now apply (good_alpha_inj (xs ++ ys)).
  - apply (products_permutation zs); [exact Hnd|now rewrite !map_length|now rewrite map_length|exact Hag].
Qed.
End Multiset.
