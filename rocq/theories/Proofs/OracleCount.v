(** Counting the randomness of an oracle that is asked adaptively, and what its table holds. *)
From Coq Require Import List Arith Lia Bool.
From Verif.Base Require Import Field.
From Verif.Model Require Import Codec Air Domain Verifier.
From Verif.Spec Require Import Game Oracle.
From Verif.Proofs Require Import CountFacts.
Import ListNotations.
Local Open Scope nat_scope.

Lemma nodup_map_in {A B} (f : A -> B) l : (forall x y, In x l -> In y l -> f x = f y -> x = y) -> NoDup l -> NoDup (map f l).
Proof.
  induction l as [|x l IH]; intros Inj Hn; cbn [map]; constructor; inversion Hn; subst.
  - intro H. apply in_map_iff in H. destruct H as (y & Hy & Hin). assert (y = x) by (apply Inj; [now right|now left|exact Hy]). now subst.
  - apply IH; [|assumption]. intros. apply Inj; auto; now right.
Qed.

Section Adaptive.
Context {C : Type} (dec : forall x y : C, {x = y} + {x <> y}) (coins : list C) (m M : nat).
Local Notation D := (length coins).

(** Whatever was drawn before, at most [m / M] of the coins are bad: then at most [Q * m / M] of the sequences of [Q] coins contain a bad one. *)
Lemma adaptive_count Q : forall bad : list C -> C -> Prop,
  (forall u l, NoDup l -> (forall c, In c l -> In c coins /\ bad u c) -> M * length l <= m * D) ->
  forall W, NoDup W -> (forall cs, In cs W -> length cs = Q /\ incl cs coins /\ exists n c, nth_error cs n = Some c /\ bad (firstn n cs) c) ->
  M * length W <= Q * m * D ^ Q.
Proof using dec.
  destruct (Nat.eq_dec M 0) as [->|HM]; [intros; cbn; lia|].
  induction Q as [|Q IH]; intros bad Hb W HN HW.
  { destruct W as [|cs W]; [cbn; lia|]. destruct (HW cs (or_introl eq_refl)) as (L & _ & n & c & Hn & _). destruct cs; [|discriminate L]. destruct n; discriminate Hn. }
  apply le_stable. intro Hc. apply (nn_all (fun cs => exists c cs', cs = c :: cs' /\ bad [] c) W). intro Dd. apply Hc. clear Hc.
  destruct (split_by _ W Dd) as (W1 & W2 & HL & I1 & I2 & ND & P1 & P2). destruct (ND HN) as [N1 N2].
  assert (C1 : length W1 <= (m * D / M) * D ^ Q).
  { replace (D ^ Q) with (length (product (repeat coins Q))).
    2:{ rewrite product_length. clear. induction Q as [|Q IH]; [reflexivity|]. cbn [repeat]. change (volume (coins :: repeat coins Q)) with (length coins * volume (repeat coins Q)). rewrite IH. reflexivity. }
    apply (fibres (list_eq_dec dec) (@tl C)); [|intros y l _ Hl Hn Hf|exact N1].
    - intros cs Hcs. destruct (HW cs (I1 _ Hcs)) as (L & Hi & _). destruct cs as [|c cs]; [discriminate L|]. cbn [tl]. apply in_product. injection L as <-.
      assert (Hi' : incl cs coins) by (intros x Hx; apply Hi; now right). clear -Hi'. induction cs as [|x cs IH]; [constructor|]. cbn [length repeat]. constructor; [apply Hi'; now left|].
      apply IH. intros z Hz. apply Hi'. now right.
    - apply Nat.div_le_lower_bound; [exact HM|].
      destruct l as [|cs0 l']; [cbn; lia|]. destruct (P1 cs0 (Hl _ (or_introl eq_refl))) as (c0 & _ & _). set (l := cs0 :: l') in *. clearbody l.
      rewrite <- (map_length (hd c0)). apply (Hb []).
      + apply nodup_map_in; [|exact Hn]. intros x z Hx Hz Q0. destruct (P1 x (Hl _ Hx)) as (cx & rx & -> & _). destruct (P1 z (Hl _ Hz)) as (cz & rz & -> & _).
        pose proof (Hf _ Hx) as F1. pose proof (Hf _ Hz) as F2. cbn in Q0, F1, F2. congruence.
      + intros c Hcc. apply in_map_iff in Hcc. destruct Hcc as (cs & <- & Hcs). destruct (P1 cs (Hl _ Hcs)) as (c & r & -> & Hbad). cbn [hd]. split; [|exact Hbad].
        destruct (HW _ (I1 _ (Hl _ Hcs))) as (_ & Hi & _). apply Hi. now left. }
  assert (C2 : length W2 <= (Q * m * D ^ Q / M) * D).
  { rewrite <- (map_length (@Some C) coins) at 2.
    apply (fibres (fun x y : option C => ltac:(decide equality) : {x = y} + {x <> y}) (@hd_error C)); [|intros y l _ Hl Hn Hf|exact N2].
    - intros cs Hcs. destruct (HW cs (I2 _ Hcs)) as (L & Hi & _). destruct cs as [|c cs]; [discriminate L|]. cbn [hd_error]. apply in_map, Hi. now left.
    - apply Nat.div_le_lower_bound; [exact HM|].
      destruct l as [|cs0 l']; [cbn; lia|]. set (l := cs0 :: l') in *. assert (H0 : In cs0 l) by now left. clearbody l.
      destruct (HW cs0 (I2 _ (Hl _ H0))) as (L0 & _). destruct cs0 as [|c0 r0]; [discriminate L0|]. pose proof (Hf _ H0) as F0. cbn in F0. subst y.
      assert (Sh : forall cs, In cs l -> exists r', cs = c0 :: r').
      { intros cs Hcs. pose proof (Hf _ Hcs) as F. destruct cs as [|c r']; [discriminate F|]. injection F as ->. now exists r'. }
      rewrite <- (map_length (@tl C)). apply (IH (fun u => bad (c0 :: u))); [intros u; apply (Hb (c0 :: u))| |].
      + apply nodup_map_in; [|exact Hn]. intros x z Hx Hz Q0. destruct (Sh x Hx) as (rx & ->). destruct (Sh z Hz) as (rz & ->). cbn in Q0. congruence.
      + intros cs Hcs. apply in_map_iff in Hcs. destruct Hcs as (x & <- & Hx). destruct (Sh x Hx) as (rx & ->). cbn [tl].
        destruct (HW _ (I2 _ (Hl _ Hx))) as (L & Hi & n & c & Hnc & Hbad). split; [now injection L|]. split; [intros z Hz; apply Hi; now right|].
        destruct n as [|n]; [|now exists n, c]. exfalso. apply (P2 _ (Hl _ Hx)). cbn in Hnc. injection Hnc as ->. now exists c, rx. }
  pose proof (Nat.mul_div_le (m * D) M HM) as Q1. pose proof (Nat.mul_div_le (Q * m * D ^ Q) M HM) as Q2. rewrite HL. cbn [Nat.pow].
  apply (Nat.mul_le_mono_r _ _ (D ^ Q)) in Q1. apply (Nat.mul_le_mono_r _ _ D) in Q2. nia.
Qed.
End Adaptive.

(** What the table holds was asked at some time. *)
Section Table.
Context {E : env} (a : air E) (kr nb r : nat) (eqd : forall x y : question (E := E), {x = y} + {x <> y}) (adv : adversary (E := E)).
Local Notation table := (table a kr nb r eqd adv).
Lemma table_snoc cs c : table (cs ++ [c]) = turn a kr nb r eqd adv (table cs) c.
Proof using Type. unfold Oracle.table. now rewrite fold_left_app. Qed.
Lemma table_origin cs q x : lookup eqd q (table cs) = Some x ->
  exists n c, nth_error cs n = Some c /\ ask adv (table (firstn n cs)) = q /\ reply_to a kr nb r q c = x.
Proof using Type.
  induction cs as [|c cs IH] using rev_ind; [discriminate|]. rewrite table_snoc. unfold turn, lookup at 1. cbn [find fst]. intro H.
  destruct (eqd (ask adv (table cs)) q) as [Q|Q].
  - cbn [option_map snd] in H. destruct (lookup eqd (ask adv (table cs)) (table cs)) as [x'|] eqn:El.
    + injection H as ->. rewrite Q in El. destruct (IH El) as (n & c' & Hn & Ha & Hr). exists n, c'. assert (n < length cs) by (apply nth_error_Some; congruence).
      rewrite nth_error_app1 by assumption. rewrite firstn_app. replace (n - length cs) with 0 by lia. rewrite app_nil_r. auto.
    + injection H as H. exists (length cs), c. rewrite nth_error_app2, Nat.sub_diag by lia. rewrite firstn_app, firstn_all, Nat.sub_diag, app_nil_r. rewrite <- Q. auto.
  - destruct (IH H) as (n & c' & Hn & Ha & Hr). exists n, c'. assert (n < length cs) by (apply nth_error_Some; congruence).
    rewrite nth_error_app1 by assumption. rewrite firstn_app. replace (n - length cs) with 0 by lia. rewrite app_nil_r. auto.
Qed.
End Table.
