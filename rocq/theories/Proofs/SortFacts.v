(** Sorting, and the holes of sorted lists. *)
From Coq Require Import List Arith NArith ZArith Bool Lia Permutation Sorted.
From Verif.Base Require Import Outcome Field Poly.
From Verif.Model Require Import Codec PublicInputs Trace Air CairoDecode CairoTrace.
From Verif.Spec Require Import CairoSpec.
From Verif.Proofs Require Import FieldFacts OutcomeFacts RunnerFacts DecodeFacts.
Import ListNotations.

Section Sort.
Context {A : Type} (key : A -> N).
Definition ascending (l : list A) : Prop := StronglySorted (fun a b => (key a <= key b)%N) l.

Lemma insert_by_perm x l : Permutation (insert_by key x l) (x :: l).
Proof.
  induction l as [|y l IH]; [reflexivity|]. cbn [insert_by]. destruct (_ <=? _)%N; [reflexivity|]. rewrite IH. apply perm_swap.
Qed.
Lemma sort_by_perm l : Permutation (sort_by key l) l.
Proof. induction l as [|x l IH]; [reflexivity|]. cbn [sort_by]. now rewrite insert_by_perm, IH. Qed.
Lemma insert_by_ascending x l : ascending l -> ascending (insert_by key x l).
Proof.
  intro H. induction H as [|y l Hl IH Hy]; [repeat constructor|]. cbn [insert_by]. destruct (N.leb_spec (key x) (key y)) as [L|L].
  - constructor; [now constructor|]. constructor; [exact L|]. rewrite Forall_forall in *. intros z Hz. specialize (Hy z Hz). lia.
  - constructor; [exact IH|]. rewrite (insert_by_perm x l). constructor; [lia|exact Hy].
Qed.
Lemma sort_by_ascending l : ascending (sort_by key l).
Proof. induction l as [|x l IH]; [constructor|]. now apply insert_by_ascending. Qed.

Lemma ascending_nth l d i j : ascending l -> (i <= j < length l)%nat -> (key (nth i l d) <= key (nth j l d))%N.
Proof.
  intro H. revert i j. induction H as [|y l Hl IH Hy]; intros i j Hij; cbn [length] in Hij; [lia|].
  destruct i as [|i], j as [|j]; cbn [nth]; [lia| |lia|apply IH; lia].
  rewrite Forall_forall in Hy. apply Hy. apply nth_In. lia.
Qed.
End Sort.

(** ** The missing values of a sorted list of numbers *)
Lemma rc_missing_in l x d : ascending (fun n => n) l -> l <> [] ->
  (In x (rc_missing l) <-> (nth 0 l d <= x <= nth (length l - 1) l d)%N /\ ~ In x l).
Proof.
  intro H. induction H as [|a l Hl IH Ha]; intro Hne; [congruence|]. destruct l as [|b l].
  - cbn. split; [tauto|]. intros [H1 H2]. exfalso. apply H2. left. lia.
  - change (rc_missing (a :: b :: l)) with ((if (b =? a)%N then [] else nrange (a + 1) b) ++ rc_missing (b :: l)).
    rewrite in_app_iff, IH by discriminate. clear IH.
    assert (Hab : (a <= b)%N) by (rewrite Forall_forall in Ha; apply Ha; now left).
    assert (E : nth (length (a :: b :: l) - 1) (a :: b :: l) d = nth (length (b :: l) - 1) (b :: l) d).
    { cbn [length]. replace (S (S (length l)) - 1)%nat with (S (S (length l) - 1)) by lia. reflexivity. }
    rewrite E. change (nth 0 (a :: b :: l) d) with a. change (nth 0 (b :: l) d) with b.
    assert (Hmin : forall y, In y (b :: l) -> (b <= y)%N).
    { inversion Hl as [|? ? ? Hb]; subst. rewrite Forall_forall in Hb. intros y [->|Hy]; [lia|now apply Hb]. }
    assert (Hlast : (b <= nth (length (b :: l) - 1) (b :: l) d)%N) by (apply Hmin, nth_In; cbn [length]; lia).
    destruct (N.eqb_spec b a) as [->|Nab].
    + cbn [In]. split; [intros [[]|[H1 H2]]|intros [H1 H2]; right]; (split; [lia|]); tauto.
    + rewrite nrange_in. split.
      * intros [H1|[H1 H2]]; (split; [lia|]).
        -- intros [->|H2]; [lia|]. specialize (Hmin _ H2). lia.
        -- intros [->|H3]; [lia|tauto].
      * intros [H1 H2]. destruct (N.lt_ge_cases x b) as [Lx|Lx].
        -- left. assert (x <> a) by (intros ->; apply H2; now left). lia.
        -- right. split; [lia|]. intro H3. apply H2. now right.
Qed.

(** ** Memory holes *)
Section Holes.
Context {C : cairo_env} {p : N} (HC : cairo_ok C p).
Local Open Scope felt_scope.
Let HK : field_ok C := fft_field_ok _ (e_fft_ok _ (co_env _ _ HC)).
Add Field Kfield37 : (fld_th C HK).

Lemma repr_succ (x : C) : (ce_repr x + 1 < p)%N -> ce_repr (x + 1) = (ce_repr x + 1)%N.
Proof using HC.
  intro H. rewrite <- (co_u64_repr _ _ HC x) at 1. rewrite <- (co_one _ _ HC), <- (co_add _ _ HC), (co_repr_u64 _ _ HC). now apply N.mod_small.
Qed.
Lemma repr_ext (x y : C) : ce_repr x = ce_repr y -> x = y.
Proof using HC. intro H. rewrite <- (co_u64_repr _ _ HC x), <- (co_u64_repr _ _ HC y). now rewrite H. Qed.

Lemma hole_loop_in fuel (hole addr : C) codelen x : (N.to_nat (ce_repr addr) <= fuel + N.to_nat (ce_repr hole))%nat ->
  (In x (hole_loop fuel hole addr codelen) <-> (ce_repr hole <= ce_repr x < ce_repr addr)%N /\ (codelen < ce_repr x)%N).
Proof using HC.
  revert hole. induction fuel as [|fuel IH]; intros hole H; cbn [hole_loop].
  - cbn [In]. split; [tauto|]. lia.
  - destruct (N.ltb_spec (ce_repr hole) (ce_repr addr)) as [L|L].
    + pose proof (co_repr_lt _ _ HC addr) as La. pose proof (repr_succ hole ltac:(lia)) as Es.
      rewrite in_app_iff, IH by lia. rewrite Es. split.
      * intros [Hx|Hx]; [|lia]. destruct (N.ltb_spec codelen (ce_repr hole)); [|destruct Hx].
        destruct Hx as [->|[]]. lia.
      * intros [Hx Hc]. destruct (N.eq_dec (ce_repr x) (ce_repr hole)) as [Ex|Nx]; [|right; lia].
        left. rewrite <- Ex, (proj2 (N.ltb_lt _ _)) by exact Hc. left. symmetry. now apply repr_ext.
    + cbn [In]. split; [tauto|]. lia.
Qed.
Lemma hole_loop_nodup fuel (hole addr : C) codelen : (N.to_nat (ce_repr addr) <= fuel + N.to_nat (ce_repr hole))%nat ->
  NoDup (hole_loop fuel hole addr codelen).
Proof using HC.
  revert hole. induction fuel as [|fuel IH]; intros hole H; cbn [hole_loop]; [constructor|].
  destruct (N.ltb_spec (ce_repr hole) (ce_repr addr)) as [L|L]; [|constructor].
  pose proof (co_repr_lt _ _ HC addr) as La. pose proof (repr_succ hole ltac:(lia)) as Es.
  destruct (codelen <? ce_repr hole)%N; cbn [app]; [|apply IH; lia].
  constructor; [|apply IH; lia]. rewrite hole_loop_in by lia. rewrite Es. lia.
Qed.

(** The difference test of the loop on representatives. *)
Lemma diff_one (a b : C) : (ce_repr a <= ce_repr b)%N -> feqb (b - a) 1 = true <-> (ce_repr b = ce_repr a + 1)%N.
Proof using HC.
  intro Hab. rewrite (feqb_spec C HK). split; intro H.
  - assert (E : b = a + 1) by (transitivity (a + (b - a)); [ring|now rewrite H]).
    pose proof (co_repr_lt _ _ HC b) as Lb. destruct (N.eq_dec (ce_repr a + 1) p) as [Ep|Np].
    + assert (b = e_u64 C 0).
      { rewrite E, <- (co_u64_repr _ _ HC a), <- (co_one _ _ HC), <- (co_add _ _ HC), Ep. apply repr_ext.
        rewrite !(co_repr_u64 _ _ HC), N.mod_same, N.mod_0_l by lia. reflexivity. }
      subst b. rewrite H0, (co_repr_u64 _ _ HC), N.mod_0_l in Hab by lia. pose proof (co_p _ _ HC). lia.
    + rewrite E. apply repr_succ. lia.
  - assert (E : b = a + 1). { apply repr_ext. rewrite repr_succ; [exact H|]. rewrite <- H. apply (co_repr_lt _ _ HC). } rewrite E. ring.
Qed.
Lemma diff_zero (a b : C) : feqb (b - a) 0 = true <-> ce_repr b = ce_repr a.
Proof using HC.
  rewrite (feqb_spec C HK). split; intro H.
  - f_equal. transitivity (a + (b - a)); [ring|rewrite H; ring].
  - apply repr_ext in H. subst. ring.
Qed.

Lemma holes_from_in (prev : C) addrs codelen x : ascending ce_repr (prev :: addrs) ->
  (In x (holes_from prev addrs codelen) <->
   (codelen < ce_repr x)%N /\ (ce_repr prev <= ce_repr x)%N /\ (exists a, In a addrs /\ (ce_repr x < ce_repr a)%N) /\ ~ In x (prev :: addrs)).
Proof using HC.
  revert prev. induction addrs as [|a r IH]; intros prev H.
  - cbn [holes_from In]. split; [tauto|]. intros (_ & _ & (a & [] & _) & _).
  - inversion H as [|? ? Hr Hp]; subst. assert (Hpa : (ce_repr prev <= ce_repr a)%N) by (rewrite Forall_forall in Hp; apply Hp; now left).
    assert (Hmin : forall y, In y r -> (ce_repr a <= ce_repr y)%N).
    { inversion Hr as [|? ? ? Hb]; subst. now rewrite Forall_forall in Hb. }
    cbn [holes_from]. rewrite in_app_iff, (IH a Hr). clear IH.
    assert (Hgap : In x (if negb (feqb (a - prev) 1) && negb (feqb (a - prev) 0) && (codelen <? ce_repr a)%N
                     then hole_loop (N.to_nat (ce_repr a)) (prev + 1) a codelen else [])
                   <-> (codelen < ce_repr x)%N /\ (ce_repr prev < ce_repr x < ce_repr a)%N).
    { pose proof (diff_one prev a Hpa) as D1. pose proof (diff_zero prev a) as D0.
      destruct (feqb (a - prev) 1) eqn:B1.
      { cbn [negb andb In]. split; [tauto|]. assert (ce_repr a = ce_repr prev + 1)%N by tauto. lia. }
      destruct (feqb (a - prev) 0) eqn:B0.
      { cbn [negb andb In]. split; [tauto|]. assert (ce_repr a = ce_repr prev)%N by tauto. lia. }
      cbn [negb andb]. destruct (N.ltb_spec codelen (ce_repr a)) as [L|L].
      - pose proof (co_repr_lt _ _ HC a) as La.
        assert (N0 : ce_repr a <> ce_repr prev) by (intro E; apply D0 in E; discriminate).
        assert (Es : ce_repr (prev + 1) = (ce_repr prev + 1)%N) by (apply repr_succ; lia).
        rewrite hole_loop_in by lia. rewrite Es. lia.
      - cbn [In]. split; [tauto|]. lia. }
    rewrite Hgap. clear Hgap. split.
    + intros [(H1 & H2)|(H1 & H2 & (b & Hb & Lb) & H3)].
      * repeat split; [exact H1|lia|exists a; split; [now left|lia]|].
        intros [->|[->|Hx]]; [lia|lia|]. specialize (Hmin _ Hx). lia.
      * repeat split; [exact H1|lia|exists b; split; [now right|exact Lb]|].
        intros [->|Hx]; [|now apply H3]. apply H3. left. apply repr_ext. lia.
    + intros (H1 & H2 & (b & Hb & Lb) & H3). destruct (N.lt_ge_cases (ce_repr x) (ce_repr a)) as [L|L].
      * left. split; [exact H1|]. assert (ce_repr x <> ce_repr prev) by (intro E; apply repr_ext in E; apply H3; now left). lia.
      * right. repeat split; [exact H1|exact L| |].
        -- destruct Hb as [<-|Hb]; [lia|]. eauto.
        -- intro Hx. apply H3. now right.
Qed.
Lemma holes_from_nodup (prev : C) addrs codelen : ascending ce_repr (prev :: addrs) -> NoDup (holes_from prev addrs codelen).
Proof using HC.
  revert prev. induction addrs as [|a r IH]; intros prev H; [constructor|].
  inversion H as [|? ? Hr Hp]; subst. assert (Hpa : (ce_repr prev <= ce_repr a)%N) by (rewrite Forall_forall in Hp; apply Hp; now left).
  cbn [holes_from]. destruct (negb _ && negb _ && _)%bool eqn:B; [|now apply IH].
  apply andb_prop in B. destruct B as [B _]. apply andb_prop in B. destruct B as [_ B0]. apply negb_true_iff in B0.
  pose proof (diff_zero prev a) as D0. assert (N0 : ce_repr a <> ce_repr prev) by (intro E; apply D0 in E; congruence).
  pose proof (co_repr_lt _ _ HC a) as La.
  assert (Es : ce_repr (prev + 1) = (ce_repr prev + 1)%N) by (apply repr_succ; lia).
  specialize (IH a Hr). pose proof (hole_loop_nodup (N.to_nat (ce_repr a)) (prev + 1) a codelen ltac:(lia)) as Hd.
  revert Hd. assert (Hdis : forall x, In x (hole_loop (N.to_nat (ce_repr a)) (prev + 1) a codelen) -> ~ In x (holes_from a r codelen)).
  { intros x Hx Hy. rewrite hole_loop_in in Hx by lia. rewrite (holes_from_in a r codelen x Hr) in Hy. lia. }
  revert Hdis. generalize (hole_loop (N.to_nat (ce_repr a)) (prev + 1) a codelen). intros l Hdis Hd.
  induction Hd as [|x l Hx Hd IHd]; [exact IH|]. cbn [app]. constructor.
  - rewrite in_app_iff. intros [Hy|Hy]; [now apply Hx|]. apply (Hdis x); [now left|exact Hy].
  - apply IHd. intros y Hy. apply Hdis. now right.
Qed.
End Holes.
