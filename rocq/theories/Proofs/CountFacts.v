(** Counting vectors. *)
From Coq Require Import List Arith Lia Bool.
From Verif.Base Require Import Field.
From Verif.Spec Require Import LowDegree Proximity Game.
Import ListNotations.

Lemma nn_all {A} (P : A -> Prop) (l : list A) : ~ ~ Forall (fun x => P x \/ ~ P x) l.
Proof.
  induction l as [|x l IH]; intro H; [apply H; constructor|]. apply IH. intro Hl.
  assert (N : ~ ~ (P x \/ ~ P x)) by tauto. apply N. intro Hx. apply H. now constructor.
Qed.
Lemma le_stable m n : ~ ~ (m <= n)%nat -> (m <= n)%nat. Proof. lia. Qed.

(** A list splits along a predicate. *)
Lemma split_by {A} (P : A -> Prop) (l : list A) : Forall (fun x => P x \/ ~ P x) l ->
  exists l1 l2, length l = (length l1 + length l2)%nat /\ incl l1 l /\ incl l2 l /\ (NoDup l -> NoDup l1 /\ NoDup l2) /\
    (forall x, In x l1 -> P x) /\ (forall x, In x l2 -> ~ P x).
Proof.
  induction 1 as [|x l Hx _ (l1 & l2 & H1 & H2 & H3 & H4 & H5 & H6)].
  - exists [], []. cbn. repeat split; try constructor; try (intros ? []); contradiction.
  - destruct Hx as [Hx|Hx].
    + exists (x :: l1), l2. cbn [length]. split; [lia|]. split; [intros y [<-|Hy]; [now left|right; now apply H2]|]. split; [intros y Hy; right; now apply H3|].
      split; [|split; [intros y [<-|Hy]; auto|exact H6]]. intro N. inversion N as [|? ? Na Nb]; subst. destruct (H4 Nb). split; [|assumption].
      constructor; [intro Hi; now apply Na, H2|assumption].
    + exists l1, (x :: l2). cbn [length]. split; [lia|]. split; [intros y Hy; right; now apply H2|]. split; [intros y [<-|Hy]; [now left|right; now apply H3]|].
      split; [|split; [exact H5|intros y [<-|Hy]; auto]]. intro N. inversion N as [|? ? Na Nb]; subst. destruct (H4 Nb). split; [assumption|].
      constructor; [intro Hi; now apply Na, H3|assumption].
Qed.

(** Fibres. *)
Lemma fibres {A B} (dec : forall x y : B, {x = y} + {x <> y}) (f : A -> B) b : forall (R : list B) (T : list A),
  (forall t, In t T -> In (f t) R) -> (forall y l, NoDup T -> incl l T -> NoDup l -> (forall t, In t l -> f t = y) -> (length l <= b)%nat) -> NoDup T ->
  (length T <= b * length R)%nat.
Proof.
  induction R as [|y R IH]; intros T HR Hb HN.
  - destruct T as [|t T]; [cbn; lia|]. destruct (HR t (or_introl eq_refl)).
  - set (q := fun t => if dec (f t) y then true else false).
    assert (L : (length T = length (filter q T) + length (filter (fun t => negb (q t)) T))%nat).
    { clear. induction T as [|t T IH]; [reflexivity|]. cbn [filter length]. destruct (q t); cbn [negb length]; lia. }
    assert (H1 : (length (filter q T) <= b)%nat).
    { apply (Hb y); [exact HN|intros t Ht; now apply filter_In in Ht|now apply NoDup_filter|]. intros t Ht. apply filter_In in Ht. destruct Ht as [_ Ht]. unfold q in Ht. now destruct (dec (f t) y). }
    assert (H2 : (length (filter (fun t => negb (q t)) T) <= b * length R)%nat).
    { apply IH.
      - intros t Ht. apply filter_In in Ht. destruct Ht as [Ht Hq]. destruct (HR t Ht) as [Hy|?]; [|assumption]. exfalso. unfold q in Hq. destruct (dec (f t) y); [discriminate Hq|congruence].
      - intros y' l _ Hl Hn Hf. apply (Hb y'); [exact HN|intros t Ht; now apply Hl, filter_In in Ht|exact Hn|exact Hf].
      - now apply NoDup_filter. }
    cbn [length]. lia.
Qed.

Section Product.
Context {A : Type}.
Lemma in_product (ls : list (list A)) t : In t (product ls) <-> Forall2 (fun x l => In x l) t ls.
Proof.
  revert t. induction ls as [|l ls IH]; intro t; cbn [product].
  - split; [intros [<-|[]]; constructor|]. intro H. inversion H. now left.
  - rewrite in_flat_map. split.
    + intros (x & Hx & Ht). apply in_map_iff in Ht. destruct Ht as (t' & <- & Ht'). constructor; [exact Hx|now apply IH].
    + intro H. inversion H as [|x ? t' ? Hx Ht']; subst. exists x. split; [exact Hx|]. apply in_map, IH, Ht'.
Qed.
Lemma product_length (ls : list (list A)) : length (product ls) = volume ls.
Proof.
  induction ls as [|l ls IH]; [reflexivity|]. cbn [product volume fold_right map]. fold (volume ls). rewrite <- IH. clear. generalize (product ls). intro P.
  induction l as [|x l IHl]; [reflexivity|]. cbn [flat_map length]. rewrite app_length, map_length, IHl. lia.
Qed.
Lemma product_width (ls : list (list A)) t : In t (product ls) -> length t = length ls.
Proof. intro H. apply in_product in H. induction H; cbn [length]; [reflexivity|lia]. Qed.
Lemma Forall2_cut {B C} (R : B -> C -> Prop) i : forall l l', Forall2 R l l' -> Forall2 R (firstn i l ++ skipn (S i) l) (firstn i l' ++ skipn (S i) l').
Proof. induction i as [|i IH]; intros l l' H; destruct H; cbn; try constructor; auto. apply IH. assumption. Qed.
End Product.

Section Tapes.
Context {K : field_ops} (dec : forall x y : K, {x = y} + {x <> y}).
Context (ls : list (list K)) (exc : nat -> list K -> Prop) (bound : nat -> nat).
Context (Hfew : forall i t, In t (product ls) -> (i < length ls)%nat -> few (bound i) (fun x => exc i (set_nth i x t))).

Lemma rebuild i : forall (t : list K), (i < length t)%nat -> forall u, length u = length t ->
  firstn i u ++ skipn (S i) u = firstn i t ++ skipn (S i) t -> u = set_nth i (nth i u fzero) t.
Proof using.
  induction i as [|i IH]; intros [|x t] Ht [|y u] Hu H; cbn in Ht, Hu; try lia.
  - cbn in *. now f_equal.
  - cbn [firstn skipn app] in H. injection H as Hx H. unfold set_nth; cbn [nth firstn skipn app]. f_equal; [exact Hx|]. apply IH; [lia|lia|exact H].
Qed.

Lemma at_position i (T : list (list K)) : (i < length ls)%nat -> NoDup T -> incl T (product ls) -> (forall t, In t T -> exc i t) ->
  (length T <= bound i * volume (firstn i ls ++ skipn (S i) ls))%nat.
Proof using dec Hfew.
  intros Hi HN HT HE. rewrite <- product_length.
  apply (fibres (list_eq_dec dec) (fun t => firstn i t ++ skipn (S i) t)).
  - intros t Ht. apply in_product. apply Forall2_cut. now apply in_product, HT.
  - intros y l _ Hl Hn Hf. destruct l as [|t0 l]; [cbn; lia|].
    assert (Ht0 : In t0 (product ls)) by (apply HT, Hl; now left). pose proof (product_width _ _ Ht0) as L0.
    assert (Q : forall t, In t (t0 :: l) -> t = set_nth i (nth i t fzero) t0).
    { intros t Ht. apply rebuild; [lia| |].
      - rewrite (product_width ls t); [lia|]. apply HT, Hl, Ht.
      - rewrite (Hf t Ht). symmetry. apply Hf. now left. }
    rewrite <- (map_length (fun t => nth i t fzero)). apply (Hfew i t0 Ht0 Hi).
    + assert (Inj : forall t u, In t (t0 :: l) -> In u (t0 :: l) -> nth i t fzero = nth i u fzero -> t = u) by (intros t u H1 H2 H3; rewrite (Q t H1), (Q u H2); now rewrite H3).
      revert Inj Hn. generalize (t0 :: l). clear. induction l as [|t l IH]; intros Inj Hn; cbn [map]; constructor; inversion Hn; subst.
      * intro H. apply in_map_iff in H. destruct H as (u & Hu & Hin). assert (u = t) by (apply Inj; [now right|now left|exact Hu]). subst. contradiction.
      * apply IH; [|assumption]. intros. apply Inj; auto; now right.
    + intros x Hx. apply in_map_iff in Hx. destruct Hx as (t & <- & Ht). rewrite <- (Q t Ht). apply HE, Hl, Ht.
  - exact HN.
Qed.

Lemma exceptional_tapes n : (n <= length ls)%nat -> forall T : list (list K), NoDup T -> incl T (product ls) ->
  (forall t, In t T -> exists i, (i < n)%nat /\ exc i t) ->
  (length T <= list_sum (map (fun i => bound i * volume (firstn i ls ++ skipn (S i) ls)) (seq 0 n)))%nat.
Proof using dec Hfew.
  induction n as [|n IH]; intros Hn T HN HT HE.
  - destruct T as [|t T]; [cbn; lia|]. destruct (HE t (or_introl eq_refl)) as (i & Hi & _). lia.
  - apply le_stable. intro Hc. apply (nn_all (exc n) T). intro Hd. apply Hc. clear Hc.
    destruct (split_by (exc n) T Hd) as (T1 & T2 & HL & I1 & I2 & ND & P1 & P2). destruct (ND HN) as [N1 N2].
    rewrite seq_S, map_app, list_sum_app. cbn [map list_sum Nat.add]. rewrite HL.
    assert (H1 := at_position n T1 ltac:(lia) N1 (fun t H => HT t (I1 t H)) P1).
    assert (H2 : (length T2 <= list_sum (map (fun i => bound i * volume (firstn i ls ++ skipn (S i) ls)) (seq 0 n)))%nat).
    { apply IH; [lia|exact N2|intros t H; now apply HT, I2|]. intros t Ht. destruct (HE t (I2 t Ht)) as (i & Hi & Hx).
      exists i. split; [|exact Hx]. assert (i <> n) by (intros ->; exact (P2 t Ht Hx)). lia. }
    unfold list_sum at 2. cbn [fold_right]. lia.
Qed.
End Tapes.

(** ** Sums and volumes *)
Lemma volume_app {A} (l1 l2 : list (list A)) : volume (l1 ++ l2) = (volume l1 * volume l2)%nat.
Proof. unfold volume. induction l1 as [|l l1 IH]; cbn [app map fold_right]; [lia|]. rewrite IH. lia. Qed.
Lemma volume_cut {A} i : forall (ls : list (list A)), (i < length ls)%nat -> (length (nth i ls []) * volume (firstn i ls ++ skipn (S i) ls) = volume ls)%nat.
Proof.
  induction i as [|i IH]; intros [|l ls] H; cbn [length] in H; try lia; [reflexivity|].
  change (skipn (S (S i)) (l :: ls)) with (skipn (S i) ls). change (firstn (S i) (l :: ls)) with (l :: firstn i ls). cbn [nth app].
  change (volume (l :: ls)) with (length l * volume ls)%nat. rewrite <- (IH ls) by lia.
  change (volume (l :: firstn i ls ++ skipn (S i) ls)) with (length l * volume (firstn i ls ++ skipn (S i) ls))%nat.
  rewrite !Nat.mul_assoc, (Nat.mul_comm (length (nth i ls []))). reflexivity.
Qed.
Lemma sum_le {A} (f g : A -> nat) l : (forall x, In x l -> (f x <= g x)%nat) -> (list_sum (map f l) <= list_sum (map g l))%nat.
Proof. induction l as [|x l IH]; intro H; cbn; [lia|]. pose proof (H x (or_introl eq_refl)). specialize (IH (fun y Hy => H y (or_intror Hy))). unfold list_sum in IH. lia. Qed.
Lemma sum_mul {A} (f : A -> nat) c l : list_sum (map (fun x => f x * c) l)%nat = (list_sum (map f l) * c)%nat.
Proof. induction l as [|x l IH]; cbn; [lia|]. unfold list_sum in IH. lia. Qed.
Lemma sum_const (f : nat -> nat) c l : forall o, (forall i, (o <= i < o + l)%nat -> f i = c) -> list_sum (map f (seq o l)) = (l * c)%nat.
Proof.
  induction l as [|l IH]; intros o H; [reflexivity|]. cbn [seq map]. change (list_sum (f o :: map f (seq (S o) l))) with (f o + list_sum (map f (seq (S o) l)))%nat.
  rewrite IH by (intros; apply H; lia). rewrite H by lia. lia.
Qed.
Lemma sum_shift (f : nat -> nat) l : forall o, list_sum (map f (seq o l)) = list_sum (map (fun i => f (o + i)%nat) (seq 0 l)).
Proof.
  intro o. rewrite <- (Nat.add_0_r o) at 1. generalize 0%nat. induction l as [|l IH]; intro z; [reflexivity|]. cbn [seq map].
  change (list_sum (f (o + z)%nat :: map f (seq (S (o + z)) l)) = (f (o + z)%nat + list_sum (map (fun i => f (o + i)%nat) (seq (S z) l)))%nat).
  rewrite <- IH. now rewrite Nat.add_succ_r.
Qed.
Lemma sum_app {A} (f : A -> nat) l1 l2 : list_sum (map f (l1 ++ l2)) = (list_sum (map f l1) + list_sum (map f l2))%nat.
Proof. now rewrite map_app, list_sum_app. Qed.

(** Pairs counted by their first components. *)
Lemma pairs_count {A B} (deca : forall x y : A, {x = y} + {x <> y}) (W : list (A * B)) (V : list B) n : NoDup W -> (forall t v, In (t, v) W -> In v V) ->
  (forall X, NoDup X -> (forall t, In t X -> exists v, In (t, v) W) -> (length X <= n)%nat) -> (length W <= n * length V)%nat.
Proof.
  intros HN HV HX. set (X := nodup deca (map fst W)). transitivity (length (list_prod X V)).
  - apply NoDup_incl_length; [exact HN|]. intros [t v] Hi. apply in_prod; [|exact (HV t v Hi)]. unfold X. apply nodup_In. now apply (in_map fst) in Hi.
  - rewrite prod_length. apply Nat.mul_le_mono_r, HX; [apply NoDup_nodup|]. intros t Ht. unfold X in Ht. apply nodup_In, in_map_iff in Ht.
    destruct Ht as ([t' v] & <- & Hi). now exists v.
Qed.

(** Tapes with an exceptional entry, as a fraction. *)
Lemma exceptional_fraction {K : field_ops} (dec : forall x y : K, {x = y} + {x <> y}) (ls : list (list K)) exc bound size :
  (forall i t, In t (product ls) -> (i < length ls)%nat -> few (bound i) (fun x => exc i (set_nth i x t))) ->
  (forall l, In l ls -> (size <= length l)%nat) -> forall T : list (list K), NoDup T -> incl T (product ls) ->
  (forall t, In t T -> exists i, (i < length ls)%nat /\ exc i t) ->
  (size * length T <= list_sum (map bound (seq 0 (length ls))) * volume ls)%nat.
Proof.
  intros Hf Hs T HN HT HE. pose proof (exceptional_tapes dec ls exc bound Hf (length ls) (le_n _) T HN HT HE) as H.
  transitivity (size * list_sum (map (fun i => bound i * volume (firstn i ls ++ skipn (S i) ls)) (seq 0 (length ls))))%nat; [now apply Nat.mul_le_mono_l|].
  rewrite <- sum_mul, Nat.mul_comm, <- sum_mul. apply sum_le. intros i Hi. apply in_seq in Hi.
  pose proof (volume_cut i ls ltac:(lia)) as Q. pose proof (Hs (nth i ls []) ltac:(apply nth_In; lia)) as Q2.
  rewrite <- Nat.mul_assoc. apply Nat.mul_le_mono_l. rewrite <- Q, Nat.mul_comm. now apply Nat.mul_le_mono_r.
Qed.
