(** Sequences of field elements that stay or move by one, and running products. *)
From Coq Require Import List Arith NArith Bool Lia Permutation.
From Verif.Base Require Import Outcome Field Poly.
From Verif.Model Require Import Codec Air CairoDecode.
From Verif.Spec Require Import CairoSpec AirSpec.
From Verif.Proofs Require Import FieldFacts PolyFacts DecodeFacts MultisetFacts.
Import ListNotations.

Section Walk.
Context {C : cairo_env} {p : N} (HC : cairo_ok C p).
Let HK : field_ok C := fft_field_ok _ (e_fft_ok _ (co_env _ _ HC)).
Add Field Kfield35 : (fld_th C HK).
Local Open Scope felt_scope.

(** How many times the sequence has moved. *)
Fixpoint moves (a : nat -> C) (k : nat) : nat :=
  match k with O => O | S k' => if feqb (a k) (a k') then moves a k' else S (moves a k') end.

Lemma moves_mono a j k : (j <= k)%nat -> (moves a j <= moves a k)%nat.
Proof using Type. induction 1 as [|k Hk IH]; [lia|]. cbn [moves]. destruct (feqb _ _); lia. Qed.
Lemma moves_le a k : (moves a k <= k)%nat.
Proof using Type. induction k as [|k IH]; [cbn; lia|]. cbn [moves]. destruct (feqb _ _); lia. Qed.
Lemma moves_onto a k t : (t <= moves a k)%nat -> exists j, (j <= k)%nat /\ moves a j = t.
Proof using Type.
  induction k as [|k IH]; intro Ht.
  - cbn in Ht. exists O. split; [lia|]. cbn. lia.
  - destruct (Nat.eq_dec t (moves a (S k))) as [->|Hne]; [exists (S k); split; [lia|reflexivity]|].
    destruct IH as (j & Hj & E); [|exists j; split; [lia|exact E]].
    cbn [moves] in Ht, Hne. destruct (feqb _ _); lia.
Qed.

Definition walks (a : nat -> C) (m : nat) : Prop :=
  forall k, (k + 1 < m)%nat -> (a k - a (k + 1)%nat) * (a (k + 1)%nat - a k - 1) = 0.
Definition consistent (a v : nat -> C) (m : nat) : Prop :=
  forall k, (k + 1 < m)%nat -> (v k - v (k + 1)%nat) * (a (k + 1)%nat - a k - 1) = 0.

Lemma walk_moves a m k : walks a m -> (k < m)%nat -> a k = a O + e_u64 C (N.of_nat (moves a k)).
Proof using HC.
  intros Hw. induction k as [|k IH]; intro Hk.
  - cbn [moves N.of_nat]. rewrite (co_zero _ _ HC). ring.
  - cbn [moves]. specialize (IH ltac:(lia)). destruct (feqb (a (S k)) (a k)) eqn:E.
    + apply (feqb_spec C HK) in E. now rewrite E.
    + apply (feqb_false HK) in E. rewrite Nat2N.inj_succ, <- N.add_1_r, (co_add _ _ HC), (co_one _ _ HC).
      specialize (Hw k ltac:(lia)). rewrite Nat.add_1_r in Hw.
      apply (mul_zero HK) in Hw. destruct Hw as [Hw|Hw].
      * apply (proj1 (sub_zero HK _ _)) in Hw. congruence.
      * assert (F : a (S k) = a k + 1).
        { apply (sub_zero HK). etransitivity; [|exact Hw]. ring. }
        rewrite F, IH. ring.
Qed.

Lemma small_add (x : C) s t : (s < p)%N -> (t < p)%N -> x + e_u64 C s = x + e_u64 C t -> s = t.
Proof using HC.
  intros Hs Ht H. apply (u64_inj HC); [exact Hs|exact Ht|].
  transitivity ((x + e_u64 C s) - x); [ring|]. rewrite H. ring.
Qed.

(** Equal addresses carry equal values. *)
Theorem walk_consistent a v m : walks a m -> consistent a v m -> (N.of_nat m <= p)%N ->
  forall i j, (i < m)%nat -> (j < m)%nat -> a i = a j -> v i = v j.
Proof using HC.
  intros Hw Hc Hm.
  assert (Hle : forall i d, (i + d < m)%nat -> moves a i = moves a (i + d) -> v i = v (i + d)%nat).
  { intros i d. induction d as [|d IH]; intros Hd He; [now rewrite Nat.add_0_r|].
    rewrite Nat.add_succ_r in *.
    assert (H1 : moves a i = moves a (i + d)).
    { pose proof (moves_mono a i (i + d) ltac:(lia)). pose proof (moves_mono a (i + d) (S (i + d)) ltac:(lia)). lia. }
    rewrite (IH ltac:(lia) H1).
    assert (Ha : a (S (i + d)) = a (i + d)%nat).
    { rewrite (walk_moves a m (S (i + d)) Hw), (walk_moves a m (i + d)%nat Hw) by lia. now rewrite <- He, H1. }
    specialize (Hc (i + d)%nat ltac:(lia)). rewrite Nat.add_1_r, Ha in Hc.
    apply (mul_zero HK) in Hc. destruct Hc as [Hc|Hc]; [now apply (sub_zero HK)|].
    exfalso. destruct (fld_th C HK) as [_ H10 _ _]. apply H10.
    transitivity (- (a (i + d)%nat - a (i + d)%nat - 1)); [ring|]. rewrite Hc. ring. }
  intros i j Hi Hj He.
  assert (Hmv : moves a i = moves a j).
  { rewrite (walk_moves a m i Hw Hi), (walk_moves a m j Hw Hj) in He. apply Nat2N.inj.
    pose proof (moves_le a i). pose proof (moves_le a j). apply (small_add (a O)); [lia|lia|exact He]. }
  destruct (Nat.le_ge_cases i j) as [L|L].
  - replace j with (i + (j - i))%nat by lia. apply Hle; [lia|]. now replace (i + (j - i))%nat with j by lia.
  - symmetry. replace i with (j + (i - j))%nat by lia. apply Hle; [lia|]. now replace (j + (i - j))%nat with i by lia.
Qed.

(** The addresses are the interval from the first to the last. *)
Theorem walk_interval a m : walks a (S m) -> exists d : nat, (d <= m)%nat /\ a m = a O + e_u64 C (N.of_nat d) /\
  forall x, (exists k, (k < S m)%nat /\ a k = x) <-> (exists t, (t <= d)%nat /\ x = a O + e_u64 C (N.of_nat t)).
Proof using HC.
  intro Hw. exists (moves a m). split; [apply moves_le|]. split; [apply (walk_moves a (S m)); [exact Hw|lia]|].
  intro x. split.
  - intros (k & Hk & <-). exists (moves a k). split; [apply moves_mono; lia|]. now apply (walk_moves a (S m)).
  - intros (t & Ht & ->). destruct (moves_onto a m t Ht) as (j & Hj & <-). exists j. split; [lia|].
    apply (walk_moves a (S m)); [exact Hw|lia].
Qed.

(** A walk from [lo] to [hi] stays between them. *)
Theorem walk_bounds a m lo hi : walks a (S m) -> (N.of_nat m + lo < p)%N -> (hi < p)%N ->
  a O = e_u64 C lo -> a m = e_u64 C hi ->
  (lo <= hi)%N /\ forall k, (k < S m)%nat -> exists x, (lo <= x <= hi)%N /\ a k = e_u64 C x.
Proof using HC.
  intros Hw Hlo Hhi H0 Hm.
  assert (E : (lo + N.of_nat (moves a m) = hi)%N).
  { apply (u64_inj HC); [pose proof (moves_le a m); lia|exact Hhi|]. rewrite (co_add _ _ HC), <- H0, <- Hm.
    symmetry. apply (walk_moves a (S m)); [exact Hw|lia]. }
  split; [lia|]. intros k Hk. exists (lo + N.of_nat (moves a k))%N. split.
  - pose proof (moves_mono a k m ltac:(lia)). lia.
  - rewrite (co_add _ _ HC), <- H0. now apply (walk_moves a (S m)).
Qed.

(** ** Running products *)
Definition upto (f : nat -> C) (m : nat) : list C := map f (seq 0 m).
Lemma vanish_upto_S (f : nat -> C) m z : vanish (upto f (S m)) z = vanish (upto f m) z * (z - f m).
Proof using HC.
  unfold upto. rewrite seq_S, map_app, (vanish_app HK). cbn [map Nat.add]. rewrite vanish_cons. unfold vanish. cbn. ring.
Qed.

Definition running (s o q : nat -> C) (z : C) (m : nat) : Prop :=
  forall k, (k + 1 < m)%nat -> (z - s (k + 1)%nat) * q (k + 1)%nat - (z - o (k + 1)%nat) * q k = 0.

(** With the first product tied to the first entries, the last product is the quotient. *)
Lemma running_products s o q z m : running s o q z m -> (z - s O) * q O = z - o O ->
  forall k, (k < m)%nat -> q k * vanish (upto s (S k)) z = vanish (upto o (S k)) z.
Proof using HC.
  intros Hr H0. induction k as [|k IH]; intro Hk.
  - rewrite !vanish_upto_S. unfold upto, vanish. cbn. transitivity ((z - s O) * q O); [ring|]. rewrite H0. ring.
  - rewrite vanish_upto_S, (vanish_upto_S o (S k)). rewrite <- IH by lia.
    specialize (Hr k ltac:(lia)). rewrite Nat.add_1_r in Hr. apply (proj1 (sub_zero HK _ _)) in Hr.
    transitivity (vanish (upto s (S k)) z * ((z - s (S k)) * q (S k))); [ring|]. rewrite Hr. ring.
Qed.

(** Solving the running products backwards from any final value. *)
Fixpoint backwards (s o : nat -> C) (z final : C) (m : nat) (r : nat) : C :=
  match r with
  | O => final
  | S r' => backwards s o z final m r' * (z - s (m - r)%nat) / (z - o (m - r)%nat)
  end.
Definition solved (s o : nat -> C) (z final : C) (m k : nat) : C := backwards s o z final m (m - 1 - k).
Lemma solved_last s o z final m : solved s o z final m (m - 1) = final.
Proof using Type. unfold solved. now rewrite Nat.sub_diag. Qed.
Lemma solved_running s o z final m : (forall k, (1 <= k < m)%nat -> z - o k <> 0) -> running s o (solved s o z final m) z m.
Proof using HC.
  intros Hne k Hk. unfold solved. replace (m - 1 - k)%nat with (S (m - 1 - (k + 1))) by lia. cbn [backwards].
  replace (m - S (m - 1 - (k + 1)))%nat with (k + 1)%nat by lia. field. apply Hne. lia.
Qed.
End Walk.
