(** Proth's criterion: an element whose [2^k]-th power is [-1] modulo [p < 4^(k+1)] shows that [p] is prime. *)
From Coq Require Import ZArith Znumtheory Zpow_facts Lia List Arith.
Import ListNotations.
Local Open Scope Z_scope.

Fixpoint sqm (k : nat) (p b : Z) : Z := match k with O => b | S k' => sqm k' p (b * b mod p) end.

Lemma sqm_pow k : forall p b, 1 < p -> sqm k p b mod p = b ^ (2 ^ Z.of_nat k) mod p.
Proof.
  induction k as [|k IH]; intros p b Hp.
  - cbn [sqm]. rewrite Z.pow_1_r. reflexivity.
  - cbn [sqm]. rewrite IH by lia. rewrite Nat2Z.inj_succ, Z.pow_succ_r, Z.pow_mul_r by lia.
    rewrite Zpower_mod by lia. rewrite Z.mod_mod by lia. rewrite <- Zpower_mod by lia. f_equal. f_equal. ring.
Qed.

(** Divisibility form of congruence. *)
Definition cong (d x y : Z) : Prop := (d | x - y).
Lemma cong_mul d a b x y : cong d a b -> cong d x y -> cong d (a * x) (b * y).
Proof. intros [u Hu] [v Hv]. exists (u * x + b * v). lia. Qed.
Lemma cong_pow d a b n : 0 <= n -> cong d a b -> cong d (a ^ n) (b ^ n).
Proof.
  intros Hn H. revert n Hn. apply natlike_ind.
  - exists 0. lia.
  - intros n Hn IH. rewrite !Z.pow_succ_r by lia. now apply cong_mul.
Qed.
Lemma cong_trans d a b c : cong d a b -> cong d b c -> cong d a c.
Proof. intros [u Hu] [v Hv]. exists (u + v). lia. Qed.
Lemma cong_sym d a b : cong d a b -> cong d b a.
Proof. intros [u Hu]. exists (- u). lia. Qed.

Lemma two_part n : 0 < n -> exists s o, 0 <= s /\ 0 <= o /\ n = 2 ^ s * (2 * o + 1).
Proof.
  intros H. assert (Hn : 1 <= n) by lia. clear H. revert n Hn. apply (Zlt_lower_bound_ind _ 1).
  intros n IH Hn. destruct (Z.Even_or_Odd n) as [[m ->]|[m ->]].
  - destruct (IH m ltac:(lia)) as (s & o & Hs & Ho & E). exists (s + 1), o. rewrite Z.pow_add_r by lia. lia.
  - exists 0, m. rewrite Z.pow_0_r. lia.
Qed.

Section Proth.
Context (p b : Z) (k : nat) (Hp : 1 < p) (Hodd : p mod 2 = 1) (Hb : cong p (b ^ (2 ^ Z.of_nat k)) (-1)).
Context (Hsize : p < 2 ^ (2 * (Z.of_nat k + 1))).
Let q := 2 ^ (Z.of_nat k + 1).

Lemma div_odd d : (d | p) -> 1 < d -> ~ (d | 2).
Proof using All.
  intros [u Hu] Hd [v Hv]. assert (d = 2) by (assert (0 < v) by nia; assert (v < 2) by nia; nia). subst d.
  rewrite Hu, Z.mod_mul in Hodd by lia. lia.
Qed.

Lemma cong_div d : (d | p) -> cong d (b ^ (2 ^ Z.of_nat k)) (-1).
Proof using All. intro H. destruct H as [u Hu]. destruct Hb as [v Hv]. exists (v * u). rewrite <- Z.mul_assoc, <- Hu. exact Hv. Qed.

Lemma pow_full d : (d | p) -> cong d (b ^ q) 1.
Proof using All.
  intro H. unfold q. rewrite Z.pow_add_r, Z.pow_mul_r, Z.pow_1_r, Z.pow_2_r by lia.
  change 1 with (-1 * -1). apply cong_mul; now apply cong_div.
Qed.

(** no power below [q] is 1 *)
Lemma no_early d n : (d | p) -> 1 < d -> 0 < n < q -> ~ cong d (b ^ n) 1.
Proof using All.
  intros Hdiv Hd Hn H. destruct (two_part n ltac:(lia)) as (s & o & Hs & Ho & E).
  assert (Hsk : s <= Z.of_nat k).
  { destruct (Z_le_gt_dec s (Z.of_nat k)) as [|G]; [assumption|].
    assert (q <= 2 ^ s) by (unfold q; apply Z.pow_le_mono_r; lia). pose proof (Z.pow_pos_nonneg 2 s). nia. }
  apply (div_odd d Hdiv Hd). assert (H1 : cong d ((b ^ n) ^ (2 ^ (Z.of_nat k - s))) 1).
  { pose proof (cong_pow d _ _ (2 ^ (Z.of_nat k - s)) ltac:(apply Z.pow_nonneg; lia) H) as G.
    rewrite Z.pow_1_l in G by (apply Z.pow_nonneg; lia). exact G. }
  assert (H2 : cong d ((b ^ n) ^ (2 ^ (Z.of_nat k - s))) (-1)).
  { pose proof (Z.pow_nonneg 2 s ltac:(lia)). pose proof (Z.pow_nonneg 2 (Z.of_nat k - s) ltac:(lia)).
    rewrite <- Z.pow_mul_r by lia.
    replace (n * 2 ^ (Z.of_nat k - s)) with (2 ^ Z.of_nat k * (2 * o + 1)).
    2:{ rewrite E. replace (Z.of_nat k) with (s + (Z.of_nat k - s)) at 1 by lia. rewrite Z.pow_add_r by lia. ring. }
    rewrite Z.pow_mul_r by (try apply Z.pow_nonneg; lia).
    pose proof (cong_pow d _ _ (2 * o + 1) ltac:(lia) (cong_div d Hdiv)) as G.
    replace ((-1) ^ (2 * o + 1)) with (-1) in G; [exact G|].
    rewrite Z.pow_add_r, Z.pow_mul_r by lia. change ((-1) ^ 2) with 1. rewrite Z.pow_1_l by lia. reflexivity. }
  destruct H1 as [u Hu], H2 as [v Hv]. exists (v - u). lia.
Qed.

Lemma div_large d : (d | p) -> 1 < d -> q < d.
Proof using All.
  intros Hdiv Hd. destruct (Z_lt_ge_dec q d) as [|G]; [assumption|exfalso].
  pose proof (Z.pow_pos_nonneg 2 (Z.of_nat k + 1) ltac:(lia) ltac:(lia)) as Hq. fold q in Hq.
  (* the powers are units, so none is 0 modulo d *)
  assert (Hunit : forall i, 0 <= i <= q -> b ^ i mod d <> 0).
  { intros i Hi E. apply Z.mod_divide in E; [|lia]. destruct (pow_full d Hdiv) as [u Hu].
    assert (Hd1 : (d | 1)).
    { destruct E as [v Hv]. exists (v * b ^ (q - i) - u).
      assert (Hs : b ^ q = b ^ i * b ^ (q - i)) by (rewrite <- Z.pow_add_r by lia; f_equal; lia).
      rewrite Hs, Hv in Hu. set (x := b ^ (q - i)) in *. lia. }
    apply Z.divide_1_r_nonneg in Hd1; lia. }
  set (f := fun i : nat => Z.to_nat (b ^ Z.of_nat i mod d)).
  assert (Hnd : NoDup (map f (seq 0 (Z.to_nat q)))).
  { assert (Hinj : forall i j, (i < j < Z.to_nat q)%nat -> f i <> f j).
    { intros i j Hij E. unfold f in E. apply Z2Nat.inj in E; [|apply Z.mod_pos_bound; lia..].
      assert (Hc : cong d (b ^ Z.of_nat i) (b ^ Z.of_nat j)).
      { apply Z.mod_divide; [lia|]. rewrite Zminus_mod, E, Z.sub_diag. apply Z.mod_0_l. lia. }
      apply (no_early d (Z.of_nat j - Z.of_nat i) Hdiv Hd ltac:(lia)).
      (* multiply by the complementary power *)
      set (c := q - Z.of_nat i).
      pose proof (cong_mul d _ _ _ _ Hc (ltac:(exists 0; lia) : cong d (b ^ c) (b ^ c))) as G2.
      rewrite <- !Z.pow_add_r in G2 by (unfold c; lia).
      replace (Z.of_nat i + c) with q in G2 by (unfold c; lia).
      replace (Z.of_nat j + c) with (q + (Z.of_nat j - Z.of_nat i)) in G2 by (unfold c; lia).
      rewrite Z.pow_add_r in G2 by lia.
      pose proof (pow_full d Hdiv) as [u Hu]. destruct G2 as [v Hv].
      set (x := b ^ (Z.of_nat j - Z.of_nat i)) in *.
      exists (- v + u - u * x). replace (b ^ q) with (u * d + 1) in Hv by lia. lia. }
    generalize (Z.to_nat q) Hinj. clear. intros n Hinj.
    assert (G : forall m s, (s + m <= n)%nat -> NoDup (map f (seq s m))).
    { induction m as [|m IH]; intros s Hs; [constructor|]. cbn. constructor; [|apply IH; lia].
      intro Hin. apply in_map_iff in Hin. destruct Hin as (j & E & Hj). apply in_seq in Hj.
      apply (Hinj s j); [lia|now symmetry]. }
    apply G. lia. }
  assert (Hincl : incl (map f (seq 0 (Z.to_nat q))) (seq 1 (Z.to_nat d - 1))).
  { intros x Hx. apply in_map_iff in Hx. destruct Hx as (i & <- & Hi). apply in_seq in Hi. apply in_seq.
    pose proof (Hunit (Z.of_nat i) ltac:(lia)). pose proof (Z.mod_pos_bound (b ^ Z.of_nat i) d ltac:(lia)). unfold f. lia. }
  pose proof (NoDup_incl_length Hnd Hincl) as HL. rewrite map_length, !seq_length in HL. lia.
Qed.

Theorem proth : prime p.
Proof using All.
  apply prime_alt. split; [exact Hp|]. intros d Hd Hdiv.
  pose proof (div_large d Hdiv ltac:(lia)) as H1. destruct Hdiv as [e He].
  assert (He1 : 1 < e) by nia.
  pose proof (div_large e ltac:(exists d; lia) He1) as H2.
  assert (q * q = 2 ^ (2 * (Z.of_nat k + 1))) by (unfold q; rewrite <- Z.pow_add_r by lia; f_equal; lia).
  pose proof (Z.pow_pos_nonneg 2 (Z.of_nat k + 1) ltac:(lia) ltac:(lia)) as Hq. fold q in Hq. nia.
Qed.
End Proth.

Theorem proth_check p b k :
  1 < p -> p mod 2 = 1 -> p <? 2 ^ (2 * (Z.of_nat k + 1)) = true -> sqm k p b =? p - 1 = true -> prime p.
Proof.
  intros Hp Ho Hs Hb. apply (proth p b k Hp Ho); [|now apply Z.ltb_lt].
  apply Z.eqb_eq in Hb. apply Z.mod_divide; [lia|].
  rewrite Zminus_mod, <- sqm_pow, Hb, <- Zminus_mod by lia. replace (p - 1 - -1) with (1 * p) by lia. apply Z.mod_mul. lia.
Qed.
