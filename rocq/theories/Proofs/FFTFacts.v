(** Roots of unity, cosets, and correctness of the (reference) interpolation. *)
From Coq Require Import List Arith Lia Bool PArith NArith.
From Verif.Base Require Import Outcome Field Poly.
From Verif.Proofs Require Import FieldFacts PolyFacts.
Import ListNotations.

Section Roots.
Context {K : field_ops} (HK : field_ok K).
Local Open Scope felt_scope.
Add Field Kfield3 : (fld_th K HK).

(** [w] is a primitive [n]-th root of unity. *)
Definition is_prim (w : K) (n : nat) : Prop :=
  fpow w n = 1 /\ forall i, 0 < i < n -> fpow w i <> 1.

Lemma prim_nonzero w n : 0 < n -> is_prim w n -> w <> 0.
Proof using HK.
  intros Hn [H _] E. subst. rewrite (fpow_zero HK) in H by lia. symmetry in H. now apply (one_neq_zero HK) in H.
Qed.

Lemma opp_one_neq : (1:K) + 1 <> 0 -> - (1:K) <> 1.
Proof using HK. intros H E. apply H. rewrite <- E at 1. ring. Qed.

(** A root whose 2^(k-1)-th power is -1 is a primitive 2^k-th root. *)
Lemma half_prim k (w : K) : (1:K) + 1 <> 0 -> fpow w (2 ^ k) = - (1) -> is_prim w (2 ^ S k).
Proof using HK.
  intros Hc. revert w. induction k as [|k IH]; intros w H.
  - split.
    + change (2 ^ 1)%nat with 2%nat. rewrite (fpow_2 HK). cbn [Nat.pow] in H. rewrite (fpow_1 HK) in H. rewrite H. ring.
    + intros i Hi. change (2 ^ 1)%nat with 2%nat in Hi. assert (i = 1%nat) by lia. subst.
      cbn [Nat.pow] in H. rewrite H. now apply opp_one_neq.
  - assert (Hsq : fpow (w * w) (2 ^ k) = - (1)).
    { rewrite <- (fpow_2 HK), <- (fpow_mul HK). exact H. }
    destruct (IH _ Hsq) as [H1 H2]. split.
    + replace (2 ^ S (S k))%nat with (2 * 2 ^ S k)%nat by (cbn; lia). rewrite (fpow_mul HK), (fpow_2 HK). exact H1.
    + intros i Hi E. destruct (Nat.Even_or_Odd i) as [[j Hj]|[j Hj]].
      * subst. rewrite (fpow_mul HK), (fpow_2 HK) in E. apply (H2 j); [|exact E].
        change (2 ^ S (S k))%nat with (2 * 2 ^ S k)%nat in Hi. lia.
      * assert (E2 : fpow (fpow w i) (2 ^ S k) = 1) by (rewrite E; apply (fpow_one HK)).
        rewrite (fpow_comm HK), H in E2. rewrite Hj in E2.
        rewrite (fpow_add HK), (fpow_mul HK), (fpow_2 HK), (fpow_1 HK) in E2.
        replace (- (1:K) * - (1)) with (1:K) in E2 by ring. rewrite (fpow_one HK) in E2.
        apply opp_one_neq in Hc. apply Hc. transitivity ((1:K) * - (1)); [ring|exact E2].
Qed.

Lemma prim_pow_mod w n i : 0 < n -> is_prim w n -> fpow w (i mod n) = fpow w i.
Proof using HK.
  intros Hn [H _]. rewrite (Nat.div_mod i n) at 2 by lia.
  rewrite (fpow_add HK), (fpow_mul HK), H, (fpow_one HK). ring.
Qed.

Lemma prim_inj w n i j : is_prim w n -> i < n -> j < n -> fpow w i = fpow w j -> i = j.
Proof using HK.
  intros Hp Hi Hj H.
  assert (Hw : w <> 0) by (apply (prim_nonzero w n); [lia|exact Hp]).
  destruct (Nat.lt_trichotomy i j) as [L|[E|L]]; [|exact E|]; exfalso.
  - destruct Hp as [_ Hp]. apply (Hp (j - i)%nat); [lia|]. apply (mul_cancel_l HK (fpow w i)); [now apply (fpow_nonzero HK)|].
    rewrite <- (fpow_add HK). replace (i + (j - i))%nat with j by lia. rewrite <- H. ring.
  - destruct Hp as [_ Hp]. apply (Hp (i - j)%nat); [lia|]. apply (mul_cancel_l HK (fpow w j)); [now apply (fpow_nonzero HK)|].
    rewrite <- (fpow_add HK). replace (j + (i - j))%nat with i by lia. rewrite H. ring.
Qed.

(** The coset [h * <w>], in the order of the code. *)
Definition coset (w h : K) (n : nat) : list K := map (fun i => h * fpow w i) (seq 0 n).

Lemma coset_length w h n : length (coset w h n) = n.
Proof using Type. unfold coset. rewrite map_length. apply seq_length. Qed.

Lemma coset_nodup w h n : is_prim w n -> h <> 0 -> NoDup (coset w h n).
Proof using HK.
  intros Hp Hh. unfold coset.
  assert (forall l, NoDup l -> (forall i, In i l -> i < n) -> NoDup (map (fun i => h * fpow w i) l)) as G.
  { induction l as [|i l IH]; intros Hnd Hb; cbn [map]; constructor.
    - rewrite in_map_iff. intros (j & E & Hj). inversion Hnd; subst.
      apply (mul_cancel_l HK) in E; [|exact Hh]. apply (prim_inj w n) in E; [subst; contradiction|exact Hp| |].
      + apply Hb. now right.
      + apply Hb. now left.
    - apply IH; [now inversion Hnd|]. intros. apply Hb. now right. }
  apply G; [apply seq_NoDup|]. intros i Hi. apply in_seq in Hi. lia.
Qed.

Lemma coset_in w h n x : In x (coset w h n) <-> exists i, i < n /\ x = h * fpow w i.
Proof using Type.
  unfold coset. rewrite in_map_iff. split.
  - intros (i & E & Hi). apply in_seq in Hi. exists i. split; [lia|congruence].
  - intros (i & Hi & E). exists i. split; [congruence|]. apply in_seq. lia.
Qed.

(** X^n - 1 is the product of the X - w^i. *)
Lemma vanish_coset w n x : 0 < n -> is_prim w n -> vanish (coset w 1 n) x = fpow x n - 1.
Proof using HK.
  intros Hn Hp.
  set (p := padd_raw [- (1)] (xpow n) : poly K).
  assert (Hev : forall y, peval p y = fpow y n - 1).
  { intro y. unfold p. rewrite (peval_padd_raw HK), (peval_xpow HK). cbn [peval]. ring. }
  destruct (roots_divide HK (coset w 1 n) p) as (q & Hl & Hq & Hlast).
  - apply coset_nodup; [exact Hp|apply (one_neq_zero HK)].
  - intros a Ha. apply coset_in in Ha. destruct Ha as (i & Hi & ->). rewrite Hev.
    replace (1 * fpow w i) with (fpow w i) by ring. rewrite (fpow_comm HK).
    destruct Hp as [-> _]. rewrite (fpow_one HK). ring.
  - rewrite coset_length in *. unfold p in Hl. rewrite padd_raw_length, xpow_length in Hl. cbn [length] in Hl.
    assert (Hq1 : length q = 1%nat) by lia. destruct q as [|c [|? ?]]; cbn in Hq1; try lia.
    assert (Hlp : last p 0 = 1).
    { unfold p, xpow. destruct n as [|m]; [lia|]. cbn [repeat app padd_raw].
      change (last ((- (1) + 0) :: repeat 0 m ++ [1]) 0 = (1:K)). rewrite app_comm_cons.
      now rewrite last_last. }
    rewrite <- Hev, Hq. assert (Hc : c = 1).
    { rewrite <- Hlp. rewrite <- Hlast; [reflexivity|]. unfold p. rewrite padd_raw_length, xpow_length. cbn. lia. }
    cbn [peval]. rewrite Hc. ring.
Qed.

Lemma root_of_unity_in w n x : 0 < n -> is_prim w n -> fpow x n = 1 -> In x (coset w 1 n).
Proof using HK.
  intros Hn Hp H. apply (vanish_zero HK). rewrite vanish_coset by assumption. rewrite H. ring.
Qed.

(** ** Orthogonality and interpolation *)
Lemma geom_sum (u : K) n : (u - 1) * fsum (map (fun k => fpow u k) (seq 0 n)) = fpow u n - 1.
Proof using HK.
  induction n as [|n IH]; [cbn; ring|].
  rewrite seq_S, map_app, (fsum_app HK). cbn [map fsum fold_right Nat.add].
  transitivity ((u - 1) * fsum (map (fun k => fpow u k) (seq 0 n)) + (u - 1) * fpow u n); [ring|].
  rewrite IH. cbn [fpow]. ring.
Qed.

Lemma fsum_const (c : K) {A} (l : list A) : fsum (map (fun _ => c) l) = fnat (length l) * c.
Proof using HK.
  induction l as [|a l IH]; cbn [map length fsum fold_right fnat]; [ring|].
  fold (fsum (map (fun _ => c) l)). rewrite IH. ring.
Qed.

Lemma fsum_delta (f : nat -> K) n j : j < n ->
  (forall i, i < n -> i <> j -> f i = 0) -> fsum (map f (seq 0 n)) = f j.
Proof using HK.
  intros Hj H. induction n as [|n IH]; [lia|].
  rewrite seq_S, map_app, (fsum_app HK). cbn [map fsum fold_right Nat.add].
  destruct (Nat.eq_dec j n) as [->|Hne].
  - assert (E : fsum (map f (seq 0 n)) = 0).
    { rewrite (map_ext_in f (fun _ => 0)); [apply (fsum_const_zero HK)|].
      intros i Hi. apply in_seq in Hi. apply H; lia. }
    rewrite E. ring.
  - fold (fsum (map f (seq 0 n))). rewrite IH; [|lia|intros; apply H; lia].
    rewrite (H n); [ring|lia|congruence].
Qed.

Lemma combine_seq_map {A} (l : list A) (d : A) (s : nat) :
  combine (seq s (length l)) l = map (fun i => (i, nth (i - s) l d)) (seq s (length l)).
Proof using Type.
  revert s; induction l as [|a l IH]; intro s; [reflexivity|].
  cbn [length seq combine map]. rewrite Nat.sub_diag. cbn [nth]. f_equal.
  rewrite IH. apply map_ext_in. intros i Hi. apply in_seq in Hi.
  replace (i - s)%nat with (S (i - S s)) by lia. reflexivity.
Qed.

Lemma nth_map_seq {A} (f : nat -> A) n k d : k < n -> nth k (map f (seq 0 n)) d = f k.
Proof using Type.
  intro H. rewrite (nth_indep _ d (f 0%nat)) by (rewrite map_length, seq_length; lia).
  rewrite map_nth. now rewrite seq_nth by lia.
Qed.

Lemma idft_length (KF : fft_ops) (w h : KF) evals : length (idft w h evals) = length evals.
Proof using Type. unfold idft. now rewrite map_length, seq_length. Qed.
End Roots.

Section FFTFacts.
Context {K : fft_ops} (HF : fft_ok K).
Local Open Scope felt_scope.
Let HK : field_ok K := fft_field_ok K HF.
Add Field Kfield4 : (fld_th K HK).

Lemma fnat_pow2 r : fnat (2 ^ r) <> (0 : K).
Proof using HF.
  assert (G : forall m n, fnat (m + n) = (fnat m + fnat n : K)).
  { induction m as [|m IH]; intro n; cbn [Nat.add fnat]; [ring|]. rewrite IH. ring. }
  induction r as [|r IH]; [cbn; intro E; apply (one_neq_zero HK); rewrite <- E; ring|].
  replace (2 ^ S r)%nat with (2 ^ r + 2 ^ r)%nat by (cbn; lia). rewrite G.
  replace (fnat (2 ^ r) + fnat (2 ^ r)) with ((1 + 1) * fnat (2 ^ r) : K) by ring.
  apply (mul_nonzero HK); [exact (fft_char K HF)|exact IH].
Qed.

Theorem idft_eval (w h : K) (evals : list K) j :
  is_prim w (length evals) -> h <> 0 -> fnat (length evals) <> (0:K) -> j < length evals ->
  peval (idft w h evals) (h * fpow w j) = nth j evals 0.
Proof using HF.
  intros Hp Hh Hn Hj. set (n := length evals) in *.
  assert (Hw : w <> 0) by (apply (prim_nonzero HK w n); [lia|exact Hp]).
  rewrite (peval_sum HK). rewrite idft_length. fold n. unfold idft, coef. fold n.
  rewrite (map_ext_in _ (fun k => finv (fnat n) *
     fsum (map (fun i => nth i evals 0 * fpow (fpow w j * fpow (finv w) i) k) (seq 0 n)))).
  2:{ intros k Hk. apply in_seq in Hk.
      rewrite nth_map_seq by lia.
      unfold n at 2. rewrite (combine_seq_map evals 0 0). fold n. rewrite map_map. cbn [fst snd].
      rewrite (fpow_mul_base HK), (fpow_inv HK) by exact Hh.
      rewrite (map_ext (fun i => nth i evals 0 * fpow (fpow w j * fpow (finv w) i) k)
                 (fun i => fpow (fpow w j) k * (nth i evals 0 * fpow (fpow (finv w) i) k))).
      2:{ intro i. rewrite (fpow_mul_base HK). ring. }
      rewrite (fsum_scale HK).
      rewrite (map_ext (fun x : nat => nth (x - 0) evals 0 * fpow (fpow (finv w) x) k)
                 (fun i => nth i evals 0 * fpow (fpow (finv w) i) k)).
      2:{ intro i. now rewrite Nat.sub_0_r. }
      field. split; [exact Hn|now apply (fpow_nonzero HK)]. }
  rewrite (fsum_scale HK), (fsum_swap HK).
  rewrite (map_ext _ (fun i => nth i evals 0 * fsum (map (fun k => fpow (fpow w j * fpow (finv w) i) k) (seq 0 n)))).
  2:{ intro i. rewrite (fsum_scale HK). reflexivity. }
  rewrite (fsum_delta HK _ n j Hj).
  - assert (E1 : fpow w j * fpow (finv w) j = 1).
    { rewrite <- (fpow_mul_base HK), (inv_r HK) by exact Hw. apply (fpow_one HK). }
    rewrite E1. rewrite (map_ext _ (fun _ => 1)) by (intro; apply (fpow_one HK)).
    rewrite (fsum_const HK), seq_length. field. exact Hn.
  - intros i Hi Hne. set (u := fpow w j * fpow (finv w) i).
    assert (Hu : u <> 1).
    { intro E. apply Hne. symmetry. apply (prim_inj HK w n); [exact Hp|exact Hj|exact Hi|].
      unfold u in E. rewrite (fpow_inv HK) in E by exact Hw.
      transitivity (fpow w j * finv (fpow w i) * fpow w i).
      - field. now apply (fpow_nonzero HK).
      - rewrite E. ring. }
    assert (Hun : fpow u n = 1).
    { unfold u. rewrite (fpow_mul_base HK), (fpow_inv HK) by exact Hw.
      rewrite (fpow_inv HK) by (now apply (fpow_nonzero HK)).
      rewrite !(fpow_comm HK w _ n). destruct Hp as [-> _]. rewrite !(fpow_one HK).
      field. apply (one_neq_zero HK). }
    pose proof (geom_sum HK u n) as G. rewrite Hun in G.
    replace (1 - 1) with (0:K) in G by ring. apply (mul_zero HK) in G. destruct G as [G|G].
    + apply (proj1 (sub_zero HK _ _)) in G. contradiction.
    + rewrite G. ring.
Qed.

Lemma primitive_root_prim r (w : K) : 1 <= r -> primitive_root r = Some w -> is_prim w (2 ^ r) /\ r <= two_adicity K.
Proof using HF.
  intros Hr. unfold primitive_root. destruct (Nat.eqb_spec r 0); [lia|].
  destruct (Nat.ltb_spec (two_adicity K) r); [discriminate|]. intro E. injection E as <-. split; [|lia].
  destruct r as [|r]; [lia|]. apply (half_prim HK); [exact (fft_char K HF)|].
  rewrite <- (fsquare_n_pow HK). pose proof (fft_root_half K HF) as Hh.
  rewrite !(fsquare_n_pow HK) in *. rewrite <- (fpow_mul HK), <- Nat.pow_add_r.
  replace (two_adicity K - S r + r)%nat with (two_adicity K - 1)%nat by lia. exact Hh.
Qed.

Lemma primitive_root_some r : 1 <= r <= two_adicity K -> exists w : K, primitive_root r = Some w.
Proof using Type.
  intros H. unfold primitive_root. destruct (Nat.eqb_spec r 0); [lia|].
  destruct (Nat.ltb_spec (two_adicity K) r); [lia|]. eauto.
Qed.

(** Roots of different orders are compatible. *)
Lemma primitive_root_pow r d (w w' : K) :
  1 <= r -> primitive_root r = Some w -> primitive_root (r + d) = Some w' -> fpow w' (2 ^ d) = w.
Proof using HF.
  intros Hr. unfold primitive_root. destruct (Nat.eqb_spec r 0); [lia|]. destruct (Nat.eqb_spec (r + d) 0); [lia|].
  destruct (Nat.ltb_spec (two_adicity K) r); [discriminate|].
  destruct (Nat.ltb_spec (two_adicity K) (r + d)); [discriminate|].
  intros E1 E2. injection E1 as <-. injection E2 as <-. rewrite !(fsquare_n_pow HK), <- (fpow_mul HK), <- Nat.pow_add_r.
  do 2 f_equal. lia.
Qed.

(** ** Powers of two *)
Lemma is_pow2_spec n : is_pow2 n = true <-> exists r, n = (2 ^ r)%nat.
Proof using Type.
  unfold is_pow2, next_pow2. rewrite Nat.eqb_eq. split.
  - intro H. exists (Nat.log2_up n). now symmetry.
  - intros (r & ->). f_equal. apply Nat.log2_up_pow2. lia.
Qed.

Lemma tz_pos_pow2 r : trailing_zeros (2 ^ r) = r.
Proof using Type.
  unfold trailing_zeros. rewrite Nnat.Nat2N.inj_pow. change (N.of_nat 2) with 2%N.
  induction r as [|r IH]; [reflexivity|].
  rewrite Nnat.Nat2N.inj_succ, N.pow_succ_r'. destruct (2 ^ N.of_nat r)%N eqn:E.
  - exfalso. apply (N.pow_nonzero 2 (N.of_nat r)); [discriminate|exact E].
  - cbn [N.mul tz_pos]. cbn. now rewrite IH.
Qed.

Lemma next_pow2_le n m : n <= (2 ^ m)%nat -> next_pow2 (Nat.max n (2 ^ m)) = (2 ^ m)%nat.
Proof using Type.
  intro H. unfold next_pow2. rewrite Nat.max_r by exact H. now rewrite Nat.log2_up_pow2 by lia.
Qed.

Lemma pow2_pos r : 0 < (2 ^ r)%nat.
Proof using Type. pose proof (Nat.pow_nonzero 2 r). lia. Qed.

Theorem interpolate_offset_ok (evals : list K) (h : K) r w :
  length evals = (2 ^ r)%nat -> 1 <= r -> h <> 0 -> primitive_root r = Some w ->
  exists p, interpolate_offset_fft evals h = Ok p /\ length p <= length evals /\
    (forall j, j < length evals -> peval p (h * fpow w j) = nth j evals 0) /\
    (forall m, (forall i, m <= i -> coef (idft w h evals) i = 0) -> length p <= m).
Proof using HF.
  intros Hl Hr Hh Hw. unfold interpolate_offset_fft.
  assert (Hp2 : is_pow2 (length evals) = true) by (apply is_pow2_spec; eauto). rewrite Hp2.
  assert (Hlog : Nat.log2 (length evals) = r) by (rewrite Hl; apply Nat.log2_pow2; lia). rewrite Hlog, Hw.
  eexists. split; [reflexivity|]. split.
  { etransitivity; [apply trim_length|]. now rewrite idft_length. }
  split.
  - intros j Hj. rewrite (peval_trim HK). apply idft_eval; [|exact Hh| |exact Hj].
    + rewrite Hl. now apply primitive_root_prim.
    + rewrite Hl. apply fnat_pow2.
  - intros m Hm. now apply (trim_length_le HK).
Qed.

(** Interpolating the values of a polynomial [q] of small degree gives back [q]. *)
Theorem interpolate_offset_unique (evals : list K) (h : K) r w p (q : poly K) :
  length evals = (2 ^ r)%nat -> 1 <= r -> h <> 0 -> primitive_root r = Some w ->
  interpolate_offset_fft evals h = Ok p ->
  length q <= length evals -> (forall j, j < length evals -> peval q (h * fpow w j) = nth j evals 0) ->
  (forall x, peval p x = peval q x) /\ length p <= length q.
Proof using HF.
  intros Hl Hr Hh Hw Hi Hq Hev.
  destruct (interpolate_offset_ok evals h r w Hl Hr Hh Hw) as (p' & Hi' & Hlp & Hevp & Htr).
  rewrite Hi in Hi'. injection Hi' as <-.
  assert (Hprim : is_prim w (2 ^ r)) by (now apply primitive_root_prim).
  assert (Hnd : NoDup (coset w h (2 ^ r))) by (now apply (coset_nodup HK)).
  assert (Hc : forall i, coef (idft w h evals) i = coef q i).
  { apply (agree_coef HK (coset w h (2 ^ r))); [exact Hnd| |rewrite idft_length, coset_length; lia|rewrite coset_length; lia].
    intros a Ha. apply coset_in in Ha. destruct Ha as (i & Hi' & ->).
    rewrite idft_eval; [symmetry; apply Hev; lia|now rewrite Hl|exact Hh|rewrite Hl; apply fnat_pow2|lia]. }
  split.
  - intro x. unfold interpolate_offset_fft in Hi.
    assert (Hp2 : is_pow2 (length evals) = true) by (apply is_pow2_spec; eauto). rewrite Hp2 in Hi.
    assert (Hlog : Nat.log2 (length evals) = r) by (rewrite Hl; apply Nat.log2_pow2; lia). rewrite Hlog, Hw in Hi.
    apply (f_equal (fun o => match o with Ok z => z | _ => [] end)) in Hi. rewrite <- Hi, (peval_trim HK).
    apply (peval_coef_ext HK). exact Hc.
  - apply Htr. intros i Hi'. rewrite Hc. unfold coef. now apply nth_overflow.
Qed.
End FFTFacts.
