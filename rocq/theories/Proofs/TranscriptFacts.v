(** Challenge sampling and the nonce search. *)
From Coq Require Import List Arith Lia Bool NArith PArith ZArith.
From Verif.Base Require Import Outcome Bytes Field Poly.
From Verif.Model Require Import Codec Trace Air Transcript Prover Verifier.
From Verif.Proofs Require Import BytesFacts OutcomeFacts FieldFacts PolyFacts FFTFacts.
Import ListNotations.

Section Sampling.
Context (E : env).
Notation T := (e_tr E).

Lemma batch_sample_length n (t : T) xs t' : batch_sample_challenges E n t = Ok (xs, t') -> length xs = n.
Proof.
  revert t xs; induction n as [|n IH]; intros t xs H; cbn [batch_sample_challenges] in H.
  - apply ok_inj in H. injection H as <- <-. reflexivity.
  - ok_step H. destruct v as [x t1]. ok_step H. destruct v as [ys t2]. apply ok_inj in H. injection H as <- <-.
    cbn [length]. f_equal. eapply IH. exact Hv0.
Qed.

Lemma batch_sample_app m n (t : T) : batch_sample_challenges E (m + n) t =
  obind (batch_sample_challenges E m t) (fun r => let '(xs, t1) := r in
  obind (batch_sample_challenges E n t1) (fun r => let '(ys, t2) := r in Ok (xs ++ ys, t2))).
Proof.
  revert t; induction m as [|m IH]; intro t; cbn [Nat.add batch_sample_challenges obind].
  - destruct (batch_sample_challenges E n t) as [[ys t2]| |]; reflexivity.
  - destruct (transcript_to_field E t) as [[x t1]| |]; cbn [obind]; try reflexivity. rewrite IH.
    destruct (batch_sample_challenges E m t1) as [[xs t2]| |]; cbn [obind]; try reflexivity.
    destruct (batch_sample_challenges E n t2) as [[ys t3]| |]; cbn [obind]; reflexivity.
Qed.

(** Sampling a matrix row by row is sampling its entries in sequence. *)
Lemma sample_rows_flat rows len (t : T) xs t' :
  batch_sample_challenges E (rows * len) t = Ok (xs, t') ->
  exists m, sample_rows E rows len t = Ok (m, t') /\ concat m = xs /\ length m = rows /\
            Forall (fun r => length r = len) m.
Proof.
  revert t xs; induction rows as [|rows IH]; intros t xs H; cbn [Nat.mul sample_rows] in *.
  - apply ok_inj in H. injection H as <- <-. exists []. repeat split. constructor.
  - rewrite batch_sample_app in H. ok_step H. destruct v as [ys t1]. ok_step H. destruct v as [zs t2].
    apply ok_inj in H. injection H as <- <-. destruct (IH _ _ Hv0) as (m & Hm & Hc & Hl & HF).
    exists (ys :: m). cbn [obind]. rewrite Hv. cbn [obind]. rewrite Hm. cbn [obind concat length].
    repeat split; [now rewrite Hc|now rewrite Hl|]. constructor; [|exact HF]. eapply batch_sample_length. exact Hv.
Qed.

Lemma sample_z_ood_spec (HK : field_ok E) fuel lde trace (t : T) z t' :
  sample_z_ood E fuel lde trace t = Ok (z, t') -> ~ In z lde /\ ~ In z trace.
Proof.
  revert t; induction fuel as [|fuel IH]; intros t H; cbn [sample_z_ood] in H; [discriminate|].
  ok_step H. destruct v as [v t1].
  destruct (existsb (fun x => feqb x v) lde) eqn:E1; cbn [negb andb] in H; [now apply IH in H|].
  destruct (existsb (fun x => feqb x v) trace) eqn:E2; cbn [negb andb] in H; [now apply IH in H|].
  apply ok_inj in H. injection H as <- <-.
  split; intro Hin; [apply not_true_iff_false in E1; apply E1|apply not_true_iff_false in E2; apply E2];
    apply existsb_exists; exists v; (split; [exact Hin|now apply (feqb_refl HK)]).
Qed.

Lemma sample_indices_spec n m (t : T) is t' : sample_indices E n m t = Ok (is, t') ->
  length is = n /\ forall i, In i is -> i < m.
Proof.
  revert t is; induction n as [|n IH]; intros t is H; cbn [sample_indices] in H.
  - apply ok_inj in H. injection H as <- <-. split; [reflexivity|intros i []].
  - ok_step H. destruct v as [v t1]. ok_step H. destruct (Nat.eqb_spec m 0); [discriminate|]. apply ok_inj in Hv0.
    ok_step H. destruct v1 as [is' t2]. apply ok_inj in H. injection H as <- <-. subst v0.
    destruct (IH _ _ Hv1) as [Hl Hi]. split; [cbn; congruence|]. intros i [<-|Hin]; [|now apply Hi].
    assert (Hlt : (v mod N.of_nat m < N.of_nat m)%N) by (apply N.mod_upper_bound; lia).
    lia.
Qed.
End Sampling.

Section Search.
Local Open Scope N_scope.
Variable f : N -> outcome bool.

Lemma search_spec p : forall c,
  (forall v, search f p c = Ok (Some v) ->
     c <= v < c + Npos p /\ f v = Ok true /\ forall u, c <= u < v -> f u = Ok false) /\
  (search f p c = Ok None -> forall u, c <= u < c + Npos p -> f u = Ok false).
Proof.
  induction p as [q IH|q IH|]; intro c; cbn [search].
  - destruct (IH c) as [S1 N1]. destruct (IH (c + Npos q)) as [S2 N2]. split.
    + intros v H. ok_step H. destruct v0 as [x|].
      * apply ok_inj in H. injection H as <-. destruct (S1 x Hv) as (Hr & Hf & Hl). split; [lia|]. auto.
      * ok_step H. destruct v0 as [x|].
        -- apply ok_inj in H. injection H as <-. destruct (S2 x Hv0) as (Hr & Hf & Hl). split; [lia|]. split; [exact Hf|].
           intros u Hu. destruct (N.lt_ge_cases u (c + Npos q)); [apply (N1 Hv); lia|apply Hl; lia].
        -- ok_step H. destruct v0; apply ok_inj in H; [|discriminate]. injection H as <-.
           split; [lia|]. split; [exact Hv1|]. intros u Hu.
           destruct (N.lt_ge_cases u (c + Npos q)); [apply (N1 Hv); lia|apply (N2 Hv0); lia].
    + intros H u Hu. ok_step H. destruct v as [x|]; [apply ok_inj in H; discriminate|].
      ok_step H. destruct v as [x|]; [apply ok_inj in H; discriminate|].
      ok_step H. destruct v; apply ok_inj in H; [discriminate|].
      destruct (N.lt_ge_cases u (c + Npos q)); [apply (N1 Hv); lia|].
      destruct (N.lt_ge_cases u (c + Npos q + Npos q)); [apply (N2 Hv0); lia|].
      replace u with (c + Npos q + Npos q) by lia. exact Hv1.
  - destruct (IH c) as [S1 N1]. destruct (IH (c + Npos q)) as [S2 N2]. split.
    + intros v H. ok_step H. destruct v0 as [x|].
      * apply ok_inj in H. injection H as <-. destruct (S1 x Hv) as (Hr & Hf & Hl). split; [lia|]. auto.
      * destruct (S2 v H) as (Hr & Hf & Hl). split; [lia|]. split; [exact Hf|].
        intros u Hu. destruct (N.lt_ge_cases u (c + Npos q)); [apply (N1 Hv); lia|apply Hl; lia].
    + intros H u Hu. ok_step H. destruct v as [x|]; [apply ok_inj in H; discriminate|].
      destruct (N.lt_ge_cases u (c + Npos q)); [apply (N1 Hv); lia|apply (N2 H); lia].
  - split.
    + intros v H. ok_step H. destruct v0; apply ok_inj in H; [|discriminate]. injection H as <-.
      split; [lia|]. split; [exact Hv|]. intros u Hu. lia.
    + intros H u Hu. ok_step H. destruct v; apply ok_inj in H; [discriminate|]. replace u with c by lia. exact Hv.
Qed.

Lemma search_total p : (forall u, exists b, f u = Ok b) -> forall c, exists o, search f p c = Ok o.
Proof.
  intro Hf. induction p as [q IH|q IH|]; intro c; cbn [search].
  - destruct (IH c) as [[x|] ->]; cbn [obind]; [eauto|]. destruct (IH (c + Npos q)) as [[x|] ->]; cbn [obind]; [eauto|].
    destruct (Hf (c + Npos q + Npos q)) as [b ->]; cbn [obind]; eauto.
  - destruct (IH c) as [[x|] ->]; cbn [obind]; [eauto|]. apply IH.
  - destruct (Hf c) as [b ->]; cbn [obind]; eauto.
Qed.
End Search.

Lemma generate_nonce_spec (E : env) challenge factor nonce :
  generate_nonce E challenge factor = Ok (Some nonce) ->
  (exists z, grind_zeros E challenge nonce = Ok z /\ factor <= z)%N /\
  (forall u, (u < nonce)%N -> exists z, grind_zeros E challenge u = Ok z /\ (z < factor)%N) /\
  (nonce < Npos u64_max)%N.
Proof.
  unfold generate_nonce. intro H. apply search_spec in H. destruct H as (Hr & Hf & Hl).
  rewrite N.add_0_l in Hr. split; [|split; [|exact (proj2 Hr)]].
  - ok_step Hf. apply ok_inj in Hf. apply N.leb_le in Hf. eauto.
  - intros u Hu. assert (Hb : (0 <= u < nonce)%N) by lia. specialize (Hl u Hb). ok_step Hl. apply ok_inj in Hl. apply N.leb_gt in Hl. eauto.
Qed.

(** ** Masking *)
Section Mask.
Local Open Scope N_scope.

Lemma be_val_cons b l : be_val (b :: l) = bval b * 256 ^ N.of_nat (length l) + be_val l.
Proof. change (b :: l) with ([b] ++ l). rewrite be_val_app. cbn. now rewrite N.add_0_r. Qed.
Lemma be_val_repeat0 n : be_val (repeat Byte.x00 n) = 0.
Proof. induction n; [reflexivity|]. cbn [repeat]. rewrite be_val_cons, IHn. reflexivity. Qed.

Lemma pow256 k : 256 ^ k = 2 ^ (8 * k).
Proof. now rewrite N.pow_mul_r. Qed.

Lemma mod_split a y k j : y < 2 ^ k -> (a * 2 ^ k + y) mod (2 ^ j * 2 ^ k) = (a mod 2 ^ j) * 2 ^ k + y.
Proof.
  intros Hy. assert (H2 : forall n, 2 ^ n <> 0) by (intro; apply N.pow_nonzero; lia).
  rewrite (N.mul_comm (2 ^ j)), N.mod_mul_r by auto.
  rewrite (N.add_comm (a * 2 ^ k)), N.mod_add, (N.mod_small y) by auto.
  rewrite N.div_add, N.div_small, N.add_0_l by auto. lia.
Qed.

Theorem mask_spec bits rnd : (2 <= bits)%nat -> (bits - 1 <= 8 * length rnd)%nat ->
  exists m, mask_randomness bits rnd = Ok m /\ length m = length rnd /\ be_val m = be_val rnd mod 2 ^ N.of_nat (bits - 1).
Proof.
  intros Hb Hl. unfold mask_randomness. rewrite usub_ok by lia. cbn [obind]. rewrite usub_ok by lia. cbn [obind].
  set (btc := (length rnd * 8 - (bits - 1))%nat). set (i := (btc / 8)%nat). set (rem := (btc mod 8)%nat).
  pose proof (Nat.div_mod btc 8 ltac:(lia)) as Hdm. pose proof (Nat.mod_upper_bound btc 8 ltac:(lia)) as Hrem. fold i rem in Hdm, Hrem.
  assert (Hi : (i < length rnd)%nat) by lia.
  destruct (nth_error rnd i) as [b|] eqn:Eb; [|apply nth_error_None in Eb; lia].
  unfold idx. rewrite Eb. cbn [unwrap obind]. eexists. split; [reflexivity|].
  destruct (nth_error_split _ _ Eb) as (pre & rest & Er & Hpre). assert (Hsk : skipn (S i) rnd = rest).
  { rewrite Er, <- Hpre. rewrite skipn_app, skipn_all2 by lia. replace (S (length pre) - length pre)%nat with 1%nat by lia. reflexivity. }
  rewrite Hsk. split; [rewrite app_length, repeat_length, Er, app_length; cbn [length]; lia|].
  rewrite be_val_app, be_val_repeat0, N.mul_0_l, N.add_0_l, be_val_cons, bval_byte_of.
  assert (Hmod : bval b mod 2 ^ N.of_nat (8 - rem) < 256).
  { apply N.lt_le_trans with (2 ^ N.of_nat (8 - rem)); [apply N.mod_lt, N.pow_nonzero; lia|]. change 256 with (2 ^ 8). apply N.pow_le_mono_r; lia. }
  rewrite (N.mod_small _ 256 Hmod). rewrite Er, be_val_app, be_val_cons. cbn [length].
  assert (Hlen : length rnd = (i + S (length rest))%nat) by (rewrite Er, app_length; cbn [length]; lia).
  rewrite !pow256. rewrite Nat2N.inj_succ.
  replace (2 ^ N.of_nat (bits - 1)) with (2 ^ N.of_nat (8 - rem) * 2 ^ (8 * N.of_nat (length rest))).
  2:{ rewrite <- N.pow_add_r. f_equal. lia. }
  replace (be_val pre * 2 ^ (8 * N.succ (N.of_nat (length rest))) + (bval b * 2 ^ (8 * N.of_nat (length rest)) + be_val rest))
    with ((be_val pre * 256 + bval b) * 2 ^ (8 * N.of_nat (length rest)) + be_val rest).
  2:{ rewrite N.mul_succ_r, N.pow_add_r. change (2 ^ 8) with 256. lia. }
  rewrite mod_split by (rewrite <- pow256; apply be_val_lt). f_equal. f_equal.
  replace 256 with (2 ^ N.of_nat rem * 2 ^ N.of_nat (8 - rem)) by (rewrite <- N.pow_add_r; change 256 with (2 ^ 8); f_equal; lia).
  rewrite N.mul_assoc, N.add_comm, N.mod_add by (apply N.pow_nonzero; lia). reflexivity.
Qed.

Lemma tz64_le n : n < two64 -> tz64 n <= 64.
Proof.
  intros H. destruct n as [|p]; [reflexivity|]. cbn [tz64].
  assert (Hp : forall p, 2 ^ N.of_nat (tz_pos p) <= Npos p).
  { clear. intro p. induction p as [p IH|p IH|]; [cbn; lia| |cbn; lia].
    cbn [tz_pos]. rewrite Nat2N.inj_succ, N.pow_succ_r'. lia. }
  specialize (Hp p). destruct (N.le_gt_cases (N.of_nat (tz_pos p)) 64) as [L|L]; [exact L|].
  exfalso. assert (2 ^ 64 <= 2 ^ N.of_nat (tz_pos p)) by (apply N.pow_le_mono_r; lia). change (2 ^ 64) with two64 in *. lia.
Qed.
Lemma grind_zeros_le (E : env) challenge v z : grind_zeros E challenge v = Ok z -> z <= 64.
Proof.
  unfold grind_zeros. intro H. apply obind_ok in H. destruct H as (d & Hd & H). apply ok_inj in H. subst z.
  apply slice_ok in Hd. destruct Hd as (_ & Hl & ->). apply tz64_le. rewrite two64_pow. 
  eapply N.lt_le_trans; [apply be_val_lt|]. apply N.pow_le_mono_r; [lia|].
  apply N2Z.inj_le. rewrite !nat_N_Z. apply inj_le. rewrite firstn_length. lia.
Qed.
End Mask.
