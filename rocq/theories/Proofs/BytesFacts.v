(** Facts about the byte encodings of machine integers. *)
From Coq Require Import List NArith Arith Lia.
From Coq.Strings Require Import Byte.
From Verif.Base Require Import Bytes.
Import ListNotations.
Local Open Scope N_scope.

Lemma bval_lt (b : byte) : bval b < 256.
Proof. unfold bval. pose proof (Byte.to_N_bounded b). lia. Qed.

Lemma bval_byte_of (n : N) : bval (byte_of n) = n mod 256.
Proof.
  unfold bval, byte_of.
  assert (Hlt : n mod 256 < 256) by (apply N.mod_lt; lia).
  destruct (Byte.of_N (n mod 256)) as [b|] eqn:E.
  - apply Byte.to_of_N in E. exact E.
  - apply Byte.of_N_None_iff in E. lia.
Qed.

Lemma byte_of_bval (b : byte) : byte_of (bval b) = b.
Proof.
  unfold byte_of. rewrite N.mod_small by apply bval_lt.
  unfold bval. rewrite Byte.of_to_N. reflexivity.
Qed.

Lemma bval_inj (a b : byte) : bval a = bval b -> a = b.
Proof. intro H. rewrite <- (byte_of_bval a), <- (byte_of_bval b), H. reflexivity. Qed.

Lemma byte_of_add (b : byte) (m : N) : byte_of (bval b + 256 * m) = b.
Proof.
  apply bval_inj. rewrite bval_byte_of.
  rewrite (N.mul_comm 256 m), N.mod_add by lia. apply N.mod_small, bval_lt.
Qed.

Lemma length_le_bytes (k : nat) (n : N) : length (le_bytes k n) = k.
Proof. revert n; induction k as [|k IH]; intro n; cbn [le_bytes length]; [reflexivity|]. now rewrite IH. Qed.

Lemma length_be_bytes (k : nat) (n : N) : length (be_bytes k n) = k.
Proof. unfold be_bytes. rewrite rev_length. apply length_le_bytes. Qed.

Lemma length_be8 (n : nat) : length (be8 n) = 8%nat.
Proof. apply length_be_bytes. Qed.

Lemma le_val_le_bytes (k : nat) (n : N) : n < 256 ^ N.of_nat k -> le_val (le_bytes k n) = n.
Proof.
  revert n; induction k as [|k IH]; intros n Hn; cbn [le_bytes le_val].
  - change (256 ^ N.of_nat 0) with 1 in Hn. lia.
  - rewrite bval_byte_of, IH.
    + rewrite (N.div_mod n 256) at 3 by lia. lia.
    + apply N.div_lt_upper_bound; [lia|].
      rewrite Nat2N.inj_succ, N.pow_succ_r in Hn by lia. exact Hn.
Qed.

Lemma le_bytes_le_val (bs : list byte) : le_bytes (length bs) (le_val bs) = bs.
Proof.
  induction bs as [|b bs IH]; cbn [length le_bytes le_val]; [reflexivity|].
  rewrite byte_of_add. f_equal.
  replace ((bval b + 256 * le_val bs) / 256) with (le_val bs); [exact IH|].
  rewrite (N.mul_comm 256), N.div_add by lia.
  rewrite N.div_small by apply bval_lt. lia.
Qed.

Lemma le_val_lt (bs : list byte) : le_val bs < 256 ^ N.of_nat (length bs).
Proof.
  induction bs as [|b bs IH]; cbn [length le_val]; [cbv; reflexivity|].
  rewrite Nat2N.inj_succ, N.pow_succ_r by lia. pose proof (bval_lt b). lia.
Qed.

Lemma be_val_be_bytes (k : nat) (n : N) : n < 256 ^ N.of_nat k -> be_val (be_bytes k n) = n.
Proof. intro H. unfold be_val, be_bytes. rewrite rev_involutive. now apply le_val_le_bytes. Qed.

Lemma be_bytes_be_val (bs : list byte) : be_bytes (length bs) (be_val bs) = bs.
Proof.
  unfold be_val, be_bytes.
  rewrite <- (rev_length bs), le_bytes_le_val. apply rev_involutive.
Qed.

Lemma be_val_lt (bs : list byte) : be_val bs < 256 ^ N.of_nat (length bs).
Proof. unfold be_val. rewrite <- rev_length. apply le_val_lt. Qed.

Lemma two64_pow : two64 = 256 ^ N.of_nat 8.
Proof. reflexivity. Qed.

Lemma be_val_be8 (n : nat) : N.of_nat n < two64 -> be_val (be8 n) = N.of_nat n.
Proof. intro H. unfold be8. apply be_val_be_bytes. exact H. Qed.

Lemma le_val_app (a b : list byte) : le_val (a ++ b) = le_val a + 256 ^ N.of_nat (length a) * le_val b.
Proof.
  induction a as [|x a IH]; cbn [app le_val length].
  - change (256 ^ N.of_nat 0) with 1. lia.
  - rewrite IH, Nat2N.inj_succ, N.pow_succ_r by lia. lia.
Qed.

Lemma be_val_app (a b : list byte) : be_val (a ++ b) = be_val a * 256 ^ N.of_nat (length b) + be_val b.
Proof. unfold be_val. rewrite rev_app_distr, le_val_app, rev_length. lia. Qed.

Lemma be_val_inj (a b : list byte) : length a = length b -> be_val a = be_val b -> a = b.
Proof.
  intros HL HV. rewrite <- (be_bytes_be_val a), <- (be_bytes_be_val b), HL, HV. reflexivity.
Qed.
