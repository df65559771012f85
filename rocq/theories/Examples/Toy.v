(** A small concrete environment: the field of 97 elements (two-adicity 5) with toy hash functions
    and a toy transcript. It only serves to instantiate the theorems in the examples. *)
From Coq Require Import ZArith Znumtheory Lia Bool List NArith.
From Verif.Base Require Import Outcome Bytes Field Poly Zp.
From Verif.Model Require Import Codec Trace Air.
Import ListNotations.
Local Open Scope Z_scope.

Lemma lt_1_97 : 1 < 97. Proof. reflexivity. Qed.
Lemma prime_97 : prime 97.
Proof.
  constructor; [lia|]. intros n Hn. apply Zgcd_1_rel_prime.
  assert (H : forallb (fun k => Z.gcd (Z.of_nat k) 97 =? 1) (seq 1 96) = true) by (vm_compute; reflexivity).
  rewrite forallb_forall in H. specialize (H (Z.to_nat n)). rewrite Z2Nat.id in H by lia.
  apply Z.eqb_eq. apply H. apply in_seq. lia.
Qed.

Definition F97 : field_ops := zp_ops 97 lt_1_97.
Definition f97 (x : Z) : F97 := zp_of 97 lt_1_97 x.
Definition FFT97 : fft_ops := mk_fft_ops F97 5 (f97 28) (Some (f97 1)).

Lemma FFT97_ok : fft_ok FFT97.
Proof.
  constructor.
  - exact (zp_field_ok 97 lt_1_97 prime_97).
  - cbn. lia.
  - apply zp_eq. reflexivity.
  - intro H. apply (f_equal zval) in H. discriminate.
Qed.

Definition mix (l : list byte) : N := fold_left (fun acc b => (acc * 31 + bval b + 7) mod 65521)%N l 1%N.
Definition toy_codec : felt_codec F97 := {|
  fe_to := fun x => be_bytes 8 (Z.to_N (zval x));
  fe_from := fun bs => Some (f97 (Z.of_N (be_val bs)))
|}.
Definition toy_transcript : transcript_ops := {|
  tr_state := N;
  tr_new := 5%N;
  tr_append := fun s bs => (mix (be_bytes 4 s ++ bs))%N;
  tr_challenge := fun s => let s' := mix (be_bytes 4 s ++ [Byte.x01]) in (be_bytes 8 (s' * 977) ++ repeat Byte.x00 16 ++ be_bytes 8 (s' * 389), s')
|}.
Definition toy : env := {|
  e_K := FFT97; e_codec := toy_codec; e_bits := 7; e_u64 := fun n => f97 (Z.of_N n); e_tr := toy_transcript;
  e_leaf := fun x => be_bytes 4 (mix (be_bytes 8 (Z.to_N (zval x))));
  e_leaves := fun l => be_bytes 4 (mix (concat (map (fun x => be_bytes 8 (Z.to_N (zval x))) l)));
  e_node := fun a b => be_bytes 4 (mix (a ++ b));
  e_keccak := fun bs => be_bytes 8 (mix bs) ++ repeat Byte.x00 24
|}.

Lemma toy_ok : env_ok toy.
Proof. constructor; [exact FFT97_ok|]. apply zp_eq. reflexivity. Qed.

(** The same with a transcript whose challenge is always the number 3, so that sampling facts hold for
    every state. *)
Definition still_transcript : transcript_ops := {|
  tr_state := unit;
  tr_new := tt;
  tr_append := fun s _ => s;
  tr_challenge := fun s => (repeat Byte.x00 31 ++ [Byte.x03], s)
|}.
Definition still : env := {|
  e_K := FFT97; e_codec := toy_codec; e_bits := 7; e_u64 := e_u64 toy; e_tr := still_transcript;
  e_leaf := e_leaf toy; e_leaves := e_leaves toy; e_node := e_node toy; e_keccak := e_keccak toy
|}.
Lemma still_ok : env_ok still.
Proof. constructor; [exact FFT97_ok|]. apply zp_eq. reflexivity. Qed.
