(** The Cairo prime field, with toy hash functions and a toy transcript: a concrete environment for the examples
    about Cairo. *)
From Coq Require Import ZArith Znumtheory Lia Bool List NArith.
From Verif.Base Require Import Outcome Bytes Field Poly Zp Proth.
From Verif.Model Require Import Codec Trace Air CairoDecode.
From Verif.Spec Require Import CairoSpec.
From Verif.Examples Require Import Toy.
Import ListNotations.
Local Open Scope Z_scope.

(** 2^251 + 17 2^192 + 1, and its generator of order 2^192. *)
Definition stark_p : Z := 3618502788666131213697322783095070105623107215331596699973092056135872020481.
Definition stark_root : Z := 145784604816374866144131285430889962727208297722245411306711449302875041684.

Lemma stark_p_value : stark_p = 2 ^ 251 + 17 * 2 ^ 192 + 1. Proof. vm_compute. reflexivity. Qed.
Lemma lt_1_stark : 1 < stark_p. Proof. reflexivity. Qed.
Lemma stark_root_half : sqm 191 stark_p stark_root =? stark_p - 1 = true. Proof. vm_compute. reflexivity. Qed.
Lemma prime_stark : prime stark_p.
Proof. apply (proth_check stark_p stark_root 191); [reflexivity|reflexivity|vm_compute; reflexivity|exact stark_root_half]. Qed.

Definition F252 : field_ops := zp_ops stark_p lt_1_stark.
Definition f252 (x : Z) : F252 := zp_of stark_p lt_1_stark x.
Definition FFT252 : fft_ops := mk_fft_ops F252 192 (f252 stark_root) (Some (f252 1)).

Lemma sqm_fsquare k : forall x : F252, zval (fsquare_n k x) = sqm k stark_p (zval x).
Proof. induction k as [|k IH]; intro x; [reflexivity|]. cbn [fsquare_n sqm]. rewrite IH. reflexivity. Qed.

Lemma FFT252_ok : fft_ok FFT252.
Proof.
  constructor.
  - exact (zp_field_ok stark_p lt_1_stark prime_stark).
  - cbn [two_adicity FFT252]. lia.
  - change (two_adicity FFT252 - 1)%nat with 191%nat. apply zp_eq.
    change (zval (fsquare_n 191 (f252 stark_root)) = zval (zp_of stark_p lt_1_stark (- (1 mod stark_p)))).
    rewrite sqm_fsquare. replace (zval (f252 stark_root)) with stark_root by (vm_compute; reflexivity).
    rewrite (proj1 (Z.eqb_eq _ _) stark_root_half). vm_compute. reflexivity.
  - intro H. apply (f_equal zval) in H. vm_compute in H. discriminate.
Qed.

Definition stark_codec : felt_codec F252 := {|
  fe_to := fun x => be_bytes 32 (Z.to_N (zval x));
  fe_from := fun bs => Some (f252 (Z.of_N (be_val bs)))
|}.
Definition stark_env : env := {|
  e_K := FFT252; e_codec := stark_codec; e_bits := 252; e_u64 := fun n => f252 (Z.of_N n); e_tr := toy_transcript;
  e_leaf := fun x => be_bytes 32 (mix (be_bytes 32 (Z.to_N (zval x))));
  e_leaves := fun l => be_bytes 32 (mix (concat (map (fun x => be_bytes 32 (Z.to_N (zval x))) l)));
  e_node := fun a b => be_bytes 32 (mix (a ++ b));
  e_keccak := e_keccak toy
|}.
Definition stark : cairo_env := mk_cairo_env stark_env (fun x : F252 => Z.to_N (zval x)).

Lemma stark_ok : cairo_ok stark (Z.to_N stark_p).
Proof.
  constructor.
  - constructor; [exact FFT252_ok|]. apply zp_eq. reflexivity.
  - reflexivity.
  - reflexivity.
  - reflexivity.
  - intros a b. apply zp_eq. cbn. rewrite N2Z.inj_add. apply Z.add_mod. discriminate.
  - intros a b. apply zp_eq. cbn. rewrite N2Z.inj_mul. apply Z.mul_mod. discriminate.
  - intro x. pose proof (zval_bound stark_p x). unfold ce_repr, stark. lia.
  - intro n. change (Z.to_N (Z.of_N n mod stark_p) = n mod Z.to_N stark_p)%N. rewrite Z2N.inj_mod by (try apply N2Z.is_nonneg; discriminate). now rewrite N2Z.id.
  - intro x. apply zp_eq. change (Z.of_N (Z.to_N (zval (x : zp stark_p))) mod stark_p = zval (x : zp stark_p)).
    rewrite Z2N.id by apply zval_bound. apply zval_mod. exact lt_1_stark.
Qed.
