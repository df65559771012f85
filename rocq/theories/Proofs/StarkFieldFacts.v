(** In the Stark field 3, the default coset offset, is not a square. *)
From Coq Require Import List Arith NArith ZArith Lia.
From Verif.Base Require Import Outcome Field Poly Proth.
From Verif.Model Require Import Codec Trace Air PublicInputs CairoDecode CairoTrace.
From Verif.Spec Require Import CairoSpec ExampleSpec.
From Verif.Proofs Require Import FieldFacts PolyFacts FFTFacts DecodeFacts RunnerFacts FermatFacts.
From Verif.Examples Require Import Stark252.
Import ListNotations.
Local Open Scope felt_scope.

Definition half_order : nat := (2 ^ 191 * (2 ^ 59 + 17))%nat.
Lemma stark_order : (N.to_nat (Z.to_N stark_p) - 1 = 2 * half_order)%nat.
Proof.
  assert (E : Z.to_N stark_p = (2 * (2 ^ 191 * (2 ^ 59 + 17)) + 1)%N) by (vm_compute; reflexivity).
  rewrite E. unfold half_order. rewrite N2Nat.inj_add, !N2Nat.inj_mul, N2Nat.inj_add, !N2Nat.inj_pow.
  change (N.to_nat 1) with 1%nat. change (N.to_nat 2) with 2%nat. change (N.to_nat 17) with 17%nat.
  change (N.to_nat 191) with 191%nat. change (N.to_nat 59) with 59%nat. now rewrite Nat.add_sub.
Qed.

Section StarkField.
Context {C : cairo_env} (HC : cairo_ok C (Z.to_N stark_p)).
Let HK : field_ok C := fft_field_ok _ (e_fft_ok _ (co_env _ _ HC)).
Add Field Kfield48 : (fld_th C HK).

Definition zc (z : Z) : C := e_u64 C (Z.to_N z).
Lemma zc_mod z : (0 <= z)%Z -> zc (z mod stark_p) = zc z.
Proof using HC.
  intro H. unfold zc. rewrite <- (co_u64_repr _ _ HC (e_u64 C (Z.to_N z))), (co_repr_u64 _ _ HC). f_equal.
  rewrite Z2N.inj_mod; [reflexivity|exact H|discriminate].
Qed.
Lemma zc_mul x y : (0 <= x)%Z -> (0 <= y)%Z -> zc (x * y) = zc x * zc y.
Proof using HC. intros Hx Hy. unfold zc. rewrite Z2N.inj_mul by assumption. apply (co_mul _ _ HC). Qed.
Lemma zc_sqm k : forall z, (0 <= z)%Z -> zc (sqm k stark_p z) = fpow (zc z) (2 ^ k).
Proof using HC.
  induction k as [|k IH]; intros z Hz; cbn [sqm Nat.pow]; [symmetry; apply (fpow_1 HK)|].
  rewrite IH by (apply Z.mod_pos_bound; reflexivity). rewrite zc_mod by lia. rewrite zc_mul, <- (fpow_2 HK), <- (fpow_mul HK) by assumption.
  reflexivity.
Qed.
Lemma zc_pow n : forall z, (0 <= z)%Z -> zc (z ^ Z.of_nat n) = fpow (zc z) n.
Proof using HC.
  induction n as [|n IH]; intros z Hz; [apply (co_one _ _ HC)|]. rewrite Nat2Z.inj_succ, Z.pow_succ_r by lia. cbn [fpow].
  rewrite zc_mul, IH by (try apply Z.pow_nonneg; lia). ring.
Qed.
Lemma sqm_nonneg k : forall z, (0 <= z)%Z -> (0 <= sqm k stark_p z)%Z.
Proof. induction k as [|k IH]; intros z Hz; [exact Hz|]. apply IH. apply Z.mod_pos_bound. reflexivity. Qed.
Lemma zc_inj x y : (0 <= x < stark_p)%Z -> (0 <= y < stark_p)%Z -> zc x = zc y -> x = y.
Proof using HC.
  intros Hx Hy E. apply (u64_inj HC) in E; [|apply Z2N.inj_lt; lia..]. apply Z2N.inj in E; lia.
Qed.
Lemma three_half : (sqm 191 stark_p (sqm 59 stark_p 3 * 3 ^ 17 mod stark_p) =? stark_p - 1)%Z = true.
Proof. vm_compute. reflexivity. Qed.
Lemma three_nonsquare (y : C) : y * y <> e_u64 C 3.
Proof using HC.
  apply (nonsquare HC _ _ stark_order).
  - rewrite <- (co_zero _ _ HC). intro E. apply (u64_inj HC) in E; [discriminate|reflexivity..].
  - assert (E : fpow (zc 3) half_order = zc (stark_p - 1)).
    { rewrite <- (proj1 (Z.eqb_eq _ _) three_half). unfold half_order. rewrite Nat.mul_comm, (fpow_mul HK), (fpow_add HK).
      rewrite zc_sqm by (apply Z.mod_pos_bound; reflexivity). f_equal. rewrite zc_mod.
      - rewrite zc_mul by (try apply sqm_nonneg; discriminate). rewrite zc_sqm by discriminate.
        change (3 ^ 17)%Z with (3 ^ Z.of_nat 17)%Z. rewrite zc_pow by discriminate. reflexivity.
      - apply Z.mul_nonneg_nonneg; [apply sqm_nonneg; discriminate|discriminate]. }
    change (e_u64 C 3) with (zc 3). rewrite E. change 1 with (@fone C). rewrite <- (co_one _ _ HC). change (e_u64 C 1) with (zc 1). intro Q.
    apply zc_inj in Q; [discriminate|split; [discriminate|reflexivity]..].
Qed.

Lemma default_coset_usable opts r b : two_adicity C = 192%nat -> coset_offset opts = 3%N -> blowup_factor opts = (2 ^ b)%nat ->
  (1 <= r)%nat -> (1 <= b)%nat -> (r + b <> 192)%nat -> usable_options C opts r b.
Proof using HC.
  intros HT Ho Hb Hr Hb1 Hn. split; [exact Hr|]. split; [exact Hb1|]. split; [exact Hb|]. intros y w i Hw.
  rewrite Ho. destruct (Nat.lt_ge_cases (r + b) 192) as [L|L].
  - apply (coset_without_squares HC _ (r + b) three_nonsquare); [lia|rewrite HT; exact L|exact Hw].
  - exfalso. apply (primitive_root_prim (e_fft_ok _ (co_env _ _ HC))) in Hw; lia.
Qed.
End StarkField.
