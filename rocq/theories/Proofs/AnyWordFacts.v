(** Rows that execute an arbitrary instruction word. *)
From Coq Require Import List Arith NArith ZArith Bool Lia.
From Verif.Base Require Import Outcome Field Poly.
From Verif.Model Require Import Codec PublicInputs Trace Air CairoDecode CairoTrace CairoAir.
From Verif.Spec Require Import CairoSpec AnyWord.
From Verif.Proofs Require Import FieldFacts FFTFacts OutcomeFacts DecodeFacts CpuFacts CairoAirFacts MultisetFacts SortedFacts.
Import ListNotations.

Section AnyWordFacts.
Context {C : cairo_env} {p : N} (HC : cairo_ok C p).
Let HK : field_ok C := fft_field_ok _ (e_fft_ok _ (co_env _ _ HC)).
Add Field Kfield73 : (fld_th C HK).
Local Open Scope felt_scope.
Notation "r .[ i ]" := (nth i r (fzero : C)) (at level 2, format "r .[ i ]").
Notation bit b := (of_bool (C := C) b).

Lemma of_bool_inj a b : bit a = bit b -> a = b.
Proof using HC.
  destruct a, b; cbn [of_bool]; intro E; try reflexivity; exfalso; apply (one_neq_zero HK); [exact E|now symmetry].
Qed.

(** The flags of a row are those of its word. *)
Lemma executes_flags pi opts len ch w (c n : list C) : executes pi opts len ch w c n ->
  (forall i, (i < 15)%nat -> c.[i] = bit (flag_set w i)) /\ forall i, (i < 15)%nat -> nth i (cpu_formulas c n) 0 = 0.
Proof using HC.
  intros [Hw Hn (evals & Hev & Hz) Hs Hw63 Hi Hd H0 H1]. pose proof Hw as Hl.
  cbn [cairo_air a_context] in Hl. rewrite cairo_width_declared in Hl. cbn [cairo_air a_transition] in Hev. rewrite Hl in Hev.
  rewrite cairo_transition_frame in Hev by congruence. apply ok_inj in Hev. subst evals.
  assert (B : forall o, (bits_of w o 16 < 2 ^ 16)%N) by (intro o; apply N.mod_lt; discriminate).
  assert (L34 : (34 <= length c)%nat) by (rewrite Hl; unfold cairo_width; pose proof (offset_le pi); lia).
  destruct (cpu_sound HC pi ch c n (off_dst w) (off_op0 w) (off_op1 w) L34 Hz Hs Hd H0 H1 (B 0%N) (B 16%N) (B 32%N))
    as (w' & Hw' & Hi' & _ & _ & _ & Hf & _ & _).
  assert (E : w' = w). { pose proof (co_p _ _ HC) as Hp. apply (u64_inj HC); [lia|lia|]. change (c.[23] = e_u64 C w) in Hi. congruence. }
  subst w'. split.
  - intros i Hi15. rewrite (Hf i Hi15). unfold flag_set, of_bool. reflexivity.
  - intros i Hi15. pose proof (Hz (16 + i)%nat ltac:(unfold ASSERT_EQ; lia)) as G. rewrite cpu_constraint in G by lia.
    change (c.[33] = 1) in Hs. rewrite Hs in G. transitivity (nth i (cpu_formulas c n) 0 * 1); [ring|exact G].
Qed.

Lemma product_zero (x y : C) : x * y = 0 -> x <> 0 -> y = 0.
Proof using HC. intros H Hx. apply (mul_zero HK) in H. tauto. Qed.

(** The successor of a row, if the flags say what it is. *)
Lemma executes_unique pi opts len ch pi' opts' len' ch' w (c1 n1 c2 n2 : list C) :
  executes pi opts len ch w c1 n1 -> executes pi' opts' len' ch' w c2 n2 -> registers c1 = registers c2 ->
  (forall a v v', In (a, v) (touched c1) -> In (a, v') (touched c2) -> v = v') ->
  (flag_set w 9 = true -> flag_set w 7 = false /\ flag_set w 8 = false /\ flag_set w 10 = false) ->
  registers n1 = registers n2.
Proof using HC.
  intros X1 X2 R M D. destruct (executes_flags _ _ _ _ _ _ _ X1) as [F1 Q1]. destruct (executes_flags _ _ _ _ _ _ _ X2) as [F2 Q2].
  destruct X1 as [_ _ _ _ _ I1 D1 O1 P1]. destruct X2 as [_ _ _ _ _ I2 D2 O2 P2].
  change (c1.[23] = e_u64 C w) in I1. change (c2.[23] = e_u64 C w) in I2. change (c1.[27] = e_u64 C (off_dst w)) in D1. change (c2.[27] = e_u64 C (off_dst w)) in D2.
  change (c1.[28] = e_u64 C (off_op0 w)) in O1. change (c2.[28] = e_u64 C (off_op0 w)) in O2. change (c1.[29] = e_u64 C (off_op1 w)) in P1. change (c2.[29] = e_u64 C (off_op1 w)) in P2.
  change (mk_state c1.[19] c1.[17] c1.[18] = mk_state c2.[19] c2.[17] c2.[18]) in R. injection R as R19 R17 R18.
  change (mk_state n1.[19] n1.[17] n1.[18] = mk_state n2.[19] n2.[17] n2.[18]).
  assert (A1 : forall k, (k < 4)%nat -> In (c1.[19 + k], c1.[23 + k]) (touched c1)).
  { intros k Hk. do 4 (destruct k as [|k]; [cbn; tauto|]). lia. }
  assert (A2 : forall k, (k < 4)%nat -> In (c2.[19 + k], c2.[23 + k]) (touched c2)).
  { intros k Hk. do 4 (destruct k as [|k]; [cbn; tauto|]). lia. }
  assert (V : forall k, (k < 4)%nat -> c1.[19 + k] = c2.[19 + k] -> c1.[23 + k] = c2.[23 + k]).
  { intros k Hk E. apply (M c1.[19 + k]); [now apply A1|]. rewrite E. now apply A2. }
  clear A1 A2 M.
  pose proof (Q1 1%nat ltac:(lia)) as a1. pose proof (Q2 1%nat ltac:(lia)) as b1. pose proof (Q1 2%nat ltac:(lia)) as a2. pose proof (Q2 2%nat ltac:(lia)) as b2.
  pose proof (Q1 3%nat ltac:(lia)) as a3. pose proof (Q2 3%nat ltac:(lia)) as b3. pose proof (Q1 4%nat ltac:(lia)) as a4. pose proof (Q2 4%nat ltac:(lia)) as b4.
  pose proof (Q1 5%nat ltac:(lia)) as a5. pose proof (Q2 5%nat ltac:(lia)) as b5. pose proof (Q1 6%nat ltac:(lia)) as a6. pose proof (Q2 6%nat ltac:(lia)) as b6.
  pose proof (Q1 7%nat ltac:(lia)) as a7. pose proof (Q2 7%nat ltac:(lia)) as b7. pose proof (Q1 8%nat ltac:(lia)) as a8. pose proof (Q2 8%nat ltac:(lia)) as b8.
  pose proof (Q1 9%nat ltac:(lia)) as a9. pose proof (Q2 9%nat ltac:(lia)) as b9. pose proof (Q1 10%nat ltac:(lia)) as a10. pose proof (Q2 10%nat ltac:(lia)) as b10.
  pose proof (Q1 11%nat ltac:(lia)) as a11. pose proof (Q2 11%nat ltac:(lia)) as b11. clear Q1 Q2.
  cbn [cpu_formulas nth] in a1, b1, a2, b2, a3, b3, a4, b4, a5, b5, a6, b6, a7, b7, a8, b8, a9, b9, a10, b10, a11, b11.
  rewrite (F1 0%nat), (F1 1%nat), (F1 2%nat), (F1 3%nat), (F1 4%nat), (F1 5%nat), (F1 6%nat), (F1 7%nat), (F1 8%nat), (F1 9%nat), (F1 10%nat), (F1 11%nat), (F1 12%nat), (F1 13%nat) in * by lia.
  rewrite (F2 0%nat), (F2 1%nat), (F2 2%nat), (F2 3%nat), (F2 4%nat), (F2 5%nat), (F2 6%nat), (F2 7%nat), (F2 8%nat), (F2 9%nat), (F2 10%nat), (F2 11%nat), (F2 12%nat), (F2 13%nat) in * by lia.
  rewrite D1 in a1. rewrite D2 in b1. rewrite O1 in a2. rewrite O2 in b2. rewrite P1 in a3. rewrite P2 in b3.
  apply (proj1 (sub_zero HK _ _)) in a1, b1, a2, b2, a3, b3, a4, b4, a5, b5, a8, b8, a9, b9, a10, b10.
  rewrite R17, R18 in a1, a2. assert (E20 : c1.[20] = c2.[20]) by (rewrite <- a1, <- b1; reflexivity). assert (E21 : c1.[21] = c2.[21]) by (rewrite <- a2, <- b2; reflexivity).
  pose proof (V 1%nat ltac:(lia) E20) as E24. pose proof (V 2%nat ltac:(lia) E21) as E25. cbn [Nat.add] in E24, E25.
  rewrite R17, R18, R19, E25 in a3. assert (E22 : c1.[22] = c2.[22]) by (rewrite <- a3, <- b3; reflexivity). pose proof (V 3%nat ltac:(lia) E22) as E26. cbn [Nat.add] in E26.
  clear V a1 b1 a2 b2 a3 b3 F1 F2. rewrite E24 in *. rewrite E25 in *. rewrite E26 in *. rewrite R17 in *. rewrite R18 in *. rewrite R19 in *. rewrite <- a10 in *. rewrite <- b10 in *.
  clear a10 b10 E24 E25 E26 R17 R18 R19. rewrite <- a8 in *. rewrite <- b8 in *. rewrite <- a9 in *. rewrite <- b9 in *.
  destruct (flag_set w 9) eqn:J.
  - destruct (D eq_refl) as (J7 & J8 & J10). rewrite J7, J8, J10 in *. cbn [of_bool] in *.
    f_equal.
    + destruct (feq_dec HK c2.[24] 0) as [Z|Z].
      * rewrite Z in a6, b6. assert (G : n1.[19] - (c2.[19] + (bit (flag_set w 2) + 1)) = 0). { apply (product_zero (0 - 1)); [|intro K; apply (one_neq_zero HK); transitivity (0 - (0 - 1) : C); [ring|rewrite K; ring]]. transitivity ((1 * 0 * c1.[16] - 1) * (n1.[19] - (c2.[19] + (bit (flag_set w 2) + 1)))); [ring|exact a6]. }
        assert (G' : n2.[19] - (c2.[19] + (bit (flag_set w 2) + 1)) = 0). { apply (product_zero (0 - 1)); [|intro K; apply (one_neq_zero HK); transitivity (0 - (0 - 1) : C); [ring|rewrite K; ring]]. transitivity ((1 * 0 * c2.[16] - 1) * (n2.[19] - (c2.[19] + (bit (flag_set w 2) + 1)))); [ring|exact b6]. }
        apply (proj1 (sub_zero HK _ _)) in G, G'. congruence.
      * assert (G : n1.[19] - (c2.[19] + c2.[26]) = 0). { apply (product_zero c2.[24]); [|exact Z]. etransitivity; [|exact a7]. ring. }
        assert (G' : n2.[19] - (c2.[19] + c2.[26]) = 0). { apply (product_zero c2.[24]); [|exact Z]. etransitivity; [|exact b7]. ring. }
        apply (proj1 (sub_zero HK _ _)) in G, G'. congruence.
    + rewrite <- a4, <- b4. ring.
    + rewrite <- a5, <- b5. reflexivity.
  - clear D. cbn [of_bool] in *. assert (E16 : c1.[16] = c2.[16]). { apply (proj1 (sub_zero HK _ _)) in a11, b11. rewrite a11 in b11. transitivity ((1 - 0) * c1.[16]); [ring|rewrite b11; ring]. }
    rewrite E16 in *. f_equal.
    + apply (proj1 (sub_zero HK _ _)) in a7, b7. rewrite <- b7 in a7. transitivity (0 * c2.[24] * (n1.[19] - (c2.[19] + c2.[26])) + (1 - 0) * n1.[19]); [ring|]. rewrite a7. ring.
    + rewrite <- a4, <- b4. reflexivity.
    + rewrite <- a5, <- b5. reflexivity.
Qed.
(** ** Rows for a given word *)
Lemma word_bits k : forall v, (v < 2 ^ N.of_nat k)%N -> word_of_bits (map (fun i => N.testbit v (N.of_nat i)) (seq 0 k)) = v.
Proof using Type.
  induction k as [|k IH]; intros v Hv; [change (2 ^ N.of_nat 0)%N with 1%N in Hv; cbn; lia|].
  cbn [seq map word_of_bits fold_right]. change (N.of_nat 0) with 0%N. rewrite <- seq_shift, map_map.
  rewrite (map_ext _ (fun i => N.testbit (N.div2 v) (N.of_nat i))) by (intro i; rewrite N.div2_spec, N.shiftr_spec'; f_equal; lia).
  change (N.b2n (N.testbit v 0) + 2 * word_of_bits (map (fun i => N.testbit (N.div2 v) (N.of_nat i)) (seq 0 k)) = v)%N.
  rewrite IH.
  - rewrite N.bit0_odd. pose proof (N.div2_odd v). lia.
  - rewrite Nat2N.inj_succ, N.pow_succ_r' in Hv. rewrite N.div2_div. apply N.div_lt_upper_bound; lia.
Qed.
Lemma word_parts w : (w < 2 ^ 63)%N ->
  (off_dst w + 2 ^ 16 * off_op0 w + 2 ^ 32 * off_op1 w + 2 ^ 48 * word_of_bits (map (flag_set w) (seq 0 15)) = w)%N.
Proof using Type.
  intro Hw. replace (word_of_bits (map (flag_set w) (seq 0 15))) with (w / 2 ^ 48)%N.
  - unfold off_dst, off_op0, off_op1, bits_of. rewrite N.pow_0_r, N.div_1_r.
    replace (w / 2 ^ 32)%N with (w / 2 ^ 16 / 2 ^ 16)%N by (rewrite N.div_div by discriminate; reflexivity).
    replace (w / 2 ^ 48)%N with (w / 2 ^ 16 / 2 ^ 16 / 2 ^ 16)%N by (rewrite !N.div_div by discriminate; reflexivity).
    pose proof (N.div_mod w (2 ^ 16) ltac:(discriminate)) as E1. pose proof (N.div_mod (w / 2 ^ 16) (2 ^ 16) ltac:(discriminate)) as E2.
    pose proof (N.div_mod (w / 2 ^ 16 / 2 ^ 16) (2 ^ 16) ltac:(discriminate)) as E3.
    set (q1 := (w / 2 ^ 16)%N) in *. set (q2 := (q1 / 2 ^ 16)%N) in *. set (q3 := (q2 / 2 ^ 16)%N) in *.
    change (2 ^ 16)%N with 65536%N in *. change (2 ^ 32)%N with (65536 * 65536)%N. change (2 ^ 48)%N with (65536 * 65536 * 65536)%N. lia.
  - rewrite <- (word_bits 15 (w / 2 ^ 48)); [|apply N.div_lt_upper_bound; [discriminate|exact Hw]].
    f_equal. apply map_ext. intro i. rewrite N.div_pow2_bits. unfold flag_set. f_equal. lia.
Qed.

Definition built_row (w : N) (s : cpu_state C) (dst op0 op1 res : C) (rest : nat) : list C :=
  let f i := bit (flag_set w i) in
  let reg i := f i * s_fp s + (1 - f i) * s_ap s in
  [f 0%nat; f 1%nat; f 2%nat; f 3%nat; f 4%nat; f 5%nat; f 6%nat; f 7%nat; f 8%nat; f 9%nat; f 10%nat; f 11%nat; f 12%nat; f 13%nat; f 14%nat; 0;
   res; s_ap s; s_fp s; s_pc s;
   reg 0%nat + offset_value (off_dst w); reg 1%nat + offset_value (off_op0 w);
   f 2%nat * s_pc s + f 4%nat * s_ap s + f 3%nat * s_fp s + (1 - f 2%nat - f 4%nat - f 3%nat) * op0 + offset_value (off_op1 w);
   e_u64 C w; dst; op0; op1; e_u64 C (off_dst w); e_u64 C (off_op0 w); e_u64 C (off_op1 w);
   f 9%nat * dst; f 9%nat * dst * res; op0 * op1; 1] ++ repeat 0 rest.
Definition state_row (s : cpu_state C) (rest : nat) : list C := repeat 0 17 ++ [s_ap s; s_fp s; s_pc s] ++ repeat 0 rest.

(** What remains to be shown of a built row. *)
Record follows (w : N) (s : cpu_state C) (dst op0 op1 res : C) (s' : cpu_state C) : Prop := {
  fo_ap : s_ap s + bit (flag_set w 10) * res + bit (flag_set w 11) + bit (flag_set w 12) * (1 + 1) = s_ap s';
  fo_fp : bit (flag_set w 13) * dst + bit (flag_set w 12) * (s_ap s + (1 + 1)) + (1 - bit (flag_set w 13) - bit (flag_set w 12)) * s_fp s = s_fp s';
  fo_pc1 : (bit (flag_set w 9) * dst * res - bit (flag_set w 9)) * (s_pc s' - (s_pc s + (bit (flag_set w 2) + 1))) = 0;
  fo_pc2 : bit (flag_set w 9) * dst * (s_pc s' - (s_pc s + op1)) + (1 - bit (flag_set w 9)) * s_pc s' =
    (1 - bit (flag_set w 7) - bit (flag_set w 8) - bit (flag_set w 9)) * (s_pc s + (bit (flag_set w 2) + 1)) + bit (flag_set w 7) * res + bit (flag_set w 8) * (s_pc s + res);
  fo_res : bit (flag_set w 5) * (op0 + op1) + bit (flag_set w 6) * (op0 * op1) + (1 - bit (flag_set w 5) - bit (flag_set w 6) - bit (flag_set w 9)) * op1 = (1 - bit (flag_set w 9)) * res;
  fo_call1 : bit (flag_set w 12) * (dst - s_fp s) = 0;
  fo_call2 : bit (flag_set w 12) * (op0 - (s_pc s + (bit (flag_set w 2) + 1))) = 0;
  fo_assert : bit (flag_set w 14) * (dst - res) = 0
}.

Lemma built_executes pi opts len ch w s dst op0 op1 res s' : (w < 2 ^ 63)%N -> follows w s dst op0 op1 res s' ->
  let k := (cairo_width pi - 34)%nat in executes pi opts len ch w (built_row w s dst op0 op1 res k) (state_row s' (k + 14)).
Proof using HC.
  intros Hw Hf k. assert (W34 : (34 <= cairo_width pi)%nat) by (unfold cairo_width; pose proof (offset_le pi); lia).
  assert (L1 : length (built_row w s dst op0 op1 res k) = cairo_width pi) by (unfold built_row; rewrite app_length, repeat_length; cbn [length]; lia).
  assert (L2 : length (state_row s' (k + 14)) = cairo_width pi) by (unfold state_row; rewrite !app_length, !repeat_length; cbn [length]; lia).
  constructor; try reflexivity; [|congruence| |exact Hw].
  { cbn [cairo_air a_context]. now rewrite cairo_width_declared. }
  exists (cairo_constraints pi ch (built_row w s dst op0 op1 res k) (state_row s' (k + 14))). split.
  { cbn [cairo_air a_transition]. rewrite L1. apply cairo_transition_frame; congruence. }
  intros j Hj. unfold ASSERT_EQ in Hj. destruct (Nat.lt_ge_cases j 16) as [J|J].
  - rewrite flag_constraint by exact J. unfold flag_value. destruct (Nat.leb_spec j 14) as [J'|J'].
    + replace (nth j (built_row w s dst op0 op1 res k) 0) with (bit (flag_set w j)); [apply (bit_flag HC)|].
      do 15 (destruct j as [|j]; [reflexivity|]). lia.
    + replace j with 15%nat by lia. reflexivity.
  - replace j with (16 + (j - 16))%nat by lia. assert (J' : (j - 16 < 15)%nat) by lia. rewrite cpu_constraint by exact J'. set (i := (j - 16)%nat) in *. clearbody i. clear j Hj J.
    assert (P16 : fpow (e_u64 C 2) 16 = e_u64 C (2 ^ 16)) by (symmetry; apply (u64_pow2 HC 16)).
    assert (P32 : fpow (e_u64 C 2) 32 = e_u64 C (2 ^ 32)) by (symmetry; apply (u64_pow2 HC 32)).
    assert (P48 : fpow (e_u64 C 2) 48 = e_u64 C (2 ^ 48)) by (symmetry; apply (u64_pow2 HC 48)).
    assert (P15 : fpow (e_u64 C 2) 15 = e_u64 C (2 ^ 15)) by (symmetry; apply (u64_pow2 HC 15)).
    replace (nth i (cpu_formulas (built_row w s dst op0 op1 res k) (state_row s' (k + 14))) 0) with (0 : C); [ring|]. symmetry.
    assert (Hsq : squiggle (built_row w s dst op0 op1 res k) = e_u64 C (word_of_bits (map (flag_set w) (seq 0 15)))) by (apply (squiggle_bits HC); reflexivity).
    destruct Hf as [f1 f2 f3 f4 f5 f6 f7 f8]. pose proof (u64_two HC) as T2.
    unfold cpu_formulas. rewrite P16, P32, P48, P15, Hsq, T2.
    do 15 (try (destruct i as [|i])); try (exfalso; lia); cbn [nth built_row state_row app repeat]; try (unfold offset_value; ring); try assumption.
    + pose proof (f_equal (e_u64 C) (word_parts w Hw)) as E. rewrite !(co_add _ _ HC), !(co_mul _ _ HC) in E. apply (proj2 (sub_zero HK _ _)). exact E.
    + rewrite f1. ring.
    + rewrite f2. ring.
    + rewrite f4. ring.
    + rewrite f5. ring.
Qed.

Lemma built_facts w s dst op0 op1 res k :
  let row := built_row w s dst op0 op1 res k in
  registers row = s /\ nth FRAME_DST row 0 = dst /\ nth FRAME_OP0 row 0 = op0 /\ nth FRAME_OP1 row 0 = op1 /\ nth FRAME_RES row 0 = res.
Proof using Type. destruct s. repeat split. Qed.
Lemma state_facts s k : registers (state_row s k) = s.
Proof using Type. destruct s. reflexivity. Qed.

(** Any word that neither asserts nor branches on a value can be executed anywhere. *)
Lemma follows_any w s dst op0 op1 : flag_set w 9 = false -> flag_set w 12 = false -> flag_set w 14 = false -> exists res s', follows w s dst op0 op1 res s'.
Proof using HC.
  intros J9 J12 J14. pose (res := bit (flag_set w 5) * (op0 + op1) + bit (flag_set w 6) * (op0 * op1) + (1 - bit (flag_set w 5) - bit (flag_set w 6)) * op1).
  exists res, (mk_state ((1 - bit (flag_set w 7) - bit (flag_set w 8)) * (s_pc s + (bit (flag_set w 2) + 1)) + bit (flag_set w 7) * res + bit (flag_set w 8) * (s_pc s + res))
    (s_ap s + bit (flag_set w 10) * res + bit (flag_set w 11)) (bit (flag_set w 13) * dst + (1 - bit (flag_set w 13)) * s_fp s)).
  constructor; cbn [s_pc s_ap s_fp]; rewrite ?J9, ?J12, ?J14; cbn [of_bool]; unfold res; ring.
Qed.
(** A conditional jump that is not taken and adds res to ap. *)
Lemma follows_jump w s op0 op1 target : flag_set w 9 = true -> flag_set w 10 = true -> flag_set w 5 = false -> flag_set w 6 = false ->
  flag_set w 7 = false -> flag_set w 8 = false -> flag_set w 12 = false -> flag_set w 13 = false -> flag_set w 14 = false ->
  follows w s 0 op0 op1 (target - s_ap s - bit (flag_set w 11)) (mk_state (s_pc s + if flag_set w 2 then 1 + 1 else 1) target (s_fp s)).
Proof using HC.
  intros J9 J10 J5 J6 J7 J8 J12 J13 J14. constructor; cbn [s_pc s_ap s_fp]; rewrite ?J9, ?J10, ?J5, ?J6, ?J7, ?J8, ?J12, ?J13, ?J14; cbn [of_bool]; try ring.
  destruct (flag_set w 2); cbn [of_bool]; ring.
Qed.
(** ** Groups of flags *)
Lemma bit_u64 b : bit b = e_u64 C (N.b2n b).
Proof using HC. destruct b; cbn [of_bool N.b2n]; symmetry; [apply (co_one _ _ HC)|apply (co_zero _ _ HC)]. Qed.
Lemma small_sum (n : N) : (n < 4)%N -> e_u64 C n * (e_u64 C n - 1) = 0 -> (n = 0 \/ n = 1)%N.
Proof using HC.
  intros Hn H. pose proof (co_p _ _ HC) as Hp. assert (P : (4 < 2 ^ 65)%N) by reflexivity. apply (mul_zero HK) in H. destruct H as [H|H].
  - left. apply (u64_inj HC); [lia|lia|]. now rewrite H, (co_zero _ _ HC).
  - right. apply (proj1 (sub_zero HK _ _)) in H. apply (u64_inj HC); [lia|lia|]. now rewrite H, (co_one _ _ HC).
Qed.
Lemma group_two w o a b : flag_set w a = N.testbit w o -> flag_set w b = N.testbit w (o + 1) ->
  (bit (flag_set w a) + bit (flag_set w b)) * (bit (flag_set w a) + bit (flag_set w b) - 1) = 0 -> one_hot (bits_of w o 2).
Proof using HC.
  intros Ea Eb H. rewrite bits_of_2, <- Ea, <- Eb. rewrite !bit_u64, <- (co_add _ _ HC) in H. unfold one_hot.
  destruct (flag_set w a), (flag_set w b); cbn [N.b2n] in *; try (vm_compute; tauto). apply small_sum in H; [lia|reflexivity].
Qed.
Lemma group_three w o a b c : flag_set w a = N.testbit w o -> flag_set w b = N.testbit w (o + 1) -> flag_set w c = N.testbit w (o + 2) ->
  (bit (flag_set w a) + bit (flag_set w b) + bit (flag_set w c)) * (bit (flag_set w a) + bit (flag_set w b) + bit (flag_set w c) - 1) = 0 -> one_hot (bits_of w o 3).
Proof using HC.
  intros Ea Eb Ec H. rewrite bits_of_3, <- Ea, <- Eb, <- Ec. rewrite !bit_u64, <- !(co_add _ _ HC) in H. unfold one_hot.
  destruct (flag_set w a), (flag_set w b), (flag_set w c); cbn [N.b2n] in *; try (vm_compute; tauto); (apply small_sum in H; [lia|reflexivity]).
Qed.
End AnyWordFacts.
