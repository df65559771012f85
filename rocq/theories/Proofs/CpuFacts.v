(** The CPU constraints of the Cairo AIR. *)
From Coq Require Import List Arith NArith ZArith Bool Lia.
From Verif.Base Require Import Outcome Field Poly.
From Verif.Model Require Import Codec PublicInputs Trace Air CairoDecode CairoTrace CairoAir.
From Verif.Spec Require Import CairoSpec.
From Verif.Proofs Require Import FieldFacts FFTFacts OutcomeFacts DecodeFacts.
Import ListNotations.

Section Cpu.
Context {C : cairo_env} {p : N} (HC : cairo_ok C p).
Let HK : field_ok C := fft_field_ok _ (e_fft_ok _ (co_env _ _ HC)).
Add Field Kfield31 : (fld_th C HK).
Local Open Scope felt_scope.
Notation "r .[ i ]" := (nth i r (fzero : C)) (at level 2, format "r .[ i ]").

(** The values of the first 31 constraints before the selector is applied. *)
Definition flag_value (c : list C) (i : nat) : C := if (i <=? 14)%nat then c.[i] * (c.[i] - 1) else c.[i].
Definition squiggle (c : list C) : C := fold_left (fun acc flag => flag + e_u64 C 2 * acc) (rev (firstn 15 c)) 0.
Definition cpu_formulas (c n : list C) : list C :=
  let two := e_u64 C 2 in
  let b15 := fpow two 15 in
  [ c.[27] + fpow two 16 * c.[28] + fpow two 32 * c.[29] + fpow two 48 * squiggle c - c.[23];
    c.[0] * c.[18] + (1 - c.[0]) * c.[17] + (c.[27] - b15) - c.[20];
    c.[1] * c.[18] + (1 - c.[1]) * c.[17] + (c.[28] - b15) - c.[21];
    c.[2] * c.[19] + c.[4] * c.[17] + c.[3] * c.[18] + (1 - c.[2] - c.[4] - c.[3]) * c.[25] + (c.[29] - b15) - c.[22];
    c.[17] + c.[10] * c.[16] + c.[11] + c.[12] * two - n.[17];
    c.[13] * c.[24] + c.[12] * (c.[17] + two) + (1 - c.[13] - c.[12]) * c.[18] - n.[18];
    (c.[31] - c.[9]) * (n.[19] - (c.[19] + (c.[2] + 1)));
    c.[30] * (n.[19] - (c.[19] + c.[26])) + (1 - c.[9]) * n.[19]
      - ((1 - c.[7] - c.[8] - c.[9]) * (c.[19] + (c.[2] + 1)) + c.[7] * c.[16] + c.[8] * (c.[19] + c.[16]));
    c.[9] * c.[24] - c.[30];
    c.[30] * c.[16] - c.[31];
    c.[32] - (c.[25] * c.[26]);
    c.[5] * (c.[25] + c.[26]) + c.[6] * c.[32] + (1 - c.[5] - c.[6] - c.[9]) * c.[26] - (1 - c.[9]) * c.[16];
    c.[12] * (c.[24] - c.[18]);
    c.[12] * (c.[25] - (c.[19] + (c.[2] + 1)));
    c.[14] * (c.[24] - c.[16]) ].

Lemma constraints_length pi ch (c n : list C) :
  length (cairo_constraints pi ch c n) = (49 + if has_rc_builtin pi then 1 else 0)%nat.
Proof using Type. unfold cairo_constraints, has_rc_builtin. destruct (memory_segments pi); reflexivity. Qed.

Lemma flag_constraint pi ch (c n : list C) i : (i < 16)%nat ->
  nth i (cairo_constraints pi ch c n) 0 = flag_value c i.
Proof using Type.
  intro Hi. unfold cairo_constraints. destruct (has_rc_builtin pi);
  do 16 (destruct i as [|i]; [reflexivity|]); lia.
Qed.

Lemma cpu_constraint pi ch (c n : list C) i : (i < 15)%nat ->
  nth (16 + i) (cairo_constraints pi ch c n) 0 = nth i (cpu_formulas c n) 0 * c.[33].
Proof using Type.
  intro Hi. unfold cairo_constraints. destruct (has_rc_builtin pi);
  do 15 (destruct i as [|i]; [reflexivity|]); lia.
Qed.

(** ** Flags *)
Definition of_bool (b : bool) : C := if b then 1 else 0.

Lemma flag_is_bit x : x * (x - 1) = 0 -> exists b, x = of_bool b.
Proof using HC.
  intro H. destruct (mul_zero HK _ _ H) as [->|E]; [now exists false|]. exists true.
  apply (proj1 (sub_zero HK _ _)) in E. exact E.
Qed.
Lemma bit_flag b : of_bool b * (of_bool b - 1) = 0.
Proof using HC. destruct b; cbn; ring. Qed.

Lemma firstn_nth_seq (c : list C) k : (k <= length c)%nat -> firstn k c = map (fun i => c.[i]) (seq 0%nat k).
Proof using Type.
  revert c. induction k as [|k IH]; intros c H; [reflexivity|]. destruct c as [|a c]; [cbn in H; lia|].
  cbn [firstn seq map]. f_equal. rewrite IH by (cbn in H; lia). rewrite <- seq_shift, map_map. reflexivity.
Qed.

Lemma squiggle_bits (c : list C) bits : firstn 15 c = map of_bool bits -> squiggle c = e_u64 C (word_of_bits bits).
Proof using HC.
  intro H. unfold squiggle. rewrite H. clear H.
  rewrite <- fold_left_rev_right, rev_involutive. induction bits as [|b l IH].
  - cbn. symmetry. apply (co_zero _ _ HC).
  - cbn [map fold_right word_of_bits]. rewrite IH. fold (word_of_bits l).
    rewrite (co_add _ _ HC), (co_mul _ _ HC). f_equal. destruct b; cbn; symmetry; [apply (co_one _ _ HC)|apply (co_zero _ _ HC)].
Qed.

Lemma bits_of_word bits od o0 o1 : length bits = 15%nat -> (od < 2 ^ 16)%N -> (o0 < 2 ^ 16)%N -> (o1 < 2 ^ 16)%N ->
  let w := (od + 2 ^ 16 * o0 + 2 ^ 32 * o1 + 2 ^ 48 * word_of_bits bits)%N in
  (w < 2 ^ 63)%N /\ off_dst w = od /\ off_op0 w = o0 /\ off_op1 w = o1 /\
  forall i, (i < 15)%nat -> N.testbit w (48 + N.of_nat i) = nth i bits false.
Proof using Type.
  intros Hl Hd H0 H1. cbn zeta. set (v := word_of_bits bits).
  assert (Hv : (v < 2 ^ N.of_nat (length bits))%N).
  { unfold v. clear. induction bits as [|b l IH]; [reflexivity|]. cbn [length word_of_bits fold_right].
    fold (word_of_bits l). rewrite Nat2N.inj_succ, N.pow_succ_r'. destruct b; cbn [N.b2n]; lia. }
  rewrite Hl in Hv. change (2 ^ N.of_nat 15)%N with 32768%N in Hv.
  change (2 ^ 16)%N with 65536%N in *. change (2 ^ 32)%N with (65536 * 65536)%N. change (2 ^ 48)%N with (65536 * 65536 * 65536)%N.
  change (2 ^ 63)%N with (65536 * 65536 * 65536 * 32768)%N.
  set (w := (od + 65536 * o0 + 65536 * 65536 * o1 + 65536 * 65536 * 65536 * v)%N).
  assert (E0 : (w = od + (o0 + 65536 * (o1 + 65536 * v)) * 65536)%N) by (unfold w; lia).
  assert (D0 : (w / 65536 = o0 + 65536 * (o1 + 65536 * v))%N) by (rewrite E0, N.div_add, N.div_small by lia; lia).
  assert (D1 : (w / 65536 / 65536 = o1 + 65536 * v)%N) by (rewrite D0, N.mul_comm, N.div_add, N.div_small by lia; lia).
  assert (D2 : (w / 65536 / 65536 / 65536 = v)%N) by (rewrite D1, N.mul_comm, N.div_add, N.div_small by lia; lia).
  split; [lia|]. unfold off_dst, off_op0, off_op1, bits_of.
  change (2 ^ 16)%N with 65536%N. change (2 ^ 32)%N with (65536 * 65536)%N. rewrite N.pow_0_r, N.div_1_r.
  rewrite <- N.div_div by lia. rewrite D1, D0.
  split; [rewrite E0, N.mod_add, N.mod_small by lia; reflexivity|].
  split; [rewrite N.mul_comm, N.mod_add, N.mod_small by lia; reflexivity|].
  split; [rewrite N.mul_comm, N.mod_add, N.mod_small by lia; reflexivity|].
  intros i Hi. rewrite N.add_comm, <- N.div_pow2_bits. change (2 ^ 48)%N with (65536 * 65536 * 65536)%N.
  rewrite <- !N.div_div by lia. rewrite D2. unfold v. rewrite <- Hl in Hi. clear - Hi.
  revert i Hi. induction bits as [|b l IH]; intros i Hi; [cbn in Hi; lia|]. cbn [word_of_bits fold_right]. fold (word_of_bits l).
  destruct i as [|i].
  - cbn [nth]. change (N.of_nat 0) with 0%N. rewrite N.add_comm. destruct b; cbn [N.b2n]; [apply N.testbit_odd_0|rewrite N.add_0_r; apply N.testbit_even_0].
  - cbn [nth]. rewrite Nat2N.inj_succ, N.add_comm. rewrite <- IH by (cbn in Hi; lia).
    destruct b; cbn [N.b2n]; [apply N.testbit_odd_succ; lia|rewrite N.add_0_r; apply N.testbit_even_succ; lia].
Qed.

(** ** From the constraints to the step relation (C14) *)
Definition row_state (c : list C) : cpu_state C := mk_state c.[19] c.[17] c.[18].
Definition row_accesses (c : list C) : list (C * C) :=
  [(c.[19], c.[23]); (c.[20], c.[24]); (c.[21], c.[25]); (c.[22], c.[26])].

Lemma cpu_sound (pi : public_inputs C) ch (c n : list C) od o0 o1 :
  (34 <= length c)%nat -> (forall j, (j <= 30)%nat -> nth j (cairo_constraints pi ch c n) 0 = 0) -> c.[33] = 1 ->
  c.[27] = e_u64 C od -> c.[28] = e_u64 C o0 -> c.[29] = e_u64 C o1 ->
  (od < 2 ^ 16)%N -> (o0 < 2 ^ 16)%N -> (o1 < 2 ^ 16)%N ->
  exists w, (w < 2 ^ 63)%N /\ c.[23] = e_u64 C w /\
    off_dst w = od /\ off_op0 w = o0 /\ off_op1 w = o1 /\
    (forall i, (i < 15)%nat -> c.[i] = if N.testbit w (48 + N.of_nat i) then 1 else 0) /\ c.[15] = 0 /\
    (defined_instruction w ->
     cpu_step (fun a v => In (a, v) (row_accesses c)) w c.[24] c.[25] c.[26] c.[16] (row_state c) (row_state n)).
Proof using HC.
  intros Hlen Hc Hsel E27 E28 E29 Rd R0 R1.
  assert (Hf : forall i, (i < 15)%nat -> exists b, c.[i] = of_bool b).
  { intros i Hi. apply flag_is_bit. pose proof (Hc i ltac:(lia)) as H. rewrite flag_constraint in H by lia.
    unfold flag_value in H. destruct (Nat.leb_spec i 14); [exact H|lia]. }
  assert (Hb : exists bits, length bits = 15%nat /\ forall i, (i < 15)%nat -> c.[i] = of_bool (nth i bits false)).
  { exists (map (fun i => feqb c.[i] 1) (seq 0 15)). split; [now rewrite map_length, seq_length|].
    intros i Hi. destruct (Hf i Hi) as [b E]. rewrite nth_map_seq by exact Hi.
    rewrite E. destruct b; cbn [of_bool]; [now rewrite feqb_refl|]. replace (feqb (0 : C) 1) with false; [reflexivity|].
    symmetry. apply (proj2 (feqb_false HK _ _)). intro G. apply (one_neq_zero HK). now symmetry. }
  destruct Hb as (bits & Hl & Hbits). clear Hf.
  destruct (bits_of_word bits od o0 o1 Hl Rd R0 R1) as (Hw & F1 & F2 & F3 & F4).
  set (w := (od + 2 ^ 16 * o0 + 2 ^ 32 * o1 + 2 ^ 48 * word_of_bits bits)%N) in *.
  assert (Hsq : squiggle c = e_u64 C (word_of_bits bits)).
  { apply squiggle_bits. rewrite firstn_nth_seq by lia.
    apply nth_ext with (d := 0) (d' := of_bool false); [now rewrite !map_length, seq_length|]. rewrite map_length, seq_length. intros i Hi.
    rewrite nth_map_seq by exact Hi. rewrite map_nth. now apply Hbits. }
  assert (Q : forall i, (i < 15)%nat -> nth i (cpu_formulas c n) 0 = 0).
  { intros i Hi. pose proof (Hc (16 + i)%nat ltac:(lia)) as H. rewrite cpu_constraint, Hsel in H by lia.
    transitivity (nth i (cpu_formulas c n) 0 * 1); [ring|exact H]. }
  exists w. split; [exact Hw|].
  assert (P16 : fpow (e_u64 C 2) 16 = e_u64 C (2 ^ 16)) by (symmetry; apply (u64_pow2 HC 16)).
  assert (P32 : fpow (e_u64 C 2) 32 = e_u64 C (2 ^ 32)) by (symmetry; apply (u64_pow2 HC 32)).
  assert (P48 : fpow (e_u64 C 2) 48 = e_u64 C (2 ^ 48)) by (symmetry; apply (u64_pow2 HC 48)).
  assert (P15 : fpow (e_u64 C 2) 15 = e_u64 C (2 ^ 15)) by (symmetry; apply (u64_pow2 HC 15)).
  assert (Hinst : c.[23] = e_u64 C w).
  { pose proof (Q 0%nat ltac:(lia)) as H. cbn [cpu_formulas nth] in H. rewrite P16, P32, P48, Hsq, E27, E28, E29 in H.
    apply (proj1 (sub_zero HK _ _)) in H. rewrite <- H. unfold w. now rewrite !(co_add _ _ HC), !(co_mul _ _ HC). }
  split; [exact Hinst|]. do 3 (split; [assumption|]). split; [intros i Hi; rewrite F4 by exact Hi; now apply Hbits|].
  split. { pose proof (Hc 15%nat ltac:(lia)) as H. rewrite flag_constraint in H by lia. exact H. }
  intro Hdef. clear Hc.
  (* the flag groups as sums of bits *)
  assert (G0 : dst_reg_of w = N.b2n (nth 0 bits false)) by (unfold dst_reg_of; rewrite bits_of_1; f_equal; apply (F4 0%nat); lia).
  assert (G1 : op0_reg_of w = N.b2n (nth 1 bits false)) by (unfold op0_reg_of; rewrite bits_of_1; f_equal; apply (F4 1%nat); lia).
  assert (G2 : op1_src_of w = (N.b2n (nth 2 bits false) + 2 * N.b2n (nth 3 bits false) + 4 * N.b2n (nth 4 bits false))%N).
  { unfold op1_src_of. rewrite bits_of_3. pose proof (F4 2%nat ltac:(lia)) as A. pose proof (F4 3%nat ltac:(lia)) as B. pose proof (F4 4%nat ltac:(lia)) as D.
    rewrite <- A, <- B, <- D. reflexivity. }
  assert (G5 : res_logic_of w = (N.b2n (nth 5 bits false) + 2 * N.b2n (nth 6 bits false))%N).
  { unfold res_logic_of. rewrite bits_of_2. pose proof (F4 5%nat ltac:(lia)) as A. pose proof (F4 6%nat ltac:(lia)) as B.
    rewrite <- A, <- B. reflexivity. }
  assert (G7 : pc_update_of w = (N.b2n (nth 7 bits false) + 2 * N.b2n (nth 8 bits false) + 4 * N.b2n (nth 9 bits false))%N).
  { unfold pc_update_of. rewrite bits_of_3. pose proof (F4 7%nat ltac:(lia)) as A. pose proof (F4 8%nat ltac:(lia)) as B. pose proof (F4 9%nat ltac:(lia)) as D.
    rewrite <- A, <- B, <- D. reflexivity. }
  assert (G10 : ap_update_of w = (N.b2n (nth 10 bits false) + 2 * N.b2n (nth 11 bits false))%N).
  { unfold ap_update_of. rewrite bits_of_2. pose proof (F4 10%nat ltac:(lia)) as A. pose proof (F4 11%nat ltac:(lia)) as B.
    rewrite <- A, <- B. reflexivity. }
  assert (G12 : opcode_of w = (N.b2n (nth 12 bits false) + 2 * N.b2n (nth 13 bits false) + 4 * N.b2n (nth 14 bits false))%N).
  { unfold opcode_of. rewrite bits_of_3. pose proof (F4 12%nat ltac:(lia)) as A. pose proof (F4 13%nat ltac:(lia)) as B. pose proof (F4 14%nat ltac:(lia)) as D.
    rewrite <- A, <- B, <- D. reflexivity. }
  pose proof (Q 1%nat ltac:(lia)) as Q1. pose proof (Q 2%nat ltac:(lia)) as Q2. pose proof (Q 3%nat ltac:(lia)) as Q3.
  pose proof (Q 4%nat ltac:(lia)) as Q4. pose proof (Q 5%nat ltac:(lia)) as Q5. pose proof (Q 6%nat ltac:(lia)) as Q6.
  pose proof (Q 7%nat ltac:(lia)) as Q7. pose proof (Q 8%nat ltac:(lia)) as Q8. pose proof (Q 9%nat ltac:(lia)) as Q9.
  pose proof (Q 10%nat ltac:(lia)) as Q10. pose proof (Q 11%nat ltac:(lia)) as Q11. pose proof (Q 12%nat ltac:(lia)) as Q12.
  pose proof (Q 13%nat ltac:(lia)) as Q13. pose proof (Q 14%nat ltac:(lia)) as Q14. clear Q.
  cbn [cpu_formulas nth] in Q1, Q2, Q3, Q4, Q5, Q6, Q7, Q8, Q9, Q10, Q11, Q12, Q13, Q14.
  rewrite (u64_two HC) in *.
  replace (fpow (1 + 1 : C) 15) with (e_u64 C (2 ^ 15)) in Q1, Q2, Q3 by (rewrite <- P15; reflexivity).
  rewrite (Hbits 0%nat), (Hbits 1%nat), (Hbits 2%nat), (Hbits 3%nat), (Hbits 4%nat), (Hbits 5%nat), (Hbits 6%nat), (Hbits 7%nat),
    (Hbits 8%nat), (Hbits 9%nat), (Hbits 10%nat), (Hbits 11%nat), (Hbits 12%nat), (Hbits 13%nat), (Hbits 14%nat) in * by lia.
  set (b0 := nth 0 bits false) in *. set (b1 := nth 1 bits false) in *. set (b2 := nth 2 bits false) in *.
  set (b3 := nth 3 bits false) in *. set (b4 := nth 4 bits false) in *. set (b5 := nth 5 bits false) in *.
  set (b6 := nth 6 bits false) in *. set (b7 := nth 7 bits false) in *. set (b8 := nth 8 bits false) in *.
  set (b9 := nth 9 bits false) in *. set (b10 := nth 10 bits false) in *. set (b11 := nth 11 bits false) in *.
  set (b12 := nth 12 bits false) in *. set (b13 := nth 13 bits false) in *. set (b14 := nth 14 bits false) in *.
  clearbody b0 b1 b2 b3 b4 b5 b6 b7 b8 b9 b10 b11 b12 b13 b14. 
destruct Hdef as ((Ho1 & Hor & Hop & Hoa & Hoo) & Hjnz & Hcall).
  rewrite G2 in Ho1. rewrite G5 in Hor, Hjnz. rewrite G7 in Hop, Hjnz. rewrite G10 in Hoa, Hjnz, Hcall. rewrite G12 in Hoo, Hjnz, Hcall.
  apply (proj1 (sub_zero HK _ _)) in Q1, Q2, Q3, Q4, Q5, Q8, Q9, Q10, Q11.
  assert (Hsize : instruction_size w = of_bool b2 + 1).
  { unfold instruction_size. rewrite G2. destruct Ho1 as [T|[T|[T|T]]]; rewrite T; destruct b2, b3, b4; cbn in T; try discriminate; cbn; ring. }
  constructor; cbn [row_state s_pc s_ap s_fp].
  - exact Hw.
  - left. f_equal. exact Hinst.
  - right. left. f_equal. rewrite F1, G0. unfold offset_value. rewrite <- E27, <- Q1. destruct b0; cbn; ring.
  - right. right. left. f_equal. rewrite F2, G1. unfold offset_value. rewrite <- E28, <- Q2. destruct b1; cbn; ring.
  - right. right. right. left. f_equal. unfold op1_base. rewrite F3, G2. unfold offset_value. rewrite <- E29, <- Q3. cbn [row_state s_pc s_ap s_fp].
    destruct Ho1 as [T|[T|[T|T]]]; rewrite T; destruct b2, b3, b4; cbn in T; try discriminate; cbn; ring.
  - rewrite G7, G5. intro Hn.
    assert (b9 = false) as -> by (destruct b9; [|reflexivity]; destruct Hop as [T|[T|[T|T]]]; rewrite T in Hn; destruct b7, b8; cbn in T; try discriminate; congruence).

    assert (Q11' : c.[16] = of_bool b5 * (c.[25] + c.[26]) + of_bool b6 * (c.[25] * c.[26]) + (1 - of_bool b5 - of_bool b6 - 0) * c.[26]).
    { rewrite <- Q10. transitivity ((1 - of_bool false) * c.[16]); [cbn; ring|]. symmetry. exact Q11. }
    rewrite Q11'. destruct Hor as [T|[T|[T|T]]]; rewrite T; destruct b5, b6; cbn in T; try discriminate; cbn; ring.
  - rewrite G7. rewrite Hsize. destruct Hop as [T|[T|[T|T]]]; rewrite T; destruct b7, b8, b9; cbn in T; try discriminate;
      cbn [of_bool] in Q7, Q6, Q8, Q9; rewrite <- Q8 in *.
    + transitivity (0 * c.[24] * (n.[19] - (c.[19] + c.[26])) + (1 - 0) * n.[19]
        - ((1 - 0 - 0 - 0) * (c.[19] + (of_bool b2 + 1)) + 0 * c.[16] + 0 * (c.[19] + c.[16])) + (c.[19] + (of_bool b2 + 1))); [ring|].
      rewrite Q7. ring.
    + transitivity (0 * c.[24] * (n.[19] - (c.[19] + c.[26])) + (1 - 0) * n.[19]
        - ((1 - 1 - 0 - 0) * (c.[19] + (of_bool b2 + 1)) + 1 * c.[16] + 0 * (c.[19] + c.[16])) + c.[16]); [ring|].
      rewrite Q7. ring.
    + transitivity (0 * c.[24] * (n.[19] - (c.[19] + c.[26])) + (1 - 0) * n.[19]
        - ((1 - 0 - 1 - 0) * (c.[19] + (of_bool b2 + 1)) + 0 * c.[16] + 1 * (c.[19] + c.[16])) + (c.[19] + c.[16])); [ring|].
      rewrite Q7. ring.
    + destruct (feqb c.[24] 0) eqn:Ed.
      * apply (proj1 (feqb_spec _ HK _ _)) in Ed. rewrite <- Q9, Ed in Q6. apply (proj1 (sub_zero HK _ _)).
        transitivity (- ((1 * 0 * c.[16] - 1) * (n.[19] - (c.[19] + (of_bool b2 + 1))))); [ring|]. rewrite Q6. ring.
      * apply (proj1 (feqb_false HK _ _)) in Ed.
        assert (Z : c.[24] * (n.[19] - (c.[19] + c.[26])) = 0).
        { transitivity (1 * c.[24] * (n.[19] - (c.[19] + c.[26])) + (1 - 1) * n.[19]
            - ((1 - 0 - 0 - 1) * (c.[19] + (of_bool b2 + 1)) + 0 * c.[16] + 0 * (c.[19] + c.[16]))); [ring|exact Q7]. }
        destruct (mul_zero HK _ _ Z) as [Z'|Z']; [contradiction|]. now apply (proj1 (sub_zero HK _ _)).
  - rewrite G10, G12, <- Q4.
    destruct Hoo as [T|[T|[T|T]]]; rewrite T; destruct b12, b13, b14; cbn in T; try discriminate;
    destruct Hoa as [U|[U|[U|U]]]; rewrite U; destruct b10, b11; cbn in U; try discriminate; cbn; try ring;
    exfalso; specialize (Hcall eq_refl); cbn in Hcall; discriminate.
  - rewrite G12, <- Q5. destruct Hoo as [T|[T|[T|T]]]; rewrite T; destruct b12, b13, b14; cbn in T; try discriminate; cbn; ring.
  - rewrite G12, Hsize. intro T. destruct b12, b13, b14; cbn in T; try discriminate. cbn [of_bool] in Q12, Q13. split; apply (proj1 (sub_zero HK _ _)).
    + etransitivity; [|exact Q12]. ring.
    + etransitivity; [|exact Q13]. ring.
  - rewrite G12. intro T. destruct b12, b13, b14; cbn in T; try discriminate. cbn [of_bool] in Q14. apply (proj1 (sub_zero HK _ _)).
    etransitivity; [|exact Q14]. ring.
Qed.
End Cpu.
