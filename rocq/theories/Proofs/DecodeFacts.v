(** Facts about the field conversions and instruction decoding. *)
From Coq Require Import List NArith ZArith Bool Lia.
From Verif.Base Require Import Outcome Field Poly.
From Verif.Model Require Import Codec Air CairoDecode.
From Verif.Spec Require Import CairoSpec.
From Verif.Proofs Require Import FieldFacts OutcomeFacts.
Import ListNotations.

Lemma bits_of_testbit w off len i : N.testbit (bits_of w off len) i = (N.testbit w (off + i) && (i <? len)%N)%bool.
Proof.
  unfold bits_of. destruct (N.ltb_spec i len) as [H|H].
  - rewrite N.mod_pow2_bits_low, N.div_pow2_bits by assumption. rewrite andb_true_r. f_equal. lia.
  - rewrite N.mod_pow2_bits_high by assumption. now rewrite andb_false_r.
Qed.
Lemma bits_of_lt w off len : (bits_of w off len < 2 ^ len)%N.
Proof. apply N.mod_lt. apply N.pow_nonzero. lia. Qed.

(** A word splits at any bit. *)
Lemma bits_of_split w off a b : (bits_of w off (a + b) = bits_of w off a + 2 ^ a * bits_of w (off + a) b)%N.
Proof.
  unfold bits_of. rewrite !N.pow_add_r. rewrite <- N.div_div by (apply N.pow_nonzero; lia).
  rewrite N.mod_mul_r by (apply N.pow_nonzero; lia). reflexivity.
Qed.
Lemma bits_of_all w len : (w < 2 ^ len)%N -> bits_of w 0 len = w.
Proof. intro H. unfold bits_of. rewrite N.pow_0_r, N.div_1_r. now apply N.mod_small. Qed.
Lemma bits_of_1 w off : bits_of w off 1 = N.b2n (N.testbit w off).
Proof.
  unfold bits_of. change (2 ^ 1)%N with 2%N. rewrite <- N.bit0_mod. f_equal. rewrite N.div_pow2_bits. f_equal. 
Qed.
Lemma bits_of_2 w off : (bits_of w off 2 = N.b2n (N.testbit w off) + 2 * N.b2n (N.testbit w (off + 1)))%N.
Proof. change 2%N with (1 + 1)%N at 1. rewrite (bits_of_split w off 1 1), !bits_of_1. reflexivity. Qed.
Lemma bits_of_3 w off :
  (bits_of w off 3 = N.b2n (N.testbit w off) + 2 * N.b2n (N.testbit w (off + 1)) + 4 * N.b2n (N.testbit w (off + 2)))%N.
Proof.
  change 3%N with (2 + 1)%N. rewrite (bits_of_split w off 2 1), bits_of_2, bits_of_1. reflexivity.
Qed.

Section Decode.
Context {C : cairo_env} {p : N} (HC : cairo_ok C p).
Let HK : field_ok C := fft_field_ok _ (e_fft_ok _ (co_env _ _ HC)).
Add Field Kfield30 : (fld_th C HK).

Lemma flag_group_bits (x : C) len off mask : (mask = N.shiftl (N.ones len) off)%N -> (48 + off + len <= 64)%N -> (len <= 8)%N ->
  flag_group x mask off = bits_of (ce_repr x) (48 + off) len.
Proof using Type.
  intros -> H Hl. unfold flag_group. apply N.bits_inj. intro i. rewrite bits_of_testbit.
  change 256%N with (2 ^ 8)%N.
  destruct (N.ltb_spec i 8) as [Hi|Hi].
  - rewrite N.mod_pow2_bits_low by assumption. rewrite N.shiftr_spec', N.land_spec, N.shiftr_spec'.
    rewrite N.shiftl_spec_high' by lia. replace (i + off - off)%N with i by lia.
    destruct (N.ltb_spec i len) as [Hj|Hj].
    + rewrite N.ones_spec_low by assumption. f_equal. unfold last_nim. rewrite N.mod_pow2_bits_low by (unfold FLAGS_OFFSET; lia).
      f_equal. unfold FLAGS_OFFSET. lia.
    + rewrite N.ones_spec_high by assumption. now rewrite !andb_false_r.
  - rewrite N.mod_pow2_bits_high by assumption. destruct (N.ltb_spec i len); [lia|]. now rewrite andb_false_r.
Qed.

Lemma group_op0 (x : C) : flag_group x OP0_REG_MASK OP0_REG_OFF = op0_reg_of (ce_repr x).
Proof using Type. apply (flag_group_bits x 1 1); [reflexivity|lia..]. Qed.
Lemma group_dst (x : C) : flag_group x DST_REG_MASK DST_REG_OFF = dst_reg_of (ce_repr x).
Proof using Type. apply (flag_group_bits x 1 0); [reflexivity|lia..]. Qed.
Lemma group_op1 (x : C) : flag_group x OP1_SRC_MASK OP1_SRC_OFF = op1_src_of (ce_repr x).
Proof using Type. apply (flag_group_bits x 3 2); [reflexivity|lia..]. Qed.
Lemma group_res (x : C) : flag_group x RES_LOGIC_MASK RES_LOGIC_OFF = res_logic_of (ce_repr x).
Proof using Type. apply (flag_group_bits x 2 5); [reflexivity|lia..]. Qed.
Lemma group_pc (x : C) : flag_group x PC_UPDATE_MASK PC_UPDATE_OFF = pc_update_of (ce_repr x).
Proof using Type. apply (flag_group_bits x 3 7); [reflexivity|lia..]. Qed.
Lemma group_ap (x : C) : flag_group x AP_UPDATE_MASK AP_UPDATE_OFF = ap_update_of (ce_repr x).
Proof using Type. apply (flag_group_bits x 2 10); [reflexivity|lia..]. Qed.
Lemma group_opc (x : C) : flag_group x OPCODE_MASK OPCODE_OFF = opcode_of (ce_repr x).
Proof using Type. apply (flag_group_bits x 3 12); [reflexivity|lia..]. Qed.

(** The decoded enums, as group values. *)
Definition dst_code (r : dst_reg) : N := match r with DstAP => 0 | DstFP => 1 end.
Definition op0_code (r : op0_reg) : N := match r with Op0AP => 0 | Op0FP => 1 end.
Definition op1_code (s : op1_src) : N := match s with Op1Op0 => 0 | Op1Imm => 1 | Op1FP => 2 | Op1AP => 4 end.
Definition res_code (s : res_logic) : N := match s with ResOp1 => 0 | ResAdd => 1 | ResMul => 2 | ResUnconstrained => 4 end.
Definition pc_code (s : pc_update) : N := match s with PcRegular => 0 | PcJump => 1 | PcJumpRel => 2 | PcJnz => 4 end.
Definition ap_code (s : ap_update) : N := match s with ApRegular => 0 | ApAdd => 1 | ApAdd1 => 2 | ApAdd2 => 4 end.
Definition opc_code (s : cairo_opcode) : N := match s with NOp => 0 | Call => 1 | Ret => 2 | AssertEq => 4 end.

Definition flags_match (w : N) (f : instruction_flags) : Prop :=
  dst_reg_of w = dst_code (if_dst_reg f) /\ op0_reg_of w = op0_code (if_op0_reg f) /\
  op1_src_of w = op1_code (if_op1_src f) /\ res_logic_of w = res_code (if_res_logic f) /\
  pc_update_of w = pc_code (if_pc_update f) /\ ap_update_of w = ap_code (if_ap_update f) /\
  opcode_of w = opc_code (if_opcode f).

Lemma lt_cases v n : (v < n)%N -> In v (map N.of_nat (seq 0 (N.to_nat n))).
Proof. intro H. apply in_map_iff. exists (N.to_nat v). split; [lia|]. apply in_seq. lia. Qed.
Ltac group_cases v H :=
  apply lt_cases in H; cbn in H; repeat (destruct H as [H|H]; [rewrite <- H|]); [..|contradiction].

Lemma decode_dst_ok (x : C) r : decode_dst_reg x = Ok r <-> dst_reg_of (ce_repr x) = dst_code r.
Proof using Type.
  unfold decode_dst_reg. rewrite group_dst. pose proof (bits_of_lt (ce_repr x) 48 1) as H. fold (dst_reg_of (ce_repr x)) in H.
  group_cases v H; destruct r; cbn; split; intro; try reflexivity; discriminate.
Qed.
Lemma decode_op0_ok (x : C) r : decode_op0_reg x = Ok r <-> op0_reg_of (ce_repr x) = op0_code r.
Proof using Type.
  unfold decode_op0_reg. rewrite group_op0. pose proof (bits_of_lt (ce_repr x) 49 1) as H. fold (op0_reg_of (ce_repr x)) in H.
  group_cases v H; destruct r; cbn; split; intro; try reflexivity; discriminate.
Qed.
Lemma decode_op1_ok (x : C) r : decode_op1_src x = Ok r <-> op1_src_of (ce_repr x) = op1_code r.
Proof using Type.
  unfold decode_op1_src. rewrite group_op1. pose proof (bits_of_lt (ce_repr x) 50 3) as H. fold (op1_src_of (ce_repr x)) in H.
  group_cases v H; destruct r; cbn; split; intro; try reflexivity; discriminate.
Qed.
Lemma decode_res_ok (x : C) r : decode_res_logic x = Ok r <-> res_logic_of (ce_repr x) = res_code r.
Proof using Type.
  unfold decode_res_logic. rewrite group_res. pose proof (bits_of_lt (ce_repr x) 53 2) as H. fold (res_logic_of (ce_repr x)) in H.
  group_cases v H; destruct r; cbn; split; intro; try reflexivity; discriminate.
Qed.
Lemma decode_pc_ok (x : C) r : decode_pc_update x = Ok r <-> pc_update_of (ce_repr x) = pc_code r.
Proof using Type.
  unfold decode_pc_update. rewrite group_pc. pose proof (bits_of_lt (ce_repr x) 55 3) as H. fold (pc_update_of (ce_repr x)) in H.
  group_cases v H; destruct r; cbn; split; intro; try reflexivity; discriminate.
Qed.
Lemma decode_ap_ok (x : C) r : decode_ap_update x = Ok r <-> ap_update_of (ce_repr x) = ap_code r.
Proof using Type.
  unfold decode_ap_update. rewrite group_ap. pose proof (bits_of_lt (ce_repr x) 58 2) as H. fold (ap_update_of (ce_repr x)) in H.
  group_cases v H; destruct r; cbn; split; intro; try reflexivity; discriminate.
Qed.
Lemma decode_opc_ok (x : C) r : decode_opcode x = Ok r <-> opcode_of (ce_repr x) = opc_code r.
Proof using Type.
  unfold decode_opcode. rewrite group_opc. pose proof (bits_of_lt (ce_repr x) 60 3) as H. fold (opcode_of (ce_repr x)) in H.
  group_cases v H; destruct r; cbn; split; intro; try reflexivity; discriminate.
Qed.

Lemma decode_flags_ok (x : C) f : decode_flags x = Ok f <-> flags_match (ce_repr x) f.
Proof using Type.
  unfold decode_flags, flags_match. split.
  - intro H. repeat (apply obind_ok in H; destruct H as (? & ? & H)). apply ok_inj in H. subst f. cbn.
    repeat split; first [now apply decode_dst_ok|now apply decode_op0_ok|now apply decode_op1_ok|now apply decode_res_ok
      |now apply decode_pc_ok|now apply decode_ap_ok|now apply decode_opc_ok].
  - intros (H1 & H2 & H3 & H4 & H5 & H6 & H7). destruct f as [o a pc r o1 o0 d]. cbn in *.
    rewrite (proj2 (decode_opc_ok _ _) H7), (proj2 (decode_pc_ok _ _) H5), (proj2 (decode_ap_ok _ _) H6),
      (proj2 (decode_res_ok _ _) H4), (proj2 (decode_op1_ok _ _) H3), (proj2 (decode_op0_ok _ _) H2), (proj2 (decode_dst_ok _ _) H1).
    reflexivity.
Qed.

Lemma one_hot_op1 v : one_hot v <-> exists s, v = op1_code s.
Proof. split; [intros [->|[->|[->| ->]]]; [now exists Op1Op0|now exists Op1Imm|now exists Op1FP|now exists Op1AP]|intros [[] ->]; cbn; unfold one_hot; tauto]. Qed.
Lemma one_hot_res v : one_hot v <-> exists s, v = res_code s.
Proof. split; [intros [->|[->|[->| ->]]]; [now exists ResOp1|now exists ResAdd|now exists ResMul|now exists ResUnconstrained]|intros [[] ->]; cbn; unfold one_hot; tauto]. Qed.
Lemma one_hot_pc v : one_hot v <-> exists s, v = pc_code s.
Proof. split; [intros [->|[->|[->| ->]]]; [now exists PcRegular|now exists PcJump|now exists PcJumpRel|now exists PcJnz]|intros [[] ->]; cbn; unfold one_hot; tauto]. Qed.
Lemma one_hot_ap v : one_hot v <-> exists s, v = ap_code s.
Proof. split; [intros [->|[->|[->| ->]]]; [now exists ApRegular|now exists ApAdd|now exists ApAdd1|now exists ApAdd2]|intros [[] ->]; cbn; unfold one_hot; tauto]. Qed.
Lemma one_hot_opc v : one_hot v <-> exists s, v = opc_code s.
Proof. split; [intros [->|[->|[->| ->]]]; [now exists NOp|now exists Call|now exists Ret|now exists AssertEq]|intros [[] ->]; cbn; unfold one_hot; tauto]. Qed.

Lemma dst_exists w : exists r, dst_reg_of w = dst_code r.
Proof. pose proof (bits_of_lt w 48 1) as H. fold (dst_reg_of w) in H. group_cases v H; [now exists DstAP|now exists DstFP]. Qed.
Lemma op0_exists w : exists r, op0_reg_of w = op0_code r.
Proof. pose proof (bits_of_lt w 49 1) as H. fold (op0_reg_of w) in H. group_cases v H; [now exists Op0AP|now exists Op0FP]. Qed.

Lemma decode_flags_iff (x : C) : (exists f, decode_flags x = Ok f) <-> allowed_flags (ce_repr x).
Proof using Type.
  unfold allowed_flags. rewrite one_hot_op1, one_hot_res, one_hot_pc, one_hot_ap, one_hot_opc. split.
  - intros [f H]. apply decode_flags_ok in H. destruct H as (H1 & H2 & H3 & H4 & H5 & H6 & H7).
    repeat split; eexists; eassumption.
  - intros ([o1 H3] & [r H4] & [pc H5] & [ap H6] & [opc H7]). destruct (dst_exists (ce_repr x)) as [d H1].
    destruct (op0_exists (ce_repr x)) as [o0 H2]. exists (mk_flags opc ap pc r o1 o0 d). apply decode_flags_ok. repeat split; assumption.
Qed.

(** decoding fails with an error, never a panic *)
Lemma decode_flags_total (x : C) : decode_flags x <> Panic.
Proof using Type.
  unfold decode_flags, decode_opcode, decode_pc_update, decode_ap_update, decode_res_logic, decode_op1_src, decode_op0_reg, decode_dst_reg.
  rewrite group_opc, group_pc, group_ap, group_res, group_op1, group_op0, group_dst.
  assert (T : forall (A B : Type) (y : outcome A) (g : A -> outcome B), y <> Panic -> (forall a, g a <> Panic) -> obind y g <> Panic).
  { intros A B y g Hy Hg. destruct y; cbn; [apply Hg|discriminate|congruence]. }
  unfold derr.
  repeat (apply T; [repeat match goal with |- (match ?v with _ => _ end) <> Panic => destruct v; try discriminate end|intro]).
  discriminate.
Qed.

(** ** The flag columns *)
Definition flag_bit (w : N) (i : nat) : C := if N.testbit w (48 + N.of_nat i) then fone else fzero.

Lemma testbit_bit w off len i v : bits_of w off len = v -> (i < len)%N -> N.testbit w (off + i) = N.testbit v i.
Proof. intros <- H. rewrite bits_of_testbit. destruct (N.ltb_spec i len); [now rewrite andb_true_r|lia]. Qed.

Lemma flags_repr_bits (w : N) f : flags_match w f -> flags_repr f = Ok (map (flag_bit w) (seq 0 15) ++ [fzero : C]).
Proof using Type.
  intros (H1 & H2 & H3 & H4 & H5 & H6 & H7).
  assert (T : forall off len i v, bits_of w off len = v -> (N.of_nat i + 48 = off + N.of_nat (N.to_nat (N.of_nat i + 48 - off)))%N ->
     (N.of_nat i + 48 - off < len)%N -> flag_bit w i = if N.testbit v (N.of_nat i + 48 - off) then fone else fzero).
  { intros off len i v Hv Hi Hl. unfold flag_bit. rewrite <- (testbit_bit w off len _ v Hv Hl).
    replace (off + (N.of_nat i + 48 - off))%N with (48 + N.of_nat i)%N by lia. reflexivity. }
  destruct f as [o a pc r o1 o0 d]. cbn [if_dst_reg if_op0_reg if_op1_src if_res_logic if_pc_update if_ap_update if_opcode] in *.
  pose proof (T _ _ 0%nat _ H1 ltac:(lia) ltac:(lia)) as B0.
  pose proof (T _ _ 1%nat _ H2 ltac:(lia) ltac:(lia)) as B1.
  pose proof (T _ _ 2%nat _ H3 ltac:(lia) ltac:(lia)) as B2. pose proof (T _ _ 3%nat _ H3 ltac:(lia) ltac:(lia)) as B3.
  pose proof (T _ _ 4%nat _ H3 ltac:(lia) ltac:(lia)) as B4.
  pose proof (T _ _ 5%nat _ H4 ltac:(lia) ltac:(lia)) as B5. pose proof (T _ _ 6%nat _ H4 ltac:(lia) ltac:(lia)) as B6.
  pose proof (T _ _ 7%nat _ H5 ltac:(lia) ltac:(lia)) as B7. pose proof (T _ _ 8%nat _ H5 ltac:(lia) ltac:(lia)) as B8.
  pose proof (T _ _ 9%nat _ H5 ltac:(lia) ltac:(lia)) as B9.
  pose proof (T _ _ 10%nat _ H6 ltac:(lia) ltac:(lia)) as B10. pose proof (T _ _ 11%nat _ H6 ltac:(lia) ltac:(lia)) as B11.
  pose proof (T _ _ 12%nat _ H7 ltac:(lia) ltac:(lia)) as B12. pose proof (T _ _ 13%nat _ H7 ltac:(lia) ltac:(lia)) as B13.
  pose proof (T _ _ 14%nat _ H7 ltac:(lia) ltac:(lia)) as B14.
  cbn [seq map]. rewrite B0, B1, B2, B3, B4, B5, B6, B7, B8, B9, B10, B11, B12, B13, B14.
  assert (R4 : r <> ResUnconstrained).
  { intros ->. pose proof (bits_of_lt w 53 2) as L. fold (res_logic_of w) in L. rewrite H4 in L. vm_compute in L. discriminate. }
  assert (A4 : a <> ApAdd2).
  { intros ->. pose proof (bits_of_lt w 58 2) as L. fold (ap_update_of w) in L. rewrite H6 in L. vm_compute in L. discriminate. }
  clear - R4 A4. unfold flags_repr. cbn [if_dst_reg if_op0_reg if_op1_src if_res_logic if_pc_update if_ap_update if_opcode].
  assert (D : forall d : dst_reg, dst_reg_repr d = if N.testbit (dst_code d) (N.of_nat 0 + 48 - 48) then fone else fzero :> C) by (intros []; reflexivity).
  assert (O0 : forall d : op0_reg, op0_reg_repr d = if N.testbit (op0_code d) (N.of_nat 1 + 48 - 49) then fone else fzero :> C) by (intros []; reflexivity).
  rewrite D, O0.
  destruct r; try congruence; destruct a; try congruence; cbn [res_logic_repr ap_update_repr obind];
    destruct o1; cbn [op1_src_repr]; destruct pc; cbn [pc_update_repr]; destruct o; cbn [opcode_repr]; reflexivity.
Qed.

(** ** Offsets *)
Lemma decode_offset_value (x : C) off : (off + 16 <= 64)%N ->
  decode_offset x off = (Z.of_N (bits_of (ce_repr x) off 16) - 2 ^ 15)%Z.
Proof using Type.
  intro Ho. unfold decode_offset.
  assert (E : N.land (N.shiftr (last_nim x) off) 65535 = bits_of (ce_repr x) off 16).
  { change 65535%N with (N.ones 16). rewrite N.land_ones, N.shiftr_div_pow2. unfold last_nim.
    apply N.bits_inj. intro i. rewrite bits_of_testbit. destruct (N.ltb_spec i 16).
    - rewrite N.mod_pow2_bits_low, N.div_pow2_bits, N.mod_pow2_bits_low by lia. rewrite andb_true_r. f_equal. lia.
    - rewrite N.mod_pow2_bits_high by lia. now rewrite andb_false_r. }
  rewrite E. pose proof (bits_of_lt (ce_repr x) off 16) as L. set (v := bits_of (ce_repr x) off 16) in *. clearbody v.
  change (2 ^ 16)%N with 65536%N in L.
  assert (Hv : (v = 256 * (v / 256) + v mod 256)%N) by (apply N.div_mod; lia).
  assert (Hm : (v mod 256 < 256)%N) by (apply N.mod_lt; lia).
  assert (Hd : (v / 256 < 256)%N) by (apply N.div_lt_upper_bound; lia).
  set (hi := (v / 256)%N) in *. set (lo := (v mod 256)%N) in *. clearbody hi lo.
  rewrite (N.mod_small hi 256) by assumption. subst v.
  destruct (N.ltb_spec hi 128) as [H|H].
  - rewrite (N.mod_small (hi + 128) 256) by lia. change (2 ^ 15)%Z with 32768%Z. change (2 ^ 16)%Z with 65536%Z.
    match goal with |- (if (?a <? ?b)%Z then _ else _) = _ => destruct (Z.ltb_spec a b) end; lia.
  - replace ((hi + 128) mod 256)%N with (hi - 128)%N.
    2:{ replace (hi + 128)%N with ((hi - 128) + 1 * 256)%N by lia. rewrite N.mod_add by lia. rewrite N.mod_small by lia. reflexivity. }
    change (2 ^ 15)%Z with 32768%Z. change (2 ^ 16)%Z with 65536%Z.
    match goal with |- (if (?a <? ?b)%Z then _ else _) = _ => destruct (Z.ltb_spec a b) end; lia.
Qed.

Lemma unbiased_repr_value (v : N) : (v < 2 ^ 16)%N -> unbiased_repr (Z.of_N v - 2 ^ 15) = Ok (e_u64 C v).
Proof using Type.
  intro H. unfold unbiased_repr. change (2 ^ 15)%Z with 32768%Z. change (2 ^ 15)%N with 32768%N. change (2 ^ 16)%N with 65536%N in H.
  destruct (Z.ltb_spec (Z.of_N v - 32768) 0) as [L|L].
  - rewrite Z.abs_neq by lia. destruct (N.leb_spec (Z.to_N (- (Z.of_N v - 32768))) 32768); [|lia]. do 2 f_equal. lia.
  - do 2 f_equal. lia.
Qed.

Lemma offsets_repr_value (x : C) :
  offsets_repr (decode_offsets x) =
  Ok [e_u64 C (off_dst (ce_repr x)); e_u64 C (off_op0 (ce_repr x)); e_u64 C (off_op1 (ce_repr x))].
Proof using Type.
  unfold offsets_repr, decode_offsets. cbn [io_dst io_op0 io_op1 traverse].
  rewrite !decode_offset_value by lia. rewrite !unbiased_repr_value by apply bits_of_lt. reflexivity.
Qed.

(** ** Words and bits *)
Definition word_of_bits (bs : list bool) : N := fold_right (fun b acc => N.b2n b + 2 * acc)%N 0%N bs.
Lemma bits_of_as_bits w n : forall off, bits_of w off (N.of_nat n) = word_of_bits (map (fun i => N.testbit w (off + N.of_nat i)) (seq 0 n)).
Proof.
  induction n as [|n IH]; intro off.
  - unfold bits_of. cbn. apply N.mod_1_r.
  - replace (N.of_nat (S n)) with (1 + N.of_nat n)%N by lia. rewrite bits_of_split, bits_of_1, IH. cbn [seq map word_of_bits fold_right].
    replace (off + N.of_nat 0)%N with off by lia. f_equal. change (2 ^ 1)%N with 2%N. f_equal.
    rewrite <- seq_shift, map_map. fold (word_of_bits (map (fun x : nat => N.testbit w (off + N.of_nat (S x))) (seq 0 n))). f_equal. apply map_ext. intro i. f_equal. lia.
Qed.
Lemma word_fields w : (w < 2 ^ 63)%N ->
  (w = off_dst w + 2 ^ 16 * off_op0 w + 2 ^ 32 * off_op1 w
       + 2 ^ 48 * word_of_bits (map (fun i => N.testbit w (48 + N.of_nat i)) (seq 0 15)))%N.
Proof.
  intro H. rewrite <- bits_of_as_bits. rewrite <- (bits_of_all w 63 H) at 1.
  change 63%N with (16 + (16 + (16 + 15)))%N. rewrite !bits_of_split. unfold off_dst, off_op0, off_op1.
  change (N.of_nat 15) with 15%N.
  set (a := bits_of w 0 16). change (0 + 16)%N with 16%N. change (16 + 16)%N with 32%N. change (32 + 16)%N with 48%N.
  change (2 ^ 32)%N with (2 ^ 16 * 2 ^ 16)%N. change (2 ^ 48)%N with (2 ^ 16 * 2 ^ 16 * 2 ^ 16)%N. ring.
Qed.

(** ** Conversions *)
Lemma u64_pow2 k : e_u64 C (2 ^ N.of_nat k) = fpow (e_u64 C 2) k.
Proof using HC.
  induction k as [|k IH]; [apply (co_one _ _ HC)|].
  rewrite Nat2N.inj_succ, N.pow_succ_r', (co_mul _ _ HC), IH. reflexivity.
Qed.
Lemma u64_inj a b : (a < p)%N -> (b < p)%N -> e_u64 C a = e_u64 C b -> a = b.
Proof using HC.
  intros Ha Hb H. apply (f_equal ce_repr) in H. rewrite !(co_repr_u64 _ _ HC), !N.mod_small in H by assumption. exact H.
Qed.
Lemma repr_inj (x y : C) : ce_repr x = ce_repr y -> x = y.
Proof using HC. intro H. rewrite <- (co_u64_repr _ _ HC x), <- (co_u64_repr _ _ HC y). now f_equal. Qed.
Lemma repr_small n : (n < p)%N -> ce_repr (e_u64 C n) = n.
Proof using HC. intro H. rewrite (co_repr_u64 _ _ HC). now apply N.mod_small. Qed.
Lemma u64_mod n : e_u64 C (n mod p) = e_u64 C n.
Proof using HC. rewrite <- (co_repr_u64 _ _ HC). apply (co_u64_repr _ _ HC). Qed.
Lemma u64_p : e_u64 C p = fzero.
Proof using HC. rewrite <- (u64_mod p). rewrite N.mod_same by (pose proof (co_p _ _ HC); lia). apply (co_zero _ _ HC). Qed.
Lemma u64_two : e_u64 C 2 = fadd fone fone.
Proof using HC. change 2%N with (1 + 1)%N. rewrite (co_add _ _ HC), (co_one _ _ HC). reflexivity. Qed.
End Decode.
