(** C11, C12: instruction decoding. *)
From Coq Require Import List NArith ZArith Bool Lia.
From Verif.Base Require Import Outcome Field Poly Zp.
From Verif.Model Require Import Codec Air CairoDecode.
From Verif.Spec Require Import CairoSpec.
From Verif.Proofs Require Import OutcomeFacts DecodeFacts.
From Verif.Examples Require Import Stark252.
Import ListNotations.

(** ** C11 *)
Theorem C11_decoding_succeeds_iff_allowed :
  forall (C : cairo_env) (x : C), (exists f, decode_flags x = Ok f) <-> allowed_flags (ce_repr x).
Proof. intros. apply decode_flags_iff. Qed.
Print Assumptions C11_decoding_succeeds_iff_allowed.

(** The sixteen flag columns are the bits 48..62 of the word and a zero. *)
Theorem C11_flag_columns_are_the_bits :
  forall (C : cairo_env) (x : C) f, decode_flags x = Ok f ->
  flags_repr f = Ok (map (fun i => if N.testbit (ce_repr x) (48 + N.of_nat i) then fone else fzero) (seq 0 15) ++ [fzero : C]).
Proof. intros C x f H. apply (flags_repr_bits (ce_repr x) f). now apply decode_flags_ok. Qed.
Print Assumptions C11_flag_columns_are_the_bits.

(** Every other word is rejected with an error naming a group that is not allowed; decoding never panics. *)
Theorem C11_rejection_names_the_group :
  forall (C : cairo_env) (x : C), ~ allowed_flags (ce_repr x) ->
  exists d, decode_flags x = Err (InstructionError d) /\
    match d with
    | InvalidOpcode => ~ one_hot (opcode_of (ce_repr x))
    | InvalidPcUpdate => ~ one_hot (pc_update_of (ce_repr x))
    | InvalidApUpdate => ~ one_hot (ap_update_of (ce_repr x))
    | InvalidResLogic => ~ one_hot (res_logic_of (ce_repr x))
    | InvalidOp1Src => ~ one_hot (op1_src_of (ce_repr x))
    | _ => False
    end.
Proof.
  intros C x H. unfold decode_flags.
  destruct (decode_opcode x) as [opc|e|] eqn:E1.
  2:{ exists InvalidOpcode. unfold decode_opcode, derr in E1. rewrite group_opc in E1. split.
      - cbn. f_equal. repeat match type of E1 with (match ?v with _ => _ end) = _ => destruct v; try discriminate end; congruence.
      - intros [G|[G|[G|G]]]; rewrite G in E1; discriminate. }
  2:{ exfalso. unfold decode_opcode, derr in E1. repeat match type of E1 with (match ?v with _ => _ end) = _ => destruct v; try discriminate end. }
  cbn [obind]. destruct (decode_pc_update x) as [pc|e|] eqn:E2.
  2:{ exists InvalidPcUpdate. unfold decode_pc_update, derr in E2. rewrite group_pc in E2. split.
      - cbn. f_equal. repeat match type of E2 with (match ?v with _ => _ end) = _ => destruct v; try discriminate end; congruence.
      - intros [G|[G|[G|G]]]; rewrite G in E2; discriminate. }
  2:{ exfalso. unfold decode_pc_update, derr in E2. repeat match type of E2 with (match ?v with _ => _ end) = _ => destruct v; try discriminate end. }
  cbn [obind]. destruct (decode_ap_update x) as [ap|e|] eqn:E3.
  2:{ exists InvalidApUpdate. unfold decode_ap_update, derr in E3. rewrite group_ap in E3. split.
      - cbn. f_equal. repeat match type of E3 with (match ?v with _ => _ end) = _ => destruct v; try discriminate end; congruence.
      - intros [G|[G|[G|G]]]; rewrite G in E3; discriminate. }
  2:{ exfalso. unfold decode_ap_update, derr in E3. repeat match type of E3 with (match ?v with _ => _ end) = _ => destruct v; try discriminate end. }
  cbn [obind]. destruct (decode_res_logic x) as [r|e|] eqn:E4.
  2:{ exists InvalidResLogic. unfold decode_res_logic, derr in E4. rewrite group_res in E4. split.
      - cbn. f_equal. repeat match type of E4 with (match ?v with _ => _ end) = _ => destruct v; try discriminate end; congruence.
      - intros [G|[G|[G|G]]]; rewrite G in E4; discriminate. }
  2:{ exfalso. unfold decode_res_logic, derr in E4. repeat match type of E4 with (match ?v with _ => _ end) = _ => destruct v; try discriminate end. }
  cbn [obind]. destruct (decode_op1_src x) as [o1|e|] eqn:E5.
  2:{ exists InvalidOp1Src. unfold decode_op1_src, derr in E5. rewrite group_op1 in E5. split.
      - cbn. f_equal. repeat match type of E5 with (match ?v with _ => _ end) = _ => destruct v; try discriminate end; congruence.
      - intros [G|[G|[G|G]]]; rewrite G in E5; discriminate. }
  2:{ exfalso. unfold decode_op1_src, derr in E5. repeat match type of E5 with (match ?v with _ => _ end) = _ => destruct v; try discriminate end. }
  exfalso. apply H. unfold allowed_flags. rewrite one_hot_op1, one_hot_res, one_hot_pc, one_hot_ap, one_hot_opc.
  apply decode_opc_ok in E1. apply decode_pc_ok in E2. apply decode_ap_ok in E3. apply decode_res_ok in E4. apply decode_op1_ok in E5.
  repeat split; eexists; eassumption.
Qed.
Print Assumptions C11_rejection_names_the_group.

(** ** C12 *)
Theorem C12_offsets_are_the_biased_fields :
  forall (C : cairo_env) (x : C),
  let w := ce_repr x in
  decode_offsets x = mk_offsets (Z.of_N (off_dst w) - 2 ^ 15) (Z.of_N (off_op0 w) - 2 ^ 15) (Z.of_N (off_op1 w) - 2 ^ 15).
Proof. intros. unfold decode_offsets. rewrite !decode_offset_value by lia. reflexivity. Qed.
Print Assumptions C12_offsets_are_the_biased_fields.

Theorem C12_offset_columns_are_the_fields :
  forall (C : cairo_env) (x : C),
  let w := ce_repr x in
  offsets_repr (decode_offsets x) = Ok [e_u64 C (off_dst w); e_u64 C (off_op0 w); e_u64 C (off_op1 w)].
Proof. intros. apply offsets_repr_value. Qed.
Print Assumptions C12_offset_columns_are_the_fields.

(** The decoded parts of a 63-bit word determine it: offsets and flag columns re-encode to the word, as integers. *)
Theorem C12_word_is_re_encoded :
  forall (C : cairo_env) (x : C) f, (ce_repr x < 2 ^ 63)%N -> decode_flags x = Ok f ->
  exists bits, length bits = 15%nat /\
    flags_repr f = Ok (map (fun b : bool => if b then fone else fzero) bits ++ [fzero : C]) /\
    (Z.of_N (ce_repr x) = (io_dst (decode_offsets x) + 2 ^ 15) + 2 ^ 16 * (io_op0 (decode_offsets x) + 2 ^ 15)
       + 2 ^ 32 * (io_op1 (decode_offsets x) + 2 ^ 15)
       + 2 ^ 48 * fold_right (fun b acc => Z.b2z b + 2 * acc) 0 bits)%Z.
Proof.
  intros C x f Hw Hf. exists (map (fun i => N.testbit (ce_repr x) (48 + N.of_nat i)) (seq 0 15)).
  split; [reflexivity|]. split; [rewrite map_map; now apply C11_flag_columns_are_the_bits|].
  rewrite C12_offsets_are_the_biased_fields. cbn [io_dst io_op0 io_op1].
  rewrite (word_fields _ Hw) at 1. unfold word_of_bits.
  generalize (map (fun i => N.testbit (ce_repr x) (48 + N.of_nat i)) (seq 0 15)). intro l.
  assert (E : Z.of_N (fold_right (fun b acc => N.b2n b + 2 * acc)%N 0%N l) = fold_right (fun b acc => Z.b2z b + 2 * acc)%Z 0%Z l).
  { induction l as [|b l IH]; [reflexivity|]. cbn [fold_right]. rewrite <- IH, N2Z.inj_add, N2Z.inj_mul. destruct b; reflexivity. }
  rewrite <- E. rewrite !N2Z.inj_add, !N2Z.inj_mul.
  change (Z.of_N (2 ^ 16)) with (2 ^ 16)%Z. change (Z.of_N (2 ^ 32)) with (2 ^ 32)%Z. change (Z.of_N (2 ^ 48)) with (2 ^ 48)%Z. lia.
Qed.
Print Assumptions C12_word_is_re_encoded.

(** [ap += 1; assert [ap] = imm], the instruction 0x480680017fff8000 *)
Example C11_example : is_ok (decode_flags (f252 0x480680017fff8000 : stark)) = true.
Proof. vm_compute. reflexivity. Qed.
Example C11_example_rejected : decode_flags (f252 0x4c0680017fff8000 : stark) = Err (InstructionError InvalidApUpdate).
Proof. vm_compute. reflexivity. Qed.
Example C12_example : decode_offsets (f252 0x480680017fff8000 : stark) = mk_offsets 0 (-1) 1 /\
  (ce_repr (f252 0x480680017fff8000 : stark) < 2 ^ 63)%N.
Proof. vm_compute. split; reflexivity. Qed.
