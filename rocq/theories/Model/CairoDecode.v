(** Cairo instruction decoding. Sources: src/cairo/decode/instruction_flags.rs,
    src/cairo/decode/instruction_offsets.rs. *)
From Coq Require Import List NArith ZArith Bool.
From Verif.Base Require Import Outcome Field Poly.
From Verif.Model Require Import Codec Air.
Import ListNotations.
Local Open Scope outcome_scope.

(** The environment of the Cairo code: the generic one, whose field is Stark252PrimeField, and
    [FieldElement::representative] (external). [e_u64] also stands for the conversions from wider integers
    ([FE::from(&U256)], [FE::from_hex]). *)
Record cairo_env := mk_cairo_env { ce_env :> env; ce_repr : ce_env -> N }.
Arguments ce_repr {_}.

(** instruction_flags.rs:3-17 *)
Definition DST_REG_MASK : N := 1.       Definition DST_REG_OFF : N := 0.
Definition OP0_REG_MASK : N := 2.       Definition OP0_REG_OFF : N := 1.
Definition OP1_SRC_MASK : N := 28.      Definition OP1_SRC_OFF : N := 2.
Definition RES_LOGIC_MASK : N := 96.    Definition RES_LOGIC_OFF : N := 5.
Definition PC_UPDATE_MASK : N := 896.   Definition PC_UPDATE_OFF : N := 7.
Definition AP_UPDATE_MASK : N := 3072.  Definition AP_UPDATE_OFF : N := 10.
Definition OPCODE_MASK : N := 28672.    Definition OPCODE_OFF : N := 12.
Definition FLAGS_OFFSET : N := 48.

(** instruction_flags.rs:81-84, 114-117, 145-150, 181-187, 219-224, 255-261, 308-313 *)
Inductive op0_reg := Op0AP | Op0FP.
Inductive dst_reg := DstAP | DstFP.
Inductive op1_src := Op1Op0 | Op1Imm | Op1FP | Op1AP.
Inductive res_logic := ResOp1 | ResAdd | ResMul | ResUnconstrained.
Inductive pc_update := PcRegular | PcJump | PcJumpRel | PcJnz.
Inductive ap_update := ApRegular | ApAdd | ApAdd1 | ApAdd2.
Inductive cairo_opcode := NOp | Call | Ret | AssertEq.

(** instruction_flags.rs:38-47 *)
Record instruction_flags := mk_flags {
  if_opcode : cairo_opcode;
  if_ap_update : ap_update;
  if_pc_update : pc_update;
  if_res_logic : res_logic;
  if_op1_src : op1_src;
  if_op0_reg : op0_reg;
  if_dst_reg : dst_reg
}.

(** instruction_offsets.rs:11-16 ([i32] fields) *)
Record instruction_offsets := mk_offsets { io_dst : Z; io_op0 : Z; io_op1 : Z }.

Section Decode.
Context {C : cairo_env}.

(** instruction_flags.rs:21-36: the last eight of the 32 big-endian bytes. *)
Definition last_nim (x : C) : N := (ce_repr x mod 2 ^ 64)%N.

(** [((flags & MASK) >> OFF) as u8] with [flags = aux_get_last_nim_of_field_element(mem_value) >> FLAGS_OFFSET] *)
Definition flag_group (x : C) (mask off : N) : N :=
  (N.shiftr (N.land (N.shiftr (last_nim x) FLAGS_OFFSET) mask) off mod 256)%N.

Definition derr {A} (e : decoding_error) : outcome A := Err (InstructionError e).

(** instruction_flags.rs:95-111 *)
Definition decode_op0_reg (x : C) : outcome op0_reg :=
  match flag_group x OP0_REG_MASK OP0_REG_OFF with
  | 0%N => Ok Op0AP | 1%N => Ok Op0FP | _ => derr InvalidOp0Reg
  end.

(** instruction_flags.rs:127-142 *)
Definition decode_dst_reg (x : C) : outcome dst_reg :=
  match flag_group x DST_REG_MASK DST_REG_OFF with
  | 0%N => Ok DstAP | 1%N => Ok DstFP | _ => derr InvalidDstReg
  end.

(** instruction_flags.rs:163-178 *)
Definition decode_op1_src (x : C) : outcome op1_src :=
  match flag_group x OP1_SRC_MASK OP1_SRC_OFF with
  | 0%N => Ok Op1Op0 | 1%N => Ok Op1Imm | 2%N => Ok Op1FP | 4%N => Ok Op1AP | _ => derr InvalidOp1Src
  end.

(** instruction_flags.rs:200-216; the group has two bits, so the value 4 is unreachable. *)
Definition decode_res_logic (x : C) : outcome res_logic :=
  match flag_group x RES_LOGIC_MASK RES_LOGIC_OFF with
  | 0%N => Ok ResOp1 | 1%N => Ok ResAdd | 2%N => Ok ResMul | 4%N => Ok ResUnconstrained | _ => derr InvalidResLogic
  end.

(** instruction_flags.rs:237-252 *)
Definition decode_pc_update (x : C) : outcome pc_update :=
  match flag_group x PC_UPDATE_MASK PC_UPDATE_OFF with
  | 0%N => Ok PcRegular | 1%N => Ok PcJump | 2%N => Ok PcJumpRel | 4%N => Ok PcJnz | _ => derr InvalidPcUpdate
  end.

(** instruction_flags.rs:274-289; the group has two bits, so the value 4 is unreachable. *)
Definition decode_ap_update (x : C) : outcome ap_update :=
  match flag_group x AP_UPDATE_MASK AP_UPDATE_OFF with
  | 0%N => Ok ApRegular | 1%N => Ok ApAdd | 2%N => Ok ApAdd1 | 4%N => Ok ApAdd2 | _ => derr InvalidApUpdate
  end.

(** instruction_flags.rs:326-341 *)
Definition decode_opcode (x : C) : outcome cairo_opcode :=
  match flag_group x OPCODE_MASK OPCODE_OFF with
  | 0%N => Ok NOp | 1%N => Ok Call | 2%N => Ok Ret | 4%N => Ok AssertEq | _ => derr InvalidOpcode
  end.

(** instruction_flags.rs:291-305 *)
Definition decode_flags (x : C) : outcome instruction_flags :=
  opcode <- decode_opcode x;;
  pc <- decode_pc_update x;;
  ap <- decode_ap_update x;;
  res <- decode_res_logic x;;
  op1 <- decode_op1_src x;;
  op0 <- decode_op0_reg x;;
  dst <- decode_dst_reg x;;
  Ok (mk_flags opcode ap pc res op1 op0 dst).

Local Notation O_ := (fzero : C). Local Notation I_ := (fone : C).

(** instruction_flags.rs:86-93, 118-125 *)
Definition op0_reg_repr (r : op0_reg) : C := match r with Op0AP => O_ | Op0FP => I_ end.
Definition dst_reg_repr (r : dst_reg) : C := match r with DstAP => O_ | DstFP => I_ end.

(** instruction_flags.rs:152-161 *)
Definition op1_src_repr (s : op1_src) : C * C * C :=
  match s with
  | Op1Op0 => (O_, O_, O_) | Op1Imm => (O_, O_, I_) | Op1FP => (O_, I_, O_) | Op1AP => (I_, O_, O_)
  end.

(** instruction_flags.rs:189-198; [todo!()] is a panic. *)
Definition res_logic_repr (s : res_logic) : outcome (C * C) :=
  match s with
  | ResOp1 => Ok (O_, O_) | ResAdd => Ok (O_, I_) | ResMul => Ok (I_, O_) | ResUnconstrained => Panic
  end.

(** instruction_flags.rs:226-235 *)
Definition pc_update_repr (s : pc_update) : C * C * C :=
  match s with
  | PcRegular => (O_, O_, O_) | PcJump => (O_, O_, I_) | PcJumpRel => (O_, I_, O_) | PcJnz => (I_, O_, O_)
  end.

(** instruction_flags.rs:263-272 *)
Definition ap_update_repr (s : ap_update) : outcome (C * C) :=
  match s with
  | ApRegular => Ok (O_, O_) | ApAdd => Ok (O_, I_) | ApAdd1 => Ok (I_, O_) | ApAdd2 => Panic
  end.

(** instruction_flags.rs:315-324 *)
Definition opcode_repr (s : cairo_opcode) : C * C * C :=
  match s with
  | NOp => (O_, O_, O_) | Call => (O_, O_, I_) | Ret => (O_, I_, O_) | AssertEq => (I_, O_, O_)
  end.

(** instruction_flags.rs:49-78 *)
Definition flags_repr (f : instruction_flags) : outcome (list C) :=
  let b0 := dst_reg_repr (if_dst_reg f) in
  let b1 := op0_reg_repr (if_op0_reg f) in
  let '(b2, b3, b4) := op1_src_repr (if_op1_src f) in
  '(b5, b6) <- res_logic_repr (if_res_logic f);;
  let '(b7, b8, b9) := pc_update_repr (if_pc_update f) in
  '(b10, b11) <- ap_update_repr (if_ap_update f);;
  let '(b12, b13, b14) := opcode_repr (if_opcode f) in
  Ok [b0; b1; b4; b3; b2; b6; b5; b9; b8; b7; b11; b10; b14; b13; b12; O_].

(** instruction_offsets.rs:27-35; [overflowing_sub(128).0] on a byte, then [i16::from_le_bytes]. *)
Definition decode_offset (x : C) (instruction_offset : N) : Z :=
  let offset := N.land (N.shiftr (last_nim x) instruction_offset) 65535 in
  let b0 := (offset mod 256)%N in
  let b1 := ((offset / 256 mod 256 + 128) mod 256)%N in
  let v := Z.of_N (b0 + 256 * b1) in
  if (v <? 2 ^ 15)%Z then v else (v - 2 ^ 16)%Z.

(** instruction_offsets.rs:6-9, 19-25 *)
Definition decode_offsets (x : C) : instruction_offsets :=
  mk_offsets (decode_offset x 0) (decode_offset x 16) (decode_offset x 32).

(** instruction_offsets.rs:49-56; [b15 - |n|] is on [u64]. *)
Definition unbiased_repr (n : Z) : outcome C :=
  if (n <? 0)%Z
  then if (Z.to_N (Z.abs n) <=? 2 ^ 15)%N then Ok (e_u64 C (2 ^ 15 - Z.to_N (Z.abs n))) else Panic
  else Ok (e_u64 C (Z.to_N n + 2 ^ 15)).

(** instruction_offsets.rs:37-43 *)
Definition offsets_repr (o : instruction_offsets) : outcome (list C) :=
  traverse unbiased_repr [io_dst o; io_op0 o; io_op1 o].
End Decode.
