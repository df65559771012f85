(** Specification of the Cairo architecture used by the Cairo properties: the laws of the field conversions, the
    instruction encoding and the state transition function (Cairo whitepaper, sections 4.4 and 4.5). Nothing here
    refers to the prover's or the AIR's own decoding. *)
From Coq Require Import List NArith ZArith Bool.
From Verif.Base Require Import Outcome Field Poly.
From Verif.Model Require Import Codec Air CairoDecode.
Import ListNotations.

(** The external field conversions behave like those of a prime field with more than 2^65 elements:
    [e_u64] is reduction modulo [p], [ce_repr] the canonical representative. *)
Record cairo_ok (C : cairo_env) (p : N) : Prop := {
  co_env : env_ok C;
  co_p : (2 ^ 65 < p)%N;
  co_zero : e_u64 C 0 = fzero;
  co_one : e_u64 C 1 = fone;
  co_add : forall a b, e_u64 C (a + b) = fadd (e_u64 C a) (e_u64 C b);
  co_mul : forall a b, e_u64 C (a * b) = fmul (e_u64 C a) (e_u64 C b);
  co_repr_lt : forall x : C, (ce_repr x < p)%N;
  co_repr_u64 : forall n, ce_repr (e_u64 C n) = (n mod p)%N;
  co_u64_repr : forall x : C, e_u64 C (ce_repr x) = x
}.

(** * Instruction words *)

(** Bits [off .. off + len - 1] of a word. *)
Definition bits_of (w off len : N) : N := ((w / 2 ^ off) mod 2 ^ len)%N.
Definition off_dst (w : N) : N := bits_of w 0 16.
Definition off_op0 (w : N) : N := bits_of w 16 16.
Definition off_op1 (w : N) : N := bits_of w 32 16.
Definition dst_reg_of (w : N) : N := bits_of w 48 1.
Definition op0_reg_of (w : N) : N := bits_of w 49 1.
Definition op1_src_of (w : N) : N := bits_of w 50 3.
Definition res_logic_of (w : N) : N := bits_of w 53 2.
Definition pc_update_of (w : N) : N := bits_of w 55 3.
Definition ap_update_of (w : N) : N := bits_of w 58 2.
Definition opcode_of (w : N) : N := bits_of w 60 3.

(** The allowed values of a flag group: none or one of its bits. *)
Definition one_hot (v : N) : Prop := v = 0%N \/ v = 1%N \/ v = 2%N \/ v = 4%N.
Definition allowed_flags (w : N) : Prop :=
  one_hot (op1_src_of w) /\ one_hot (res_logic_of w) /\ one_hot (pc_update_of w) /\
  one_hot (ap_update_of w) /\ one_hot (opcode_of w).

(** * The state transition function *)
Section Machine.
Context {C : cairo_env}.
Local Open Scope felt_scope.

(** The registers, as field elements. *)
Record cpu_state := mk_state { s_pc : C; s_ap : C; s_fp : C }.

(** A biased 16-bit offset. *)
Definition offset_value (o : N) : C := e_u64 C o - e_u64 C (2 ^ 15).

Definition instruction_size (w : N) : C := if (op1_src_of w =? 1)%N then 1 + 1 else 1.

(** The base of the second operand's address. *)
Definition op1_base (w : N) (s : cpu_state) (op0 : C) : C :=
  match op1_src_of w with
  | 1%N => s_pc s
  | 2%N => s_fp s
  | 4%N => s_ap s
  | _ => op0
  end.

(** One step of the machine on memory [m] (a relation from addresses to values): the instruction [w] at pc reads
    [dst], [op0], [op1], computes [res] and moves the registers from [s] to [s']. *)
Record cpu_step (m : C -> C -> Prop) (w : N) (dst op0 op1 res : C) (s s' : cpu_state) : Prop := {
  st_word : (w < 2 ^ 63)%N;
  st_inst : m (s_pc s) (e_u64 C w);
  st_dst : m ((if (dst_reg_of w =? 1)%N then s_fp s else s_ap s) + offset_value (off_dst w)) dst;
  st_op0 : m ((if (op0_reg_of w =? 1)%N then s_fp s else s_ap s) + offset_value (off_op0 w)) op0;
  st_op1 : m (op1_base w s op0 + offset_value (off_op1 w)) op1;
  (* res is unused by a conditional jump *)
  st_res : pc_update_of w <> 4%N ->
      res = match res_logic_of w with 1%N => op0 + op1 | 2%N => op0 * op1 | _ => op1 end;
  st_pc : s_pc s' = match pc_update_of w with
                    | 1%N => res
                    | 2%N => s_pc s + res
                    | 4%N => if feqb dst 0 then s_pc s + instruction_size w else s_pc s + op1
                    | _ => s_pc s + instruction_size w
                    end;
  st_ap : s_ap s' = match ap_update_of w with
                    | 1%N => s_ap s + res
                    | 2%N => s_ap s + 1
                    | _ => if (opcode_of w =? 1)%N then s_ap s + (1 + 1) else s_ap s
                    end;
  st_fp : s_fp s' = match opcode_of w with
                    | 1%N => s_ap s + (1 + 1)
                    | 2%N => dst
                    | _ => s_fp s
                    end;
  st_call : opcode_of w = 1%N -> dst = s_fp s /\ op0 = s_pc s + instruction_size w;
  st_assert : opcode_of w = 4%N -> dst = res
}.

(** The instructions whose behaviour the architecture defines. *)
Definition defined_instruction (w : N) : Prop :=
  allowed_flags w /\
  (pc_update_of w = 4%N -> res_logic_of w = 0%N /\ opcode_of w = 0%N /\ ap_update_of w <> 1%N) /\
  (opcode_of w = 1%N -> ap_update_of w = 0%N).
End Machine.
Arguments cpu_state : clear implicits.
