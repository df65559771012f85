(** The Cairo AIR. Source: src/cairo/air.rs:29-71, 451-1182. *)
From Coq Require Import List Arith NArith Bool.
From Verif.Base Require Import Outcome Field Poly.
From Verif.Model Require Import Codec PublicInputs Trace Air Transcript Prover Verifier CairoDecode CairoTrace.
Import ListNotations.
Local Open Scope outcome_scope.

(** air.rs:29-71: constraint identifiers. *)
Definition INST := 16. Definition DST_ADDR := 17. Definition OP0_ADDR := 18. Definition OP1_ADDR := 19.
Definition NEXT_AP := 20. Definition NEXT_FP := 21. Definition NEXT_PC_1 := 22. Definition NEXT_PC_2 := 23.
Definition T0 := 24. Definition T1 := 25. Definition MUL_1 := 26. Definition MUL_2 := 27.
Definition CALL_1 := 28. Definition CALL_2 := 29. Definition ASSERT_EQ := 30.
Definition MEMORY_INCREASING_0 := 31. Definition MEMORY_INCREASING_1 := 32.
Definition MEMORY_INCREASING_2 := 33. Definition MEMORY_INCREASING_3 := 34.
Definition MEMORY_CONSISTENCY_0 := 35. Definition MEMORY_CONSISTENCY_1 := 36.
Definition MEMORY_CONSISTENCY_2 := 37. Definition MEMORY_CONSISTENCY_3 := 38.
Definition PERMUTATION_ARGUMENT_0 := 39. Definition PERMUTATION_ARGUMENT_1 := 40.
Definition PERMUTATION_ARGUMENT_2 := 41. Definition PERMUTATION_ARGUMENT_3 := 42.
Definition RANGE_CHECK_INCREASING_0 := 43. Definition RANGE_CHECK_INCREASING_1 := 44.
Definition RANGE_CHECK_INCREASING_2 := 45.
Definition RANGE_CHECK_0 := 46. Definition RANGE_CHECK_1 := 47. Definition RANGE_CHECK_2 := 48.
Definition RANGE_CHECK_BUILTIN := 49.

(** air.rs:469-473 *)
Record cairo_challenges (F : Type) := mk_challenges { alpha_memory : F; z_memory : F; z_range_check : F }.
Arguments mk_challenges {F}. Arguments alpha_memory {F}. Arguments z_memory {F}. Arguments z_range_check {F}.

Section CairoAir.
Context {C : cairo_env}.
Local Open Scope felt_scope.

(** air.rs:635, 451-467: [has_rc_builtin] is set whenever any segment is present. *)
Definition has_rc_builtin (pi : public_inputs C) : bool := match memory_segments pi with [] => false | _ => true end.
Definition builtin_offset (pi : public_inputs C) : nat := if has_rc_builtin pi then 0%nat else BUILTIN_OFFSET.

(** air.rs:500-517; [u64] subtractions. *)
Definition get_pub_memory_addrs (pi : public_inputs C) : outcome (list C) :=
  let len := N.of_nat (length (public_memory pi)) in
  match map_get segment_eqb Output (memory_segments pi) with
  | Some (lo, hi) =>
      if (hi <? lo)%N then Panic else
      if (len <? hi - lo)%N then Panic else
      Ok (map (e_u64 C) (nrange 1 (len - (hi - lo) + 1)) ++ map (e_u64 C) (nrange lo hi))
  | None => Ok (map (e_u64 C) (nrange 1 (len + 1)))
  end.

(** air.rs:475-494: [splice] replaces everything from the section start; the values from there on are looked up. *)
Definition add_pub_memory (addresses values : list C) (pi : public_inputs C) : outcome (list C * list C) :=
  section <- usub (length addresses) (length (public_memory pi));;
  pub_addrs <- get_pub_memory_addrs pi;;
  let a_aux := firstn section addresses ++ pub_addrs in
  if (length values <? length a_aux)%nat then Panic else
  pub_vals <- traverse (fun a => unwrap (map_get feqb a (public_memory pi))) pub_addrs;;
  Ok (a_aux, firstn section values ++ pub_vals ++ skipn (length a_aux) values).

(** air.rs:519-523 *)
Definition sort_columns_by_memory_address (addresses values : list C) : list C * list C :=
  List.split (sort_by (fun av => ce_repr (fst av)) (combine addresses values)).

(** [iter().scan(init, ..)]: the running values of the accumulator, without the initial one. *)
Fixpoint scan {A B} (f : B -> A -> B) (b : B) (l : list A) : list B :=
  match l with [] => [] | a :: r => f b a :: scan f (f b a) r end.

(** air.rs:525-552 *)
Definition memory_permutation_column (a_orig v_orig a_sorted v_sorted : list C) (ch : cairo_challenges C)
  : outcome (list C) :=
  let z := z_memory ch in
  let alpha := alpha_memory ch in
  denom <- batch_inverse (map (fun av => z - (fst av + alpha * snd av)) (combine a_sorted v_sorted));;
  Ok (scan (fun p x => let '(a, v, d) := x in p * ((z - (a + alpha * v)) * d)) 1 (combine (combine a_orig v_orig) denom)).

(** air.rs:553-572 *)
Definition rc_permutation_column (orig sorted : list C) (ch : cairo_challenges C) : outcome (list C) :=
  let z := z_range_check ch in
  denom <- batch_inverse (map (fun x => z - x) sorted);;
  Ok (scan (fun p x => p * (z - fst x) * snd x) 1 (combine orig denom)).

(** air.rs:594-657: the context built by [CairoAIR::new] *)
Definition cairo_context (pi : public_inputs C) (opts : proof_options) : air_context :=
  let b := has_rc_builtin pi in
  {| ctx_options := opts;
     trace_columns := (34 + 3 + 12 + 3 + if b then 8 + 1 else 0)%nat;
     transition_degrees :=
       (repeat 2 15 ++ [1] ++ repeat 3 15 ++ repeat 2 4 ++ repeat 2 4 ++ repeat 2 4 ++ repeat 2 3 ++ repeat 2 3
        ++ (if b then [1] else []))%nat;
     transition_offsets := [0; 1]%nat;
     transition_exemptions :=
       (repeat 0 16 ++ [0] ++ [0; 0; 0] ++ [1; 1; 1; 1; 0; 0] ++ [0; 0; 0; 0; 0] ++ [0; 0; 0; 1] ++ [0; 0; 0; 1]
        ++ [0; 0; 0; 1] ++ [0; 0; 1] ++ [0; 0; 0] ++ (if b then [0] else []))%nat;
     num_transition_constraints := (49 + if b then 1 else 0)%nat;
     num_transition_exemptions := 1%nat |}.

(** air.rs:739-741 *)
Definition number_auxiliary_rap_columns : nat := (12 + 3 + 3)%nat.

(** air.rs:660-729 *)
Definition cairo_build_aux (pi : public_inputs C) (main : trace_table C) (ch : cairo_challenges C)
  : outcome (trace_table C) :=
  a <- tt_get_cols main [FRAME_PC; FRAME_DST_ADDR; FRAME_OP0_ADDR; FRAME_OP1_ADDR];;
  v <- tt_get_cols main [FRAME_INST; FRAME_DST; FRAME_OP0; FRAME_OP1];;
  '(addresses, values) <- add_pub_memory (tt_table a) (tt_table v) pi;;
  let '(addresses, values) := sort_columns_by_memory_address addresses values in
  permutation_col <- memory_permutation_column (tt_table a) (tt_table v) addresses values ch;;
  o <- tt_get_cols main [OFF_DST; OFF_OP0; OFF_OP1];;
  let offsets_sorted := map (e_u64 C) (sort_by (fun x => x) (map to_u16 (tt_table o))) in
  rc_col <- rc_permutation_column (tt_table o) offsets_sorted ch;;
  rows <- traverse (fun i =>
      r1 <- traverse (fun j => idx offsets_sorted (3 * i + j)%nat) [0; 1; 2]%nat;;
      r2 <- traverse (fun j => idx addresses (4 * i + j)%nat) [0; 1; 2; 3]%nat;;
      r3 <- traverse (fun j => idx values (4 * i + j)%nat) [0; 1; 2; 3]%nat;;
      r4 <- traverse (fun j => idx permutation_col (4 * i + j)%nat) [0; 1; 2; 3]%nat;;
      r5 <- traverse (fun j => idx rc_col (3 * i + j)%nat) [0; 1; 2]%nat;;
      Ok (r1 ++ r2 ++ r3 ++ r4 ++ r5)) (seq 0%nat (tt_n_rows main));;
  Ok (mk_trace (concat rows) number_auxiliary_rap_columns).

(** air.rs:731-737: the fields are drawn in the order of the struct expression. *)
Definition cairo_build_rap (t : e_tr C) : outcome (cairo_challenges C * e_tr C) :=
  '(alpha, t) <- transcript_to_field C t;;
  '(z, t) <- transcript_to_field C t;;
  '(zrc, t) <- transcript_to_field C t;;
  Ok (mk_challenges alpha z zrc, t).

(** ** Transition constraints
    [constraints] is a vector of [num_transition_constraints] zeros written in place. All accesses
    [curr[i]], [next[i]] are unconditional and the largest index is that of the last auxiliary column, so the
    width check in [cairo_transition] panics exactly when one of them would. *)

(** [constraints[i] = x] *)
Definition cset (cs : list C) (i : nat) (x : C) : list C := firstn i cs ++ x :: skipn (S i) cs.
Local Notation "r .[ i ]" := (nth i r (fzero : C)) (at level 2, format "r .[ i ]").

(** air.rs:1137-1139 *)
Definition frame_inst_size (row : list C) : C := row.[F_OP_1_VAL] + 1.

(** air.rs:869-897 *)
Definition compute_instr_constraints (curr : list C) (cs : list C) : list C :=
  let cs := fold_left (fun cs i => let flag := curr.[i] in
                         cset cs i (if (i <=? 14)%nat then flag * (flag - 1) else flag)) (seq 0%nat 16%nat) cs in
  let two := e_u64 C 2 in
  let f0_squiggle := fold_left (fun acc flag => flag + two * acc) (rev (firstn 15 curr)) 0 in
  cset cs INST (curr.[OFF_DST] + fpow two 16 * curr.[OFF_OP0] + fpow two 32 * curr.[OFF_OP1]
                + fpow two 48 * f0_squiggle - curr.[FRAME_INST]).

(** air.rs:899-924 *)
Definition compute_operand_constraints (curr : list C) (cs : list C) : list C :=
  let ap := curr.[FRAME_AP] in let fp := curr.[FRAME_FP] in let pc := curr.[FRAME_PC] in
  let b15 := fpow (e_u64 C 2) 15 in
  let cs := cset cs DST_ADDR (curr.[F_DST_FP] * fp + (1 - curr.[F_DST_FP]) * ap + (curr.[OFF_DST] - b15)
                              - curr.[FRAME_DST_ADDR]) in
  let cs := cset cs OP0_ADDR (curr.[F_OP_0_FP] * fp + (1 - curr.[F_OP_0_FP]) * ap + (curr.[OFF_OP0] - b15)
                              - curr.[FRAME_OP0_ADDR]) in
  cset cs OP1_ADDR (curr.[F_OP_1_VAL] * pc + curr.[F_OP_1_AP] * ap + curr.[F_OP_1_FP] * fp
                    + (1 - curr.[F_OP_1_VAL] - curr.[F_OP_1_AP] - curr.[F_OP_1_FP]) * curr.[FRAME_OP0]
                    + (curr.[OFF_OP1] - b15) - curr.[FRAME_OP1_ADDR]).

(** air.rs:926-959 *)
Definition compute_register_constraints (curr next : list C) (cs : list C) : list C :=
  let two := e_u64 C 2 in
  let cs := cset cs NEXT_AP (curr.[FRAME_AP] + curr.[F_AP_ADD] * curr.[FRAME_RES] + curr.[F_AP_ONE]
                             + curr.[F_OPC_CALL] * two - next.[FRAME_AP]) in
  let cs := cset cs NEXT_FP (curr.[F_OPC_RET] * curr.[FRAME_DST] + curr.[F_OPC_CALL] * (curr.[FRAME_AP] + two)
                             + (1 - curr.[F_OPC_RET] - curr.[F_OPC_CALL]) * curr.[FRAME_FP] - next.[FRAME_FP]) in
  let cs := cset cs NEXT_PC_1 ((curr.[FRAME_T1] - curr.[F_PC_JNZ])
                               * (next.[FRAME_PC] - (curr.[FRAME_PC] + frame_inst_size curr))) in
  let cs := cset cs NEXT_PC_2 (curr.[FRAME_T0] * (next.[FRAME_PC] - (curr.[FRAME_PC] + curr.[FRAME_OP1]))
                               + (1 - curr.[F_PC_JNZ]) * next.[FRAME_PC]
                               - ((1 - curr.[F_PC_ABS] - curr.[F_PC_REL] - curr.[F_PC_JNZ])
                                    * (curr.[FRAME_PC] + frame_inst_size curr)
                                  + curr.[F_PC_ABS] * curr.[FRAME_RES]
                                  + curr.[F_PC_REL] * (curr.[FRAME_PC] + curr.[FRAME_RES]))) in
  let cs := cset cs T0 (curr.[F_PC_JNZ] * curr.[FRAME_DST] - curr.[FRAME_T0]) in
  cset cs T1 (curr.[FRAME_T0] * curr.[FRAME_RES] - curr.[FRAME_T1]).

(** air.rs:961-978 *)
Definition compute_opcode_constraints (curr : list C) (cs : list C) : list C :=
  let cs := cset cs MUL_1 (curr.[FRAME_MUL] - (curr.[FRAME_OP0] * curr.[FRAME_OP1])) in
  let cs := cset cs MUL_2 (curr.[F_RES_ADD] * (curr.[FRAME_OP0] + curr.[FRAME_OP1])
                           + curr.[F_RES_MUL] * curr.[FRAME_MUL]
                           + (1 - curr.[F_RES_ADD] - curr.[F_RES_MUL] - curr.[F_PC_JNZ]) * curr.[FRAME_OP1]
                           - (1 - curr.[F_PC_JNZ]) * curr.[FRAME_RES]) in
  let cs := cset cs CALL_1 (curr.[F_OPC_CALL] * (curr.[FRAME_DST] - curr.[FRAME_FP])) in
  let cs := cset cs CALL_2 (curr.[F_OPC_CALL] * (curr.[FRAME_OP0] - (curr.[FRAME_PC] + frame_inst_size curr))) in
  cset cs ASSERT_EQ (curr.[F_OPC_AEQ] * (curr.[FRAME_DST] - curr.[FRAME_RES])).

(** air.rs:980-985: [iter_mut().take(ASSERT_EQ + 1).skip(INST)] *)
Definition enforce_selector (curr : list C) (cs : list C) : list C :=
  firstn INST cs ++ map (fun c => c * curr.[FRAME_SELECTOR]) (skipn INST (firstn (ASSERT_EQ + 1) cs))
  ++ skipn (ASSERT_EQ + 1) cs.

(** air.rs:987-1043 *)
Definition memory_is_increasing (off : nat) (curr next : list C) (cs : list C) : list C :=
  let a i := curr.[i - off] in let a' i := next.[i - off] in
  let cs := cset cs MEMORY_INCREASING_0 ((a MEMORY_ADDR_SORTED_0 - a MEMORY_ADDR_SORTED_1)
              * (a MEMORY_ADDR_SORTED_1 - a MEMORY_ADDR_SORTED_0 - 1)) in
  let cs := cset cs MEMORY_INCREASING_1 ((a MEMORY_ADDR_SORTED_1 - a MEMORY_ADDR_SORTED_2)
              * (a MEMORY_ADDR_SORTED_2 - a MEMORY_ADDR_SORTED_1 - 1)) in
  let cs := cset cs MEMORY_INCREASING_2 ((a MEMORY_ADDR_SORTED_2 - a MEMORY_ADDR_SORTED_3)
              * (a MEMORY_ADDR_SORTED_3 - a MEMORY_ADDR_SORTED_2 - 1)) in
  let cs := cset cs MEMORY_INCREASING_3 ((a MEMORY_ADDR_SORTED_3 - a' MEMORY_ADDR_SORTED_0)
              * (a' MEMORY_ADDR_SORTED_0 - a MEMORY_ADDR_SORTED_3 - 1)) in
  let cs := cset cs MEMORY_CONSISTENCY_0 ((a MEMORY_VALUES_SORTED_0 - a MEMORY_VALUES_SORTED_1)
              * (a MEMORY_ADDR_SORTED_1 - a MEMORY_ADDR_SORTED_0 - 1)) in
  let cs := cset cs MEMORY_CONSISTENCY_1 ((a MEMORY_VALUES_SORTED_1 - a MEMORY_VALUES_SORTED_2)
              * (a MEMORY_ADDR_SORTED_2 - a MEMORY_ADDR_SORTED_1 - 1)) in
  let cs := cset cs MEMORY_CONSISTENCY_2 ((a MEMORY_VALUES_SORTED_2 - a MEMORY_VALUES_SORTED_3)
              * (a MEMORY_ADDR_SORTED_3 - a MEMORY_ADDR_SORTED_2 - 1)) in
  cset cs MEMORY_CONSISTENCY_3 ((a MEMORY_VALUES_SORTED_3 - a' MEMORY_VALUES_SORTED_0)
              * (a' MEMORY_ADDR_SORTED_0 - a MEMORY_ADDR_SORTED_3 - 1)).

(** air.rs:1045-1090 *)
Definition permutation_argument (off : nat) (ch : cairo_challenges C) (curr next : list C) (cs : list C) : list C :=
  let z := z_memory ch in let alpha := alpha_memory ch in
  let p0 := curr.[PERMUTATION_ARGUMENT_COL_0 - off] in let p0_next := next.[PERMUTATION_ARGUMENT_COL_0 - off] in
  let p1 := curr.[PERMUTATION_ARGUMENT_COL_1 - off] in let p2 := curr.[PERMUTATION_ARGUMENT_COL_2 - off] in
  let p3 := curr.[PERMUTATION_ARGUMENT_COL_3 - off] in
  let ap0_next := next.[MEMORY_ADDR_SORTED_0 - off] in let ap1 := curr.[MEMORY_ADDR_SORTED_1 - off] in
  let ap2 := curr.[MEMORY_ADDR_SORTED_2 - off] in let ap3 := curr.[MEMORY_ADDR_SORTED_3 - off] in
  let vp0_next := next.[MEMORY_VALUES_SORTED_0 - off] in let vp1 := curr.[MEMORY_VALUES_SORTED_1 - off] in
  let vp2 := curr.[MEMORY_VALUES_SORTED_2 - off] in let vp3 := curr.[MEMORY_VALUES_SORTED_3 - off] in
  let a0_next := next.[FRAME_PC] in let a1 := curr.[FRAME_DST_ADDR] in
  let a2 := curr.[FRAME_OP0_ADDR] in let a3 := curr.[FRAME_OP1_ADDR] in
  let v0_next := next.[FRAME_INST] in let v1 := curr.[FRAME_DST] in
  let v2 := curr.[FRAME_OP0] in let v3 := curr.[FRAME_OP1] in
  let cs := cset cs PERMUTATION_ARGUMENT_0 ((z - (ap1 + alpha * vp1)) * p1 - (z - (a1 + alpha * v1)) * p0) in
  let cs := cset cs PERMUTATION_ARGUMENT_1 ((z - (ap2 + alpha * vp2)) * p2 - (z - (a2 + alpha * v2)) * p1) in
  let cs := cset cs PERMUTATION_ARGUMENT_2 ((z - (ap3 + alpha * vp3)) * p3 - (z - (a3 + alpha * v3)) * p2) in
  cset cs PERMUTATION_ARGUMENT_3
    ((z - (ap0_next + alpha * vp0_next)) * p0_next - (z - (a0_next + alpha * v0_next)) * p3).

(** air.rs:1092-1135 *)
Definition permutation_argument_range_check (off : nat) (ch : cairo_challenges C) (curr next : list C) (cs : list C)
  : list C :=
  let z := z_range_check ch in
  let c1 := curr.[RANGE_CHECK_COL_1 - off] in let c2 := curr.[RANGE_CHECK_COL_2 - off] in
  let c3 := curr.[RANGE_CHECK_COL_3 - off] in let c1' := next.[RANGE_CHECK_COL_1 - off] in
  let cs := cset cs RANGE_CHECK_INCREASING_0 ((c1 - c2) * (c2 - c1 - 1)) in
  let cs := cset cs RANGE_CHECK_INCREASING_1 ((c2 - c3) * (c3 - c2 - 1)) in
  let cs := cset cs RANGE_CHECK_INCREASING_2 ((c3 - c1') * (c1' - c3 - 1)) in
  let p0 := curr.[PERMUTATION_ARGUMENT_RANGE_CHECK_COL_1 - off] in
  let p0_next := next.[PERMUTATION_ARGUMENT_RANGE_CHECK_COL_1 - off] in
  let p1 := curr.[PERMUTATION_ARGUMENT_RANGE_CHECK_COL_2 - off] in
  let p2 := curr.[PERMUTATION_ARGUMENT_RANGE_CHECK_COL_3 - off] in
  let a0_next := next.[OFF_DST] in let a1 := curr.[OFF_OP0] in let a2 := curr.[OFF_OP1] in
  let cs := cset cs RANGE_CHECK_0 ((z - c2) * p1 - (z - a1) * p0) in
  let cs := cset cs RANGE_CHECK_1 ((z - c3) * p2 - (z - a2) * p1) in
  cset cs RANGE_CHECK_2 ((z - c1') * p0_next - (z - a0_next) * p2).

(** air.rs:1150-1160; the constants are 2^16, 2^32, ..., 2^112. *)
Definition evaluate_range_check_builtin_constraint (curr : list C) : C :=
  curr.[RC_0]
  + curr.[RC_1] * e_u64 C (2 ^ 16)
  + curr.[RC_2] * e_u64 C (2 ^ 32)
  + curr.[RC_3] * e_u64 C (2 ^ 48)
  + curr.[RC_4] * e_u64 C (2 ^ 64)
  + curr.[RC_5] * e_u64 C (2 ^ 80)
  + curr.[RC_6] * e_u64 C (2 ^ 96)
  + curr.[RC_7] * e_u64 C (2 ^ 112)
  - curr.[RC_VALUE].

(** air.rs:1141-1148 *)
Definition range_check_builtin (curr : list C) (cs : list C) : list C :=
  cset cs RANGE_CHECK_BUILTIN (evaluate_range_check_builtin_constraint curr).

(** air.rs:743-767 *)
Definition cairo_constraints (pi : public_inputs C) (ch : cairo_challenges C) (curr next : list C) : list C :=
  let off := builtin_offset pi in
  let cs := repeat 0 (49 + if has_rc_builtin pi then 1 else 0)%nat in
  let cs := compute_instr_constraints curr cs in
  let cs := compute_operand_constraints curr cs in
  let cs := compute_register_constraints curr next cs in
  let cs := compute_opcode_constraints curr cs in
  let cs := enforce_selector curr cs in
  let cs := memory_is_increasing off curr next cs in
  let cs := permutation_argument off ch curr next cs in
  let cs := permutation_argument_range_check off ch curr next cs in
  if has_rc_builtin pi then range_check_builtin curr cs else cs.
Definition cairo_transition (pi : public_inputs C) (fr : frame C) (ch : cairo_challenges C) : outcome (list C) :=
  curr <- fr_get_row fr 0%nat;;
  next <- fr_get_row fr 1%nat;;
  if (length curr <=? PERMUTATION_ARGUMENT_RANGE_CHECK_COL_3 - builtin_offset pi)%nat then Panic
  else Ok (cairo_constraints pi ch curr next).

(** air.rs:777-849 *)
Definition cairo_boundary (pi : public_inputs C) (n : nat) (ch : cairo_challenges C)
  : outcome (list (boundary_constraint C)) :=
  let off := builtin_offset pi in
  last_step <- usub (num_steps pi) 1;;
  final_index <- usub n 1;;
  cumulative_product <- inv_o (fold_left (fun product av =>
      product * (z_memory ch - (fst av + alpha_memory ch * snd av))) (public_memory pi) 1);;
  let permutation_final := fpow (z_memory ch) (length (public_memory pi)) * cumulative_product in
  rc_min <- unwrap (range_check_min pi);;
  rc_max <- unwrap (range_check_max pi);;
  Ok [mk_bc MEM_A_TRACE_OFFSET 0%nat (pc_init pi);
      mk_bc MEM_P_TRACE_OFFSET 0%nat (ap_init pi);
      mk_bc MEM_A_TRACE_OFFSET last_step (pc_final pi);
      mk_bc MEM_P_TRACE_OFFSET last_step (ap_final pi);
      mk_bc (PERMUTATION_ARGUMENT_COL_3 - off)%nat final_index permutation_final;
      mk_bc (PERMUTATION_ARGUMENT_RANGE_CHECK_COL_3 - off)%nat final_index 1;
      mk_bc (RANGE_CHECK_COL_1 - off)%nat 0%nat (e_u64 C rc_min);
      mk_bc (RANGE_CHECK_COL_3 - off)%nat final_index (e_u64 C rc_max)].

(** air.rs:574-866 *)
Definition cairo_air (pi : public_inputs C) (opts : proof_options) (n : nat) : air C := {|
  a_rap := cairo_challenges C;
  a_context := cairo_context pi opts;
  a_trace_length := n;
  a_build_aux := cairo_build_aux pi;
  a_build_rap := cairo_build_rap;
  a_n_aux := number_auxiliary_rap_columns;
  a_degree_bound := (2 * n)%nat;
  a_transition := cairo_transition pi;
  a_boundary := cairo_boundary pi n
|}.
End CairoAir.
