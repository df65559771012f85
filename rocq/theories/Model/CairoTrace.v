(** Building the Cairo main trace from a run. Sources: src/cairo/register_states.rs,
    src/cairo/cairo_mem.rs, src/cairo/execution_trace.rs, src/cairo/air.rs:185-221.
    A [HashMap<u64, FE>] is an association list, as in PublicInputs.v. *)
From Coq Require Import List Arith NArith ZArith Bool.
From Verif.Base Require Import Outcome Field Poly.
From Verif.Model Require Import Codec PublicInputs Trace Air CairoDecode.
Import ListNotations.
Local Open Scope outcome_scope.

(** air.rs:73-154: columns of the main and auxiliary traces. *)
Definition F_DST_FP := 0. Definition F_OP_0_FP := 1. Definition F_OP_1_VAL := 2. Definition F_OP_1_FP := 3.
Definition F_OP_1_AP := 4. Definition F_RES_ADD := 5. Definition F_RES_MUL := 6. Definition F_PC_ABS := 7.
Definition F_PC_REL := 8. Definition F_PC_JNZ := 9. Definition F_AP_ADD := 10. Definition F_AP_ONE := 11.
Definition F_OPC_CALL := 12. Definition F_OPC_RET := 13. Definition F_OPC_AEQ := 14.
Definition FRAME_RES := 16. Definition FRAME_AP := 17. Definition FRAME_FP := 18. Definition FRAME_PC := 19.
Definition FRAME_DST_ADDR := 20. Definition FRAME_OP0_ADDR := 21. Definition FRAME_OP1_ADDR := 22.
Definition FRAME_INST := 23. Definition FRAME_DST := 24. Definition FRAME_OP0 := 25. Definition FRAME_OP1 := 26.
Definition OFF_DST := 27. Definition OFF_OP0 := 28. Definition OFF_OP1 := 29.
Definition FRAME_T0 := 30. Definition FRAME_T1 := 31. Definition FRAME_MUL := 32. Definition FRAME_SELECTOR := 33.
Definition RC_0 := 34. Definition RC_1 := 35. Definition RC_2 := 36. Definition RC_3 := 37.
Definition RC_4 := 38. Definition RC_5 := 39. Definition RC_6 := 40. Definition RC_7 := 41. Definition RC_VALUE := 42.
Definition RANGE_CHECK_COL_1 := 43. Definition RANGE_CHECK_COL_2 := 44. Definition RANGE_CHECK_COL_3 := 45.
Definition MEMORY_ADDR_SORTED_0 := 46. Definition MEMORY_ADDR_SORTED_1 := 47.
Definition MEMORY_ADDR_SORTED_2 := 48. Definition MEMORY_ADDR_SORTED_3 := 49.
Definition MEMORY_VALUES_SORTED_0 := 50. Definition MEMORY_VALUES_SORTED_1 := 51.
Definition MEMORY_VALUES_SORTED_2 := 52. Definition MEMORY_VALUES_SORTED_3 := 53.
Definition PERMUTATION_ARGUMENT_COL_0 := 54. Definition PERMUTATION_ARGUMENT_COL_1 := 55.
Definition PERMUTATION_ARGUMENT_COL_2 := 56. Definition PERMUTATION_ARGUMENT_COL_3 := 57.
Definition PERMUTATION_ARGUMENT_RANGE_CHECK_COL_1 := 58. Definition PERMUTATION_ARGUMENT_RANGE_CHECK_COL_2 := 59.
Definition PERMUTATION_ARGUMENT_RANGE_CHECK_COL_3 := 60.
Definition MEM_P_TRACE_OFFSET := 17. Definition MEM_A_TRACE_OFFSET := 19.
Definition BUILTIN_OFFSET := 9.

(** execution_trace.rs:25-36 *)
Definition MEMORY_COLUMNS : list nat :=
  [FRAME_PC; FRAME_DST_ADDR; FRAME_OP0_ADDR; FRAME_OP1_ADDR; FRAME_INST; FRAME_DST; FRAME_OP0; FRAME_OP1].
Definition ADDR_COLUMNS : list nat := [FRAME_PC; FRAME_DST_ADDR; FRAME_OP0_ADDR; FRAME_OP1_ADDR].

(** register_states.rs:8-13 *)
Record registers_state := mk_regs { r_pc : N; r_fp : N; r_ap : N }.

(** Stable sorting by a numeric key ([sort], [sort_by], [sort_by_key]): reference semantics, an insertion sort
    that keeps equal keys in order. *)
Fixpoint insert_by {A} (key : A -> N) (x : A) (l : list A) : list A :=
  match l with
  | [] => [x]
  | y :: r => if (key x <=? key y)%N then x :: l else y :: insert_by key x r
  end.
Fixpoint sort_by {A} (key : A -> N) (l : list A) : list A :=
  match l with [] => [] | x :: r => insert_by key x (sort_by key r) end.

(** [lo..hi] on unsigned integers. *)
Definition nrange (lo hi : N) : list N := map (fun i => (lo + N.of_nat i)%N) (seq 0 (N.to_nat (hi - lo))).

(** [u64::checked_add_signed] *)
Definition checked_add_signed (a : N) (o : Z) : option N :=
  let v := (Z.of_N a + o)%Z in
  if ((0 <=? v) && (v <? 2 ^ 64))%Z then Some (Z.to_N v) else None.

Section CairoTrace.
Context {C : cairo_env}.
Local Open Scope felt_scope.

Definition cairo_memory := list (N * C).

(** cairo_mem.rs:23-25 *)
Definition mem_get (m : cairo_memory) (a : N) : option C := map_get N.eqb a m.

(** register_states.rs:16-28 *)
Definition instruction_flags_and_offsets (s : registers_state) (m : cairo_memory)
  : outcome (instruction_flags * instruction_offsets) :=
  i <- ok_or (InstructionError InstructionNotFound) (mem_get m (r_pc s));;
  f <- decode_flags i;;
  Ok (f, decode_offsets i).

(** register_states.rs:41-49 *)
Definition flags_and_offsets (rows : list registers_state) (m : cairo_memory) :=
  traverse (fun s => instruction_flags_and_offsets s m) rows.

(** The address computations [reg.checked_add_signed(off).unwrap()] and the memory read behind them. *)
Definition addr_value (m : cairo_memory) (base : N) (off : Z) : outcome (C * C) :=
  a <- unwrap (checked_add_signed base off);;
  v <- unwrap (mem_get m a);;
  Ok (e_u64 C a, v).

(** execution_trace.rs:445-474, on one step; the Rust maps it over the zipped vectors. *)
Definition compute_dst (m : cairo_memory) (f : instruction_flags) (o : instruction_offsets) (t : registers_state) :=
  match if_dst_reg f with
  | DstAP => addr_value m (r_ap t) (io_dst o)
  | DstFP => addr_value m (r_fp t) (io_dst o)
  end.

(** execution_trace.rs:479-508, on one step *)
Definition compute_op0 (m : cairo_memory) (f : instruction_flags) (o : instruction_offsets) (t : registers_state) :=
  match if_op0_reg f with
  | Op0AP => addr_value m (r_ap t) (io_op0 o)
  | Op0FP => addr_value m (r_fp t) (io_op0 o)
  end.

(** execution_trace.rs:513-568, on one step *)
Definition compute_op1 (m : cairo_memory) (f : instruction_flags) (o : instruction_offsets) (op0 : C) (t : registers_state) :=
  match if_op1_src f with
  | Op1Op0 => addr_value m (last_nim op0) (io_op1 o)
  | Op1Imm => addr_value m (r_pc t) (io_op1 o)
  | Op1AP => addr_value m (r_ap t) (io_op1 o)
  | Op1FP => addr_value m (r_fp t) (io_op1 o)
  end.

(** execution_trace.rs:382-440, on one step *)
Definition compute_res (f : instruction_flags) (op0 op1 dst : C) : outcome C :=
  match if_pc_update f with
  | PcJnz =>
      match if_res_logic f, if_opcode f, if_ap_update f with
      | ResOp1, NOp, (ApRegular | ApAdd1 | ApAdd2) => if feqb dst 0 then Ok dst else inv_o dst
      | _, _, _ => Panic
      end
  | PcRegular | PcJump | PcJumpRel =>
      match if_res_logic f with
      | ResOp1 => Ok op1
      | ResAdd => Ok (op0 + op1)
      | ResMul => Ok (op0 * op1)
      | ResUnconstrained => Panic
      end
  end.

(** execution_trace.rs:572-592, on one step: the new (op0, dst, res). An overflow of [pc + size] is a panic. *)
Definition update_values (f : instruction_flags) (t : registers_state) (op0 dst res : C) : outcome (C * C * C) :=
  match if_opcode f with
  | Call =>
      let size := match if_op1_src f with Op1Imm => 2%N | _ => 1%N end in
      if (r_pc t + size <? 2 ^ 64)%N then Ok (e_u64 C (r_pc t + size), e_u64 C (r_fp t), res) else Panic
  | AssertEq => Ok (op0, dst, dst)
  | _ => Ok (op0, dst, res)
  end.

(** execution_trace.rs:596-602; [width] is the constant generic [N]. *)
Definition rows_to_cols (width : nat) (rows : list (list C)) : outcome (list (list C)) :=
  _ <- idx rows 0%nat;;
  traverse (fun c => traverse (fun r => idx r c) rows) (seq 0%nat width).

(** execution_trace.rs:604-624: eight times the low 16 bits, then shift. *)
Fixpoint decompose_loop (n : nat) (vals : list N) : list (list C) :=
  match n with
  | O => []
  | S n' => map (fun x => e_u64 C (N.land x 65535)) vals :: decompose_loop n' (map (fun x => N.shiftr x 16) vals)
  end.
Definition decompose_rc_values (rc_values : list C) : list (list C) := decompose_loop 8 (map ce_repr rc_values).

(** [Vec::resize(n, zero)]: truncates or pads. *)
Definition resize0 (n : nat) (l : list C) : list C := firstn n l ++ repeat 0 (n - length l)%nat.

(** execution_trace.rs:359-379 *)
Definition add_rc_builtin_columns (trace_cols : list (list C)) (range : N * N) (m : cairo_memory)
  : outcome (list (list C)) :=
  vals <- traverse (fun a => unwrap (mem_get m a)) (nrange (fst range) (snd range));;
  c0 <- idx trace_cols 0%nat;;
  Ok (trace_cols ++ map (resize0 (length c0)) (decompose_rc_values vals) ++ [resize0 (length c0) vals]).

(** execution_trace.rs:261-356. The vectors are built per quantity over all steps, in this order; the per-step
    functions are the closures above, so the first panic is the same. *)
Definition build_cairo_execution_trace (raw : list registers_state) (m : cairo_memory) (pi : public_inputs C)
  : outcome (trace_table C) :=
  let n_steps := length raw in
  fo <- unwrap_r (flags_and_offsets raw m);;
  let flags := map fst fo in
  let offsets := map snd fo in
  dst <- traverse (fun x => let '(f, o, t) := x in compute_dst m f o t) (combine (combine flags offsets) raw);;
  op0 <- traverse (fun x => let '(f, o, t) := x in compute_op0 m f o t) (combine (combine flags offsets) raw);;
  op1 <- traverse (fun x => let '(f, o, v, t) := x in compute_op1 m f o v t)
           (combine (combine (combine flags offsets) (map snd op0)) raw);;
  res <- traverse (fun x => let '(f, v0, v1, d) := x in compute_res f v0 v1 d)
           (combine (combine (combine flags (map snd op0)) (map snd op1)) (map snd dst));;
  upd <- traverse (fun x => let '(f, t, v0, d, r) := x in update_values f t v0 d r)
           (combine (combine (combine (combine flags raw) (map snd op0)) (map snd dst)) res);;
  let op0s := map (fun u => fst (fst u)) upd in
  let dsts := map (fun u => snd (fst u)) upd in
  let ress := map snd upd in
  repr_flags <- traverse flags_repr flags;;
  repr_offsets <- traverse offsets_repr offsets;;
  instructions <- traverse (fun t => unwrap (mem_get m (r_pc t))) raw;;
  t0 <- traverse (fun x => let '(rf, d) := x in f9 <- idx rf 9%nat;; Ok (f9 * d)) (combine repr_flags dsts);;
  let t1 := map (fun x => fst x * snd x) (combine t0 ress) in
  let mul := map (fun x => fst x * snd x) (combine op0s (map snd op1)) in
  flag_cols <- rows_to_cols 16 repr_flags;;
  offset_cols <- rows_to_cols 3 repr_offsets;;
  last_step <- usub n_steps 1;;
  let selector := repeat 1 last_step ++ [0] in
  let cols := flag_cols ++
    [ress; map (fun t => e_u64 C (r_ap t)) raw; map (fun t => e_u64 C (r_fp t)) raw;
     map (fun t => e_u64 C (r_pc t)) raw;
     map fst dst; map fst op0; map fst op1; instructions; dsts; op0s; map snd op1] ++
    offset_cols ++ [t0; t1; mul; selector] in
  cols <- match map_get segment_eqb RangeCheck (memory_segments pi) with
          | Some range => add_rc_builtin_columns cols range m
          | None => Ok cols
          end;;
  tt_new_from_cols cols.

(** execution_trace.rs:98-106; [trace.table.append] *)
Definition tt_append (t : trace_table C) (rows : list C) : trace_table C := mk_trace (tt_table t ++ rows) (tt_n_cols t).
Definition pad_with_last_row (t : trace_table C) (k : nat) : outcome (trace_table C) :=
  r <- tt_last_row t;; Ok (tt_append t (concat (repeat r k))).

(** [row[i] = x] *)
Definition set_cell (row : list C) (i : nat) (x : C) : outcome (list C) :=
  if (i <? length row)%nat then Ok (firstn i row ++ x :: skipn (S i) row) else Panic.

(** execution_trace.rs:112-127 *)
Definition pad_with_last_row_and_zeros (t : trace_table C) (k : nat) (cols : list nat) : outcome (trace_table C) :=
  r <- tt_last_row t;;
  r <- ofold (fun r c => set_cell r c 0) cols r;;
  Ok (tt_append t (concat (repeat r k))).

(** execution_trace.rs:91-96 *)
Definition add_pub_memory_dummy_accesses (t : trace_table C) (pub_memory_len : nat) : outcome (trace_table C) :=
  pad_with_last_row_and_zeros t (pub_memory_len / 4 + 1)%nat MEMORY_COLUMNS.

(** execution_trace.rs:151-158: the loop over [windows(2)] *)
Fixpoint rc_missing (l : list N) : list N :=
  match l with
  | a :: (b :: _) as r => (if (b =? a)%N then [] else nrange (a + 1) b) ++ rc_missing r
  | _ => []
  end.

(** [u16::from(representative)]: the low 16 bits of the last limb. *)
Definition to_u16 (x : C) : N := (ce_repr x mod 2 ^ 16)%N.

(** execution_trace.rs:136-173 *)
Definition get_rc_holes (t : trace_table C) (columns : list nat) : outcome (list C * N * N) :=
  oc <- tt_get_cols t columns;;
  let sorted := sort_by (fun x => x) (map to_u16 (tt_table oc)) in
  let missing := rc_missing sorted in
  let k := ((length missing + 2) / 3 * 3 - length missing)%nat in
  lst <- unwrap (nth_error sorted (length sorted - 1)%nat);;
  fst_ <- idx sorted 0%nat;;
  Ok (map (e_u64 C) missing ++ repeat (e_u64 C lst) k, fst_, lst).

(** execution_trace.rs:176-185 *)
Definition fill_rc_holes (t : trace_table C) (holes : list C) : outcome (trace_table C) :=
  right <- usub (tt_n_cols t) (OFF_OP1 + 1);;
  starts <- step_by 3 (seq 0%nat (length holes));;
  rows <- traverse (fun i => h <- slice holes i (i + 3);; Ok (repeat 0 OFF_DST ++ h ++ repeat 0 right)) starts;;
  Ok (tt_append t (concat rows)).

(** execution_trace.rs:209-216: the [while] loop from [hole_addr] up to [addr]; each iteration increases the
    representative, so [ce_repr addr] iterations of fuel are enough. *)
Fixpoint hole_loop (fuel : nat) (hole addr : C) (codelen : N) : list C :=
  match fuel with
  | O => []
  | S f =>
      if (ce_repr hole <? ce_repr addr)%N
      then (if (codelen <? ce_repr hole)%N then [hole] else []) ++ hole_loop f (hole + 1) addr codelen
      else []
  end.

(** execution_trace.rs:199-219: the [for] loop *)
Fixpoint holes_from (prev : C) (addrs : list C) (codelen : N) : list C :=
  match addrs with
  | [] => []
  | addr :: r =>
      let addr_diff := addr - prev in
      (if negb (feqb addr_diff 1) && negb (feqb addr_diff 0) && (codelen <? ce_repr addr)%N
       then hole_loop (N.to_nat (ce_repr addr)) (prev + 1) addr codelen
       else []) ++ holes_from addr r codelen
  end.

(** execution_trace.rs:195-222 *)
Definition get_memory_holes (sorted_addrs : list C) (codelen : nat) : outcome (list C) :=
  a0 <- idx sorted_addrs 0%nat;;
  Ok (holes_from a0 sorted_addrs (N.of_nat codelen)).

(** One padding row of execution_trace.rs:241-253: the address columns take the next holes while there are any. *)
Fixpoint fill_row (cols : list nat) (row : list C) (holes : list C) : outcome (list C * list C) :=
  match cols, holes with
  | c :: cols', h :: holes' => row <- set_cell row c h;; fill_row cols' row holes'
  | _, _ => Ok (row, holes)
  end.

(** execution_trace.rs:227-254; [k] rows are appended. *)
Fixpoint fill_rows (k : nat) (row : list C) (holes : list C) : outcome (list (list C)) :=
  match k with
  | O => Ok []
  | S k' => '(r, holes) <- fill_row ADDR_COLUMNS row holes;; rs <- fill_rows k' row holes;; Ok (r :: rs)
  end.
Definition div_ceil (a b : nat) : nat := ((a + b - 1) / b)%nat.
Definition fill_memory_holes (t : trace_table C) (holes : list C) : outcome (trace_table C) :=
  row <- tt_last_row t;;
  rows <- fill_rows (div_ceil (length holes) (length ADDR_COLUMNS)) row holes;;
  Ok (tt_append t (concat rows)).

(** execution_trace.rs:57-87, and the range-check bounds it stores in the public inputs. *)
Definition with_rc_bounds (pi : public_inputs C) (lo hi : N) : public_inputs C :=
  mk_public_inputs (pc_init pi) (ap_init pi) (fp_init pi) (pc_final pi) (ap_final pi) (Some lo) (Some hi)
    (memory_segments pi) (public_memory pi) (num_steps pi).
Definition build_main_trace (raw : list registers_state) (m : cairo_memory) (pi : public_inputs C)
  : outcome (trace_table C * public_inputs C) :=
  t <- build_cairo_execution_trace raw m pi;;
  ac <- tt_get_cols t ADDR_COLUMNS;;
  let address_cols := sort_by ce_repr (tt_table ac) in
  '(rc_holes, rc_min, rc_max) <- get_rc_holes t [OFF_DST; OFF_OP0; OFF_OP1];;
  let pi := with_rc_bounds pi rc_min rc_max in
  t <- fill_rc_holes t rc_holes;;
  memory_holes <- get_memory_holes address_cols (length (public_memory pi));;
  t <- match memory_holes with [] => Ok t | _ => fill_memory_holes t memory_holes end;;
  t <- add_pub_memory_dummy_accesses t (length (public_memory pi));;
  t <- pad_with_last_row t (next_pow2 (tt_n_rows t) - tt_n_rows t)%nat;;
  Ok (t, pi).

(** air.rs:189-220 *)
Definition from_regs_and_mem (raw : list registers_state) (m : cairo_memory) (program_size : N)
  (segments : list (memory_segment * (N * N))) : outcome (public_inputs C) :=
  cells <- traverse (fun i => v <- unwrap (mem_get m i);; Ok (e_u64 C i, v)) (nrange 1 (program_size + 1));;
  let pm := of_entries feqb cells in
  pm <- match map_get segment_eqb Output segments with
        | None => Ok pm
        | Some (lo, hi) =>
            ofold (fun pm a => v <- unwrap (mem_get m a);; Ok (map_insert feqb (e_u64 C a) v pm)) (nrange lo hi) pm
        end;;
  last_index <- usub (length raw) 1;;
  last_step <- idx raw last_index;;
  r0 <- idx raw 0%nat;;
  Ok (mk_public_inputs (e_u64 C (r_pc r0)) (e_u64 C (r_ap r0)) (e_u64 C (r_fp r0)) (e_u64 C (r_pc last_step))
        (e_u64 C (r_ap last_step)) None None segments pm (length raw)).
End CairoTrace.
