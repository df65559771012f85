(** C14, C23, C24, C25: what the CPU, range-check builtin and boundary constraints of the Cairo AIR do and do not enforce. *)
From Coq Require Import List Arith NArith ZArith Bool Lia.
From Verif.Base Require Import Outcome Field Poly Zp.
From Verif.Model Require Import Codec PublicInputs Trace Air CairoDecode CairoTrace CairoAir CairoRunner.
From Verif.Spec Require Import CairoSpec AirSpec CairoColumns.
From Verif.Proofs Require Import FieldFacts OutcomeFacts DecodeFacts CpuFacts CairoAirFacts SortedFacts CairoForge.
From Verif.Examples Require Import Toy Stark252 MiniRun.
Import ListNotations.
Local Open Scope felt_scope.

(** ** C14 *)

(** A row with selector one whose 31 flag and CPU constraints vanish, and whose offset cells are 16-bit integers (C22),
    holds an instruction word, and the registers of the next row are those after executing it, where memory is what
    the row itself accesses. *)
Theorem C14_cpu_constraints_imply_the_step :
  forall (C : cairo_env) p, cairo_ok C p -> forall (pi : public_inputs C) opts len ch (curr next evals : list C) od o0 o1,
  length curr = trace_columns (a_context (cairo_air pi opts len)) -> length next = length curr ->
  a_transition (cairo_air pi opts len) (mk_frame (curr ++ next) (length curr)) ch = Ok evals ->
  (forall j, (j <= ASSERT_EQ)%nat -> nth j evals 0 = 0) ->
  nth FRAME_SELECTOR curr 0 = 1 ->
  nth OFF_DST curr 0 = e_u64 C od -> nth OFF_OP0 curr 0 = e_u64 C o0 -> nth OFF_OP1 curr 0 = e_u64 C o1 ->
  (od < 2 ^ 16)%N -> (o0 < 2 ^ 16)%N -> (o1 < 2 ^ 16)%N ->
  exists w, (w < 2 ^ 63)%N /\ nth FRAME_INST curr 0 = e_u64 C w /\
    off_dst w = od /\ off_op0 w = o0 /\ off_op1 w = o1 /\
    (forall i, (i < 15)%nat -> nth i curr 0 = if N.testbit w (48 + N.of_nat i) then 1 else 0) /\ nth 15 curr 0 = 0 /\
    (defined_instruction w ->
     cpu_step (fun a v => In (a, v) [(nth FRAME_PC curr 0, nth FRAME_INST curr 0); (nth FRAME_DST_ADDR curr 0, nth FRAME_DST curr 0);
                                     (nth FRAME_OP0_ADDR curr 0, nth FRAME_OP0 curr 0); (nth FRAME_OP1_ADDR curr 0, nth FRAME_OP1 curr 0)])
       w (nth FRAME_DST curr 0) (nth FRAME_OP0 curr 0) (nth FRAME_OP1 curr 0) (nth FRAME_RES curr 0)
       (mk_state (nth FRAME_PC curr 0) (nth FRAME_AP curr 0) (nth FRAME_FP curr 0))
       (mk_state (nth FRAME_PC next 0) (nth FRAME_AP next 0) (nth FRAME_FP next 0))).
Proof.
  intros C p HC pi opts len ch curr next evals od o0 o1 Hw Hl Hev Hz Hsel E1 E2 E3 L1 L2 L3.
  cbn [cairo_air a_context] in Hw. rewrite cairo_width_declared in Hw.
  cbn [cairo_air a_transition] in Hev. rewrite Hw in Hev. rewrite cairo_transition_frame in Hev by congruence.
  apply ok_inj in Hev. subst evals.
  apply (cpu_sound HC pi ch curr next od o0 o1); try assumption.
  rewrite Hw. unfold cairo_width. pose proof (offset_le pi). lia.
Qed.
Print Assumptions C14_cpu_constraints_imply_the_step.

Example C14_example : let curr := crow mini_cols 0 in let next := crow mini_cols 1 in
  length curr = trace_columns (a_context (cairo_air mini_pi (mk_options 4 3 3 1) 8)) /\
  feqb (nth FRAME_SELECTOR curr 0) 1 = true /\
  feqb (nth OFF_DST curr 0) (e_u64 stark 32768) && feqb (nth OFF_OP0 curr 0) (e_u64 stark 32767)
    && feqb (nth OFF_OP1 curr 0) (e_u64 stark 32769) = true /\
  match a_transition (cairo_air mini_pi (mk_options 4 3 3 1) 8) (mk_frame (curr ++ next) (length curr)) mini_challenges with
  | Ok evals => forallb (fun j => feqb (nth j evals 0) 0) (seq 0 31)
  | _ => false
  end = true.
Proof. vm_compute. repeat split. Qed.
Example C14_example_defined : defined_instruction 0x480680017fff8000.
Proof.
  unfold defined_instruction, allowed_flags, one_hot. repeat split; try (vm_compute; tauto); try (vm_compute; discriminate).
Qed.

(** ** C23 *)

(** The eight columns the prover writes for the values of the builtin hold 16-bit limbs, and they recombine to the
    value exactly when it is below 2^128. *)
Theorem C23_decomposition_exact_iff_128_bits :
  forall (C : cairo_env) p, cairo_ok C p -> forall (vals : list C) k, (k < length vals)%nat ->
  let v := nth k vals 0 in let limb j := nth k (nth j (decompose_rc_values vals) []) 0 in
  length (decompose_rc_values vals) = 8%nat /\
  (forall j, (j < 8)%nat -> exists x, (x < 2 ^ 16)%N /\ limb j = e_u64 C x) /\
  (limb 0%nat + limb 1%nat * e_u64 C (2 ^ 16) + limb 2%nat * e_u64 C (2 ^ 32) + limb 3%nat * e_u64 C (2 ^ 48)
   + limb 4%nat * e_u64 C (2 ^ 64) + limb 5%nat * e_u64 C (2 ^ 80) + limb 6%nat * e_u64 C (2 ^ 96) + limb 7%nat * e_u64 C (2 ^ 112) = v
   <-> (ce_repr v < 2 ^ 128)%N).
Proof.
  intros C p HC vals k Hk v limb.
  assert (Hlimb : forall j, (j < 8)%nat -> limb j = e_u64 C (CairoForge.limb (ce_repr v) j)).
  { intros j Hj. unfold limb, decompose_rc_values. rewrite decompose_loop_nth, map_map by exact Hj.
    rewrite (nth_indep _ 0 (e_u64 C (CairoForge.limb (ce_repr (0 : C)) j))) by now rewrite map_length.
    exact (map_nth (fun x : C => e_u64 C (CairoForge.limb (ce_repr x) j)) vals 0 k). }
  split; [apply decompose_loop_length|]. split.
  - intros j Hj. exists (CairoForge.limb (ce_repr v) j). split; [apply N.mod_lt; discriminate|now apply Hlimb].
  - rewrite !Hlimb by lia. rewrite (fe_limbs HC). apply (limbs_recombine HC).
Qed.
Print Assumptions C23_decomposition_exact_iff_128_bits.

(** The constraint, the only one that reads the nine builtin columns, is satisfiable for every value: whatever a
    satisfying trace is, its value column can be replaced by any column of field elements. *)
Theorem C23_builtin_values_are_not_range_checked :
  forall (C : cairo_env) p, cairo_ok C p -> forall (pi : public_inputs C) opts ch cols n (values : list C),
  has_rc_builtin pi = true -> length cols = trace_columns (a_context (cairo_air pi opts n)) ->
  length values = n -> (forall c, In c cols -> length c = n) ->
  trace_satisfies (cairo_air pi opts n) ch cols n ->
  exists cols', length cols' = length cols /\ (forall c, In c cols' -> length c = n) /\
    (forall j, (j < RC_0 \/ RC_VALUE < j)%nat -> nth j cols' [] = nth j cols []) /\
    nth RC_VALUE cols' [] = values /\ trace_satisfies (cairo_air pi opts n) ch cols' n.
Proof.
  intros C p HC pi opts ch cols n values Hb Hw Hv Hrows Hs. pose proof (co_env _ _ HC) as HE.
  pose proof (fft_field_ok _ (e_fft_ok _ HE)) as HK.
  cbn [cairo_air a_context] in Hw. rewrite cairo_width_declared in Hw.
  assert (Ho : builtin_offset pi = 0%nat) by (unfold builtin_offset; now rewrite Hb).
  assert (Hw61 : length cols = 61%nat) by (rewrite Hw; unfold cairo_width; now rewrite Ho).
  set (mid := values :: repeat (repeat (0 : C) n) 7 ++ [values]).
  set (cols' := firstn 34 cols ++ mid ++ skipn 43 cols).
  assert (Lf : length (firstn 34 cols) = 34%nat) by (rewrite firstn_length; lia).
  assert (Lm : length mid = 9%nat) by reflexivity.
  assert (Hlen : length cols' = length cols) by (unfold cols'; rewrite !app_length, skipn_length, Lf, Lm; lia).
  assert (Hoth : forall j, (j < 34 \/ 43 <= j)%nat -> nth j cols' [] = nth j cols []).
  { intros j [H|H]; unfold cols'.
    - rewrite app_nth1 by lia. rewrite <- (firstn_skipn 34 cols) at 2. now rewrite app_nth1 by lia.
    - rewrite app_nth2 by lia. rewrite app_nth2 by (rewrite Lf, Lm; lia). rewrite Lf, Lm.
      transitivity (nth (j - 43) (skipn 43 cols) []); [f_equal; lia|]. rewrite <- (firstn_skipn 43 cols) at 2.
      rewrite app_nth2 by (rewrite firstn_length; lia). f_equal. rewrite firstn_length. lia. }
  assert (Hmid : forall j, (j < 9)%nat -> nth (34 + j) cols' [] = nth j mid []).
  { intros j Hj. unfold cols'. rewrite app_nth2 by lia. rewrite Lf. replace (34 + j - 34)%nat with j by lia. now rewrite app_nth1 by lia. }
  assert (Hcell : forall i j, (j < 34 \/ 43 <= j)%nat -> cell cols' i j = cell cols i j)
    by (intros i j H; unfold cell; now rewrite Hoth).
  exists cols'. split; [exact Hlen|]. split; [|split; [|split]].
  - intros c Hc. unfold cols' in Hc. apply in_app_or in Hc. destruct Hc as [Hc|Hc].
    + apply Hrows. rewrite <- (firstn_skipn 34 cols). apply in_or_app. now left.
    + apply in_app_or in Hc. destruct Hc as [Hc|Hc].
      * cbn [mid repeat app In] in Hc. repeat (destruct Hc as [<-|Hc]; [exact Hv || apply repeat_length|]). destruct Hc.
      * apply Hrows. rewrite <- (firstn_skipn 43 cols). apply in_or_app. now right.
  - intros j Hj. apply Hoth. unfold RC_0, RC_VALUE in Hj. lia.
  - unfold RC_VALUE. exact (Hmid 8%nat ltac:(lia)).
  - rewrite cairo_satisfies in Hs by exact Hw. destruct Hs as [Hbd Ht].
    apply cairo_satisfies; [congruence|]. split.
    + intros bcs bc E Hin. destruct (Hbd bcs bc E Hin) as (A & B & D). rewrite Hlen. split; [exact A|]. split; [exact B|].
      rewrite Hcell; [exact D|]. unfold cairo_boundary in E. rewrite Ho in E.
      apply obind_ok in E. destruct E as (ls & _ & E). apply obind_ok in E. destruct E as (fi & _ & E).
      apply obind_ok in E. destruct E as (cp & _ & E). apply obind_ok in E. destruct E as (mn & _ & E).
      apply obind_ok in E. destruct E as (mx & _ & E). apply ok_inj in E. subst bcs.
      unfold MEM_A_TRACE_OFFSET, MEM_P_TRACE_OFFSET, PERMUTATION_ARGUMENT_COL_3, PERMUTATION_ARGUMENT_RANGE_CHECK_COL_3,
        RANGE_CHECK_COL_1, RANGE_CHECK_COL_3 in Hin.
      destruct Hin as [<-|[<-|[<-|[<-|[<-|[<-|[<-|[<-|[]]]]]]]]]; cbn [bc_col]; lia.
    + intros i j Hi Hj. unfold n_constraints in Hj. rewrite Hb in Hj.
      destruct (Nat.lt_ge_cases j 49) as [L|L].
      * rewrite (flag_same pi ch (crow cols i) (crow cols ((i + 1) mod n))); [apply Ht; [exact Hi|unfold n_constraints; lia]|exact L| | | | |exact Hb].
        -- intros c Hc. rewrite !crow_nth. now apply Hcell.
        -- intros c Hc. rewrite !crow_nth. now apply Hcell.
        -- rewrite !crow_length. congruence.
        -- rewrite crow_length. lia.
      * assert (j = 49)%nat by lia. subst j. rewrite builtin_constraint by exact Hb. unfold rc_builtin_value. rewrite !crow_nth.
        assert (Hz : forall k, nth k (repeat (0 : C) n) 0 = 0).
        { intro k. destruct (Nat.lt_ge_cases k n); [now rewrite nth_repeat|apply nth_overflow; now rewrite repeat_length]. }
        assert (H34 : nth 34 cols' [] = values) by exact (Hmid 0%nat ltac:(lia)).
        assert (H42 : nth 42 cols' [] = values) by exact (Hmid 8%nat ltac:(lia)).
        assert (Hm : forall k, (35 <= k < 42)%nat -> nth k cols' [] = repeat 0 n).
        { intros k Hk. replace k with (34 + (k - 34))%nat by lia. rewrite Hmid by lia.
          do 42 (destruct k as [|k]; [lia || reflexivity|]). lia. }
        unfold cell. rewrite H34, H42, !Hm by lia. rewrite !Hz.
        apply (builtin_zero HC).
Qed.
Print Assumptions C23_builtin_values_are_not_range_checked.

(** A satisfying trace for public inputs with a builtin segment, on which the previous theorem applies. *)
Definition rc_pi : public_inputs stark :=
  mk_public_inputs (f252 1 : stark) (f252 8 : stark) (f252 8 : stark) (f252 5 : stark) (f252 9 : stark) (Some 32766%N) (Some 32769%N)
    [(RangeCheck, (9, 10)%N)] [(f252 1 : stark, f252 7 : stark)] 3.
Example C23_example : has_rc_builtin rc_pi = true /\
  trace_satisfies (cairo_air rc_pi (mk_options 4 3 3 1) 4) mini_challenges (empty_cols rc_pi 4 32766 32769 mini_challenges) 4 /\
  (forall c, In c (empty_cols rc_pi 4 32766 32769 mini_challenges) -> length c = 4%nat).
Proof.
  split; [reflexivity|]. split; [|apply empty_rows].
  apply (empty_satisfies stark_ok rc_pi 4 32766 32769); try reflexivity; try (cbn; lia).
  - intro H. apply (f_equal (@zval stark_p)) in H. vm_compute in H. discriminate.
  - intro H. apply (f_equal (@zval stark_p)) in H. vm_compute in H. discriminate.
Qed.
Example C23_example_decomposition : (ce_repr (f252 (2 ^ 127 + 5) : stark) < 2 ^ 128)%N /\ ~ (ce_repr (f252 (2 ^ 128) : stark) < 2 ^ 128)%N.
Proof. vm_compute. split; [reflexivity|discriminate]. Qed.

(** ** C24 *)

(** Any row with selector zero satisfies the fifteen CPU constraints. *)
Theorem C24_zero_selector_disables_the_cpu :
  forall (C : cairo_env) p, cairo_ok C p -> forall (pi : public_inputs C) opts len ch (curr next evals : list C),
  a_transition (cairo_air pi opts len) (mk_frame (curr ++ next) (length curr)) ch = Ok evals -> length next = length curr ->
  nth FRAME_SELECTOR curr 0 = 0 -> forall j, (INST <= j <= ASSERT_EQ)%nat -> nth j evals 0 = 0.
Proof.
  intros C p HC pi opts len ch curr next evals Hev Hl Hsel j Hj.
  cbn [cairo_air a_transition] in Hev. unfold cairo_transition in Hev.
  assert (F : Forall (fun r : list C => length r = length curr) [curr; next]) by (repeat constructor; assumption).
  pose proof (TraceFacts.frame_row [curr; next] (length curr) 0 F ltac:(cbn; lia)) as R0.
  pose proof (TraceFacts.frame_row [curr; next] (length curr) 1 F ltac:(cbn; lia)) as R1.
  cbn [concat nth] in R0, R1. rewrite app_nil_r in R0, R1. rewrite R0, R1 in Hev. cbn [obind] in Hev.
  destruct (length curr <=? _)%nat; [discriminate|]. apply ok_inj in Hev. subst evals.
  apply (selector_zero HC); [exact Hj|exact Hsel].
Qed.
Print Assumptions C24_zero_selector_disables_the_cpu.

(** For any public inputs of at least two steps, any program and output in the public memory included, there are main
    columns with no instruction and selector zero everywhere that complete, for every challenge with [z] different
    from zero and from the final pc, to a trace satisfying all constraints of the AIR. *)
Theorem C24_execution_refuted :
  forall (C : cairo_env) p, cairo_ok C p -> forall (pi : public_inputs C) opts n lo hi,
  (2 <= num_steps pi <= n)%nat -> range_check_min pi = Some lo -> range_check_max pi = Some hi ->
  (lo <= hi)%N -> (hi - lo < N.of_nat (3 * n))%N ->
  exists main : list (list C), (forall c, In c main -> length c = n) /\
    nth FRAME_SELECTOR main [] = repeat 0 n /\ nth FRAME_INST main [] = repeat 0 n /\
    forall ch, z_memory ch <> 0 -> z_memory ch <> pc_final pi ->
    exists aux, (forall c, In c aux -> length c = n) /\ length aux = a_n_aux (cairo_air pi opts n) /\
      length (main ++ aux) = trace_columns (a_context (cairo_air pi opts n)) /\
      trace_satisfies (cairo_air pi opts n) ch (main ++ aux) n.
Proof.
  intros C p HC pi opts n lo hi Hs Hmin Hmax Hle Hspan.
  exists (empty_main pi n lo hi). split; [|split; [|split]].
  - intros c Hc. apply (empty_rows pi n lo hi (mk_challenges 0 0 0)). apply in_or_app. now left.
  - reflexivity.
  - reflexivity.
  - intros ch H1 H2. exists (empty_aux pi n lo hi ch). split; [|split; [|split]].
    + intros c Hc. apply (empty_rows pi n lo hi ch). apply in_or_app. now right.
    + unfold empty_aux. rewrite !app_length, !unflat_length, !repeat_length. reflexivity.
    + cbn [cairo_air a_context]. rewrite cairo_width_declared. apply empty_width.
    + now apply (empty_satisfies HC).
Qed.
Print Assumptions C24_execution_refuted.
Example C24_example : (2 <= num_steps rc_pi <= 4)%nat /\ range_check_min rc_pi = Some 32766%N /\ range_check_max rc_pi = Some 32769%N.
Proof. cbn. repeat split; lia. Qed.

(** ** C25 *)
Definition with_fp_init {F} (pi : public_inputs F) (fp : F) : public_inputs F :=
  mk_public_inputs (pc_init pi) (ap_init pi) fp (pc_final pi) (ap_final pi) (range_check_min pi) (range_check_max pi)
    (memory_segments pi) (public_memory pi) (num_steps pi).

(** Whatever the proof, the verdict is the same for every initial frame pointer. *)
Theorem C25_initial_fp_is_not_bound :
  forall (C : cairo_env) (pi : public_inputs C) fp opts fuel prf,
  verify_cairo_proof fuel prf (with_fp_init pi fp) opts = verify_cairo_proof fuel prf pi opts.
Proof. reflexivity. Qed.
Print Assumptions C25_initial_fp_is_not_bound.

Theorem C25_constraints_ignore_initial_fp :
  forall (C : cairo_env) (pi : public_inputs C) fp opts n ch cols,
  trace_satisfies (cairo_air (with_fp_init pi fp) opts n) ch cols n <-> trace_satisfies (cairo_air pi opts n) ch cols n.
Proof. reflexivity. Qed.
Print Assumptions C25_constraints_ignore_initial_fp.
Example C25_example : feqb (fp_init (with_fp_init mini_pi (f252 77 : stark))) (fp_init mini_pi) = false /\
  trace_satisfies (cairo_air (with_fp_init mini_pi (f252 77 : stark)) (mk_options 4 3 3 1) 8) mini_challenges mini_cols 8.
Proof. split; [vm_compute; reflexivity|]. apply C25_constraints_ignore_initial_fp. apply mini_satisfies. Qed.
