(** C79: what the CPU constraints of the Cairo AIR do for instructions that the architecture leaves undefined. *)
From Coq Require Import List Arith NArith ZArith Bool Lia Ring_theory Field_theory.
From Verif.Base Require Import Outcome Field Poly Zp.
From Verif.Model Require Import Codec PublicInputs Trace Air CairoDecode CairoTrace CairoAir CairoRunner.
From Verif.Spec Require Import CairoSpec AirSpec CairoColumns AnyWord.
From Verif.Proofs Require Import FieldFacts OutcomeFacts DecodeFacts CpuFacts CairoAirFacts AnyWordFacts.
From Verif.Examples Require Import Toy Stark252 MiniRun.
From Verif.Properties Require Import CairoMemoryProperties.
Import ListNotations.
Local Open Scope felt_scope.

(** The registers after a row are determined by those before it and the memory, for every word that is not a conditional jump, defined or
    not, and for every conditional jump that neither adds res to ap nor sets a second jump flag. *)
Theorem C79_successor_is_unique :
  forall (C : cairo_env) p, cairo_ok C p -> forall (pi pi' : public_inputs C) opts opts' len len' ch ch' w (curr next curr' next' : list C),
  executes pi opts len ch w curr next -> executes pi' opts' len' ch' w curr' next' ->
  (flag_set w F_PC_JNZ = true -> flag_set w F_PC_ABS = false /\ flag_set w F_PC_REL = false /\ flag_set w F_AP_ADD = false) ->
  registers curr = registers curr' -> (forall a v v', In (a, v) (touched curr) -> In (a, v') (touched curr') -> v = v') ->
  registers next = registers next'.
Proof.
  intros C p HC pi pi' opts opts' len len' ch ch' w curr next curr' next' H H' D R M. exact (executes_unique HC _ _ _ _ _ _ _ _ _ _ _ _ _ H H' R M D).
Qed.
Print Assumptions C79_successor_is_unique.

(** FINDING. The constraints do not require that at most one flag of each group is set. Any word without the flags of a conditional jump,
    a call and an assertion can be executed in any state and with any operands. *)
Theorem C79_any_flags_execute :
  forall (C : cairo_env) p, cairo_ok C p -> forall (pi : public_inputs C) opts len ch w s dst op0 op1, (w < 2 ^ 63)%N ->
  flag_set w F_PC_JNZ = false -> flag_set w F_OPC_CALL = false -> flag_set w F_OPC_AEQ = false ->
  exists curr next, executes pi opts len ch w curr next /\ registers curr = s /\
    nth FRAME_DST curr 0 = dst /\ nth FRAME_OP0 curr 0 = op0 /\ nth FRAME_OP1 curr 0 = op1.
Proof.
  intros C p HC pi opts len ch w s dst op0 op1 Hw J9 J12 J14. destruct (follows_any HC w s dst op0 op1 J9 J12 J14) as (res & s' & F).
  exists (built_row w s dst op0 op1 res (cairo_width pi - 34)), (state_row s' (cairo_width pi - 34 + 14)). split; [exact (built_executes HC pi opts len ch w s dst op0 op1 res s' Hw F)|].
  destruct (built_facts w s dst op0 op1 res (cairo_width pi - 34)) as (A & B & D & G & _). tauto.
Qed.
Print Assumptions C79_any_flags_execute.

(** FINDING. A conditional jump that also adds res to ap is undefined, since a conditional jump leaves res unused; the decoder lets it pass. If it
    does not jump, the prover moves ap wherever they like. *)
Theorem C79_successor_is_unique_refuted :
  forall (C : cairo_env) p, cairo_ok C p -> forall (pi : public_inputs C) opts len ch w s op0 op1 (target : C), (w < 2 ^ 63)%N ->
  flag_set w F_PC_JNZ = true -> flag_set w F_AP_ADD = true ->
  flag_set w F_RES_ADD = false -> flag_set w F_RES_MUL = false -> flag_set w F_PC_ABS = false -> flag_set w F_PC_REL = false ->
  flag_set w F_OPC_CALL = false -> flag_set w F_OPC_RET = false -> flag_set w F_OPC_AEQ = false ->
  exists curr next, executes pi opts len ch w curr next /\ registers curr = s /\
    nth FRAME_DST curr 0 = 0 /\ nth FRAME_OP0 curr 0 = op0 /\ nth FRAME_OP1 curr 0 = op1 /\
    registers next = mk_state (s_pc s + if flag_set w F_OP_1_VAL then 1 + 1 else 1) target (s_fp s).
Proof.
  intros C p HC pi opts len ch w s op0 op1 target Hw J9 J10 J5 J6 J7 J8 J12 J13 J14.
  pose proof (fft_field_ok _ (e_fft_ok _ (co_env _ _ HC))) as HK.
  set (res := target - s_ap s - of_bool (C := C) (flag_set w 11)).
  set (s' := mk_state (s_pc s + if flag_set w F_OP_1_VAL then 1 + 1 else 1) target (s_fp s)).
  exists (built_row w s 0 op0 op1 res (cairo_width pi - 34)), (state_row s' (cairo_width pi - 34 + 14)). split.
  - apply (built_executes HC); [exact Hw|]. apply (follows_jump HC); assumption.
  - destruct (built_facts w s 0 op0 op1 res (cairo_width pi - 34)) as (A & B & D & G & _). rewrite state_facts. tauto.
Qed.
Print Assumptions C79_successor_is_unique_refuted.

(** What is missing: if, beside the constraints, the sum of the flags of each group is a bit, the flags are allowed. *)
Theorem C79_group_sums_suffice :
  forall (C : cairo_env) p, cairo_ok C p -> forall (pi : public_inputs C) opts len ch w (curr next : list C), executes pi opts len ch w curr next ->
  (forall group, In group [[F_OP_1_VAL; F_OP_1_FP; F_OP_1_AP]; [F_RES_ADD; F_RES_MUL]; [F_PC_ABS; F_PC_REL; F_PC_JNZ]; [F_AP_ADD; F_AP_ONE]; [F_OPC_CALL; F_OPC_RET; F_OPC_AEQ]] ->
     let sum := fold_left (fun acc i => acc + nth i curr 0) group 0 in sum * (sum - 1) = 0) ->
  allowed_flags w.
Proof.
  intros C p HC pi opts len ch w curr next H G. destruct (executes_flags HC _ _ _ _ _ _ _ H) as [F _].
  pose proof (fft_field_ok _ (e_fft_ok _ (co_env _ _ HC))) as HK. assert (Z : forall x : C, 0 + x = x) by (intro x; apply (Radd_0_l (F_R (fld_th C HK)))).
  pose proof (G _ (or_introl eq_refl)) as G1. pose proof (G _ (or_intror (or_introl eq_refl))) as G2. pose proof (G _ (or_intror (or_intror (or_introl eq_refl)))) as G3.
  pose proof (G _ (or_intror (or_intror (or_intror (or_introl eq_refl))))) as G4. pose proof (G _ (or_intror (or_intror (or_intror (or_intror (or_introl eq_refl)))))) as G5. clear G.
  unfold F_OP_1_VAL, F_OP_1_FP, F_OP_1_AP, F_RES_ADD, F_RES_MUL, F_PC_ABS, F_PC_REL, F_PC_JNZ, F_AP_ADD, F_AP_ONE, F_OPC_CALL, F_OPC_RET, F_OPC_AEQ in *.
  cbn [fold_left] in G1, G2, G3, G4, G5. cbv zeta in G1, G2, G3, G4, G5. rewrite Z in G1, G2, G3, G4, G5. rewrite (F 2%nat), (F 3%nat), (F 4%nat) in G1 by lia. rewrite (F 5%nat), (F 6%nat) in G2 by lia.
  rewrite (F 7%nat), (F 8%nat), (F 9%nat) in G3 by lia. rewrite (F 10%nat), (F 11%nat) in G4 by lia. rewrite (F 12%nat), (F 13%nat), (F 14%nat) in G5 by lia.
  split; [exact (group_three HC w 50 2 3 4 eq_refl eq_refl eq_refl G1)|]. split; [exact (group_two HC w 53 5 6 eq_refl eq_refl G2)|].
  split; [exact (group_three HC w 55 7 8 9 eq_refl eq_refl eq_refl G3)|]. split; [exact (group_two HC w 58 10 11 eq_refl eq_refl G4)|exact (group_three HC w 60 12 13 14 eq_refl eq_refl eq_refl G5)].
Qed.
Print Assumptions C79_group_sums_suffice.

(** ** A whole trace *)

(** A program whose first instruction sets the flags of both the sum and the product, so that [res] is [op0 + op0 * op1]: [ap] = 9 + 9 * 3,
    ap++; assert [ap-1] = 36; ret. The table is that of the program that multiplies 9 by 4, with the first row patched. *)
Definition odd_word : N := 0x486680017fff8000.
Definition even_memory : @cairo_memory stark :=
  map (fun av => (fst av, f252 (Z.of_N (snd av)) : stark))
    [(1, 0x484680017fff8000); (2, 4); (3, 0x400680017fff7fff); (4, 36); (5, 0x208b7fff7fff7ffe); (6, 8); (7, 9); (8, 36)]%N.
Definition even_main : outcome (trace_table stark * public_inputs stark) := generate_prover_args mini_regs even_memory 5 None None.
Definition patch (j : nat) : option Z :=
  match j with
  | 5%nat => Some 1%Z | 23%nat => Some (Z.of_N odd_word) | 26%nat => Some 3%Z | 32%nat => Some 27%Z | _ => None
  end.
Definition odd_table : trace_table stark :=
  match even_main with
  | Ok (t, _) => mk_trace (map (fun jx => match patch (fst jx) with Some v => f252 v : stark | None => snd jx end)
                             (combine (seq 0 (tt_n_cols t)) (firstn (tt_n_cols t) (tt_table t))) ++ skipn (tt_n_cols t) (tt_table t)) (tt_n_cols t)
  | _ => mk_trace [] 0
  end.
Definition odd_pi : public_inputs stark :=
  match even_main with
  | Ok (_, pi) => mk_public_inputs (pc_init pi) (ap_init pi) (fp_init pi) (pc_final pi) (ap_final pi) (range_check_min pi) (range_check_max pi) (memory_segments pi)
      (map (fun av => if feqb (fst av) 1 then (fst av, e_u64 stark odd_word) else if feqb (fst av) (e_u64 stark 2) then (fst av, e_u64 stark 3) else av) (public_memory pi)) (num_steps pi)
  | _ => mk_public_inputs fzero fzero fzero fzero fzero None None [] [] 0
  end.
Definition odd_values : list (list Z) := Eval vm_compute in
  map (map (fun x : stark => zval (x : zp stark_p)))
    (columns_of odd_table ++ match cairo_build_aux odd_pi odd_table mini_challenges with Ok t => columns_of t | _ => [] end).
Definition odd_cols : list (list stark) := map (map (fun x => f252 x : stark)) odd_values.
Lemma odd_satisfies opts : trace_satisfies (cairo_air odd_pi opts 8) mini_challenges odd_cols 8.
Proof. apply (checked_satisfies (co_env _ _ stark_ok)); vm_compute; reflexivity. Qed.

(** FINDING. A trace of a program whose first word is no instruction satisfies every constraint of the AIR, and also the two conditions that the AIR forgets
    (C57, C58). The word is public, so the statement is about this program, which no Cairo machine runs; the decoder rejects it. *)
Theorem C79_flag_groups_are_enforced_refuted :
  exists (pi : public_inputs stark) (cols : list (list stark)) ch w,
    (forall opts, trace_satisfies (cairo_air pi opts 8) ch cols 8) /\ first_row_equation pi ch cols /\
    (forall i, (i + 1 < num_steps pi)%nat -> cell cols i FRAME_SELECTOR = 1) /\ num_steps pi = 3%nat /\
    In (pc_init pi, e_u64 stark w) (public_memory pi) /\ cell cols 0 FRAME_PC = pc_init pi /\ cell cols 0 FRAME_INST = e_u64 stark w /\ (w < 2 ^ 63)%N /\
    ~ allowed_flags w /\ decode_flags (C := stark) (e_u64 stark w) = Err (InstructionError InvalidResLogic) /\
    cell cols 0 FRAME_RES = cell cols 0 FRAME_OP0 + cell cols 0 FRAME_OP0 * cell cols 0 FRAME_OP1 /\ cell cols 0 FRAME_OP0 <> 0.
Proof.
  assert (eqb : forall x y : stark, feqb x y = true -> x = y) by (intros x y; apply (feqb_spec stark (fft_field_ok _ (e_fft_ok _ (co_env _ _ stark_ok))))).
  assert (Hs : num_steps odd_pi = 3%nat) by (vm_compute; reflexivity).
  exists odd_pi, odd_cols, mini_challenges, odd_word. split; [exact odd_satisfies|]. split; [apply eqb; vm_compute; reflexivity|].
  split; [intros i Hi; rewrite Hs in Hi; apply eqb; do 2 (destruct i as [|i]; [vm_compute; reflexivity|]); lia|]. split; [exact Hs|].
  split; [vm_compute; tauto|]. split; [apply eqb; vm_compute; reflexivity|]. split; [apply eqb; vm_compute; reflexivity|]. split; [reflexivity|].
  split; [intros (_ & [H|[H|[H|H]]] & _); vm_compute in H; discriminate H|]. split; [vm_compute; reflexivity|]. split; [apply eqb; vm_compute; reflexivity|].
  intro H. apply (f_equal (fun x : stark => zval (x : zp stark_p))) in H. vm_compute in H. discriminate H.
Qed.
Print Assumptions C79_flag_groups_are_enforced_refuted.

(** ** Cases that meet the hypotheses *)
Example C79_example_unique : executes mini_pi (mk_options 4 3 3 1) 8 mini_challenges 0x480680017fff8000 (crow mini_cols 0) (crow mini_cols 1) /\
  executes odd_pi (mk_options 4 3 3 1) 8 mini_challenges odd_word (crow odd_cols 0) (crow odd_cols 1) /\
  flag_set 0x480680017fff8000 F_PC_JNZ = false /\ flag_set odd_word F_PC_JNZ = false.
Proof.
  assert (eqb : forall x y : stark, feqb x y = true -> x = y) by (intros x y; apply (feqb_spec stark (fft_field_ok _ (e_fft_ok _ (co_env _ _ stark_ok))))).
  split; [|split; [|split; vm_compute; reflexivity]]; (constructor; [vm_compute; reflexivity|vm_compute; reflexivity| | |vm_compute; reflexivity|..]); try (apply eqb; vm_compute; reflexivity).
  - eexists. split; [vm_compute; reflexivity|]. intros j Hj. apply eqb. unfold ASSERT_EQ in Hj. do 31 (destruct j as [|j]; [vm_compute; reflexivity|]). lia.
  - eexists. split; [vm_compute; reflexivity|]. intros j Hj. apply eqb. unfold ASSERT_EQ in Hj. do 31 (destruct j as [|j]; [vm_compute; reflexivity|]). lia.
Qed.

(** jmp rel 3 if [ap] != 0 with the flag of ap += res: the decoder accepts it, the architecture does not define it. *)
Example C79_example_jump : let w := 0x060680017fff8000%N in (w < 2 ^ 63)%N /\ flag_set w F_PC_JNZ = true /\ flag_set w F_AP_ADD = true /\
  forallb (fun i => negb (flag_set w i)) [F_RES_ADD; F_RES_MUL; F_PC_ABS; F_PC_REL; F_OPC_CALL; F_OPC_RET; F_OPC_AEQ] = true /\
  allowed_flags w /\ ~ defined_instruction w /\
  decode_flags (C := stark) (e_u64 stark w) = Ok (mk_flags NOp ApAdd PcJnz ResOp1 Op1Imm Op0FP DstAP).
Proof.
  cbn zeta. split; [reflexivity|]. split; [reflexivity|]. split; [reflexivity|]. split; [reflexivity|]. split; [unfold allowed_flags, one_hot; vm_compute; tauto|].
  split; [|vm_compute; reflexivity]. intros (_ & H & _). destruct (H eq_refl) as (_ & _ & G). apply G. reflexivity.
Qed.
