(** C87: the machine is deterministic, and a described run over known memory is the run of the machine. *)
From Coq Require Import List Arith NArith ZArith Bool Lia.
From Verif.Base Require Import Outcome Field Poly Zp.
From Verif.Model Require Import Codec PublicInputs Trace Air CairoDecode CairoTrace CairoAir CairoRunner.
From Verif.Spec Require Import CairoSpec AirSpec CairoColumns CairoRun CairoStatement.
From Verif.Proofs Require Import FieldFacts OutcomeFacts DecodeFacts StepFacts CairoAirFacts.
From Verif.Examples Require Import Toy Stark252 MiniRun RunExamples.
From Verif.Properties Require Import CairoMemoryProperties CairoSoundnessProperties.
Import ListNotations.
Local Open Scope felt_scope.

(** Every cell that a step of the run reads is in [M], and none of them is cell 0. *)
Definition reads_within {C : cairo_env} (M : C -> C -> Prop) (m : @cairo_memory C) (raw : list registers_state) : Prop :=
  forall t a v, In t raw -> touches m t a -> reads m a v -> a <> 0 /\ M a v.

(** Two steps from one state over memories that agree on what the first one reads. *)
Lemma step_unique {C : cairo_env} {p} (HC : cairo_ok C p) (m1 m2 : C -> C -> Prop) w dst op0 op1 res w' dst' op0' op1' res' s s1 s2 :
  cpu_step m1 w dst op0 op1 res s s1 -> cpu_step m2 w' dst' op0' op1' res' s s2 -> defined_instruction w ->
  (forall a v v', (a = s_pc s \/ a = (if (dst_reg_of w =? 1)%N then s_fp s else s_ap s) + offset_value (off_dst w) \/
     a = (if (op0_reg_of w =? 1)%N then s_fp s else s_ap s) + offset_value (off_op0 w) \/ a = op1_base w s op0 + offset_value (off_op1 w)) ->
     m1 a v -> m2 a v' -> v = v') -> s1 = s2.
Proof.
  intros [A1 A2 A3 A4 A5 A6 A7 A8 A9 _ _] [B1 B2 B3 B4 B5 B6 B7 B8 B9 _ _] (_ & Hj & _) Ag.
  assert (Ew : w = w').
  { pose proof (co_p _ _ HC) as Hp. change (2 ^ 65)%N with 36893488147419103232%N in *. change (2 ^ 63)%N with 9223372036854775808%N in *.
    apply (u64_inj HC); [lia|lia|]. exact (Ag _ _ _ (or_introl eq_refl) A2 B2). }
  subst w'. assert (Ed : dst = dst') by (apply (Ag _ _ _ (or_intror (or_introl eq_refl)) A3 B3)).
  assert (E0 : op0 = op0') by (apply (Ag _ _ _ (or_intror (or_intror (or_introl eq_refl))) A4 B4)). subst dst' op0'.
  assert (E1 : op1 = op1') by (apply (Ag _ _ _ (or_intror (or_intror (or_intror eq_refl))) A5 B5)). subst op1'.
  destruct s1 as [pc1 ap1 fp1], s2 as [pc2 ap2 fp2]. cbn [s_pc s_ap s_fp] in *. subst pc1 ap1 fp1 pc2 ap2 fp2.
  destruct (N.eq_dec (pc_update_of w) 4) as [E4|N4].
  - destruct (Hj E4) as (_ & Ho & Ha). rewrite E4, Ho. destruct (ap_update_of w) as [|[q|q|]]; [reflexivity..|]. now destruct Ha.
  - rewrite (A6 N4), (B6 N4). reflexivity.
Qed.

Lemma state_inj {C : cairo_env} {p} (HC : cairo_ok C p) t t' : in_range t -> in_range t' -> state_of (C := C) t = state_of t' -> t = t'.
Proof.
  intros (H1 & H2 & H3) (H1' & H2' & H3') E. pose proof (co_p _ _ HC) as Hp. change (2 ^ 65)%N with 36893488147419103232%N in *.
  change (2 ^ 64)%N with 18446744073709551616%N in *. destruct t as [pc fp ap], t' as [pc' fp' ap']. cbn [r_pc r_ap r_fp] in *. injection E as E1 E2 E3.
  cbn [r_pc r_ap r_fp] in *. f_equal; apply (u64_inj HC); try lia; assumption.
Qed.

(** The memory and the first registers determine the run. *)
Theorem C87_runs_are_unique :
  forall (C : cairo_env) p (m : @cairo_memory C) raw raw', cairo_ok C p -> valid_run m raw -> valid_run m raw' -> hd_error raw = hd_error raw' ->
  forall i t t', nth_error raw i = Some t -> nth_error raw' i = Some t' -> t = t'.
Proof.
  intros C p m raw raw' HC (_ & R & Stp) (_ & R' & Stp') Hh. induction i as [|i IH]; intros t t' Ht Ht'.
  - destruct raw, raw'; cbn in *; congruence.
  - destruct (nth_error raw i) as [u|] eqn:Hu; [|apply nth_error_None in Hu; assert (Hn : nth_error raw (S i) <> None) by congruence; apply nth_error_Some in Hn; lia].
    destruct (nth_error raw' i) as [u'|] eqn:Hu'; [|apply nth_error_None in Hu'; assert (Hn : nth_error raw' (S i) <> None) by congruence; apply nth_error_Some in Hn; lia].
    assert (u = u') by (exact (IH u u' eq_refl eq_refl)). subst u'.
    destruct (Stp i u Hu) as (s & (w & d & o0 & o1 & rs & St & Df & _) & Nx). destruct (Stp' i u Hu') as (s' & (w' & d' & o0' & o1' & rs' & St' & _ & _) & Nx').
    rewrite Nat.add_1_r in Nx, Nx'. apply (state_inj HC).
    + exact (proj1 (Forall_forall _ _) R t (nth_error_In _ _ Ht)).
    + exact (proj1 (Forall_forall _ _) R' t' (nth_error_In _ _ Ht')).
    + rewrite <- (Nx t Ht), <- (Nx' t' Ht'). apply (step_unique HC _ _ _ _ _ _ _ _ _ _ _ _ _ _ _ St St' Df).
      intros a v v' _ Hv Hv'. exact (reads_functional HC m a v v' Hv Hv').
Qed.
Print Assumptions C87_runs_are_unique.

(** A table that describes a run, over a memory with all cells that the machine reads, shows the registers of the machine in every step. *)
Theorem C87_described_run_is_the_run :
  forall (C : cairo_env) p (pi : public_inputs C) cols n (m : @cairo_memory C) raw, cairo_ok C p ->
  describes_run pi cols n -> valid_run m raw -> length raw = num_steps pi -> reads_within (claimed_memory pi cols n) m raw ->
  (forall t, hd_error raw = Some t -> registers_at cols 0 = state_of t) ->
  forall i t, nth_error raw i = Some t -> registers_at cols i = state_of t.
Proof.
  intros C p pi cols n m raw HC D (_ & _ & Stp) Hl Hr Hf. induction i as [|i IH]; intros t Ht.
  - apply Hf. destruct raw; [discriminate Ht|exact Ht].
  - assert (Hb : (S i < length raw)%nat) by (apply nth_error_Some; congruence).
    destruct (nth_error raw i) as [u|] eqn:Hu; [|apply nth_error_None in Hu; lia]. specialize (IH u eq_refl).
    destruct (Stp i u Hu) as (s & (w & d & o0 & o1 & rs & St & Df & _) & Nx). rewrite Nat.add_1_r in Nx. rewrite <- (Nx t Ht).
    destruct (dr_steps _ _ _ D i ltac:(lia)) as (w' & Hw' & Hi' & St').
    assert (Ag : forall a v v', (a = s_pc (state_of (C := C) u) \/ a = (if (dst_reg_of w =? 1)%N then s_fp (state_of (C := C) u) else s_ap (state_of u)) + offset_value (off_dst w) \/
       a = (if (op0_reg_of w =? 1)%N then s_fp (state_of u) else s_ap (state_of u)) + offset_value (off_op0 w) \/ a = op1_base w (state_of u) o0 + offset_value (off_op1 w)) ->
       reads m a v -> claimed_memory pi cols n a v' -> v = v').
    { intros a v v' Ha Hv Hv'. destruct (Hr u a v (nth_error_In _ _ Hu)) as (Hz & Hc); [|exact Hv|exact (dr_functional _ _ _ D a v v' Hz Hc Hv')].
      exists w, o0. split; [exact (st_word _ _ _ _ _ _ _ _ St)|]. split; [exact (st_inst _ _ _ _ _ _ _ _ St)|]. split; [exact (st_op0 _ _ _ _ _ _ _ _ St)|exact Ha]. }
    rewrite IH in Hi', St'.
    assert (w = w') as <-.
    { pose proof (co_p _ _ HC) as Hp. pose proof (st_word _ _ _ _ _ _ _ _ St) as Hw. change (2 ^ 65)%N with 36893488147419103232%N in *. change (2 ^ 63)%N with 9223372036854775808%N in *.
      apply (u64_inj HC); [lia|lia|]. exact (Ag _ _ _ (or_introl eq_refl) (st_inst _ _ _ _ _ _ _ _ St) Hi'). }
    destruct (St' Df) as (d' & o0' & o1' & rs' & St2). rewrite Nat.add_1_r in St2. symmetry.
    exact (step_unique HC _ _ _ _ _ _ _ _ _ _ _ _ _ _ _ St St2 Df Ag).
Qed.
Print Assumptions C87_described_run_is_the_run.

(** If the machine reads only public cells, what the statement claims about the end is what the machine does. *)
Theorem C87_public_results_are_right :
  forall (C : cairo_env) p (pi : public_inputs C) cols n (m : @cairo_memory C) raw first final, cairo_ok C p ->
  describes_run pi cols n -> valid_run m raw -> length raw = num_steps pi -> reads_within (fun a v => In (a, v) (public_memory pi)) m raw ->
  nth_error raw 0 = Some first -> nth_error raw (num_steps pi - 1) = Some final ->
  e_u64 C (r_pc first) = pc_init pi -> e_u64 C (r_ap first) = ap_init pi -> e_u64 C (r_fp first) = cell cols 0 FRAME_FP ->
  pc_final pi = e_u64 C (r_pc final) /\ ap_final pi = e_u64 C (r_ap final).
Proof.
  intros C p pi cols n m raw first final HC D V Hl Hr H0 He Hpc Hap Hfp.
  assert (E : registers_at cols (num_steps pi - 1) = state_of final).
  { apply (C87_described_run_is_the_run C p pi cols n m raw HC D V Hl); [|..|exact He].
    - intros t a v Ht Ha Hv. destruct (Hr t a v Ht Ha Hv) as (Hz & Hi). split; [exact Hz|exact (dr_public _ _ _ D a v Hi)].
    - intros t Ht. assert (t = first) as -> by (destruct raw; cbn in *; congruence).
      destruct (dr_first _ _ _ D) as (F1 & F2). unfold state_of. rewrite Hpc, Hap, Hfp, <- F1, <- F2. reflexivity. }
  destruct (dr_last _ _ _ D) as (L1 & L2). rewrite E in L1, L2. split; symmetry; assumption.
Qed.
Print Assumptions C87_public_results_are_right.

(** With the repairs of C58, wrong results cannot be proved but for few challenges. *)
Theorem C87_wrong_results_are_rejected :
  forall (C : cairo_env) p, cairo_ok C p -> forall (pi : public_inputs C) opts n lo hi (base : list (list C)) (m : @cairo_memory C) raw first final,
  length base = trace_columns (a_context (cairo_air pi opts n)) -> (0 < n)%nat -> (N.of_nat (4 * n) < 2 ^ 64)%N ->
  range_check_min pi = Some lo -> range_check_max pi = Some hi -> (lo < 2 ^ 16)%N -> (hi < 2 ^ 16)%N -> (1 <= num_steps pi <= n)%nat ->
  (forall i, (i + 1 < num_steps pi)%nat -> cell base i FRAME_SELECTOR = 1) ->
  valid_run m raw -> length raw = num_steps pi -> reads_within (fun a v => In (a, v) (public_memory pi)) m raw ->
  nth_error raw 0 = Some first -> nth_error raw (num_steps pi - 1) = Some final ->
  e_u64 C (r_pc first) = pc_init pi -> e_u64 C (r_ap first) = ap_init pi -> e_u64 C (r_fp first) = cell base 0 FRAME_FP ->
  pc_final pi <> e_u64 C (r_pc final) \/ ap_final pi <> e_u64 C (r_ap final) ->
  let k := (4 * n + length (public_memory pi))%nat in
  exists bad_alpha bad_zrc, (length bad_alpha <= (2 * k) * (2 * k))%nat /\ (length bad_zrc <= 3 * n)%nat /\
  forall alpha, ~ In alpha bad_alpha -> exists bad_z, (length bad_z <= 2 * k)%nat /\
  forall z zrc cols, ~ In z bad_z -> ~ In zrc bad_zrc -> same_but_products pi base cols -> first_row_equation pi (mk_challenges alpha z zrc) cols ->
    ~ trace_satisfies (cairo_air pi opts n) (mk_challenges alpha z zrc) cols n.
Proof.
  intros C p HC pi opts n lo hi base m raw first final Hw Hn H64 Hmin Hmax Hlo Hhi Hst Hsel V Hl Hr H0 He Hpc Hap Hfp Hne k.
  destruct (C58_repaired_air_is_sound C p HC pi opts n lo hi base Hw Hn H64 Hmin Hmax Hlo Hhi Hst Hsel) as (ba & bz & La & Lz & H).
  exists ba, bz. split; [exact La|]. split; [exact Lz|]. intros alpha Ha. destruct (H alpha Ha) as (bm & Lm & H'). exists bm. split; [exact Lm|].
  intros z zrc cols Hz Hzrc Hsame Hfirst Hs. pose proof (H' z zrc cols Hz Hzrc Hsame Hs Hfirst) as D.
  destruct (C87_public_results_are_right C p pi base n m raw first final HC D V Hl Hr H0 He Hpc Hap Hfp) as (E1 & E2). now destruct Hne.
Qed.
Print Assumptions C87_wrong_results_are_rejected.

(** The program [jmp abs \[fp\]; jmp abs \[fp\]] with two cells of data. *)
Definition jump_memory : @cairo_memory stark :=
  map (fun av => (fst av, f252 (Z.of_N (snd av)) : stark)) [(1, 0x008b800080008000); (2, 0x008b800080008000); (3, 1); (4, 2)]%N.
Definition jump_stay : list registers_state := [mk_regs 1 3 5; mk_regs 1 3 5].
Definition jump_move : list registers_state := [mk_regs 1 4 5; mk_regs 2 4 5].
Lemma jump_step1 : executes jump_memory (mk_regs 1 3 5) (state_of (mk_regs 1 3 5)).
Proof. one_step 1%N 0x008b800080008000%N 3%N 3%N 3%N. split; [defined_tac|vm_compute; discriminate]. Qed.
Lemma jump_step2 : executes jump_memory (mk_regs 1 4 5) (state_of (mk_regs 2 4 5)).
Proof. one_step 1%N 0x008b800080008000%N 4%N 4%N 4%N. split; [defined_tac|vm_compute; discriminate]. Qed.
Lemma jump_step3 : executes jump_memory (mk_regs 2 4 5) (state_of (mk_regs 2 4 5)).
Proof. one_step 2%N 0x008b800080008000%N 4%N 4%N 4%N. split; [defined_tac|vm_compute; discriminate]. Qed.
Lemma two_steps (m : @cairo_memory stark) t1 t2 s : in_range t1 -> in_range t2 -> executes m t1 (state_of t2) -> executes m t2 s -> valid_run m [t1; t2].
Proof.
  intros R1 R2 E1 E2. split; [discriminate|]. split; [now do 2 (constructor; [assumption|])|].
  intros [|[|i]] t Ht; cbn in Ht; [injection Ht as <-..|now destruct i].
  - exists (state_of t2). split; [exact E1|]. cbn. intros t' H. now injection H as <-.
  - exists s. split; [exact E2|]. cbn. intros t' H. discriminate H.
Qed.
Lemma jump_provable raw : valid_run jump_memory raw -> (forall t, hd_error raw = Some t -> (r_pc t <= 4)%N) -> provable_run jump_memory raw 4 None None.
Proof.
  intros V H. constructor; try discriminate; [exact V|exact H|reflexivity|..|left; reflexivity].
  intros i Hi. assert (Hc : In i (nrange 1 5)). { apply in_map_iff. exists (N.to_nat (i - 1)). split; [lia|]. apply in_seq. lia. }
  vm_compute in Hc. repeat (destruct Hc as [<-|Hc]; [vm_compute; discriminate|]). destruct Hc.
Qed.

(** The frame pointer, which no constraint binds (C25), decides what the machine does: both runs read only the program, which is public, and start
    with the same pc and ap. *)
Theorem C87_frame_pointer_free_refuted :
  ~ (forall (C : cairo_env) p (m : @cairo_memory C) raw raw' size, cairo_ok C p -> provable_run m raw size None None -> provable_run m raw' size None None ->
     length raw = length raw' ->
     (forall t a, In t (raw ++ raw') -> touches m t a -> exists n, (1 <= n <= size)%N /\ a = e_u64 C n) ->
     (forall t t', hd_error raw = Some t -> hd_error raw' = Some t' -> r_pc t = r_pc t' /\ r_ap t = r_ap t') ->
     forall t t', nth_error raw (length raw - 1) = Some t -> nth_error raw' (length raw - 1) = Some t' -> r_pc t = r_pc t').
Proof.
  intro H. assert (E : 1%N = 2%N); [|discriminate E].
  refine (H stark _ jump_memory jump_stay jump_move 4%N stark_ok _ _ eq_refl _ _ (mk_regs 1 3 5) (mk_regs 2 4 5) eq_refl eq_refl).
  - apply jump_provable; [|intros t Ht; injection Ht as <-; discriminate]. eapply two_steps; [repeat split..|exact jump_step1|exact jump_step1].
  - apply jump_provable; [|intros t Ht; injection Ht as <-; discriminate]. eapply two_steps; [repeat split..|exact jump_step2|exact jump_step3].
  - intros t a Ht (w & op0 & Hw & Hi & H0 & Ha). cbv zeta in *.
    assert (Hb : exists fp pc, t = mk_regs pc fp 5 /\ (pc = 1%N \/ pc = 2%N) /\ (fp = 3%N \/ fp = 4%N)).
    { cbn in Ht. destruct Ht as [<-|[<-|[<-|[<-|[]]]]]; eauto 10. }
    destruct Hb as (fp & pc & -> & Hpc & Hfp). cbn [r_pc r_fp r_ap state_of s_fp s_pc s_ap] in *.
    assert (Ew : w = 0x008b800080008000%N).
    { apply (u64_inj stark_ok); [pose proof (co_p _ _ stark_ok); lia|reflexivity|].
      assert (Hc : reads jump_memory (e_u64 stark pc) (e_u64 stark 0x008b800080008000)) by (destruct Hpc as [-> | ->]; [read_at 1%N|read_at 2%N]).
      exact (reads_functional stark_ok jump_memory _ _ _ Hi Hc). }
    subst w. change (op1_base 0x008b800080008000 (mk_state (e_u64 stark pc) (e_u64 stark 5) (e_u64 stark fp)) op0) with (e_u64 stark fp) in Ha.
    assert (Hf : forall o, o = 32768%N -> e_u64 stark fp + offset_value o = e_u64 stark fp) by (intros o ->; destruct Hfp as [-> | ->]; by_value).
    cbn [N.eqb] in Ha.
    destruct Ha as [-> | [-> | [-> | ->]]].
    + exists pc. split; [lia|reflexivity].
    + exists fp. split; [lia|]. apply Hf. reflexivity.
    + exists fp. split; [lia|]. apply Hf. reflexivity.
    + exists fp. split; [lia|]. apply Hf. reflexivity.
  - intros t t' Ht Ht'. injection Ht as <-. injection Ht' as <-. split; reflexivity.
Qed.
Print Assumptions C87_frame_pointer_free_refuted.

(** ** Examples *)
Definition claimedb (pi : public_inputs stark) (cols : list (list stark)) (n : nat) (a v : stark) : bool :=
  existsb (fun k => feqb (sorted_addr pi cols k) a && feqb (sorted_value pi cols k) v) (seq 0 (4 * n)).
Definition describesb (pi : public_inputs stark) (cols : list (list stark)) (n : nat) (m : @cairo_memory stark) (raw : list registers_state) : bool :=
  let entries := map (fun k => (sorted_addr pi cols k, sorted_value pi cols k)) (seq 0 (4 * n)) in
  forallb (fun x => forallb (fun y => negb (feqb (fst x) (fst y)) || feqb (snd x) (snd y)) entries) entries &&
  forallb (fun av => claimedb pi cols n (fst av) (snd av)) (public_memory pi) &&
  forallb (fun nv => claimedb pi cols n (e_u64 stark (fst nv)) (snd nv)) m &&
  forallb (fun it => let '(i, t) := it in feqb (cell cols i FRAME_PC) (e_u64 stark (r_pc t)) && feqb (cell cols i FRAME_AP) (e_u64 stark (r_ap t)) &&
    feqb (cell cols i FRAME_FP) (e_u64 stark (r_fp t))) (combine (seq 0 (length raw)) raw) &&
  Nat.eqb (length raw) (num_steps pi) &&
  feqb (cell cols 0 FRAME_PC) (pc_init pi) && feqb (cell cols 0 FRAME_AP) (ap_init pi) &&
  feqb (cell cols (num_steps pi - 1) FRAME_PC) (pc_final pi) && feqb (cell cols (num_steps pi - 1) FRAME_AP) (ap_final pi).

Lemma describes_checked pi cols n m raw : valid_run m raw -> describesb pi cols n m raw = true ->
  describes_run pi cols n /\ length raw = num_steps pi /\ (forall a v, reads m a v -> claimed_memory pi cols n a v) /\
  forall i t, nth_error raw i = Some t -> registers_at cols i = state_of t.
Proof.
  intros (_ & _ & Stp) H. pose proof (fft_field_ok _ (e_fft_ok _ (co_env _ _ stark_ok))) as HK. pose proof (fun x y : stark => proj1 (feqb_spec stark HK x y)) as Eq.
  unfold describesb in H. cbv zeta in H. repeat (apply andb_true_iff in H; destruct H as [H ?]).
  match goal with K : forallb _ m = true |- _ => rename K into Hm end. match goal with K : forallb _ (combine _ _) = true |- _ => rename K into Hg end.
  match goal with K : forallb _ (public_memory _) = true |- _ => rename K into Hp end. match goal with K : Nat.eqb _ _ = true |- _ => apply Nat.eqb_eq in K; rename K into Hl end.
  rewrite forallb_forall in H, Hm, Hg, Hp.
  assert (Hc : forall a v, claimedb pi cols n a v = true -> claimed_memory pi cols n a v).
  { intros a v Hb. apply existsb_exists in Hb. destruct Hb as (k & Hk & Hb). apply in_seq in Hk. apply andb_true_iff in Hb. destruct Hb as [Hb1 Hb2].
    left. exists k. split; [lia|]. split; apply Eq; assumption. }
  assert (Hr : forall a v, reads m a v -> claimed_memory pi cols n a v).
  { intros a v (k & _ & -> & Hk). apply Hc. apply (Hm (k, v)). revert Hk. unfold mem_get. clear. induction m as [|[x y] m IH]; cbn; [discriminate|].
    destruct (N.eqb_spec k x) as [->|]; [intro E; left; congruence|intro E; right; exact (IH E)]. }
  assert (Hs : forall i t, nth_error raw i = Some t -> registers_at cols i = state_of t).
  { intros i t Ht. assert (Hin : In (i, t) (combine (seq 0 (length raw)) raw)).
    { apply (nth_error_In _ i). change (Some (i, t)) with (Some ((0 + i)%nat, t)). clear -Ht. revert Ht. generalize 0%nat as s. revert i.
      induction raw as [|x l IH]; intros [|i] s Ht; try discriminate Ht; cbn [length seq combine nth_error] in *; [injection Ht as <-; now rewrite Nat.add_0_r|].
      rewrite (IH i (S s) Ht). do 2 f_equal. lia. }
    specialize (Hg _ Hin). cbn beta iota in Hg. repeat (apply andb_true_iff in Hg; destruct Hg as [Hg ?]). unfold registers_at, state_of. f_equal; apply Eq; assumption. }
  split; [|split; [exact Hl|split; [exact Hr|exact Hs]]]. constructor.
  - intros a v v' Hz Hv Hv'.
    assert (He : forall v, claimed_memory pi cols n a v -> In (a, v) (map (fun k => (sorted_addr pi cols k, sorted_value pi cols k)) (seq 0 (4 * n)))).
    { intros u [(k & Hk & <- & <-)|(_ & E & _)]; [|contradiction]. apply in_map_iff. exists k. split; [reflexivity|apply in_seq; lia]. }
    pose proof (proj1 (forallb_forall _ _) (H _ (He v Hv)) _ (He v' Hv')) as E. cbn [fst snd] in E. rewrite (feqb_refl HK) in E. apply Eq. exact E.
  - intros a v Hi. exact (Hc a v (Hp _ Hi)).
  - split; apply Eq; assumption.
  - split; apply Eq; assumption.
  - intros i Hi. destruct (nth_error raw i) as [t|] eqn:Ht; [|apply nth_error_None in Ht; lia].
    destruct (nth_error raw (i + 1)) as [t'|] eqn:Ht'; [|apply nth_error_None in Ht'; lia].
    destruct (Stp i t Ht) as (s & (w & d & o0 & o1 & rs & St & Df & _) & Nx). rewrite (Hs _ _ Ht), (Hs _ _ Ht'), <- (Nx t' Ht'). exists w.
    split; [exact (st_word _ _ _ _ _ _ _ _ St)|]. split; [exact (Hr _ _ (st_inst _ _ _ _ _ _ _ _ St))|]. intros _. exists d, o0, o1, rs.
    exact (cpu_step_mono _ _ _ _ _ _ _ _ _ Hr St).
Qed.

Definition jump_main : outcome (trace_table stark * public_inputs stark) := generate_prover_args jump_stay jump_memory 4 None None.
Definition jump_pi : public_inputs stark := match jump_main with Ok (_, pi) => pi | _ => mini_pi end.
Definition jump_table : trace_table stark := match jump_main with Ok (t, _) => t | _ => mini_table end.
Definition jump_aux : outcome (trace_table stark) := cairo_build_aux jump_pi jump_table mini_challenges.
Definition jump_values : list (list Z) := Eval vm_compute in
  map (map (fun x : stark => zval (x : zp stark_p))) (columns_of jump_table ++ match jump_aux with Ok t => columns_of t | _ => [] end).
Definition jump_cols : list (list stark) := map (map (fun x => f252 x : stark)) jump_values.

Lemma cells_nonzero (m : @cairo_memory stark) : forallb (fun nv => negb (feqb (e_u64 stark (fst nv)) 0)) m = true -> forall a v, reads m a v -> a <> 0.
Proof.
  intros H a v (k & _ & -> & Hk). rewrite forallb_forall in H. assert (Hi : In (k, v) m).
  { revert Hk. unfold mem_get. clear. induction m as [|[x y] m IH]; cbn; [discriminate|]. destruct (N.eqb_spec k x) as [->|]; [intro E; left; congruence|intro E; right; exact (IH E)]. }
  specialize (H _ Hi). intro E. cbn [fst] in H. rewrite E, (feqb_refl (fft_field_ok _ (e_fft_ok _ (co_env _ _ stark_ok)))) in H. discriminate H.
Qed.
Lemma jump_valid : valid_run jump_memory jump_stay.
Proof. eapply two_steps; [repeat split..|exact jump_step1|exact jump_step1]. Qed.

(** The three-step run, whose stack is not public. *)
Example C87_example : describes_run mini_pi mini_cols 8 /\ valid_run mini_memory mini_regs /\ length mini_regs = num_steps mini_pi /\
  reads_within (claimed_memory mini_pi mini_cols 8) mini_memory mini_regs /\ (forall t, hd_error mini_regs = Some t -> registers_at mini_cols 0 = state_of t).
Proof.
  destruct (describes_checked mini_pi mini_cols 8 mini_memory mini_regs mini_valid ltac:(vm_compute; reflexivity)) as (D & L & R & F).
  split; [exact D|]. split; [exact mini_valid|]. split; [exact L|]. split.
  - intros t a v _ _ Hv. split; [|exact (R a v Hv)]. apply (cells_nonzero mini_memory ltac:(vm_compute; reflexivity) a v Hv).
  - intros t Ht. exact (F 0%nat t Ht).
Qed.

(** The run that jumps to itself, all of whose memory is public. *)
Lemma jump_public : reads_within (fun a v => In (a, v) (public_memory jump_pi)) jump_memory jump_stay.
Proof.
  intros t a v _ _ Hv. split; [exact (cells_nonzero jump_memory ltac:(vm_compute; reflexivity) a v Hv)|]. destruct Hv as (k & _ & -> & Hk).
  assert (H : forallb (fun nv => existsb (fun av => feqb (fst av) (e_u64 stark (fst nv)) && feqb (snd av) (snd nv)) (public_memory jump_pi)) jump_memory = true) by (vm_compute; reflexivity).
  rewrite forallb_forall in H. assert (Hi : In (k, v) jump_memory).
  { revert Hk. unfold mem_get. clear. induction jump_memory as [|[x y] m IH]; cbn; [discriminate|]. destruct (N.eqb_spec k x) as [->|]; [intro E; left; congruence|intro E; right; exact (IH E)]. }
  specialize (H _ Hi). apply existsb_exists in H. destruct H as ([a v'] & Ha & H). apply andb_true_iff in H. cbn [fst snd] in H. destruct H as [E1 E2].
  pose proof (fun x y : stark => proj1 (feqb_spec stark (fft_field_ok _ (e_fft_ok _ (co_env _ _ stark_ok))) x y)) as Eq.
  apply Eq in E1. apply Eq in E2. subst. exact Ha.
Qed.
Example C87_public_example : describes_run jump_pi jump_cols 4 /\ valid_run jump_memory jump_stay /\ length jump_stay = num_steps jump_pi /\
  reads_within (fun a v => In (a, v) (public_memory jump_pi)) jump_memory jump_stay /\
  e_u64 stark 1 = pc_init jump_pi /\ e_u64 stark 5 = ap_init jump_pi /\ e_u64 stark 3 = cell jump_cols 0 FRAME_FP.
Proof.
  destruct (describes_checked jump_pi jump_cols 4 jump_memory jump_stay jump_valid ltac:(vm_compute; reflexivity)) as (D & L & _ & _).
  split; [exact D|]. split; [exact jump_valid|]. split; [exact L|]. split; [exact jump_public|]. repeat split; by_value.
Qed.

(** The same table and the claim that the run ends at 2. *)
Definition jump_wrong : public_inputs stark :=
  mk_public_inputs (pc_init jump_pi) (ap_init jump_pi) (fp_init jump_pi) (e_u64 stark 2) (ap_final jump_pi) (range_check_min jump_pi) (range_check_max jump_pi)
    (memory_segments jump_pi) (public_memory jump_pi) (num_steps jump_pi).
Example C87_wrong_example opts : length jump_cols = trace_columns (a_context (cairo_air jump_wrong opts 4)) /\
  (exists lo hi, range_check_min jump_wrong = Some lo /\ range_check_max jump_wrong = Some hi /\ (lo < 2 ^ 16)%N /\ (hi < 2 ^ 16)%N) /\ (1 <= num_steps jump_wrong <= 4)%nat /\
  (forall i, (i + 1 < num_steps jump_wrong)%nat -> cell jump_cols i FRAME_SELECTOR = 1) /\ same_but_products jump_wrong jump_cols jump_cols /\
  pc_final jump_wrong <> e_u64 stark 1.
Proof.
  split; [vm_compute; reflexivity|]. split; [eexists; eexists; split; [vm_compute; reflexivity|]; split; [vm_compute; reflexivity|]; split; reflexivity|].
  split; [vm_compute; lia|]. split.
  - intros i Hi. assert (i = 0%nat) as -> by (change (num_steps jump_wrong) with 2%nat in Hi; lia). by_value.
  - split; [split; [reflexivity|intros; reflexivity]|]. intro E. apply (f_equal (fun x : stark => zval (x : zp stark_p))) in E. vm_compute in E. discriminate E.
Qed.
