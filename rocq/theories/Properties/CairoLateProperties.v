(** C57: the sorted memory columns are committed to after the challenges of the memory argument are known. *)
From Coq Require Import List Arith NArith ZArith Bool Lia.
From Verif.Base Require Import Outcome Field Poly Zp.
From Verif.Model Require Import Codec PublicInputs Trace Air Transcript Domain Options Prover Verifier CairoDecode CairoTrace CairoAir CairoRunner.
From Verif.Spec Require Import CairoSpec AirSpec ExampleSpec CairoColumns CairoRun Forgery ProvingSpec CairoStatement.
From Verif.Proofs Require HonestAux.
From Verif.Proofs Require Import SortedFacts FieldFacts PolyFacts OutcomeFacts FFTFacts TraceFacts ExampleFacts HonestRun CairoAirFacts CairoForge CairoAdmissible Completeness VerifierTotal ProverTotal StarkFieldFacts LateColumns.
From Verif.Examples Require Import Toy Stark252 MiniRun Calm.
From Verif.Properties Require Import ExampleProperties VerifierProperties CairoMemoryProperties CairoHonestProperties ProverTotalProperties CairoForgeryProperties.
Import ListNotations.
Local Open Scope felt_scope.

(** The challenges the attack below cannot use. *)
Definition late_pole {C : cairo_env} (pi : public_inputs C) (cols : list (list C)) (n : nat) (ch : cairo_challenges C) : Prop :=
  alpha_memory ch = 0 \/ z_memory ch = 0 \/
  (exists k, (k < 4 * n)%nat /\ z_memory ch = access_addr cols k + alpha_memory ch * access_value cols k) \/
  exists a v, In (a, v) (public_memory pi) /\ z_memory ch = a + alpha_memory ch * v.

(** The constraints that do not concern the memory argument. *)
Definition unrelated (j : nat) : Prop := (j < MEMORY_INCREASING_0 \/ S PERMUTATION_ARGUMENT_3 <= j)%nat.

(** Whatever memory cells the main columns access - the same address with several values, public cells with other
    values - the sorted columns and the running products can be chosen, once the challenges are known, such that every
    memory constraint holds, and even the first-row equation the AIR lacks. *)
Theorem C57_memory_argument_binds_nothing_refuted :
  forall (C : cairo_env) p, cairo_ok C p -> forall (pi : public_inputs C) opts ch cols n,
  length cols = trace_columns (a_context (cairo_air pi opts n)) -> (0 < n)%nat -> (num_steps pi <= n)%nat -> ~ late_pole pi cols n ch ->
  (forall j, unrelated j -> constraint_holds (cairo_air pi opts n) ch cols n j) ->
  (forall bcs bc, a_boundary (cairo_air pi opts n) ch = Ok bcs -> In bc bcs -> bc_col bc <> (PERMUTATION_ARGUMENT_COL_3 - builtin_offset pi)%nat ->
     (bc_step bc < n)%nat /\ (bc_col bc < length cols)%nat /\ nth (bc_step bc) (nth (bc_col bc) cols []) 0 = bc_value bc) ->
  exists cols', length cols' = length cols /\
    (forall j, (j < MEMORY_ADDR_SORTED_0 - builtin_offset pi \/ PERMUTATION_ARGUMENT_COL_3 - builtin_offset pi < j)%nat -> nth j cols' [] = nth j cols []) /\
    ((forall c, In c cols -> length c = n) -> forall c, In c cols' -> length c = n) /\
    trace_satisfies (cairo_air pi opts n) ch cols' n /\ first_row_equation pi ch cols'.
Proof.
  intros C p HC pi opts ch cols n Hw Hn Hs Hnp Hc Hb. apply declared_width in Hw. pose proof (offset_le pi) as Ho.
  exists (late_columns pi ch cols n). split; [now apply late_length|]. split.
  { intros j Hj. apply late_other; [exact Hw|]. unfold MEMORY_ADDR_SORTED_0, PERMUTATION_ARGUMENT_COL_3 in Hj. lia. }
  split; [apply late_rows|].
  apply (late_satisfies HC pi ch cols n Hw Hn); try assumption.
  - intro E. apply Hnp. now left.
  - intro E. apply Hnp. right. now left.
  - intros k Hk E. apply Hnp. right. right. left. now exists k.
  - intros a v Hin E. apply Hnp. right. right. right. now exists a, v.
  - intros j Hj Hu. apply (cairo_constraint_holds pi opts); [exact Hw|exact Hj|]. apply Hc. exact Hu.
Qed.
Print Assumptions C57_memory_argument_binds_nothing_refuted.

(** The prover's own rounds turn such columns into an accepted proof: [aux0] only has to provide the range-check part of
    the auxiliary columns. *)
Theorem C57_contradictory_accesses_are_proved :
  forall (C : cairo_env) p (pi : public_inputs C) opts r b fuel main aux0, cairo_ok C p -> sampling_ok C ->
  usable_options C opts r b -> (r + b <= two_adicity C)%nat ->
  (1 <= num_steps pi <= 2 ^ r)%nat -> range_check_min pi <> None -> range_check_max pi <> None ->
  z_found C fuel (cairo_air pi opts (2 ^ r)) -> nonce_found C (grinding_factor opts) ->
  (forall c, In c main -> length c = (2 ^ r)%nat) ->
  (forall t ch t', a_build_rap (cairo_air pi opts (2 ^ r)) t = Ok (ch, t') ->
     (forall c, In c (aux0 ch) -> length c = (2 ^ r)%nat) /\ length (aux0 ch) = number_auxiliary_rap_columns /\
     length (main ++ aux0 ch) = trace_columns (a_context (cairo_air pi opts (2 ^ r))) /\
     (forall j, unrelated j -> constraint_holds (cairo_air pi opts (2 ^ r)) ch (main ++ aux0 ch) (2 ^ r) j) /\
     (forall bcs bc, a_boundary (cairo_air pi opts (2 ^ r)) ch = Ok bcs -> In bc bcs -> bc_col bc <> (PERMUTATION_ARGUMENT_COL_3 - builtin_offset pi)%nat ->
       (bc_step bc < 2 ^ r)%nat /\ (bc_col bc < length (main ++ aux0 ch))%nat /\ nth (bc_step bc) (nth (bc_col bc) (main ++ aux0 ch) []) 0 = bc_value bc)) ->
  exists build : trace_table C -> cairo_challenges C -> outcome (trace_table C),
    (exists proof, prove C fuel (fun n => with_aux (cairo_air pi opts n) build) (table_of main (2 ^ r)) = Ok proof /\ verify_cairo_proof fuel proof pi opts = Ok true) \/
    exists ch, first_challenges (cairo_air pi opts (2 ^ r)) (table_of main (2 ^ r)) ch /\ late_pole pi main (2 ^ r) ch.
Proof.
  intros C p pi opts r b fuel main aux0 HC HS Hu Ht Hsteps Hmin Hmax Hz Hno Hml Haux.
  pose proof (co_env _ _ HC) as HE. pose proof (fft_field_ok _ (e_fft_ok _ HE)) as HK.
  set (n := (2 ^ r)%nat) in *. pose proof (pow2_ge2 r (proj1 Hu)) as H2. fold n in H2. pose proof (offset_le pi) as Ho.
  assert (Hmc : has_columns (table_of main n) n main) by now apply table_of_columns.
  assert (Hmw : length main = (cairo_width pi - 18)%nat /\ (34 <= length main)%nat).
  { assert (H : exists t ch t', a_build_rap (cairo_air pi opts n) t = Ok (ch, t')).
    { cbn [cairo_air a_build_rap]. exists tr_new. unfold cairo_build_rap. destruct (field_total HS tr_new) as (x & t1 & ->). cbn [obind]. destruct (field_total HS t1) as (y & t2 & ->). cbn [obind].
      destruct (field_total HS t2) as (z & t3 & ->). cbn [obind]. eauto. }
    destruct H as (t & ch & t' & H). destruct (Haux t ch t' H) as (_ & A & B & _). apply declared_width in B. rewrite app_length, A in B.
    unfold number_auxiliary_rap_columns, cairo_width in *. lia. }
  destruct Hmw as [Hmw Hm34].
  assert (Hne : main <> []) by (intros ->; cbn in Hm34; lia).
  set (poleb := fun ch : cairo_challenges C => feqb (alpha_memory ch) 0 || feqb (z_memory ch) 0
                  || existsb (fun k => feqb (z_memory ch) (access_addr main k + alpha_memory ch * access_value main k)) (seq 0 (4 * n))
                  || existsb (fun av => feqb (z_memory ch) (fst av + alpha_memory ch * snd av)) (public_memory pi)).
  assert (Hpole : forall ch, poleb ch = true <-> late_pole pi main n ch).
  { intro ch. unfold poleb, late_pole. rewrite !orb_true_iff, !existsb_exists, !(feqb_spec C HK). split.
    - intros [[[H|H]|(k & Hk & H)]|([a v] & Hin & H)]; [now left|right; now left|right; right; left|right; right; right].
      + exists k. apply in_seq in Hk. apply (feqb_spec C HK) in H. split; [lia|exact H].
      + exists a, v. apply (feqb_spec C HK) in H. now split.
    - intros [H|[H|[(k & Hk & H)|(a & v & Hin & H)]]]; [now left; left; left|now left; left; right|left; right|right].
      + exists k. split; [apply in_seq; lia|]. now apply (feqb_spec C HK).
      + exists (a, v). split; [exact Hin|]. now apply (feqb_spec C HK). }
  assert (Hacc : forall aux k, access_addr (main ++ aux) k = access_addr main k /\ access_value (main ++ aux) k = access_value main k).
  { intros aux k. unfold access_addr, access_value, flat, cell, FRAME_PC, FRAME_INST.
    assert (Hk : (k mod 4 < 4)%nat) by (apply Nat.mod_upper_bound; discriminate). split; rewrite app_nth1 by lia; reflexivity. }
  set (full := fun ch => late_columns pi ch (main ++ aux0 ch) n).
  set (build := fun (_ : trace_table C) (ch : cairo_challenges C) =>
                  if poleb ch then @Panic (trace_table C) else Ok (table_of (skipn (length main) (full ch)) n)).
  exists build. set (mk := fun n => with_aux (cairo_air pi opts n) build).
  assert (Hn : tt_n_rows (table_of main n) = n) by now destruct (has_columns_table _ n main Hne Hmc).
  assert (HA : admissible (mk n) r b 2).
  { destruct (cairo_admissible HE pi opts r b Hu) as [A1 A2 A3 A4 A5 A6 A7 A8 A9 A10 A11 A12 A13 A14]. constructor; assumption. }
  assert (HP : proving_ok (mk n) r b).
  { destruct (cairo_proving HS pi opts r b (proj1 Hu) Ht) as [P1 P2 P3 P4 P5 P6]. constructor; assumption. }
  assert (Hv : valid_trace (mk n) r (table_of main n)).
  { exists main. split; [exact Hne|]. split; [exact Hmc|]. intros tr ch tr' aux Hr Ha.
    cbn [mk with_aux a_build_aux] in Ha. unfold build in Ha. destruct (poleb ch) eqn:Ep; [discriminate|]. apply ok_inj in Ha. subst aux.
    destruct (Haux tr ch tr' Hr) as (A1 & A2 & A3 & A4 & A5). pose proof A3 as Hw. apply declared_width in Hw.
    assert (Hsplit : main ++ skipn (length main) (full ch) = full ch).
    { rewrite <- (firstn_skipn (length main) (full ch)) at 2. f_equal. symmetry. apply (nth_ext _ _ [] []).
      - rewrite firstn_length. unfold full. rewrite late_length by exact Hw. rewrite app_length. lia.
      - intros j Hj. rewrite firstn_length in Hj. rewrite HonestAux.nth_firstn_lt by lia. unfold full. rewrite late_other by (try exact Hw; unfold cairo_width in *; lia).
        rewrite app_nth1 by lia. reflexivity. }
    assert (Hrows : forall c, In c (full ch) -> length c = n).
    { apply late_rows. intros c Hc. apply in_app_or in Hc. destruct Hc as [Hc|Hc]; [now apply Hml|now apply A1]. }
    exists (skipn (length main) (full ch)). split; [|split].
    - apply table_of_columns. intros c Hc. apply Hrows. rewrite <- Hsplit. apply in_or_app. now right.
    - rewrite Hsplit. unfold full. rewrite late_length by exact Hw. exact A3.
    - rewrite Hsplit. assert (Hnp : ~ late_pole pi main n ch) by (intro Hp; apply Hpole in Hp; now rewrite Hp in Ep).
      pose proof (late_satisfies HC pi ch (main ++ aux0 ch) n Hw ltac:(lia)) as L. destruct (fun a b c d => L a b c d opts) as [[S1 S2] _].
      + intro E0. apply Hnp. now left.
      + intro E0. apply Hnp. right. now left.
      + intros k Hk E0. apply Hnp. right. right. left. exists k. split; [exact Hk|].
        destruct (Hacc (aux0 ch) k) as [<- <-]. exact E0.
      + intros a v Hin E0. apply Hnp. right. right. right. now exists a, v.
      + intros j Hj Hu'. apply (cairo_constraint_holds pi opts); [exact Hw|exact Hj|]. now apply A4.
      + exact A5.
      + lia.
      + constructor; [exact S1|exact S2]. }
  assert (Hb : boundary_computable (mk n) (table_of main n)).
  { intros ch aux Ha. cbn [mk with_aux a_build_aux] in Ha. unfold build in Ha. destruct (poleb ch) eqn:Ep; [discriminate|].
    cbn [mk with_aux a_boundary cairo_air]. unfold cairo_boundary.
    destruct (range_check_min pi); [|now destruct Hmin]. destruct (range_check_max pi); [|now destruct Hmax].
    unfold usub. destruct (Nat.ltb_spec (num_steps pi) 1); [lia|]. destruct (Nat.ltb_spec n 1); [lia|]. cbn [obind].
    unfold inv_o. destruct (feqb (fold_left _ _ _) 0) eqn:Ef; [exfalso|cbn [obind unwrap]; eauto].
    apply (feqb_spec C HK) in Ef. revert Ef. apply (public_nonzero HC). intros a v Hin E0.
    assert (Hp : late_pole pi main n ch) by (right; right; right; now exists a, v). apply Hpole in Hp. now rewrite Hp in Ep. }
  assert (Hz' : z_found C fuel (mk n)) by exact Hz.
  destruct (C55_proof_or_bad_challenges C mk (table_of main n) r b 2 fuel HE HS Hn HA HP Hb Hv Hz' Hno) as [(proof & H1 & H3)|(ch & H1 & H3)].
  - left. exists proof. split; [exact H1|]. unfold mk in H3. rewrite (verify_with_aux fuel (cairo_air pi opts) (fun _ => build)) in H3. exact H3.
  - right. exists ch. split; [exact H1|]. apply Hpole. destruct (poleb ch) eqn:Ep; [reflexivity|].
    exfalso. apply (H3 (table_of (skipn (length main) (full ch)) n)). cbn [mk with_aux a_build_aux]. unfold build. now rewrite Ep.
Qed.
Print Assumptions C57_contradictory_accesses_are_proved.

(** ** A false statement
    The program writes 3 to cell 8 and then asserts that cell 8 holds 4. *)
Definition clash_memory : @cairo_memory calm :=
  map (fun av => (fst av, f252 (Z.of_N (snd av)) : calm))
    [(1, 0x480680017fff8000); (2, 3); (3, 0x400680017fff7fff); (4, 4); (5, 0x208b7fff7fff7ffe); (6, 8); (7, 9); (8, 3)]%N.
Definition clash_args : outcome (trace_table calm * public_inputs calm) := generate_prover_args mini_regs clash_memory 5 None None.
Definition clash_pi : public_inputs calm :=
  match clash_args with Ok (_, pi) => pi | _ => mk_public_inputs fzero fzero fzero fzero fzero None None [] [] 0 end.
Definition clash_honest : trace_table calm := match clash_args with Ok (t, _) => t | _ => mk_trace [] 0 end.
(** The prover's table, except that the assertion in row 1 reads 4. *)
Definition write_cell (t : trace_table calm) (i j : nat) (x : calm) : trace_table calm :=
  mk_trace (firstn (i * tt_n_cols t + j) (tt_table t) ++ x :: skipn (i * tt_n_cols t + j + 1) (tt_table t)) (tt_n_cols t).
Definition clash_table : trace_table calm := write_cell (write_cell clash_honest 1 FRAME_DST (f252 4)) 1 FRAME_RES (f252 4).
Definition clash_challenges : cairo_challenges calm := mk_challenges (f252 5 : calm) (f252 5 : calm) (f252 5 : calm).
Definition clash_columns (t : trace_table calm) : list (list Z) :=
  map (fun j => map (fun i => zval ((nth (i * tt_n_cols t + j) (tt_table t) fzero : calm) : zp stark_p)) (seq 0 (tt_n_rows t))) (seq 0 (tt_n_cols t)).
Definition clash_main_values : list (list Z) := Eval vm_compute in clash_columns clash_table.
Definition clash_aux_values : list (list Z) := Eval vm_compute in
  match cairo_build_aux clash_pi clash_table clash_challenges with Ok t => clash_columns t | _ => [] end.
Definition clash_main : list (list calm) := map (map (fun x => f252 x : calm)) clash_main_values.
Definition clash_aux : list (list calm) := map (map (fun x => f252 x : calm)) clash_aux_values.
Lemma clash_main_columns : clash_columns clash_table = clash_main_values. Proof. vm_compute. reflexivity. Qed.

Lemma reads_det (m : @cairo_memory calm) a v v' : reads m a v -> reads m a v' -> v = v'.
Proof.
  intros (k & Hk & Ek & Mk) (k' & Hk' & Ek' & Mk').
  assert (Ekk : k = k').
  { assert (H : e_u64 calm k = e_u64 calm k') by congruence. apply (f_equal (fun x => ce_repr (c := calm) x)) in H.
    rewrite !(co_repr_u64 _ _ calm_ok) in H. rewrite !N.mod_small in H by (eapply N.lt_trans; [eassumption|reflexivity]). exact H. }
  subst k'. rewrite Mk in Mk'. exact (f_equal (fun o : option calm => match o with Some x => x | None => v end) Mk').
Qed.
Lemma word_is (m : @cairo_memory calm) a w W : reads m a (e_u64 calm w) -> reads m a (f252 (Z.of_N W) : calm) -> (w < 2 ^ 63)%N ->
  ce_repr (c := calm) (f252 (Z.of_N W) : calm) = W -> w = W.
Proof.
  intros H1 H2 Hw Hr. pose proof (reads_det m a _ _ H1 H2) as E. apply (f_equal (fun x : calm => ce_repr (c := calm) x)) in E.
  rewrite (co_repr_u64 _ _ calm_ok) in E. rewrite N.mod_small in E by (eapply N.lt_trans; [exact Hw|reflexivity]). now rewrite Hr in E.
Qed.
Lemma clash_pi_is : clash_pi = mk_public_inputs (f252 1 : calm) (f252 8 : calm) (f252 8 : calm) (f252 5 : calm) (f252 9 : calm) (Some 32766%N) (Some 32769%N) []
    (map (fun av => (f252 (Z.of_N (fst av)) : calm, f252 (Z.of_N (snd av)) : calm))
       [(1, 0x480680017fff8000); (2, 3); (3, 0x400680017fff7fff); (4, 4); (5, 0x208b7fff7fff7ffe)]%N) 3.
Proof. vm_compute. reflexivity. Qed.
Lemma clash_false m raw : ~ run_for clash_pi m raw.
Proof.
  rewrite clash_pi_is. intros [(Hne & Hr & Hv) Hl Hf Hlast Hp]. cbn [num_steps pc_init pc_final ap_init ap_final public_memory map fst snd] in *.
  destruct raw as [|t0 [|t1 [|t2 [|? ?]]]]; try discriminate Hl.
  destruct (Hv 0%nat t0 eq_refl) as (s1 & (w & dst & op0 & op1 & res & Hst & _ & _) & Hs1). specialize (Hs1 t1 eq_refl). subst s1.
  destruct (Hv 1%nat t1 eq_refl) as (s2 & (w' & dst' & op0' & op1' & res' & Hst' & _ & _) & Hs2). specialize (Hs2 t2 eq_refl). subst s2.
  destruct (Hf t0 eq_refl) as [F1 F2].
  pose proof (st_inst _ _ _ _ _ _ _ _ Hst) as I. cbn [state_of s_pc] in I. rewrite F1 in I.
  apply (word_is m _ w 0x480680017fff8000) in I; [|apply Hp; now left|exact (st_word _ _ _ _ _ _ _ _ Hst)|vm_compute; reflexivity]. subst w.
  destruct Hst as [_ _ D _ O1 R PC AP _ _ A]. specialize (A eq_refl). specialize (R ltac:(discriminate)).
  pose proof (fft_field_ok _ (e_fft_ok _ (co_env _ _ calm_ok))) as HK.
  change (reads m (s_ap (state_of t0) + offset_value (off_dst 0x480680017fff8000)) dst) in D.
  change (reads m (s_pc (state_of t0) + offset_value (off_op1 0x480680017fff8000)) op1) in O1.
  change (res = op1) in R. change (s_pc (C := calm) (state_of t1) = s_pc (C := calm) (state_of t0) + (1 + 1)) in PC. change (s_ap (C := calm) (state_of t1) = s_ap (C := calm) (state_of t0) + 1) in AP.
  cbn [state_of s_pc s_ap] in D, O1, PC, AP. rewrite F1 in O1, PC. rewrite F2 in D, AP.
  replace ((f252 8 : calm) + offset_value (off_dst 0x480680017fff8000)) with (f252 8 : calm) in D by (apply (feqb_spec calm HK); vm_compute; reflexivity).
  replace ((f252 1 : calm) + offset_value (off_op1 0x480680017fff8000)) with (f252 2 : calm) in O1 by (apply (feqb_spec calm HK); vm_compute; reflexivity).
  replace ((f252 1 : calm) + (1 + 1)) with (f252 3 : calm) in PC by (apply (feqb_spec calm HK); vm_compute; reflexivity).
  replace ((f252 8 : calm) + 1) with (f252 9 : calm) in AP by (apply (feqb_spec calm HK); vm_compute; reflexivity).
  pose proof (reads_det m _ _ _ O1 (Hp (f252 2 : calm) (f252 3 : calm) (or_intror (or_introl eq_refl)))) as E1.
  pose proof (st_inst _ _ _ _ _ _ _ _ Hst') as I. cbn [state_of s_pc] in I. rewrite PC in I.
  apply (word_is m _ w' 0x400680017fff7fff) in I; [|apply Hp; right; right; now left|exact (st_word _ _ _ _ _ _ _ _ Hst')|vm_compute; reflexivity]. subst w'.
  destruct Hst' as [_ _ D' _ O1' R' _ _ _ _ A']. specialize (A' eq_refl). specialize (R' ltac:(discriminate)).
  change (reads m (s_ap (state_of t1) + offset_value (off_dst 0x400680017fff7fff)) dst') in D'.
  change (reads m (s_pc (state_of t1) + offset_value (off_op1 0x400680017fff7fff)) op1') in O1'. change (res' = op1') in R'.
  cbn [state_of s_pc s_ap] in D', O1'. rewrite PC in O1'. rewrite AP in D'.
  replace ((f252 9 : calm) + offset_value (off_dst 0x400680017fff7fff)) with (f252 8 : calm) in D' by (apply (feqb_spec calm HK); vm_compute; reflexivity).
  replace ((f252 3 : calm) + offset_value (off_op1 0x400680017fff7fff)) with (f252 4 : calm) in O1' by (apply (feqb_spec calm HK); vm_compute; reflexivity).
  pose proof (reads_det m _ _ _ O1' (Hp (f252 4 : calm) (f252 4 : calm) (or_intror (or_intror (or_intror (or_introl eq_refl)))))) as E2.
  pose proof (reads_det m _ _ _ D D') as E3. rewrite A, A', R, R', E1, E2 in E3.
  apply (f_equal (fun x : calm => zval (x : zp stark_p))) in E3. vm_compute in E3. discriminate E3.
Qed.

(** No run of the program exists, every executed row is enforced, and still the verifier accepts. *)
Theorem C57_false_statement_refuted :
  (forall m raw, ~ run_for clash_pi m raw) /\
  (forall i, (i + 1 < num_steps clash_pi)%nat -> nth i (nth FRAME_SELECTOR clash_main []) 0 = 1) /\
  exists (build : trace_table calm -> cairo_challenges calm -> outcome (trace_table calm)) proof,
    prove calm 1 (fun n => with_aux (cairo_air clash_pi default_test_options n) build) (table_of clash_main 8) = Ok proof /\
    verify_cairo_proof 1 proof clash_pi default_test_options = Ok true.
Proof.
  pose proof (fft_field_ok _ (e_fft_ok _ (co_env _ _ calm_ok))) as HK.
  split; [exact clash_false|]. split.
  { rewrite clash_pi_is. cbn [num_steps]. intros i Hi. destruct i as [|[|i]]; [apply (feqb_spec calm HK); vm_compute; reflexivity..|lia]. }
  assert (Hch : forall t ch t', a_build_rap (cairo_air clash_pi default_test_options 8) t = Ok (ch, t') -> ch = clash_challenges).
  { intros [] ch t' Hr. assert (E : cairo_build_rap (C := calm) (tt : e_tr calm) = Ok (clash_challenges, tt : e_tr calm)).
    { unfold cairo_build_rap, transcript_to_field. cbn [tr_challenge calm ce_env calm_env e_tr calm_transcript].
      change (randomness_to_field calm (repeat Byte.x00 31 ++ [Byte.x05])) with (Ok (f252 5 : calm)). reflexivity. }
    cbn [cairo_air a_build_rap] in Hr. rewrite E in Hr. apply ok_inj in Hr. now injection Hr as <- _. }
  destruct (C57_contradictory_accesses_are_proved calm _ clash_pi default_test_options 3 2 1 clash_main (fun _ => clash_aux) calm_ok calm_sampling) as (build & H).
  - apply (default_coset_usable calm_ok); try reflexivity; lia.
  - cbn. lia.
  - rewrite clash_pi_is. cbn. lia.
  - rewrite clash_pi_is. discriminate.
  - rewrite clash_pi_is. discriminate.
  - exact (calm_z_found clash_pi).
  - exact calm_nonce_found.
  - intros c Hc. apply in_map_iff in Hc. destruct Hc as (v & <- & Hv). rewrite map_length.
    assert (G : forallb (fun v : list Z => (length v =? 8)%nat) clash_main_values = true) by (vm_compute; reflexivity).
    rewrite forallb_forall in G. apply Nat.eqb_eq. now apply G.
  - change (2 ^ 3)%nat with 8%nat. intros t ch t' Hr. apply Hch in Hr. subst ch. split; [|split; [|split; [|split]]].
    + intros c Hc. apply in_map_iff in Hc. destruct Hc as (v & <- & Hv). rewrite map_length.
      assert (G : forallb (fun v : list Z => (length v =? 8)%nat) clash_aux_values = true) by (vm_compute; reflexivity).
      rewrite forallb_forall in G. apply Nat.eqb_eq. now apply G.
    + reflexivity.
    + cbn [cairo_air a_context]. rewrite cairo_width_declared. vm_compute. reflexivity.
    + intros j Hj. assert (Hb : has_rc_builtin clash_pi = false) by (rewrite clash_pi_is; reflexivity).
      destruct (Nat.lt_ge_cases j (n_constraints clash_pi)) as [Hlt|Hge].
      * apply (cairo_constraint_holds clash_pi default_test_options); [vm_compute; reflexivity|exact Hlt|].
        apply (holdsb_ok (co_env _ _ calm_ok) clash_pi clash_challenges (clash_main ++ clash_aux) 8 (seq 0 31 ++ seq 43 6)); [vm_compute; reflexivity|].
        unfold n_constraints in Hlt. rewrite Hb in Hlt. apply in_or_app. destruct Hj as [Hj|Hj]; [left|right]; apply in_seq; unfold MEMORY_INCREASING_0, PERMUTATION_ARGUMENT_3 in Hj; lia.
      * intros i e evals Hi He _. exfalso. apply exemption_inv in He. destruct He as [He _]. clear - He Hge. lia.
    + intros bcs bc Hbs Hin Hc. cbn [cairo_air a_boundary] in Hbs.
      assert (G : match cairo_boundary clash_pi 8 clash_challenges with
                  | Ok bcs => forallb (fun bc => (bc_col bc =? 48)%nat || ((bc_step bc <? 8)%nat && (bc_col bc <? length (clash_main ++ clash_aux))%nat
                                 && feqb (cell (clash_main ++ clash_aux) (bc_step bc) (bc_col bc)) (bc_value bc))) bcs
                  | _ => false end = true) by (vm_compute; reflexivity).
      rewrite Hbs in G. rewrite forallb_forall in G. specialize (G bc Hin). apply orb_true_iff in G. destruct G as [G|G].
      * exfalso. apply Hc. apply Nat.eqb_eq in G. rewrite G, clash_pi_is. reflexivity.
      * apply andb_true_iff in G. destruct G as [G G3]. apply andb_true_iff in G. destruct G as [G1 G2].
        apply Nat.ltb_lt in G1, G2. apply (feqb_spec calm HK) in G3. split; [exact G1|]. split; [exact G2|exact G3].
  - exists build. destruct H as [(proof & H1 & H2)|(ch & (root & t' & _ & Hr) & Hp)]; [exists proof; split; [exact H1|exact H2]|exfalso].
    apply Hch in Hr. subst ch. assert (D : forall x y : calm, x = y -> feqb x y = true) by (intros x y; apply (feqb_spec calm HK)).
    destruct Hp as [Hp|[Hp|[(k & Hk & Hp)|(a & v & Hin & Hp)]]].
    + apply D in Hp. vm_compute in Hp. discriminate Hp.
    + apply D in Hp. vm_compute in Hp. discriminate Hp.
    + assert (G : forallb (fun k => negb (feqb (z_memory clash_challenges) (access_addr clash_main k + alpha_memory clash_challenges * access_value clash_main k))) (seq 0 (4 * 8)) = true)
        by (vm_compute; reflexivity).
      rewrite forallb_forall in G. specialize (G k). apply D in Hp. rewrite Hp in G. discriminate G. apply in_seq. clear - Hk. change (2 ^ 3)%nat with 8%nat in Hk. lia.
    + assert (G : forallb (fun av : calm * calm => negb (feqb (z_memory clash_challenges) (fst av + alpha_memory clash_challenges * snd av))) (public_memory clash_pi) = true)
        by (vm_compute; reflexivity).
      rewrite forallb_forall in G. specialize (G (a, v) Hin). apply D in Hp. cbn [fst snd] in G. rewrite Hp in G. discriminate G.
Qed.
Print Assumptions C57_false_statement_refuted.
