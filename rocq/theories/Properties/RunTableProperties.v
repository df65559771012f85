(** C98, continued: the tables that the code builds from runs are among those that its own proofs are accepted for. *)
From Coq Require Import List Arith Lia Bool NArith ZArith Permutation.
From Verif.Base Require Import Outcome Bytes Field Poly Zp.
From Verif.Model Require Import Codec Trace Air Options PublicInputs CairoDecode CairoTrace CairoAir CairoRunner.
From Verif.Spec Require Import AirSpec CairoSpec CairoRun CairoColumns Fitting Contradiction Dropped Offsets SoundTable.
From Verif.Proofs Require Import OutcomeFacts FieldFacts PolyFacts FFTFacts TraceFacts BuildFacts DecodeFacts SortFacts SortedFacts MainTraceFacts MainColsFacts StepFacts HonestFacts RunnerFacts AuxFacts HonestAux HonestAccess HonestBuiltin HonestRun CairoAirFacts WidthFacts ExampleFacts.
From Verif.Examples Require Import Stark252 MiniRun Calm.
From Verif.Properties Require Import WitnessProperties SoundTableProperties.
Import ListNotations.
Local Open Scope felt_scope.

Section Run.
Context {C : cairo_env} {p : N} (HC : cairo_ok C p).
Let HK : field_ok C := fft_field_ok _ (e_fft_ok _ (co_env _ _ HC)).
Context (m : @cairo_memory C) (raw : list registers_state) (size : N) (rc out : option (N * N)).
Hypothesis (HP : provable_run m raw size rc out).
Let pm := map (cell_of m) (public_list size out).
Let pi0 : public_inputs C := let d := mk_regs 0 0 0 in let r0 := hd d raw in let rl := last raw d in
  mk_public_inputs (e_u64 C (r_pc r0)) (e_u64 C (r_ap r0)) (e_u64 C (r_fp r0)) (e_u64 C (r_pc rl)) (e_u64 C (r_ap rl)) None None (create_memory_segment_map rc out) pm (length raw).

(** What is seen from the table itself: no challenge is involved. *)
Lemma run_table : exists t pi r main lo hi, generate_prover_args raw m size rc out = Ok (t, pi) /\ has_columns t (2 ^ r) main /\
  length main = (43 - builtin_offset pi)%nat /\ public_addresses_agree pi /\ (1 <= num_steps pi <= 2 ^ r)%nat /\
  range_check_min pi = Some lo /\ range_check_max pi = Some hi /\ (lo < 2 ^ 16)%N /\ (hi < 2 ^ 16)%N /\
  (forall e, In e (dropped_accesses pi main (2 ^ r)) -> e = (0, 0)) /\ (forall x, In x (offsets_of main (2 ^ r)) -> (ce_repr x < 2 ^ 16)%N).
Proof using HC HP.
  destruct (valid_run_steps HC m raw (pr_valid _ _ _ _ _ HP)) as (ss & Er & Hne & Hok & Hgood & Hun & Hcov).
  destruct (rc_values HC m raw size rc out HP) as (vals & Hv & Hvals).
  pose (extra := match rc with None => [] | Some _ => rc_cols (length ss) vals end).
  assert (Hx : rc_extra m pi0 (length ss) extra).
  { unfold rc_extra. cbn [pi0 memory_segments]. rewrite segments_rc. unfold extra. clear -Hv. destruct rc as [[lo hi]|]; [eauto|reflexivity]. }
  destruct (main_forward raw m pi0 ss extra Er Hne Hok Hx) as (t & Et & Tt & Wt). cbv zeta in *.
  change (public_memory pi0) with pm in Tt.
  pose proof (hi_16 HC ss extra Hne) as Bhi.
  set (lo := nth 0 (sorted_u16s (build_rows ss extra)) 0%N) in *.
  set (hi := nth (length (sorted_u16s (build_rows ss extra)) - 1) (sorted_u16s (build_rows ss extra)) 0%N) in *.
  assert (Hlohi : (lo <= hi)%N).
  { pose proof (so_bounds (build_rows ss extra) lo (lo_in _ (build_rows_ne ss extra Hne))) as Q. fold lo hi in Q. lia. }
  pose proof (main_small HC m ss extra (length pm) Hok Hne) as Hsm.
  pose proof (entries_kept m ss extra (length pm) Hok Hne) as Hek.
  pose proof (codelen_lt m ss extra (length pm) Hok Hne) as Lpm.
  destruct (rows_n ss extra (length pm) Hne) as [Ln Ln0].
  set (pi := with_rc_bounds pi0 lo hi) in *. set (w := (34 + length extra)%nat) in *.
  set (rows := build_rows ss extra) in *. set (R := main_rows w (length pm) rows) in *.
  set (r := Nat.log2_up (n_filled w (length pm) rows)).
  assert (LR : length R = (2 ^ r)%nat) by apply main_rows_length.
  assert (Hrcb : has_rc_builtin pi = match rc with Some _ => true | None => false end).
  { unfold has_rc_builtin. cbn [pi with_rc_bounds memory_segments pi0]. pose proof (pr_out _ _ _ _ _ HP) as Ho. clear -Ho.
    destruct rc as [x|], out as [[l h]|]; try reflexivity. destruct (Ho l h eq_refl) as (Z & _). now contradiction Z. }
  assert (Hw : w = (43 - builtin_offset pi)%nat).
  { unfold w, builtin_offset, extra. rewrite Hrcb. clear. destruct rc; [|reflexivity]. unfold rc_cols. rewrite app_length, map_length. unfold decompose_rc_values. now rewrite decompose_length. }
  pose (ch := CairoAir.mk_challenges (0 : C) (0 : C) (0 : C)).
  exists t, pi, r, (cols_of w R), lo, hi.
  split; [unfold generate_prover_args; cbv zeta; rewrite (pi0_built HC m raw size rc out HP); exact Et|].
  split; [rewrite <- LR; apply table_has_columns; [exact Tt|exact Wt]|].
  split; [now rewrite cols_of_length|].
  split; [exists (map fst pm); split; [exact (pm_addrs HC m raw size rc out HP lo hi)|split; [exact (pm_nodup HC m raw size rc out HP)|reflexivity]]|].
  split.
  { assert (Hns : num_steps pi = length ss) by (cbn [pi with_rc_bounds num_steps pi0]; rewrite Er; apply map_length).
    rewrite Hns, <- LR. split; [destruct ss; [now contradiction Hne|cbn [length]; lia]|exact Ln]. }
  do 2 (split; [reflexivity|]). split; [exact (N.le_lt_trans _ _ _ Hlohi Bhi)|]. split; [exact Bhi|]. rewrite <- LR. split.
  - intros e He. unfold dropped_accesses in He. change (public_memory pi) with pm in He. apply in_map_iff in He. destruct He as (k & <- & Hk). apply in_seq in Hk.
    pose proof (read_access_entry pi R pm ch w Hw k ltac:(lia)) as Q.
    unfold access_addr, access_value in *. rewrite !(flat_main w R pm ch) by (unfold w, FRAME_PC, FRAME_INST; lia). etransitivity; [exact Q|].
    assert (L : length (kept ss extra (length pm)) = (4 * length R - length pm)%nat).
    { apply (f_equal (@length _)) in Hek. rewrite mem_entries_length, app_length, repeat_length in Hek. lia. }
    rewrite Hek, app_nth2 by (rewrite L; lia). apply (nth_repeat (0 : C, 0 : C)).
  - intros x Hin. unfold offsets_of in Hin. apply in_map_iff in Hin. destruct Hin as (k & <- & Hk). apply in_seq in Hk.
    pose proof (read_offset pi R pm ch w Hw k ltac:(lia)) as Q.
    unfold offset_cell in *. rewrite (flat_main w R pm ch) by (unfold w, OFF_DST; lia). rewrite Q.
    destruct (Hsm (nth k (cells OFF_COLUMNS R) 0)) as (v & Hv1 & ->); [apply nth_In; rewrite off_cells_length; lia|].
    rewrite (co_repr_u64 _ _ HC), N.mod_small; [exact Hv1|]. pose proof (big64 HC). change (2 ^ 16)%N with 65536%N in Hv1. change (2 ^ 64)%N with 18446744073709551616%N in *. lia.
Qed.
End Run.

(** The columns that the code builds from a provable run are sound, and they end in accesses to the cell (0, 0) and have
    offsets below 2^16: the two conditions of [C98_completed_table] on the challenges hold for all challenges.
    (If no challenges drawn let the prover build the other columns, no proof is made; [C55] says when.) *)
Theorem C98_run_table :
  forall (C : cairo_env) p (m : @cairo_memory C) raw size rc out, cairo_ok C p -> provable_run m raw size rc out ->
  exists t pi r main lo hi, generate_prover_args raw m size rc out = Ok (t, pi) /\ has_columns t (2 ^ r) main /\
  length main = (43 - builtin_offset pi)%nat /\ public_addresses_agree pi /\ (1 <= num_steps pi <= 2 ^ r)%nat /\
  range_check_min pi = Some lo /\ range_check_max pi = Some hi /\ (lo < 2 ^ 16)%N /\ (hi < 2 ^ 16)%N /\
  (forall e, In e (dropped_accesses pi main (2 ^ r)) -> e = (0, 0)) /\ (forall x, In x (offsets_of main (2 ^ r)) -> (ce_repr x < 2 ^ 16)%N) /\
  (forall tr ch tr' aux, cairo_build_rap tr = Ok (ch, tr') -> cairo_build_aux pi t ch = Ok aux -> forall opts, sound_columns pi opts main (2 ^ r) lo hi).
Proof.
  intros C p m raw size rc out HC HP. destruct (run_table HC m raw size rc out HP) as (t & pi & r & main & lo & hi & Hg & Hm & Lm & Hag & Hst & Elo & Ehi & Blo & Bhi & Hd & Hx).
  exists t, pi, r, main, lo, hi. repeat (split; [assumption|]). intros tr ch tr' aux Hrap Haux opts.
  destruct (honest_full HC m raw size rc out HP) as (t' & pi' & r' & Hg' & Hn & _ & _ & _ & Hval). rewrite Hg in Hg'. apply ok_inj in Hg'. apply pair_equal_spec in Hg'. destruct Hg' as [<- <-].
  assert (Hne : main <> []) by (intros ->; cbn [length] in Lm; pose proof (SortedFacts.offset_le pi); lia).
  destruct (has_columns_table t _ main Hne Hm) as [_ Hrows]. rewrite Hn in Hrows. assert (r' = r) as -> by (apply (Nat.pow_inj_r 2); [lia|exact Hrows]).
  destruct (Hval opts) as (main' & _ & Hm' & Hsat). assert (main' = main) as -> by exact (table_columns_unique t _ _ _ Hm' Hm).
  destruct (Hsat tr ch tr' aux Hrap Haux) as (acols & Hac & _ & Hts).
  apply (C98_completed_table C p HC pi opts (2 ^ r) t main ch aux acols lo hi Hm Lm Hag Hst Elo Ehi Blo Bhi Haux Hac). exact Hts.
Qed.
Print Assumptions C98_run_table.

(** The three-step run is provable, and challenges are drawn for which the columns are built. *)
Example C98_run_table_example : provable_run calm_memory mini_regs 5 None None /\
  exists t pi tr ch tr' aux, generate_prover_args (C := calm) mini_regs calm_memory 5 None None = Ok (t, pi) /\
  cairo_build_rap (C := calm) tr = Ok (ch, tr') /\ cairo_build_aux pi t ch = Ok aux.
Proof.
  split; [exact calm_provable|]. destruct C98_example as (t & pi & main & Hg & _ & _ & _ & _ & _ & _ & _ & _ & _ & _ & _ & _ & aux & acols & Haux & _).
  exists t, pi, (tr_new : e_tr calm), three_rap, (tr_new : e_tr calm), aux. split; [exact Hg|]. split; [reflexivity|exact Haux].
Qed.
