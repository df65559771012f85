(** The trace of a provable run meets the conditions under which the AIR is sound, although the AIR does not impose them. *)
From Coq Require Import List Arith NArith ZArith Bool Lia Permutation.
From Verif.Base Require Import Outcome Field Poly.
From Verif.Model Require Import Codec PublicInputs Trace Air CairoDecode CairoTrace CairoAir CairoRunner.
From Verif.Spec Require Import CairoSpec CairoColumns AirSpec CairoRun.
From Verif.Proofs Require Import FieldFacts PolyFacts OutcomeFacts FFTFacts TraceFacts BuildFacts MainTraceFacts SortFacts MainColsFacts DecodeFacts CairoAirFacts StepFacts HonestFacts SortedFacts RunnerFacts MultisetFacts WalkFacts AuxFacts HonestAux HonestBuiltin WidthFacts HonestRun.
From Verif.Properties Require Import CairoTraceProperties CairoMemoryProperties.
Import ListNotations.
Local Open Scope felt_scope.

Section Repairs.
Context {C : cairo_env} {p : N} (HC : cairo_ok C p).
Let HK : field_ok C := fft_field_ok _ (e_fft_ok _ (co_env _ _ HC)).
Add Field Kfield68 : (fld_th C HK).

(** A table has at most one list of columns of a given positive length. *)
Lemma has_columns_unique (t : trace_table C) n cols cols' : has_columns t n cols -> has_columns t n cols' -> cols = cols'.
Proof using Type.
  intros H H'. pose proof H as (W & L & _). pose proof H' as (W' & L' & _).
  apply nth_ext with (d := []) (d' := []); [congruence|]. intros j Hj.
  assert (Lj : length (nth j cols []) = n) by (apply L, nth_In, Hj). assert (Lj' : length (nth j cols' []) = n) by (apply L', nth_In; rewrite <- W', W; exact Hj).
  apply nth_ext with (d := 0) (d' := 0); [congruence|]. intros i Hi. rewrite Lj in Hi.
  pose proof (columns_cell t n cols i j H Hi ltac:(lia)) as E. pose proof (columns_cell t n cols' i j H' Hi ltac:(lia)) as E'. unfold cell in *. congruence.
Qed.
Lemma sorted_u16s_small (rows : list (list C)) i : (nth i (sorted_u16s rows) 0 < 2 ^ 16)%N.
Proof using Type.
  destruct (Nat.lt_ge_cases i (length (sorted_u16s rows))) as [H|H]; [|rewrite nth_overflow by exact H; reflexivity].
  apply (nth_In _ 0%N) in H. unfold sorted_u16s at 2 in H. apply (Permutation_in _ (sort_by_perm _ _)) in H. apply in_map_iff in H. destruct H as (x & <- & _).
  unfold to_u16. apply N.mod_lt. discriminate.
Qed.

Context (m : @cairo_memory C) (raw : list registers_state) (size : N) (rc out : option (N * N)).
Context (HP : provable_run m raw size rc out).

Theorem honest_repairs t pi n main : generate_prover_args raw m size rc out = Ok (t, pi) -> tt_n_rows t = n -> has_columns t n main ->
  (exists lo hi, range_check_min pi = Some lo /\ range_check_max pi = Some hi /\ (lo < 2 ^ 16)%N /\ (hi < 2 ^ 16)%N) /\
  (1 <= num_steps pi <= n)%nat /\ (34 <= length main)%nat /\
  (forall i, (i + 1 < num_steps pi)%nat -> cell main i FRAME_SELECTOR = 1) /\
  forall ch aux acols, cairo_build_aux pi t ch = Ok aux -> has_columns aux n acols -> first_row_equation pi ch (main ++ acols).
Proof using HC HP.
  intros Hg Hn Hmain.
  destruct (valid_run_steps HC m raw (pr_valid _ _ _ _ _ HP)) as (ss & Er & Hne & Hok & Hgood & Hun & Hcov).
  destruct (rc_values HC m raw size rc out HP) as (vals & Hv & Hvals).
  pose (extra := match rc with None => [] | Some _ => rc_cols (length ss) vals end).
  set (pl := public_list size out) in *. set (pm := map (cell_of m) pl) in *. set (segs := create_memory_segment_map rc out) in *.
  set (pi0 := let d := mk_regs 0 0 0 in let r0 := hd d raw in let rl := last raw d in
    mk_public_inputs (e_u64 C (r_pc r0)) (e_u64 C (r_ap r0)) (e_u64 C (r_fp r0)) (e_u64 C (r_pc rl)) (e_u64 C (r_ap rl)) None None segs pm (length raw)) in *.
  assert (Hx : rc_extra m pi0 (length ss) extra).
  { unfold rc_extra. cbn [pi0 memory_segments]. unfold segs. rewrite segments_rc. unfold extra. clear -Hv. destruct rc as [[lo hi]|]; [eauto|reflexivity]. }
  destruct (main_forward raw m pi0 ss extra Er Hne Hok Hx) as (t' & Et & Tt & Wt). cbv zeta in *.
  change (public_memory pi0) with pm in Tt.
  set (lo := nth 0 (sorted_u16s (build_rows ss extra)) 0%N) in *.
  set (hi := nth (length (sorted_u16s (build_rows ss extra)) - 1) (sorted_u16s (build_rows ss extra)) 0%N) in *.
  set (w := (34 + length extra)%nat) in *. set (rows := build_rows ss extra) in *. set (R := main_rows w (length pm) rows) in *.
  assert (Hg' : generate_prover_args raw m size rc out = Ok (t', with_rc_bounds pi0 lo hi)).
  { unfold generate_prover_args. cbv zeta. fold segs. unfold segs. rewrite (pi0_built HC m raw size rc out HP). exact Et. }
  rewrite Hg in Hg'. apply ok_inj in Hg'. injection Hg' as <- Epi.
  assert (Wd : Forall (fun r => length r = w) rows) by (apply (build_rows_width m); exact Hok).
  assert (Rne : rows <> []) by (now apply build_rows_ne).
  assert (WR : Forall (fun r => length r = w) R) by (apply main_rows_width; [exact Rne|exact Wd|unfold w; lia]).
  assert (Lss : length rows = length ss) by apply build_rows_length.
  destruct (rows_n ss extra (length pm) Hne) as [Ln Ln0]. fold w rows R in Ln, Ln0.
  assert (LR : length R = n) by (rewrite <- Hn; symmetry; exact (table_n_rows _ _ Tt)).
  assert (Em : main = cols_of w R).
  { apply (has_columns_unique t n); [exact Hmain|]. rewrite <- LR. apply table_has_columns; [exact Tt|exact Wt]. }
  assert (Hns : num_steps pi = length ss) by (rewrite Epi; cbn [with_rc_bounds num_steps pi0]; rewrite Er; apply map_length).
  assert (Hpos : (0 < length ss)%nat) by (destruct ss; [now contradiction Hne|cbn [length]; lia]).
  split; [exists lo, hi; rewrite Epi; split; [reflexivity|]; split; [reflexivity|]; split; apply sorted_u16s_small|].
  split; [lia|]. split; [rewrite Em, cols_of_length; unfold w; lia|]. split.
  { intros i Hi. rewrite Em. rewrite Hns in Hi. rewrite (cols_of_cell w R i FRAME_SELECTOR) by (unfold w, FRAME_SELECTOR; lia).
    unfold R. rewrite main_rows_prefix by lia. unfold rows. rewrite build_rows_nth by lia.
    rewrite (step_row_cell m) by (rewrite Forall_forall in Hok; apply Hok, nth_In; lia). destruct (sd_upd _) as [[? ?] ?]. cbn. unfold sel_of.
    destruct (Nat.eqb_spec i (length ss - 1)); [lia|reflexivity]. }
  intros ch aux acols Haux Hac.
  destruct (aux_inverse HC pi t R ch aux Tt ltac:(rewrite Wt; unfold w; lia) Haux) as (Hfit & pub & Hpc & Hm & Hr & ->).
  assert (Epub : pub = pm) by (exact (pub_is_pm HC m raw size rc out HP pi lo hi pub Epi Hpc)). subst pub.
  assert (Ea : acols = cols_of 18 (aux_rows R pm ch)).
  { eapply has_columns_unique; [exact Hac|]. rewrite <- LR, <- (aux_rows_length R pm ch). apply table_has_columns; [apply aux_rows_table|reflexivity]. }
  assert (Hrcb : has_rc_builtin pi = match rc with Some _ => true | None => false end).
  { rewrite Epi. unfold has_rc_builtin. cbn [with_rc_bounds memory_segments pi0]. unfold segs. pose proof (pr_out _ _ _ _ _ HP) as Ho. clear -Ho.
    destruct rc as [x|], out as [[l h]|]; try reflexivity. destruct (Ho l h eq_refl) as (Z & _). now contradiction Z. }
  assert (Hw : w = (43 - builtin_offset pi)%nat).
  { unfold w, builtin_offset, extra. rewrite Hrcb. clear. destruct rc; [|reflexivity]. unfold rc_cols. rewrite app_length, map_length. unfold decompose_rc_values. now rewrite decompose_length. }
  rewrite Em, Ea. fold (full_cols w R pm ch).
  pose proof (mem_products HC m ss extra (length pm) Hok Hne pi ch pm Hw eq_refl Hm 0) as Q. fold w rows R in Q.
  specialize (Q ltac:(lia)). unfold compress in Q. cbn [fst snd] in Q. unfold first_row_equation. rewrite Q. ring.
Qed.
End Repairs.
