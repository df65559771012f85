(** The width of the trace the Cairo prover builds, and what it means for a proof. *)
From Coq Require Import List Arith NArith Bool Lia.
From Verif.Base Require Import Outcome Field Poly.
From Verif.Model Require Import Codec PublicInputs Trace Air Domain Evaluator Merkle Transcript Prover CairoDecode CairoTrace CairoAir CairoRunner.
From Verif.Proofs Require Import OutcomeFacts.
Import ListNotations.

Ltac step H := apply obind_ok in H; let x := fresh "x" in let E := fresh "E" in destruct H as (x & E & H).

Section Width.
Context {C : cairo_env}.

Lemma new_from_cols_width {A} (cols : list (list A)) t : tt_new_from_cols cols = Ok t -> tt_n_cols t = length cols.
Proof. unfold tt_new_from_cols. intro H. step H. step H. apply ok_inj in H. now subst t. Qed.
Lemma rows_to_cols_width w (rows : list (list C)) cols : rows_to_cols w rows = Ok cols -> length cols = w.
Proof. unfold rows_to_cols. intro H. step H. apply traverse_length in H. now rewrite seq_length in H. Qed.

Definition rc_present (pi : public_inputs C) : bool :=
  match map_get segment_eqb RangeCheck (memory_segments pi) with Some _ => true | None => false end.
Lemma decompose_length n : forall l, length (decompose_loop (C:=C) n l) = n.
Proof. induction n as [|n IH]; intro l; cbn [decompose_loop length]; [reflexivity|]. now rewrite IH. Qed.

Lemma execution_trace_width raw (m : @cairo_memory C) pi t : build_cairo_execution_trace raw m pi = Ok t ->
  tt_n_cols t = (34 + if rc_present pi then 9 else 0)%nat.
Proof.
  unfold build_cairo_execution_trace. cbv zeta. intro H.
  repeat (first [match type of H with tt_new_from_cols _ = _ => fail 2 end | step H]).
  apply new_from_cols_width in H. rewrite H.
  match goal with X : rows_to_cols 16 _ = Ok _ |- _ => rename X into Ef end.
  match goal with X : rows_to_cols 3 _ = Ok _ |- _ => rename X into Eo end.
  match goal with X : (match map_get segment_eqb RangeCheck _ with _ => _ end) = Ok _ |- _ => rename X into Ec end.
  match type of Ec with (match _ with Some _ => _ | None => Ok ?cols end) = _ =>
    assert (L : length cols = 34%nat) by
      (rewrite !app_length, (rows_to_cols_width _ _ _ Ef), (rows_to_cols_width _ _ _ Eo); reflexivity) end.
  unfold rc_present. destruct (map_get segment_eqb RangeCheck (memory_segments pi)) as [range|].
  - unfold add_rc_builtin_columns in Ec. step Ec. step Ec. apply ok_inj in Ec. rewrite <- Ec, app_length, L, app_length, map_length.
    unfold decompose_rc_values. rewrite decompose_length. reflexivity.
  - apply ok_inj in Ec. now subst.
Qed.

Lemma pad_last_width (t t' : trace_table C) k : pad_with_last_row t k = Ok t' -> tt_n_cols t' = tt_n_cols t.
Proof. unfold pad_with_last_row. intro H. step H. apply ok_inj in H. now subst t'. Qed.
Lemma pad_zeros_width (t t' : trace_table C) k cols : pad_with_last_row_and_zeros t k cols = Ok t' -> tt_n_cols t' = tt_n_cols t.
Proof. unfold pad_with_last_row_and_zeros. intro H. step H. step H. apply ok_inj in H. now subst t'. Qed.
Lemma fill_rc_width (t t' : trace_table C) holes : fill_rc_holes t holes = Ok t' -> tt_n_cols t' = tt_n_cols t.
Proof. unfold fill_rc_holes. intro H. step H. step H. step H. apply ok_inj in H. now subst t'. Qed.
Lemma fill_memory_width (t t' : trace_table C) holes : fill_memory_holes t holes = Ok t' -> tt_n_cols t' = tt_n_cols t.
Proof. unfold fill_memory_holes. intro H. step H. step H. apply ok_inj in H. now subst t'. Qed.

Lemma main_trace_width raw (m : @cairo_memory C) pi t pi' : build_main_trace raw m pi = Ok (t, pi') ->
  tt_n_cols t = (34 + if rc_present pi then 9 else 0)%nat /\ memory_segments pi' = memory_segments pi.
Proof.
  unfold build_main_trace. intro H. step H. step H. step H. destruct x1 as [[holes lo] hi]. cbv zeta in H.
  step H. step H. step H. step H. step H. apply ok_inj in H. injection H as <- <-.
  split; [|reflexivity].
  rewrite (pad_last_width _ _ _ E6). unfold add_pub_memory_dummy_accesses in E5. rewrite (pad_zeros_width _ _ _ _ E5).
  rewrite <- (execution_trace_width _ _ _ _ E), <- (fill_rc_width _ _ _ E2).
  destruct x2; [apply ok_inj in E4; now subst|]. exact (fill_memory_width _ _ _ E4).
Qed.
End Width.

(** A successful proof evaluated the transition constraints on rows as wide as the two traces together. *)
Section Reads.
Context (E : env).

Lemma tt_cols_width {A} (t : trace_table A) cols : tt_cols t = Ok cols -> length cols = tt_n_cols t.
Proof. unfold tt_cols. intro H. apply traverse_length in H. now rewrite seq_length in H. Qed.
Lemma commit_width (tr : trace_table E) d t polys evals tree root t' :
  interpolate_and_commit E tr d t = Ok (polys, evals, tree, root, t') -> length evals = tt_n_cols tr.
Proof.
  unfold interpolate_and_commit. intro H. step H. step H. step H. step H. step H. destruct x3. apply ok_inj in H. injection H as <- <- <- <- <-.
  unfold compute_lde_trace_evaluations in E1. apply unwrap_r_ok, traverse_length in E1. rewrite E1.
  unfold tt_compute_trace_polys in E0. step E0. apply unwrap_r_ok, traverse_length in E0. rewrite E0. now apply tt_cols_width.
Qed.

Lemma prove_reads_wide_rows fuel mk main prf : prove E fuel mk main = Ok prf ->
  let a := mk (tt_n_rows main) in
  (0 < a_trace_length a * blowup_factor (a_options a))%nat ->
  exists rap aux fr evals, a_build_aux a main rap = Ok aux /\ a_transition a fr rap = Ok evals /\
    fr_row_width fr = (tt_n_cols main + tt_n_cols aux)%nat.
Proof.
  unfold prove. cbv zeta. set (a := mk (tt_n_rows main)). intros H Hpos.
  step H. rename x into d. step H. destruct x as [r1 t1]. step H. step H. destruct x0. step H. destruct x0. step H. destruct x0. step H. destruct x0.
  step H. clear H. unfold round_2 in E7. step E7. clear E7.
  assert (Hn : (0 < length (lde_roots_of_unity_coset d))%nat).
  { unfold domain_new in E0. step E0. step E0. step E0. apply ok_inj in E0. subst d. cbn [lde_roots_of_unity_coset].
    apply unwrap_r_ok in E10. unfold powers_coset in E10. destruct (primitive_root (trailing_zeros (a_trace_length a * blowup_factor (a_options a)))); [|discriminate].
    apply ok_inj in E10. subst x4.
    now rewrite map_length, seq_length. }
  assert (Hr1 : exists aux, a_build_aux a main (r1_rap E a r1) = Ok aux /\
    tt_n_cols (r1_lde_trace E a r1) = (tt_n_cols main + tt_n_cols aux)%nat).
  { unfold round_1 in E1. step E1. destruct x2 as [[[[polys evals] tree] root] u2]. step E1. destruct x2 as [rap u3]. step E1. rename x2 into aux.
    pose proof (commit_width _ _ _ _ _ _ _ _ E7) as W.
    destruct (tt_is_empty aux) eqn:Ee.
    - step E1. apply ok_inj in E1. injection E1 as <- _. cbn [r1_rap r1_lde_trace]. exists aux. split; [assumption|].
      unfold tt_is_empty in Ee. apply Nat.eqb_eq in Ee. rewrite Ee, Nat.add_0_r. rewrite <- W. eapply new_from_cols_width. eassumption.
    - step E1. destruct x2 as [[[[apolys aevals] atree] aroot] u4]. step E1. apply ok_inj in E1. injection E1 as <- _. cbn [r1_rap r1_lde_trace].
      exists aux. split; [assumption|]. rewrite <- W, <- (commit_width _ _ _ _ _ _ _ _ E11), <- app_length.
      eapply new_from_cols_width. eassumption. }
  destruct Hr1 as (aux & Haux & Hw). exists (r1_rap E a r1), aux.
  unfold evaluate_constraints in E8. step E8. step E8. step E8. step E8. step E8. step E8. step E8. step E8. step E8.
  apply traverse_inv in E8.
  assert (L : length x6 = length (lde_roots_of_unity_coset d)).
  { apply traverse_length in E12. rewrite E12, combine_length, seq_length, map_length. apply Nat.min_id. }
  destruct x6 as [|b x6]; [cbn in L; lia|].
  rewrite <- L in E8. cbn [length seq combine] in E8. inversion E8 as [|? ? ? ? Hfirst _]. subst.
  apply obind_ok in Hfirst. destruct Hfirst as (fr & Hfr & Hfirst). apply obind_ok in Hfirst. destruct Hfirst as (evals & Hev & _).
  exists fr, evals. split; [exact Haux|]. split; [exact Hev|].
  unfold fr_read_from_trace in Hfr. step Hfr. apply ok_inj in Hfr. subst fr. cbn [fr_row_width]. exact Hw.
Qed.
End Reads.
