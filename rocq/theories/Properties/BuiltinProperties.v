(** C23: what the builtin columns of the trace the prover builds hold, and when they satisfy the builtin constraint. *)
From Coq Require Import List Arith NArith ZArith Bool Lia.
From Verif.Base Require Import Outcome Field Poly Zp.
From Verif.Model Require Import Codec PublicInputs Trace Air CairoDecode CairoTrace CairoAir CairoRunner.
From Verif.Spec Require Import CairoSpec AirSpec CairoColumns CairoRun.
From Verif.Proofs Require Import FieldFacts OutcomeFacts FFTFacts TraceFacts BuildFacts MainTraceFacts MainColsFacts CairoAirFacts HonestFacts HonestBuiltin HonestShape RunnerFacts BuiltinRun.
From Verif.Properties Require Import CairoTraceProperties.
From Verif.Examples Require Import Toy Stark252 MiniRun.
Import ListNotations.
Local Open Scope felt_scope.

(** The memory value of address [a], or zero. *)
Definition value_at {C : cairo_env} (m : @cairo_memory C) (a : N) : C := match mem_get m a with Some v => v | None => 0 end.

(** Let a statement declare the range-check segment [lo, hi). Row [k] of the built trace, for [k] below the number of steps, holds the value
    of memory cell [lo + k] (zero past the end of the segment), and whatever the auxiliary columns and challenges are the builtin constraint
    holds on every row exactly when the first cells of the segment, one per step, are below 2^128.  Every cell after those is dropped. *)
Theorem C23_built_columns_pass_iff_128_bits :
  forall (C : cairo_env) p, cairo_ok C p -> forall raw (m : @cairo_memory C) (pi : public_inputs C) lo hi t pi' n cols,
  map_get segment_eqb RangeCheck (memory_segments pi) = Some (lo, hi) ->
  build_main_trace raw m pi = Ok (t, pi') -> cols <> [] -> has_columns t n cols ->
  (length raw <= n)%nat /\
  (forall k, (k < length raw)%nat ->
     cell cols k RC_VALUE = if (lo + N.of_nat k <? hi)%N then value_at m (lo + N.of_nat k) else 0) /\
  (forall opts ch aux, length (cols ++ aux) = trace_columns (a_context (cairo_air pi' opts n)) ->
     (constraint_holds (cairo_air pi' opts n) ch (cols ++ aux) n RANGE_CHECK_BUILTIN <->
      forall k, (k < length raw)%nat -> (lo + N.of_nat k < hi)%N -> (ce_repr (value_at m (lo + N.of_nat k)) < 2 ^ 128)%N)).
Proof.
  intros C p HC raw m pi lo hi t pi' n cols Hseg Hb Hne Hc.
  destruct (main_columns raw m pi t pi' n cols Hb Hne Hc) as (ss & extra & -> & Sne & Hok & Hx & Ep & En & Ec & _).
  unfold rc_extra in Hx. rewrite Hseg in Hx. destruct Hx as (vals & Hv & ->). rewrite map_length.
  assert (Lv : length vals = N.to_nat (hi - lo)) by (rewrite (traverse_length _ _ _ Hv); apply nrange_length).
  assert (Le : length (rc_cols (length ss) vals) = 9%nat) by reflexivity.
  assert (Hnth : forall k, (k < length vals)%nat -> nth k vals 0 = value_at m (lo + N.of_nat k)).
  { intros k Hk. pose proof (traverse_nth _ _ _ k 0%N (0 : C) Hv ltac:(rewrite nrange_length; lia)) as E.
    unfold nrange in E. rewrite (nth_indep _ 0%N ((fun i => lo + N.of_nat i)%N 0%nat)) in E by (rewrite map_length, seq_length; lia).
    rewrite (map_nth (fun i => lo + N.of_nat i)%N), seq_nth in E by lia. cbn [Nat.add] in E. unfold value_at.
    destruct (mem_get m (lo + N.of_nat k)); cbn [unwrap] in E; [now apply ok_inj in E|discriminate E]. }
  assert (Lr : (length ss <= n)%nat).
  { rewrite En. unfold main_rows, rows_filled. rewrite !app_length, build_rows_length. lia. }
  split; [exact Lr|]. split.
  - intros k Hk. rewrite Ec. rewrite <- (app_nil_r (cols_of _ _)).
    change RC_VALUE with (34 + 8)%nat. rewrite (extra_cell m ss (rc_cols (length ss) vals) _ [] k 8 Sne Hok Hk ltac:(rewrite Le; lia)).
    rewrite rc_cols_value by exact Hk. destruct (N.ltb_spec (lo + N.of_nat k) hi) as [L|L]; [apply Hnth; lia|apply nth_overflow; lia].
  - intros opts ch aux Hw. cbn [cairo_air a_context] in Hw. rewrite cairo_width_declared in Hw.
    assert (Hbi : has_rc_builtin pi' = true).
    { rewrite Ep. unfold has_rc_builtin. cbn [with_rc_bounds memory_segments]. destruct (memory_segments pi); [discriminate Hseg|reflexivity]. }
    rewrite (cairo_constraint_holds pi' opts ch (cols ++ aux) n RANGE_CHECK_BUILTIN Hw) by (unfold n_constraints; rewrite Hbi; unfold RANGE_CHECK_BUILTIN; lia).
    rewrite Ec, En. change RANGE_CHECK_BUILTIN with 49%nat. rewrite (builtin_rows HC m ss vals _ pi' ch aux Sne Hok Hbi). split.
    + intros H k Hk L. rewrite <- Hnth by lia. apply H; lia.
    + intros H k Hk L. rewrite Hnth by exact L. apply H; lia.
Qed.
Print Assumptions C23_built_columns_pass_iff_128_bits.

(** Three steps and a segment of four cells, the last of which is 2^200: the constraint holds, for the cell is in no column. *)
Definition dropped_memory : @cairo_memory stark := mini_memory ++ [(9%N, f252 5 : stark); (10%N, f252 6 : stark); (11%N, f252 7 : stark); (12%N, f252 (2 ^ 200) : stark)].
Definition dropped_pi : public_inputs stark :=
  mk_public_inputs (f252 1 : stark) (f252 8 : stark) (f252 8 : stark) (f252 5 : stark) (f252 9 : stark) None None [(RangeCheck, (9, 13)%N)] (public_memory mini_pi) 3.
Definition dropped_built := build_main_trace mini_regs dropped_memory dropped_pi.
Example C23_dropped_example : exists t pi' n cols,
  map_get segment_eqb RangeCheck (memory_segments dropped_pi) = Some (9, 13)%N /\
  build_main_trace mini_regs dropped_memory dropped_pi = Ok (t, pi') /\ cols <> [] /\ has_columns t n cols /\ length cols = 43%nat /\
  (forall opts ch aux, length (cols ++ aux) = trace_columns (a_context (cairo_air pi' opts n)) ->
     constraint_holds (cairo_air pi' opts n) ch (cols ++ aux) n RANGE_CHECK_BUILTIN) /\
  ~ (ce_repr (value_at dropped_memory 12) < 2 ^ 128)%N.
Proof.
  assert (H : match dropped_built with Ok (t, _) => (length (tt_table t) =? 8 * tt_n_cols t)%nat && (tt_n_cols t =? 43)%nat | _ => false end = true) by (vm_compute; reflexivity).
  destruct dropped_built as [[t pi']| |] eqn:B; [|discriminate H..]. apply andb_true_iff in H. destruct H as [H1 H2].
  apply Nat.eqb_eq in H1, H2. pose proof (reshaped t 8 H1) as Hc.
  assert (L : length (reshape t 8) = 43%nat) by (unfold reshape; rewrite map_length, seq_length; exact H2).
  assert (Hne : reshape t 8 <> []) by (intro Z; rewrite Z in L; discriminate L).
  exists t, pi', 8%nat, (reshape t 8). split; [reflexivity|]. split; [exact B|]. split; [exact Hne|]. split; [exact Hc|]. split; [exact L|]. split.
  - intros opts ch aux Hw.
    destruct (C23_built_columns_pass_iff_128_bits stark _ stark_ok mini_regs dropped_memory dropped_pi 9 13 t pi' 8 (reshape t 8) eq_refl B Hne Hc) as (_ & _ & I).
    apply (I opts ch aux Hw). intros k Hk _. change (length mini_regs) with 3%nat in Hk.
    destruct k as [|[|[|k]]]; [vm_compute; reflexivity..|lia].
  - vm_compute. discriminate.
Qed.
