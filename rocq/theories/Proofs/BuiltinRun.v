(** The range-check builtin columns of a built trace: which memory cells they hold and when they satisfy the constraint. *)
From Coq Require Import List Arith NArith ZArith Bool Lia.
From Verif.Base Require Import Outcome Field Poly.
From Verif.Model Require Import Codec PublicInputs Trace Air CairoDecode CairoTrace CairoAir.
From Verif.Spec Require Import CairoSpec AirSpec CairoColumns CairoRun.
From Verif.Proofs Require Import FieldFacts PolyFacts OutcomeFacts FFTFacts TraceFacts BuildFacts MainTraceFacts SortFacts MainColsFacts DecodeFacts CairoAirFacts StepFacts HonestFacts SortedFacts HonestBuiltin CairoForge HonestShape RunnerFacts.
Import ListNotations.
Local Open Scope felt_scope.

Section BuiltinRun.
Context {C : cairo_env} {p : N} (HC : cairo_ok C p).
Let HK : field_ok C := fft_field_ok _ (e_fft_ok _ (co_env _ _ HC)).
Add Field Kfield75 : (fld_th C HK).

Lemma resize_firstn n (l : list C) : resize0 n l = resize0 n (firstn n l).
Proof using Type.
  unfold resize0. rewrite firstn_firstn, Nat.min_id, firstn_length. f_equal. f_equal. lia.
Qed.
Lemma decompose_firstn n k (l : list N) : decompose_loop (C := C) k (firstn n l) = map (firstn n) (decompose_loop k l).
Proof using Type.
  revert l. induction k as [|k IH]; intro l; [reflexivity|]. cbn [decompose_loop map]. rewrite <- !firstn_map. f_equal. apply IH.
Qed.
Lemma rc_cols_firstn n (vals : list C) : rc_cols n vals = rc_cols n (firstn n vals).
Proof using Type.
  unfold rc_cols, decompose_rc_values. rewrite <- firstn_map, decompose_firstn, map_map. f_equal.
  - apply map_ext. intro l. apply resize_firstn.
  - f_equal. apply resize_firstn.
Qed.

Lemma nth_map_seq {A} (f : nat -> list A) n k : (k < n)%nat -> nth k (map f (seq 0 n)) [] = f k.
Proof using Type. intro H. rewrite (nth_indep _ [] (f 0%nat)) by (now rewrite map_length, seq_length). rewrite map_nth. now rewrite seq_nth. Qed.

(** Cell [34 + j] of step row [k]. *)
Lemma extra_cell m (ss : list (step_data (C := C))) extra codelen aux k j : ss <> [] -> Forall (step_ok m) ss -> (k < length ss)%nat -> (j < length extra)%nat ->
  let w := (34 + length extra)%nat in let rows := main_rows w codelen (build_rows ss extra) in
  cell (cols_of w rows ++ aux) k (34 + j) = nth k (nth j extra []) 0.
Proof using Type.
  intros Hne Hok Hk Hj w rows.
  assert (Lb : length (build_rows ss extra) = length ss) by apply build_rows_length.
  assert (Lr : (length ss <= length rows)%nat) by (unfold rows, main_rows, rows_filled; rewrite !app_length; lia).
  rewrite cell_app_l by (rewrite cols_of_length; unfold w; lia). rewrite cols_of_cell by (unfold w; lia).
  assert (Er : nth k rows [] = nth k (build_rows ss extra) []).
  { unfold rows, main_rows, rows_filled. rewrite <- app_assoc. rewrite app_nth1 by lia. reflexivity. }
  rewrite Er. unfold build_rows. fold (@sd0 C).
  rewrite (nth_map_seq (fun i => step_row (nth i ss sd0) (sel_of (length ss) i) ++ map (fun c => nth i c 0) extra)) by exact Hk.
  assert (Hs : step_ok m (nth k ss sd0)) by (rewrite Forall_forall in Hok; apply Hok, nth_In; lia).
  rewrite app_nth2 by (rewrite (step_row_length m) by exact Hs; lia). rewrite (step_row_length m) by exact Hs. replace (34 + j - 34)%nat with j by lia.
  rewrite (nth_indep _ 0 (nth k [] 0)) by (rewrite map_length; lia). now rewrite (map_nth (fun c => nth k c 0)).
Qed.

Lemma rc_cols_value n (vals : list C) k : (k < n)%nat -> nth k (nth 8 (rc_cols n vals) []) 0 = nth k vals 0.
Proof using Type.
  intro Hk. unfold rc_cols. rewrite app_nth2 by (rewrite map_length; unfold decompose_rc_values; rewrite decompose_loop_length; lia).
  rewrite map_length. unfold decompose_rc_values. rewrite decompose_loop_length. cbn [Nat.sub nth]. now apply resize_nth.
Qed.
Lemma rc_cols_limb n (vals : list C) k j : (k < n)%nat -> (k < length vals)%nat -> (j < 8)%nat ->
  nth k (nth j (rc_cols n vals) []) 0 = e_u64 C (limb (ce_repr (nth k vals 0)) j).
Proof using Type.
  intros Hk Hv Hj. unfold rc_cols. rewrite app_nth1 by (rewrite map_length; unfold decompose_rc_values; rewrite decompose_loop_length; lia).
  rewrite (nth_indep _ [] (resize0 n [])) by (rewrite map_length; unfold decompose_rc_values; rewrite decompose_loop_length; lia).
  rewrite map_nth, resize_nth by exact Hk. unfold decompose_rc_values. rewrite decompose_loop_nth, map_map by exact Hj.
  rewrite (nth_indep _ 0 (e_u64 C (limb (ce_repr (0 : C)) j))) by (now rewrite map_length).
  exact (map_nth (fun x : C => e_u64 C (limb (ce_repr x) j)) vals 0 k).
Qed.

Lemma builtin_rows m (ss : list (step_data (C := C))) vals codelen pi ch aux : ss <> [] -> Forall (step_ok m) ss -> has_rc_builtin pi = true ->
  let extra := rc_cols (length ss) vals in
  let w := (34 + length extra)%nat in let rows := main_rows w codelen (build_rows ss extra) in
  holds pi ch (cols_of w rows ++ aux) (length rows) 49 <->
  forall k, (k < length ss)%nat -> (k < length vals)%nat -> N.lt (ce_repr (nth k vals 0)) (2 ^ 128).
Proof using HC.
  intros Hne Hok Hb extra w rows. split.
  - intros H k Hk Hv.
    assert (Lb : length (build_rows ss extra) = length ss) by apply build_rows_length.
    assert (Lr : (length ss <= length rows)%nat) by (unfold rows, main_rows, rows_filled; rewrite !app_length; lia).
    specialize (H k ltac:(change (exempt 49) with 0%nat; lia)). rewrite builtin_constraint in H by exact Hb.
    unfold rc_builtin_value in H. rewrite !crow_nth in H.
    assert (Le : length extra = 9%nat) by (unfold extra, rc_cols; rewrite app_length, map_length; unfold decompose_rc_values; rewrite decompose_loop_length; reflexivity).
    assert (X : forall j, (j < 9)%nat -> cell (cols_of w rows ++ aux) k (34 + j) = nth k (nth j extra []) 0).
    { intros j Hj. apply (extra_cell m); assumption. }
    pose proof (X 0%nat ltac:(lia)) as X0. pose proof (X 1%nat ltac:(lia)) as X1. pose proof (X 2%nat ltac:(lia)) as X2. pose proof (X 3%nat ltac:(lia)) as X3.
    pose proof (X 4%nat ltac:(lia)) as X4. pose proof (X 5%nat ltac:(lia)) as X5. pose proof (X 6%nat ltac:(lia)) as X6. pose proof (X 7%nat ltac:(lia)) as X7.
    pose proof (X 8%nat ltac:(lia)) as X8. cbn [Nat.add] in X0, X1, X2, X3, X4, X5, X6, X7, X8.
    rewrite X0, X1, X2, X3, X4, X5, X6, X7, X8 in H. clear X X0 X1 X2 X3 X4 X5 X6 X7 X8. unfold extra in H.
    rewrite rc_cols_value, !rc_cols_limb in H by (assumption || lia). rewrite (fe_limbs HC) in H.
    apply (limbs_recombine HC). now apply (sub_zero HK).
  - intro H. unfold rows, w, extra. rewrite rc_cols_firstn. apply (honest_builtin HC m); try assumption.
    intros x Hx. apply (In_nth _ _ 0) in Hx. destruct Hx as (k & Hk & <-). rewrite firstn_length in Hk.
    assert (E : nth k (firstn (length ss) vals) 0 = nth k vals 0).
    { rewrite <- (firstn_skipn (length ss) vals) at 2. rewrite app_nth1; [reflexivity|rewrite firstn_length; lia]. }
    rewrite E. apply H; lia.
Qed.
End BuiltinRun.
