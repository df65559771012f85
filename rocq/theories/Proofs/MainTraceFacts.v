(** The rows of the main trace: executed steps, range-check hole rows, memory hole rows, dummy rows. *)
From Coq Require Import List Arith NArith ZArith Bool Lia.
From Verif.Base Require Import Outcome Field Poly.
From Verif.Model Require Import Codec PublicInputs Trace Air CairoDecode CairoTrace.
From Verif.Proofs Require Import OutcomeFacts FFTFacts TraceFacts BuildFacts.
Import ListNotations.
Local Open Scope felt_scope.

Section Main.
Context {C : cairo_env}.

(** Cells [a ..] of a row replaced by [hs]. *)
Definition patch (a : nat) (row hs : list C) : list C := firstn a row ++ hs ++ skipn (a + length hs)%nat row.
Lemma patch_length a row hs : (a + length hs <= length row)%nat -> length (patch a row hs) = length row.
Proof. intro H. unfold patch. rewrite !app_length, firstn_length, skipn_length. lia. Qed.
Lemma patch_nil a row : patch a row [] = row.
Proof. unfold patch. cbn [length app]. rewrite Nat.add_0_r. apply firstn_skipn. Qed.
Lemma patch_step a row h hs : (a < length row)%nat -> patch (S a) (firstn a row ++ h :: skipn (S a) row) hs = patch a row (h :: hs).
Proof.
  intro H. unfold patch.
  assert (L : length (firstn a row) = a) by (rewrite firstn_length; lia).
  assert (E1 : firstn (S a) (firstn a row ++ h :: skipn (S a) row) = firstn a row ++ [h]).
  { rewrite firstn_app, L. replace (S a - a)%nat with 1%nat by lia. rewrite firstn_all2 by lia. reflexivity. }
  assert (E2 : skipn (S a + length hs) (firstn a row ++ h :: skipn (S a) row) = skipn (a + length (h :: hs)) row).
  { rewrite skipn_app, L, skipn_all2 by lia. replace (S a + length hs - a)%nat with (S (length hs)) by lia. cbn [app length].
    change (skipn (S (length hs)) (h :: skipn (S a) row)) with (skipn (length hs) (skipn (S a) row)).
    rewrite skipn_skipn'. f_equal. lia. }
  rewrite E1, E2, <- app_assoc. reflexivity.
Qed.
Lemma patch_nth a row hs i : (a + length hs <= length row)%nat -> nth i (patch a row hs) 0 =
  if (i <? a)%nat then nth i row 0 else if (i <? a + length hs)%nat then nth (i - a) hs 0 else nth i row 0.
Proof.
  intro H. unfold patch. assert (L : length (firstn a row) = a) by (rewrite firstn_length; lia).
  destruct (Nat.ltb_spec i a).
  - rewrite app_nth1 by lia. rewrite <- (firstn_skipn a row) at 2. now rewrite app_nth1 by lia.
  - rewrite app_nth2, L by lia. destruct (Nat.ltb_spec i (a + length hs)%nat).
    + now rewrite app_nth1 by lia.
    + rewrite app_nth2 by lia. rewrite <- (firstn_skipn (a + length hs)%nat row) at 2. rewrite app_nth2; rewrite firstn_length, Nat.min_l by lia; [|lia].
      f_equal. lia.
Qed.

Lemma fill_row_patch k a row holes : (a + k <= length row)%nat ->
  fill_row (seq a k) row holes = Ok (patch a row (firstn k holes), skipn k holes).
Proof.
  revert a row holes. induction k as [|k IH]; intros a row holes H.
  - cbn. rewrite patch_nil. now destruct holes.
  - destruct holes as [|h holes].
    + cbn [seq fill_row firstn skipn]. now rewrite patch_nil.
    + cbn [seq fill_row]. unfold set_cell. rewrite (proj2 (Nat.ltb_lt _ _)) by lia. cbn [obind]. rewrite IH.
      * cbn [firstn skipn]. now rewrite patch_step by lia.
      * rewrite app_length, firstn_length. cbn [length]. rewrite skipn_length. lia.
Qed.
Lemma zero_row_patch k a row : (a + k <= length row)%nat -> ofold (fun r c => set_cell r c 0) (seq a k) row = Ok (patch a row (repeat 0 k)).
Proof.
  revert a row. induction k as [|k IH]; intros a row H.
  - cbn. now rewrite patch_nil.
  - cbn [seq ofold repeat]. unfold set_cell at 1. rewrite (proj2 (Nat.ltb_lt _ _)) by lia. cbn [obind]. rewrite IH.
    + now rewrite patch_step by lia.
    + rewrite app_length, firstn_length. cbn [length]. rewrite skipn_length. lia.
Qed.

(** The row replaced by zeros in the eight memory columns; hole rows. *)
Definition zero_mem (row : list C) : list C := patch FRAME_PC row (repeat 0 8).
Definition mem_hole_rows (row hs : list C) : list (list C) :=
  map (fun j => patch FRAME_PC row (firstn 4 (skipn (4 * j) hs))) (seq 0 (div_ceil (length hs) 4)).
Definition rc_hole_rows (w : nat) (hs : list C) : list (list C) :=
  map (fun i => repeat 0 OFF_DST ++ firstn 3 (skipn (3 * i) hs) ++ repeat 0 (w - 30)) (seq 0 (length hs / 3)).

Lemma fill_rows_holes row k holes : (27 <= length row)%nat ->
  fill_rows k row holes = Ok (map (fun j => patch FRAME_PC row (firstn 4 (skipn (4 * j) holes))) (seq 0 k)).
Proof.
  intro H. revert holes. induction k as [|k IH]; intro holes; [reflexivity|]. cbn [fill_rows].
  change ADDR_COLUMNS with (seq FRAME_PC 4). rewrite fill_row_patch by (unfold FRAME_PC; lia). cbn [obind]. rewrite IH. cbn [obind seq map].
  do 2 f_equal. rewrite <- seq_shift, map_map. apply map_ext. intro j. rewrite skipn_skipn'. do 3 f_equal. lia.
Qed.

Lemma table_append t rows extra : @is_table C t rows -> Forall (fun r => length r = tt_n_cols t) extra ->
  is_table (tt_append t (concat extra)) (rows ++ extra).
Proof.
  intros (A & B & D) H. unfold is_table, tt_append. cbn [tt_n_cols tt_table]. repeat split; [exact A|now rewrite B, concat_app|].
  apply Forall_app. now split.
Qed.
Lemma table_last_row t rows : @is_table C t rows -> rows <> [] -> tt_last_row t = Ok (nth (length rows - 1) rows []).
Proof.
  intros H Hne. assert (length rows <> 0)%nat by (destruct rows; cbn; congruence).
  unfold tt_last_row. rewrite (table_n_rows _ _ H), usub_ok by lia. cbn [obind]. apply table_row; [exact H|lia].
Qed.
Lemma is_table_eq t t' rows : @is_table C t rows -> is_table t' rows -> tt_n_cols t = tt_n_cols t' -> t = t'.
Proof. intros (_ & A & _) (_ & B & _) H. destruct t, t'. cbn in *. congruence. Qed.

Lemma fill_rc_table t rows hs : is_table t rows -> (30 <= tt_n_cols t)%nat -> (length hs mod 3 = 0)%nat ->
  fill_rc_holes t hs = Ok (tt_append t (concat (rc_hole_rows (tt_n_cols t) hs))) /\
  Forall (fun r => length r = tt_n_cols t) (rc_hole_rows (tt_n_cols t) hs).
Proof.
  intros H Hw Hm.
  assert (Hl : (length hs = length hs / 3 * 3)%nat) by (pose proof (Nat.div_mod (length hs) 3 ltac:(lia)); lia).
  assert (Hg : forall i, (i < length hs / 3)%nat -> (i * 3 + 3 <= length hs)%nat) by (intros i Hi; lia).
  unfold fill_rc_holes. change (OFF_OP1 + 1)%nat with 30%nat. rewrite usub_ok by lia. cbn [obind]. split.
  - unfold step_by. cbn [obind]. rewrite Hl, every_nat_seq by lia. cbn [obind].
    rewrite (traverse_on _ _ (fun i => repeat 0 OFF_DST ++ firstn 3 (skipn (3 * i) hs) ++ repeat 0 (tt_n_cols t - 30))).
    + cbn [obind]. unfold rc_hole_rows. reflexivity.
    + intros i Hi. apply in_seq in Hi. specialize (Hg i ltac:(lia)). cbn [Nat.add].
      rewrite slice_in by lia. cbn [obind]. do 3 f_equal. f_equal; [lia|f_equal; lia].
  - apply Forall_forall. intros r Hr. unfold rc_hole_rows in Hr. apply in_map_iff in Hr. destruct Hr as (i & <- & Hi). apply in_seq in Hi.
    specialize (Hg i ltac:(lia)). rewrite !app_length, !repeat_length, firstn_length, skipn_length. unfold OFF_DST. lia.
Qed.
Lemma mem_hole_rows_width row hs : (27 <= length row)%nat -> Forall (fun r => length r = length row) (mem_hole_rows row hs).
Proof.
  intro H. apply Forall_forall. intros r Hr. apply in_map_iff in Hr. destruct Hr as (j & <- & _). apply patch_length.
  rewrite firstn_length. unfold FRAME_PC. lia.
Qed.
Lemma zero_mem_length row : (27 <= length row)%nat -> length (zero_mem row) = length row.
Proof. intro H. apply patch_length. rewrite repeat_length. unfold FRAME_PC. lia. Qed.

(** Cells of the given columns, row by row. *)
Definition cells (cs : list nat) (rows : list (list C)) : list C := concat (map (fun r => map (fun c => nth c r 0) cs) rows).
Definition OFF_COLUMNS : list nat := [OFF_DST; OFF_OP0; OFF_OP1].
Definition sorted_u16s (rows : list (list C)) : list N := sort_by (fun x => x) (map to_u16 (cells OFF_COLUMNS rows)).
Definition rc_hole_list (so : list N) : list C :=
  let missing := rc_missing so in
  map (e_u64 C) missing ++ repeat (e_u64 C (nth (length so - 1) so 0%N)) ((length missing + 2) / 3 * 3 - length missing).
Definition sorted_addrs (rows : list (list C)) : list C := sort_by ce_repr (cells ADDR_COLUMNS rows).
Definition mem_hole_list (rows : list (list C)) (codelen : nat) : list C :=
  holes_from (nth 0 (sorted_addrs rows) 0) (sorted_addrs rows) (N.of_nat codelen).
Definition last_row (rows : list (list C)) : list C := nth (length rows - 1) rows [].

(** The rows appended to the step rows. *)
Definition rows_rc (w : nat) (rows : list (list C)) : list (list C) := rc_hole_rows w (rc_hole_list (sorted_u16s rows)).
Definition rows_mem (w codelen : nat) (rows : list (list C)) : list (list C) :=
  mem_hole_rows (last_row (rows ++ rows_rc w rows)) (mem_hole_list rows codelen).
Definition rows_filled (w codelen : nat) (rows : list (list C)) : list (list C) :=
  rows ++ rows_rc w rows ++ rows_mem w codelen rows.
Definition n_filled (w codelen : nat) (rows : list (list C)) : nat := (length (rows_filled w codelen rows) + (codelen / 4 + 1))%nat.
Definition main_rows (w codelen : nat) (rows : list (list C)) : list (list C) :=
  rows_filled w codelen rows ++
  repeat (zero_mem (last_row (rows_filled w codelen rows))) (codelen / 4 + 1 + (next_pow2 (n_filled w codelen rows) - n_filled w codelen rows)).

Lemma insert_by_length {A} (key : A -> N) x l : length (insert_by key x l) = S (length l).
Proof. induction l as [|y l IH]; [reflexivity|]. cbn [insert_by]. destruct (_ <=? _)%N; cbn [length]; [reflexivity|now rewrite IH]. Qed.
Lemma sort_by_length {A} (key : A -> N) l : length (sort_by key l) = length l.
Proof. induction l as [|x l IH]; [reflexivity|]. cbn [sort_by]. now rewrite insert_by_length, IH. Qed.
Lemma cells_length cs rows : length (cells cs rows) = (length rows * length cs)%nat.
Proof. unfold cells. rewrite (concat_length_const _ (length cs)), map_length; [reflexivity|].
  apply Forall_forall. intros r Hr. apply in_map_iff in Hr. destruct Hr as (? & <- & _). apply map_length. Qed.

Lemma rc_hole_list_mod3 so : (length (rc_hole_list so) mod 3 = 0)%nat.
Proof.
  unfold rc_hole_list. rewrite app_length, map_length, repeat_length. set (k := length (rc_missing so)).
  pose proof (Nat.div_mod (k + 2) 3 ltac:(lia)) as D. pose proof (Nat.mod_upper_bound (k + 2) 3 ltac:(lia)) as U.
  replace (k + ((k + 2) / 3 * 3 - k))%nat with ((k + 2) / 3 * 3)%nat by lia. now apply Nat.mod_mul.
Qed.
Lemma last_row_in rows : rows <> [] -> In (last_row rows) rows.
Proof. intro H. apply nth_In. destruct rows; [congruence|cbn; lia]. Qed.
Lemma last_row_width w rows : rows <> [] -> Forall (fun r => length r = w) rows -> length (last_row rows) = w.
Proof. intros H F. rewrite Forall_forall in F. apply F. now apply last_row_in. Qed.

Theorem main_trace_rows raw m pi t0 rows : build_cairo_execution_trace raw m pi = Ok t0 -> is_table t0 rows -> rows <> [] -> (34 <= tt_n_cols t0)%nat ->
  let w := tt_n_cols t0 in let so := sorted_u16s rows in let codelen := length (public_memory pi) in
  exists t, build_main_trace raw m pi = Ok (t, with_rc_bounds pi (nth 0 so 0%N) (nth (length so - 1) so 0%N)) /\
    is_table t (main_rows w codelen rows) /\ tt_n_cols t = w.
Proof.
  intros Hb Ht Hne Hw w so codelen. unfold build_main_trace. rewrite Hb. cbn [obind].
  assert (Hl0 : (0 < length rows)%nat) by (destruct rows; [congruence|cbn; lia]).
  destruct (table_get_cols _ _ ADDR_COLUMNS 0 Ht) as (ac & Eac & Tac & _); [discriminate|cbn; intros c [<-|[<-|[<-|[<-|[]]]]]; unfold FRAME_PC, FRAME_DST_ADDR, FRAME_OP0_ADDR, FRAME_OP1_ADDR; lia|].
  rewrite Eac. cbn [obind]. destruct Tac as (_ & Eact & _). rewrite Eact. fold (cells ADDR_COLUMNS rows). fold (sorted_addrs rows).
  unfold get_rc_holes.
  destruct (table_get_cols _ _ [OFF_DST; OFF_OP0; OFF_OP1] 0 Ht) as (oc & Eoc & Toc & _); [discriminate|cbn; intros c [<-|[<-|[<-|[]]]]; unfold OFF_DST, OFF_OP0, OFF_OP1; lia|].
  rewrite Eoc. cbn [obind]. destruct Toc as (_ & Eoct & _). rewrite Eoct. fold OFF_COLUMNS. fold (cells OFF_COLUMNS rows). cbv zeta. fold (sorted_u16s rows). fold so.
  assert (Lso : length so = (length rows * 3)%nat) by (unfold so, sorted_u16s; rewrite sort_by_length, map_length, cells_length; reflexivity).
  rewrite (nth_error_nth' so 0%N) by lia. cbn [unwrap obind].
  rewrite (idx_nth _ _ 0%N) by lia. cbn [obind].
  fold (rc_hole_list so).
  destruct (fill_rc_table t0 rows (rc_hole_list so) Ht ltac:(lia) (rc_hole_list_mod3 so)) as [E1 F1]. rewrite E1. cbn [obind].
  pose proof (table_append _ _ _ Ht F1) as T1. set (t1 := tt_append t0 _) in *.
  assert (W1 : tt_n_cols t1 = w) by reflexivity.
  fold w in T1, F1. change (rc_hole_rows w (rc_hole_list so)) with (rows_rc w rows) in T1, F1.
  unfold get_memory_holes. rewrite (idx_nth _ _ 0) by (unfold sorted_addrs; rewrite sort_by_length, cells_length; cbn; lia). cbn [obind].
  change (public_memory (with_rc_bounds pi _ _)) with (public_memory pi). fold codelen.
  change (holes_from (nth 0 (sorted_addrs rows) 0) (sorted_addrs rows) (N.of_nat codelen)) with (mem_hole_list rows codelen).
  assert (Hne1 : rows ++ rows_rc w rows <> []) by (destruct rows; [congruence|discriminate]).
  assert (T2 : exists t2, (match mem_hole_list rows codelen with [] => Ok t1 | _ => fill_memory_holes t1 (mem_hole_list rows codelen) end) = Ok t2 /\
                 is_table t2 (rows_filled w codelen rows) /\ tt_n_cols t2 = w).
  { assert (Wl : length (last_row (rows ++ rows_rc w rows)) = w).
    { apply last_row_width; [exact Hne1|]. apply T1. }
    assert (Hf : fill_memory_holes t1 (mem_hole_list rows codelen) = Ok (tt_append t1 (concat (rows_mem w codelen rows)))).
    { unfold fill_memory_holes. rewrite (table_last_row _ _ T1 Hne1). cbn [obind]. fold (last_row (rows ++ rows_rc w rows)).
      rewrite fill_rows_holes by lia. reflexivity. }
    assert (Ht2 : is_table (tt_append t1 (concat (rows_mem w codelen rows))) (rows_filled w codelen rows)).
    { unfold rows_filled. rewrite app_assoc. apply table_append; [exact T1|]. rewrite W1. unfold rows_mem.
      pose proof (mem_hole_rows_width (last_row (rows ++ rows_rc w rows)) (mem_hole_list rows codelen) ltac:(lia)) as G. now rewrite Wl in G. }
    destruct (mem_hole_list rows codelen) as [|h hs] eqn:Eh.
    - exists t1. split; [reflexivity|]. split; [|exact W1].
      unfold rows_filled, rows_mem. rewrite Eh. change (mem_hole_rows (last_row (rows ++ rows_rc w rows)) []) with (@nil (list C)). now rewrite app_nil_r.
    - eexists. split; [exact Hf|]. split; [exact Ht2|exact W1]. }
  destruct T2 as (t2 & E2 & T2 & W2). rewrite E2. cbn [obind].
  assert (Hne2 : rows_filled w codelen rows <> []) by (unfold rows_filled; destruct rows; [congruence|discriminate]).
  assert (Wl2 : length (last_row (rows_filled w codelen rows)) = w).
  { apply last_row_width; [exact Hne2|]. destruct T2 as (_ & _ & F). now rewrite W2 in F. }
  unfold add_pub_memory_dummy_accesses, pad_with_last_row_and_zeros.
  rewrite (table_last_row _ _ T2 Hne2). cbn [obind]. fold (last_row (rows_filled w codelen rows)).
  change MEMORY_COLUMNS with (seq FRAME_PC 8). rewrite zero_row_patch by (unfold FRAME_PC; lia). cbn [obind].
  set (z := zero_mem (last_row (rows_filled w codelen rows))).
  change (patch FRAME_PC (last_row (rows_filled w codelen rows)) (repeat 0 8)) with z.
  assert (Wz : length z = w) by (unfold z; rewrite zero_mem_length; lia).
  assert (Fz : forall k, Forall (fun r => length r = w) (repeat z k)).
  { intro k. apply Forall_forall. intros r Hr. apply repeat_spec in Hr. now subst r. }
  assert (T3 : is_table (tt_append t2 (concat (repeat z (codelen / 4 + 1)))) (rows_filled w codelen rows ++ repeat z (codelen / 4 + 1))).
  { apply table_append; [exact T2|]. rewrite W2. apply Fz. }
  set (t3 := tt_append t2 _) in *. assert (W3 : tt_n_cols t3 = w) by exact W2.
  rewrite (table_n_rows _ _ T3), app_length, repeat_length. fold (n_filled w codelen rows).
  unfold pad_with_last_row. rewrite (table_last_row _ _ T3).
  2:{ intro Z. apply app_eq_nil in Z. tauto. }
  cbn [obind]. rewrite app_length, repeat_length.
  assert (El : nth (length (rows_filled w codelen rows) + (codelen / 4 + 1) - 1) (rows_filled w codelen rows ++ repeat z (codelen / 4 + 1)) [] = z).
  { rewrite app_nth2 by lia. rewrite (nth_indep _ [] z) by (rewrite repeat_length; lia). apply nth_repeat. }
  rewrite El. eexists. split; [reflexivity|]. split; [|exact W3].
  unfold main_rows. fold z. rewrite repeat_app, app_assoc. apply table_append; [exact T3|]. rewrite W3. apply Fz.
Qed.
End Main.
