(** Columns of the main trace read row by row. *)
From Coq Require Import List Arith NArith ZArith Bool Lia Permutation.
From Verif.Base Require Import Outcome Field Poly.
From Verif.Model Require Import Codec PublicInputs Trace Air CairoDecode CairoTrace CairoAir.
From Verif.Spec Require Import CairoSpec CairoColumns.
From Verif.Proofs Require Import FieldFacts OutcomeFacts FFTFacts TraceFacts BuildFacts MainTraceFacts SortFacts SortedFacts DecodeFacts.
Import ListNotations.
Local Open Scope felt_scope.

Lemma app_ne {A} (a b : list A) : a <> [] -> a ++ b <> [].
Proof. destruct a; [congruence|discriminate]. Qed.

Section Cols.
Context {C : cairo_env}.

(** The columns of a list of rows. *)
Definition cols_of (w : nat) (rows : list (list C)) : list (list C) := map (fun j => map (fun r => nth j r 0) rows) (seq 0 w).
Lemma cols_of_length w rows : length (cols_of w rows) = w.
Proof. unfold cols_of. now rewrite map_length, seq_length. Qed.
Lemma cols_of_lengths w rows c : In c (cols_of w rows) -> length c = length rows.
Proof. unfold cols_of. rewrite in_map_iff. intros (j & <- & _). apply map_length. Qed.
Lemma cols_of_cell w rows i j : (i < length rows)%nat -> (j < w)%nat -> cell (cols_of w rows) i j = nth j (nth i rows []) 0.
Proof.
  intros Hi Hj. unfold cell, cols_of. rewrite (nth_map_seq (fun j => map (fun r => nth j r 0) rows) w j []) by exact Hj.
  rewrite (nth_indep _ 0 (nth j [] 0)) by (rewrite map_length; exact Hi). apply (map_nth (fun r => nth j r 0)).
Qed.
Lemma tt_cols_of t rows cols : is_table t rows -> tt_cols t = Ok cols -> cols = cols_of (tt_n_cols t) rows.
Proof. intros H E. rewrite (table_cols t rows 0 H) in E. apply ok_inj in E. now subst cols. Qed.

Lemma cells_app cs a b : cells cs (a ++ b) = @cells C cs a ++ cells cs b.
Proof. unfold cells. now rewrite map_app, concat_app. Qed.
Lemma cells_cons cs r rows : cells cs (r :: rows) = map (fun c => nth c r 0) cs ++ @cells C cs rows.
Proof. reflexivity. Qed.
Lemma cells_in cs rows x : In x (cells cs rows) <-> exists r c, In r rows /\ In c cs /\ x = nth c r (0 : C).
Proof.
  unfold cells. rewrite in_concat. split.
  - intros (l & Hl & Hx). apply in_map_iff in Hl. destruct Hl as (r & <- & Hr). apply in_map_iff in Hx. destruct Hx as (c & <- & Hc). eauto.
  - intros (r & c & Hr & Hc & ->). exists (map (fun c => nth c r 0) cs). split; [now apply in_map_iff; eauto|]. now apply (in_map (fun c => nth c r 0)).
Qed.
Lemma cells_nth cs rows i j : (i < length rows)%nat -> (j < length cs)%nat ->
  nth (length cs * i + j) (cells cs rows) 0 = nth (nth j cs 0%nat) (nth i rows []) (0 : C).
Proof.
  intros Hi Hj. unfold cells. set (f := fun r => map (fun c => nth c r 0) cs).
  pose proof (concat_idx (map f rows) (length cs) i j) as G. rewrite map_length in G.
  assert (F : Forall (fun r => length r = length cs) (map f rows)).
  { apply Forall_forall. intros r Hr. apply in_map_iff in Hr. destruct Hr as (? & <- & _). apply map_length. }
  specialize (G F Hi Hj).
  rewrite (nth_indep (map f rows) [] (f [])) in G by (rewrite map_length; exact Hi). rewrite (map_nth f) in G.
  rewrite (idx_nth _ _ (0 : C)) in G. 2:{ rewrite (concat_length_const _ (length cs) F), map_length. nia. }
  rewrite (idx_nth _ _ (0 : C)) in G by (unfold f; rewrite map_length; exact Hj). apply ok_inj in G.
  replace (length cs * i + j)%nat with (i * length cs + j)%nat by lia. rewrite G. unfold f.
  rewrite (nth_indep _ 0 (nth 0 (nth i rows []) 0)) by (rewrite map_length; exact Hj). apply (map_nth (fun c => nth c (nth i rows []) 0)).
Qed.

(** Adjacent columns, read row by row. *)
Lemma flat_cells W rows rest base w k : (0 < w)%nat -> (base + w <= W)%nat -> (k < w * length rows)%nat ->
  flat (cols_of W rows ++ rest) base w k = nth k (cells (seq base w) rows) 0.
Proof.
  intros Hw HW Hk. destruct (quot_rem k w Hw) as (i & r & -> & Hr). assert (Hi : (i < length rows)%nat) by nia.
  rewrite flat_at by exact Hr. rewrite cell_app_l by (rewrite cols_of_length; lia). rewrite cols_of_cell by lia.
  pose proof (cells_nth (seq base w) rows i r Hi) as G. rewrite seq_length in G. rewrite G by exact Hr. now rewrite seq_nth.
Qed.
Lemma flat_aux W rows arows n base w (l : list C) k : (0 < w)%nat -> length arows = n -> (base + w <= 18)%nat ->
  (forall i j, (i < n)%nat -> (j < w)%nat -> nth (base + j) (nth i arows []) 0 = nth (w * i + j) l 0) -> (k < w * n)%nat ->
  flat (cols_of W rows ++ cols_of 18 arows) (W + base) w k = nth k l 0.
Proof.
  intros Hw Hn Hb H Hk. destruct (quot_rem k w Hw) as (i & r & -> & Hr). assert (Hi : (i < n)%nat) by nia.
  rewrite flat_at by exact Hr. rewrite <- (cols_of_length W rows) at 2. rewrite <- Nat.add_assoc, cell_app_r, cols_of_cell by lia. now apply H.
Qed.

(** ** Offsets of the main rows *)
Lemma rc_hole_cells w (hs : list C) : (length hs mod 3 = 0)%nat -> cells OFF_COLUMNS (rc_hole_rows w hs) = hs.
Proof.
  intro Hm. unfold cells, rc_hole_rows. rewrite map_map.
  assert (Hl : (length hs = 3 * (length hs / 3))%nat) by (pose proof (Nat.div_mod (length hs) 3 ltac:(lia)); lia).
  revert Hl. generalize (length hs / 3)%nat as q. intro q. clear Hm. revert hs. induction q as [|q IH]; intros hs Hl.
  - destruct hs; [reflexivity|cbn in Hl; lia].
  - destruct hs as [|a [|b [|c hs]]]; cbn [length] in Hl; try lia. cbn [seq map concat].
    rewrite <- seq_shift, map_map.
    assert (E : concat (map (fun i => map (fun c0 => nth c0 (repeat 0 OFF_DST ++ firstn 3 (skipn (3 * S i) (a :: b :: c :: hs)) ++ repeat 0 (w - 30)) 0) OFF_COLUMNS) (seq 0 q))
                = hs).
    { etransitivity; [|apply (IH hs); lia]. f_equal. apply map_ext. intro i. replace (3 * S i)%nat with (S (S (S (3 * i)))) by lia. reflexivity. }
    rewrite E. reflexivity.
Qed.

Lemma patch_other a row (hs : list C) c : (a + length hs <= length row)%nat -> (c < a \/ a + length hs <= c)%nat -> nth c (patch a row hs) 0 = nth c row 0.
Proof.
  intros H Hc. rewrite patch_nth by exact H. destruct (Nat.ltb_spec c a); [reflexivity|]. destruct (Nat.ltb_spec c (a + length hs)%nat); [lia|reflexivity].
Qed.
Lemma mem_hole_row_shape (row : list C) hs r : (27 <= length row)%nat -> In r (mem_hole_rows row hs) ->
  length r = length row /\ forall c, (c < 19 \/ 23 <= c)%nat -> nth c r (0 : C) = nth c row 0.
Proof.
  intros H Hr. apply in_map_iff in Hr. destruct Hr as (j & <- & _).
  assert (L : (FRAME_PC + length (firstn 4 (skipn (4 * j) hs)) <= 23)%nat) by (rewrite firstn_length; unfold FRAME_PC; lia).
  split; [apply patch_length; lia|]. intros c Hc. apply patch_other; [lia|]. unfold FRAME_PC in *. lia.
Qed.
Lemma zero_mem_cell (row : list C) c : (27 <= length row)%nat -> nth c (zero_mem row) 0 = if (19 <=? c)%nat && (c <? 27)%nat then 0 else nth c row 0.
Proof.
  intro H. unfold zero_mem. rewrite patch_nth by (rewrite repeat_length; unfold FRAME_PC; lia). rewrite repeat_length.
  change (FRAME_PC + 8)%nat with 27%nat. change FRAME_PC with 19%nat.
  destruct (Nat.ltb_spec c 19); destruct (Nat.leb_spec 19 c); try lia; cbn [andb]; [reflexivity|].
  destruct (Nat.ltb_spec c 27); [|reflexivity]. rewrite nth_repeat. reflexivity.
Qed.

Section Shape.
Context (w codelen : nat) (rows : list (list C)).
Hypothesis (Hne : rows <> []) (Hw : Forall (fun r => length r = w) rows) (H34 : (34 <= w)%nat).

Lemma rc_rows_width : Forall (fun r => length r = w) (rows_rc w rows).
Proof using H34.
  unfold rows_rc, rc_hole_rows. apply Forall_forall. intros r Hr. apply in_map_iff in Hr. destruct Hr as (i & <- & Hi). apply in_seq in Hi.
  pose proof (rc_hole_list_mod3 (C := C) (sorted_u16s rows)) as M. pose proof (Nat.div_mod (length (rc_hole_list (C:=C) (sorted_u16s rows))) 3 ltac:(lia)).
  rewrite !app_length, !repeat_length, firstn_length, skipn_length. unfold OFF_DST. lia.
Qed.
Lemma prefix_width : length (last_row (rows ++ rows_rc w rows)) = w.
Proof using Hne Hw H34.
  apply last_row_width; [now apply app_ne|]. apply Forall_app. split; [exact Hw|exact rc_rows_width].
Qed.
Lemma mem_rows_width : Forall (fun r => length r = w) (rows_mem w codelen rows).
Proof using Hne Hw H34.
  apply Forall_forall. intros r Hr. pose proof prefix_width as P. unfold rows_mem in Hr.
  apply mem_hole_row_shape in Hr; [|lia]. lia.
Qed.
Lemma filled_width : Forall (fun r => length r = w) (rows_filled w codelen rows).
Proof using Hne Hw H34.
  unfold rows_filled. rewrite !Forall_app. split; [exact Hw|]. split; [exact rc_rows_width|exact mem_rows_width].
Qed.
Lemma filled_ne : rows_filled w codelen rows <> [].
Proof using Hne. unfold rows_filled. now apply app_ne. Qed.
Lemma last_filled_width : length (last_row (rows_filled w codelen rows)) = w.
Proof using Hne Hw H34. apply last_row_width; [exact filled_ne|exact filled_width]. Qed.
Lemma main_rows_width : Forall (fun r => length r = w) (main_rows w codelen rows).
Proof using Hne Hw H34.
  unfold main_rows. apply Forall_app. split; [exact filled_width|]. apply Forall_forall. intros r Hr. apply repeat_spec in Hr. subst r.
  rewrite zero_mem_length; rewrite last_filled_width; lia.
Qed.
Lemma main_rows_length : length (main_rows w codelen rows) = next_pow2 (n_filled w codelen rows).
Proof using Type.
  clear Hne Hw H34. unfold main_rows. rewrite app_length, repeat_length.
  assert (n_filled w codelen rows <= next_pow2 (n_filled w codelen rows))%nat.
  { unfold next_pow2. apply Nat.log2_up_le_pow2; [unfold n_filled; lia|]. lia. }
  unfold n_filled in *. lia.
Qed.

(** Outside the address columns, the hole rows copy the last earlier row; the dummy rows too, except memory. *)
Lemma last_row_app_in (a b : list (list C)) : b <> [] -> last_row (a ++ b) = last_row b.
Proof using Type.
  clear Hne Hw H34. intro H. unfold last_row. assert (length b <> 0)%nat by (destruct b; cbn; congruence). rewrite app_length, app_nth2 by lia. f_equal. lia.
Qed.
Lemma last_filled_cell c : (c < 19 \/ 27 <= c)%nat ->
  nth c (last_row (rows_filled w codelen rows)) 0 = nth c (last_row (rows ++ rows_rc w rows)) (0 : C).
Proof using Hne Hw H34.
  intro Hc. unfold rows_filled. destruct (rows_mem w codelen rows) as [|r0 rs] eqn:E; [now rewrite app_nil_r|].
  rewrite app_assoc, last_row_app_in by discriminate. rewrite <- E.
  assert (Hin : In (last_row (rows_mem w codelen rows)) (rows_mem w codelen rows)) by (apply last_row_in; rewrite E; discriminate).
  pose proof prefix_width as P. apply mem_hole_row_shape in Hin; [|lia]. apply Hin. lia.
Qed.
Lemma main_row_other r c : In r (main_rows w codelen rows) -> (c < 19 \/ 27 <= c)%nat ->
  exists r', In r' (rows ++ rows_rc w rows) /\ nth c r (0 : C) = nth c r' 0.
Proof using Hne Hw H34.
  intros Hr Hc. pose proof prefix_width as P.
  assert (Hl : In (last_row (rows ++ rows_rc w rows)) (rows ++ rows_rc w rows)) by (apply last_row_in; now apply app_ne).
  unfold main_rows in Hr. apply in_app_or in Hr. destruct Hr as [Hr|Hr].
  - unfold rows_filled in Hr. rewrite app_assoc in Hr. apply in_app_or in Hr. destruct Hr as [Hr|Hr]; [eauto|].
    exists (last_row (rows ++ rows_rc w rows)). split; [exact Hl|]. apply mem_hole_row_shape in Hr; [|lia]. apply Hr. lia.
  - apply repeat_spec in Hr. subst r. exists (last_row (rows ++ rows_rc w rows)). split; [exact Hl|].
    rewrite zero_mem_cell by (rewrite last_filled_width; lia).
    replace ((19 <=? c)%nat && (c <? 27)%nat)%bool with false by (symmetry; destruct (Nat.leb_spec 19 c), (Nat.ltb_spec c 27); cbn; try reflexivity; lia).
    now apply last_filled_cell.
Qed.

Lemma main_offsets_in x : In x (cells OFF_COLUMNS (main_rows w codelen rows)) <->
  In x (cells OFF_COLUMNS rows) \/ In x (rc_hole_list (C:=C) (sorted_u16s rows)).
Proof using Hne Hw H34.
  assert (E : forall y, In y (cells OFF_COLUMNS (rows ++ rows_rc w rows)) <-> In y (cells OFF_COLUMNS rows) \/ In y (rc_hole_list (C:=C) (sorted_u16s rows))).
  { intro y. rewrite cells_app, in_app_iff. unfold rows_rc. rewrite rc_hole_cells by apply rc_hole_list_mod3. reflexivity. }
  rewrite <- E. rewrite !cells_in. split.
  - intros (r & c & Hr & Hc & ->). destruct (main_row_other r c Hr) as (r' & Hr' & Er).
    { cbn in Hc. unfold OFF_DST, OFF_OP0, OFF_OP1 in Hc. lia. }
    exists r', c. auto.
  - intros (r & c & Hr & Hc & ->). exists r, c. split; [|auto]. unfold main_rows, rows_filled. rewrite app_assoc, !in_app_iff in *. tauto.
Qed.
End Shape.
End Cols.

Lemma next_pow2_le n : (n <= next_pow2 n)%nat.
Proof. unfold next_pow2. destruct n; [lia|]. apply Nat.log2_up_le_pow2; lia. Qed.

Section Offsets.
Context {C : cairo_env} {p : N} (HC : cairo_ok C p).

Definition small16 (x : C) : Prop := exists v, (v < 2 ^ 16)%N /\ x = e_u64 C v.
Lemma to_u16_u64 v : (v < 2 ^ 16)%N -> to_u16 (e_u64 C v) = v.
Proof using HC.
  intro H. unfold to_u16. rewrite (repr_small HC); [now apply N.mod_small|]. pose proof (co_p _ _ HC).
  change (2 ^ 65)%N with 36893488147419103232%N in *. change (2 ^ 16)%N with 65536%N in *. lia.
Qed.
Lemma small16_u64 (x : C) : small16 x -> e_u64 C (to_u16 x) = x.
Proof using HC. intros (v & H & ->). now rewrite to_u16_u64. Qed.
Lemma to_u16_lt (x : C) : (to_u16 x < 2 ^ 16)%N.
Proof using Type. apply N.mod_lt. discriminate. Qed.

Section Rows.
Context (rows : list (list C)).
Let so := sorted_u16s rows.
Let lo := nth 0 so 0%N.
Let hi := nth (length so - 1) so 0%N.
Hypothesis (Hne : rows <> []) (Hsmall : forall x, In x (cells OFF_COLUMNS rows) -> small16 x).

Lemma so_length : length so = (3 * length rows)%nat.
Proof using Type. clear Hne Hsmall. unfold so, sorted_u16s. rewrite sort_by_length, map_length, cells_length. cbn [OFF_COLUMNS length]. lia. Qed.
Lemma so_ne : so <> [].
Proof using Hne. clear Hsmall. intro E. pose proof so_length as L. rewrite E in L. apply Hne. destruct rows; [reflexivity|cbn in L; lia]. Qed.
Lemma so_ascending : ascending (fun n => n) so.
Proof using Type. apply sort_by_ascending. Qed.
Lemma so_in v : In v so <-> exists x, In x (cells OFF_COLUMNS rows) /\ v = to_u16 x.
Proof using Type.
  unfold so, sorted_u16s. split.
  - intro H. apply (Permutation_in _ (sort_by_perm _ _)) in H. apply in_map_iff in H. destruct H as (x & <- & Hx). eauto.
  - intros (x & Hx & ->). apply (Permutation_in _ (Permutation_sym (sort_by_perm _ _))). now apply in_map.
Qed.
Lemma so_bounds v : In v so -> (lo <= v <= hi)%N.
Proof using Type.
  clear Hne Hsmall. intro H. apply (In_nth _ _ 0%N) in H. destruct H as (k & Hk & <-). unfold lo, hi.
  split; apply (ascending_nth (fun n : N => n) so 0%N); try apply so_ascending; lia.
Qed.
Lemma lo_in : In lo so.
Proof using Hne. clear Hsmall. apply nth_In. pose proof so_ne as Z. destruct so; [congruence|cbn; lia]. Qed.
Lemma hi_in : In hi so.
Proof using Hne. clear Hsmall. apply nth_In. pose proof so_ne as Z. destruct so; [congruence|cbn; lia]. Qed.
Lemma hi_small : (hi < 2 ^ 16)%N.
Proof using Hne. pose proof hi_in as H. apply so_in in H. destruct H as (x & _ & ->). apply to_u16_lt. Qed.
Lemma step_offset_in v : (v < 2 ^ 16)%N -> In (e_u64 C v) (cells OFF_COLUMNS rows) <-> In v so.
Proof using HC Hsmall.
  intro Hv. rewrite so_in. split.
  - intro H. exists (e_u64 C v). split; [exact H|]. now rewrite to_u16_u64.
  - intros (x & Hx & ->). now rewrite small16_u64 by now apply Hsmall.
Qed.
Lemma hole_in x : In x (rc_hole_list (C := C) so) -> exists v, (lo <= v <= hi)%N /\ x = e_u64 C v.
Proof using Hne.
  unfold rc_hole_list. rewrite in_app_iff. intros [H|H].
  - apply in_map_iff in H. destruct H as (v & <- & Hv). rewrite (rc_missing_in so v 0%N so_ascending so_ne) in Hv. exists v. tauto.
  - apply repeat_spec in H. subst x. exists hi. split; [|reflexivity]. pose proof (so_bounds hi hi_in). lia.
Qed.
Lemma covered v : (lo <= v <= hi)%N -> In (e_u64 C v) (cells OFF_COLUMNS rows) \/ In (e_u64 C v) (rc_hole_list (C := C) so).
Proof using HC Hne Hsmall.
  intro H. pose proof hi_small. destruct (in_dec N.eq_dec v so) as [I|I].
  - left. apply step_offset_in; [lia|exact I].
  - right. unfold rc_hole_list. apply in_or_app. left. apply in_map. apply (rc_missing_in so v 0%N so_ascending so_ne). auto.
Qed.
End Rows.
End Offsets.
