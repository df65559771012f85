(** The sorted columns, running products and constraints of an honestly built trace. *)
From Coq Require Import List Arith NArith ZArith Bool Lia Permutation Sorted.
From Verif.Base Require Import Outcome Field Poly.
From Verif.Model Require Import Codec PublicInputs Trace Air CairoDecode CairoTrace CairoAir.
From Verif.Spec Require Import CairoSpec CairoColumns CairoRun.
From Verif.Proofs Require Import FieldFacts PolyFacts OutcomeFacts FFTFacts TraceFacts BuildFacts MainTraceFacts SortFacts MainColsFacts DecodeFacts CairoAirFacts StepFacts HonestFacts SortedFacts RunnerFacts MultisetFacts WalkFacts AuxFacts.
Import ListNotations.
Local Open Scope felt_scope.

Section Steps01.
Context {A : Type} (key : A -> N).
(** An ascending list whose keys fill an interval moves by zero or one. *)
Lemma ascending_steps (l : list A) lo hi d k : ascending key l -> (forall v, (lo <= v <= hi)%N -> exists x, In x l /\ key x = v) ->
  (forall x, In x l -> (lo <= key x <= hi)%N) -> (k + 1 < length l)%nat ->
  key (nth (k + 1) l d) = key (nth k l d) \/ key (nth (k + 1) l d) = (key (nth k l d) + 1)%N.
Proof.
  intros As Cov Bd Hk. pose proof (ascending_nth key l d k (k + 1) As ltac:(lia)) as H1.
  destruct (N.eq_dec (key (nth (k + 1) l d)) (key (nth k l d))) as [->|N1]; [now left|]. right.
  destruct (N.eq_dec (key (nth (k + 1) l d)) (key (nth k l d) + 1)) as [->|N2]; [reflexivity|]. exfalso.
  pose proof (Bd _ (nth_In l d (n := k) ltac:(lia))) as B0. pose proof (Bd _ (nth_In l d Hk)) as B1.
  destruct (Cov (key (nth k l d) + 1)%N ltac:(lia)) as (x & Hx & Ex). apply (In_nth _ _ d) in Hx. destruct Hx as (j & Hj & <-).
  destruct (Nat.le_gt_cases j k).
  - pose proof (ascending_nth key l d j k As ltac:(lia)). lia.
  - pose proof (ascending_nth key l d (k + 1) j As ltac:(lia)). lia.
Qed.
Lemma ascending_first (l : list A) lo d : ascending key l -> (exists x, In x l /\ key x = lo) -> (forall x, In x l -> (lo <= key x)%N) -> key (nth 0 l d) = lo.
Proof.
  intros As (x & Hx & Ex) Bd. apply (In_nth _ _ d) in Hx. destruct Hx as (j & Hj & <-).
  pose proof (ascending_nth key l d 0 j As ltac:(lia)). pose proof (Bd _ (nth_In l d (n := 0) ltac:(lia))). lia.
Qed.
Lemma ascending_last (l : list A) hi d : ascending key l -> (exists x, In x l /\ key x = hi) -> (forall x, In x l -> (key x <= hi)%N) -> key (nth (length l - 1) l d) = hi.
Proof.
  intros As (x & Hx & Ex) Bd. apply (In_nth _ _ d) in Hx. destruct Hx as (j & Hj & <-).
  pose proof (ascending_nth key l d j (length l - 1) As ltac:(lia)). pose proof (Bd _ (nth_In l d (n := length l - 1) ltac:(lia))). lia.
Qed.
End Steps01.

Section Honest.
Context {C : cairo_env} {p : N} (HC : cairo_ok C p).
Let HK : field_ok C := fft_field_ok _ (e_fft_ok _ (co_env _ _ HC)).
Add Field Kfield42 : (fld_th C HK).

Lemma nth_firstn_lt {A} (l : list A) k i d : (i < k)%nat -> nth i (firstn k l) d = nth i l d.
Proof using Type. revert l i. induction k as [|k IH]; intros [|x l] [|i] H; try reflexivity; try lia. cbn [firstn nth]. apply IH. lia. Qed.
Lemma nth_skipn_add {A} (l : list A) k i d : nth i (skipn k l) d = nth (k + i) l d.
Proof using Type. revert l. induction k as [|k IH]; intros [|x l]; try reflexivity; [destruct i; reflexivity|]. exact (IH l). Qed.
Lemma compress_zeros (al : C) k : map (compress al) (repeat (0, 0) k) = repeat (0 : C) k.
Proof using HC. induction k as [|k IH]; [reflexivity|]. cbn [repeat map]. rewrite IH. f_equal. unfold compress. cbn [fst snd]. ring. Qed.
(** ** Memory pairs of rows *)
Definition row_pairs (r : list C) : list (C * C) := map (fun c => (nth c r 0, nth (c + 4) r 0)) [19; 20; 21; 22]%nat.
Lemma mem_entries_rows rows : mem_entries rows = flat_map row_pairs rows.
Proof using Type.
  unfold mem_entries. induction rows as [|r rows IH]; [reflexivity|]. rewrite !cells_cons, combine_app by reflexivity. cbn [flat_map]. now rewrite IH.
Qed.
Lemma mem_entries_app a b : mem_entries (a ++ b) = mem_entries a ++ @mem_entries C b.
Proof using Type. rewrite !mem_entries_rows. apply flat_map_app. Qed.
Lemma zero_pairs_row (r : list C) : (27 <= length r)%nat -> row_pairs (zero_mem r) = repeat (0, 0) 4.
Proof using Type. intro H. unfold row_pairs. cbn [map repeat]. rewrite !zero_mem_cell by exact H. reflexivity. Qed.
Lemma zero_rows_entries (r : list C) k : (27 <= length r)%nat -> mem_entries (repeat (zero_mem r) k) = repeat (0, 0) (4 * k).
Proof using Type.
  intro H. rewrite mem_entries_rows. induction k as [|k IH]; [reflexivity|]. cbn [repeat flat_map]. rewrite IH, zero_pairs_row by exact H.
  rewrite <- repeat_app. f_equal. lia.
Qed.
Lemma step_pairs m (s : step_data (C := C)) sel extra : step_ok m s -> unchanged s ->
  row_pairs (step_row s sel ++ extra) = [(e_u64 C (r_pc (sd_regs s)), sd_inst s); sd_dst s; sd_op0 s; sd_op1 s].
Proof using Type.
  intros H U. unfold row_pairs. cbn [map]. rewrite !(step_row_cell m) by exact H. unfold unchanged in U.
  destruct (sd_upd s) as [[a b] c]. cbn [fst] in U. injection U as -> ->. cbv zeta. cbn.
  now destruct (sd_dst s), (sd_op0 s), (sd_op1 s).
Qed.
Lemma rc_row_pairs w hs r : In r (rc_hole_rows w hs) -> forall e, In e (row_pairs r) -> e = (0 : C, 0 : C).
Proof using Type.
  intros Hr e He. apply in_map_iff in Hr. destruct Hr as (i & <- & _).
  assert (Z : forall c, (c < 27)%nat -> nth c (repeat (0 : C) OFF_DST ++ firstn 3 (skipn (3 * i) hs) ++ repeat 0 (w - 30)) 0 = 0).
  { intros c Hc. rewrite app_nth1 by (rewrite repeat_length; exact Hc). apply nth_repeat. }
  unfold row_pairs in He. apply in_map_iff in He. destruct He as (c & <- & Hc). cbn in Hc. rewrite !Z by lia. reflexivity.
Qed.
Lemma mem_row_pairs (row : list C) hs r e : (27 <= length row)%nat -> In r (mem_hole_rows row hs) -> In e (row_pairs r) ->
  In e (row_pairs row) \/ exists k, (k < length hs)%nat /\ e = (nth k hs 0, nth (23 + k mod 4) row 0).
Proof using Type.
  intros H Hr He. apply in_map_iff in Hr. destruct Hr as (j & <- & Hj). apply in_seq in Hj.
  unfold row_pairs in He. apply in_map_iff in He. destruct He as (c & <- & Hc).
  assert (L : (length (firstn 4 (skipn (4 * j) hs)) = Nat.min 4 (length hs - 4 * j))%nat) by (rewrite firstn_length, skipn_length; lia).
  assert (Hc' : (19 <= c <= 22)%nat) by (cbn in Hc; lia).
  rewrite (patch_other _ _ _ (c + 4)) by (unfold FRAME_PC; lia). rewrite patch_nth by (unfold FRAME_PC; lia).
  destruct (Nat.ltb_spec c FRAME_PC) as [B|_]; [unfold FRAME_PC in B; lia|].
  destruct (Nat.ltb_spec c (FRAME_PC + length (firstn 4 (skipn (4 * j) hs)))) as [B|B].
  - right. exists (4 * j + (c - 19))%nat. unfold FRAME_PC in *. split; [lia|].
    rewrite (Nat.mul_comm 4 j), Nat.add_comm with (n := (j * 4)%nat), Nat.mod_add, Nat.mod_small by lia. f_equal; [|f_equal; lia].
    rewrite nth_firstn_lt by lia. rewrite nth_skipn_add. f_equal. lia.
  - left. unfold row_pairs. apply in_map_iff. exists c. split; [reflexivity|exact Hc].
Qed.

Section Run.
Context (m : @cairo_memory C) (ss : list (step_data (C := C))) (extra : list (list C)) (codelen : nat).
Hypothesis (Hss : Forall (step_ok m) ss) (Hun : Forall unchanged ss) (Hne : ss <> []).
Let rows := build_rows ss extra.
Let w := (34 + length extra)%nat.
Let R := main_rows w codelen rows.
Let n := length R.

Let Wd : Forall (fun r => length r = w) rows := build_rows_width m ss extra Hss.
Let Rne : rows <> [] := build_rows_ne ss extra Hne.
Let W34 : (34 <= w)%nat := Nat.le_add_r 34 (length extra).
Let So : forall x, In x (cells OFF_COLUMNS rows) -> small16 x := step_offsets HC m ss extra Hss.
Let lo := nth 0 (sorted_u16s rows) 0%N.
Let hi := nth (length (sorted_u16s rows) - 1) (sorted_u16s rows) 0%N.

Lemma rows_n : (length ss <= n)%nat /\ (0 < n)%nat.
Proof using Hne.
  assert (L : (length ss <= n)%nat).
  { unfold n, R. rewrite main_rows_length. pose proof (next_pow2_le (n_filled w codelen rows)) as L.
    unfold n_filled at 1, rows_filled at 1 in L. rewrite !app_length in L. assert (E : length rows = length ss) by apply build_rows_length. lia. }
  split; [exact L|]. assert (G : length ss <> 0%nat) by (intro E; apply length_zero_iff_nil in E; contradiction). lia.
Qed.

(** ** Offsets *)
Lemma main_offset_values x : In x (cells OFF_COLUMNS R) <-> exists v, (lo <= v <= hi)%N /\ x = e_u64 C v.
Proof using HC Hss Hne.
  unfold R. rewrite (main_offsets_in w codelen rows Rne Wd W34 x). split.
  - intros [Hx|Hx].
    + destruct (So x Hx) as (v & Hv & ->). exists v. split; [|reflexivity]. apply (so_bounds rows). now apply (step_offset_in HC rows So).
    + now apply (hole_in rows Rne).
  - intros (v & Hv & ->). now apply (covered HC rows Rne So).
Qed.
Lemma hi_16 : (hi < 2 ^ 16)%N.
Proof using HC Hne. apply (hi_small rows Rne). Qed.
Lemma main_small x : In x (cells OFF_COLUMNS R) -> small16 x.
Proof using HC Hss Hne. rewrite main_offset_values. intros (v & Hv & ->). pose proof hi_16. exists v. split; [lia|reflexivity]. Qed.
Lemma main_u16s v : In v (sorted_u16s R) <-> (lo <= v <= hi)%N.
Proof using HC Hss Hne.
  pose proof hi_16 as H16. rewrite so_in. split.
  - intros (x & Hx & ->). apply main_offset_values in Hx. destruct Hx as (v & Hv & ->). now rewrite (to_u16_u64 HC) by lia.
  - intro Hv. exists (e_u64 C v). split; [apply main_offset_values; eauto|]. now rewrite (to_u16_u64 HC) by lia.
Qed.
Lemma rc_sorted_nth k : (k < 3 * n)%nat -> nth k (rc_sorted R) 0 = e_u64 C (nth k (sorted_u16s R) 0%N).
Proof using Type.
  intro Hk. unfold rc_sorted. rewrite (nth_indep _ 0 (e_u64 C 0)) by (rewrite map_length, so_length; exact Hk). apply map_nth.
Qed.
Lemma rc_first : nth 0 (rc_sorted R) 0 = e_u64 C lo.
Proof using HC Hss Hne.
  destruct rows_n as [_ Hn]. rewrite rc_sorted_nth by lia. f_equal. apply (ascending_first (fun v => v)); [apply so_ascending| |].
  - exists lo. split; [|reflexivity]. apply main_u16s. pose proof (so_bounds rows lo (lo_in rows Rne)). fold lo hi in H. lia.
  - intros x Hx. apply main_u16s in Hx. lia.
Qed.
Lemma rc_last : nth (3 * n - 1) (rc_sorted R) 0 = e_u64 C hi.
Proof using HC Hss Hne.
  destruct rows_n as [_ Hn]. rewrite rc_sorted_nth by lia. f_equal. replace (3 * n)%nat with (length (sorted_u16s R)) by apply so_length. apply (ascending_last (fun v => v)); [apply so_ascending| |].
  - exists hi. split; [|reflexivity]. apply main_u16s. pose proof (so_bounds rows hi (hi_in rows Rne)). fold lo hi in H. lia.
  - intros x Hx. apply main_u16s in Hx. lia.
Qed.
Lemma rc_steps k : (k + 1 < 3 * n)%nat -> nth (k + 1) (rc_sorted R) 0 = nth k (rc_sorted R) 0 \/ nth (k + 1) (rc_sorted R) 0 = nth k (rc_sorted R) 0 + 1.
Proof using HC Hss Hne.
  intro Hk. rewrite !rc_sorted_nth by lia.
  destruct (ascending_steps (fun v => v) (sorted_u16s R) lo hi 0%N k (so_ascending R)) as [E|E].
  - intros v Hv. exists v. split; [now apply main_u16s|reflexivity].
  - intros x Hx. now apply main_u16s.
  - rewrite so_length. exact Hk.
  - left. now rewrite E.
  - right. rewrite E, (co_add _ _ HC), (co_one _ _ HC). reflexivity.
Qed.
Lemma rc_perm : Permutation (rc_sorted R) (cells OFF_COLUMNS R).
Proof using HC Hss Hne.
  unfold rc_sorted, sorted_u16s. rewrite (sort_by_perm (fun x => x)). rewrite map_map.
  rewrite (map_ext_in _ (fun x => x)); [now rewrite map_id|]. intros x Hx. apply (small16_u64 HC). now apply main_small.
Qed.

(** ** Memory *)
Definition dummy_rows : nat := (codelen / 4 + 1 + (next_pow2 (n_filled w codelen rows) - n_filled w codelen rows))%nat.
Let filled := rows_filled w codelen rows.
Lemma main_entries : mem_entries R = mem_entries filled ++ repeat (0, 0) (4 * dummy_rows).
Proof using Hss Hne.
  unfold R, main_rows. rewrite mem_entries_app. fold dummy_rows. f_equal. apply zero_rows_entries.
  rewrite (last_filled_width w codelen rows Rne Wd W34). lia.
Qed.
Lemma dummies_enough : (codelen < 4 * dummy_rows)%nat.
Proof using Type. unfold dummy_rows. pose proof (Nat.div_mod codelen 4 ltac:(lia)). pose proof (Nat.mod_upper_bound codelen 4 ltac:(lia)). lia. Qed.
Lemma n_dummies : (4 * n = length (mem_entries filled) + 4 * dummy_rows)%nat.
Proof using Hss Hne. pose proof main_entries as E. apply (f_equal (@length _)) in E. rewrite app_length, repeat_length, mem_entries_length in E. exact E. Qed.
Lemma codelen_lt : (codelen < 4 * n)%nat.
Proof using Hss Hne. rewrite n_dummies. pose proof dummies_enough. lia. Qed.
(** The accesses kept when the public memory replaces the last [codelen] ones. *)
Definition kept : list (C * C) := mem_entries filled ++ repeat (0, 0) (4 * dummy_rows - codelen).
Lemma entries_kept : mem_entries R = kept ++ repeat (0, 0) codelen.
Proof using Hss Hne. rewrite main_entries. unfold kept. rewrite <- app_assoc, <- repeat_app. do 2 f_equal. pose proof dummies_enough. lia. Qed.
Lemma replaced_kept pub : length pub = codelen -> replaced R pub = kept ++ pub.
Proof using Hss Hne.
  intro L. unfold replaced. rewrite L. f_equal. fold n. rewrite entries_kept, firstn_app.
  assert (Lk : (length kept = 4 * n - codelen)%nat) by (unfold kept; rewrite app_length, repeat_length; pose proof n_dummies; pose proof dummies_enough; lia).
  rewrite Lk, Nat.sub_diag, firstn_all2 by lia. cbn [firstn]. apply app_nil_r.
Qed.

(** Where the kept accesses come from. *)
Definition step_access (e : C * C) : Prop := exists s, In s ss /\ In e [(e_u64 C (r_pc (sd_regs s)), sd_inst s); sd_dst s; sd_op0 s; sd_op1 s].
Let holes := mem_hole_list rows codelen.
Let lastp := last_row (rows ++ rows_rc w rows).
Lemma step_rows_pairs e : In e (mem_entries rows) <-> step_access e.
Proof using Hss Hun.
  pose proof (proj1 (Forall_forall _ _) Hss) as Ho. pose proof (proj1 (Forall_forall _ _) Hun) as Hu. rewrite mem_entries_rows, in_flat_map. split.
  - intros (r & Hr & He). unfold rows, build_rows in Hr. apply in_map_iff in Hr. destruct Hr as (i & <- & Hi). apply in_seq in Hi.
    exists (nth i ss sd0). assert (Hin : In (nth i ss sd0) ss) by (apply nth_In, Hi). split; [exact Hin|].
    fold (@sd0 C) in He. rewrite (step_pairs m) in He; [exact He|now apply Ho|now apply Hu].
  - intros (s & Hs & He). apply (In_nth _ _ sd0) in Hs. destruct Hs as (i & Hi & <-).
    exists (nth i rows []). split; [apply nth_In; unfold rows; now rewrite build_rows_length|].
    unfold rows. rewrite build_rows_nth by exact Hi. rewrite (step_pairs m); [exact He|apply Ho, nth_In, Hi|apply Hu, nth_In, Hi].
Qed.
Lemma prefix_pairs r e : In r (rows ++ rows_rc w rows) -> In e (row_pairs r) -> step_access e \/ e = (0, 0).
Proof using Hss Hun.
  intros Hr He. apply in_app_or in Hr. destruct Hr as [Hr|Hr].
  - left. apply step_rows_pairs. rewrite mem_entries_rows, in_flat_map. eauto.
  - right. exact (rc_row_pairs _ _ _ Hr e He).
Qed.
Lemma kept_cases e : In e kept -> step_access e \/ e = (0, 0) \/ exists k, (k < length holes)%nat /\ e = (nth k holes 0, nth (23 + k mod 4) lastp 0).
Proof using Hss Hun Hne.
  unfold kept. intro H. apply in_app_or in H. destruct H as [H|H]; [|apply repeat_spec in H; auto].
  rewrite mem_entries_rows, in_flat_map in H. destruct H as (r & Hr & He). unfold filled, rows_filled in Hr. rewrite app_assoc in Hr.
  apply in_app_or in Hr. destruct Hr as [Hr|Hr]; [destruct (prefix_pairs r e Hr He); auto|].
  unfold rows_mem in Hr. fold lastp holes in Hr.
  destruct (mem_row_pairs lastp holes r e) as [G|G]; [unfold lastp; rewrite (prefix_width w rows Rne Wd W34); lia|exact Hr|exact He| |auto].
  destruct (prefix_pairs lastp e) as [Z|Z]; [apply last_row_in; now apply app_ne|exact G|auto|auto].
Qed.
Lemma kept_steps e : step_access e -> In e kept.
Proof using Hss Hun.
  intro H. apply step_rows_pairs in H. unfold kept. apply in_or_app. left. unfold filled, rows_filled. rewrite mem_entries_app. apply in_or_app. now left.
Qed.
Lemma kept_zero : In (0, 0) kept.
Proof using Type.
  unfold kept. apply in_or_app. right. pose proof dummies_enough as D. destruct (4 * dummy_rows - codelen)%nat eqn:E; [lia|]. now left.
Qed.
Lemma kept_hole h : In h holes -> exists v, In (h, v) kept.
Proof using Hss Hne.
  intro H. apply (In_nth _ _ 0) in H. destruct H as (k & Hk & <-). exists (nth (23 + k mod 4) lastp 0).
  unfold kept. apply in_or_app. left. unfold filled, rows_filled. rewrite !mem_entries_app. do 2 (apply in_or_app; right).
  rewrite mem_entries_rows, in_flat_map. unfold rows_mem. fold lastp holes.
  assert (Wp : length lastp = w) by (unfold lastp; apply (prefix_width w rows Rne Wd W34)).
  exists (patch FRAME_PC lastp (firstn 4 (skipn (4 * (k / 4)) holes))).
  pose proof (Nat.div_mod k 4 ltac:(lia)) as D. pose proof (Nat.mod_upper_bound k 4 ltac:(lia)) as B.
  split.
  - unfold mem_hole_rows. apply in_map_iff. exists (k / 4)%nat. split; [reflexivity|]. apply in_seq. unfold div_ceil.
    split; [lia|]. pose proof (Nat.div_mod (length holes + 3) 4 ltac:(lia)). pose proof (Nat.mod_upper_bound (length holes + 3) 4 ltac:(lia)).
    replace (length holes + 4 - 1)%nat with (length holes + 3)%nat by lia. lia.
  - assert (L : (length (firstn 4 (skipn (4 * (k / 4)) holes)) = Nat.min 4 (length holes - 4 * (k / 4)))%nat) by (rewrite firstn_length, skipn_length; lia).
    unfold row_pairs. apply in_map_iff. exists (19 + k mod 4)%nat. split.
    2:{ remember (k mod 4) as q. clear -B. do 4 (destruct q as [|q]; [cbn; tauto|]). lia. }
    rewrite (patch_other _ _ _ (19 + k mod 4 + 4)) by (unfold FRAME_PC; lia). rewrite patch_nth by (unfold FRAME_PC; lia).
    destruct (Nat.ltb_spec (19 + k mod 4) FRAME_PC) as [Z|_]; [unfold FRAME_PC in Z; lia|].
    destruct (Nat.ltb_spec (19 + k mod 4) (FRAME_PC + length (firstn 4 (skipn (4 * (k / 4)) holes)))) as [_|Z]; [|unfold FRAME_PC in Z; lia].
    f_equal; [|f_equal; lia]. change FRAME_PC with 19%nat. rewrite nth_firstn_lt by lia. rewrite nth_skipn_add. f_equal. lia.
Qed.

(** ** Holes *)
Lemma step_addr x : In x (sorted_addrs rows) <-> exists e, step_access e /\ fst e = x.
Proof using Hss Hun.
  assert (E : In x (sorted_addrs rows) <-> In x (cells ADDR_COLUMNS rows)).
  { unfold sorted_addrs. split; intro H; [apply (Permutation_in _ (sort_by_perm ce_repr _)), H|apply (Permutation_in _ (Permutation_sym (sort_by_perm ce_repr _))), H]. }
  rewrite E. rewrite <- (combine_fst (cells ADDR_COLUMNS rows) (cells VAL_COLUMNS rows)) by (rewrite addr_cells_length, val_cells_length; reflexivity).
  rewrite in_map_iff. split; intros (e & H1 & H2); exists e; (split; [|exact H1 || apply step_rows_pairs; exact H1]); [now apply step_rows_pairs in H2|exact H2].
Qed.
Lemma sorted_addrs_first x : In x (sorted_addrs rows) -> (ce_repr (nth 0 (sorted_addrs rows) fzero) <= ce_repr x)%N.
Proof using Type.
  intro H. apply (In_nth _ _ 0) in H. destruct H as (j & Hj & <-). apply (ascending_nth ce_repr); [apply sort_by_ascending|]. clear -Hj. lia.
Qed.
Lemma first_addr_in : In (nth 0 (sorted_addrs rows) 0) (sorted_addrs rows).
Proof using Hne.
  apply nth_In. unfold sorted_addrs. rewrite sort_by_length, addr_cells_length. assert (E : length rows = length ss) by apply build_rows_length. rewrite E.
  clear -Hne. destruct ss; [congruence|cbn; lia].
Qed.
Lemma hole_iff x : In x holes <-> (N.of_nat codelen < ce_repr x)%N /\ (exists e, step_access e /\ (ce_repr (fst e) <= ce_repr x)%N) /\
  (exists e, step_access e /\ (ce_repr x < ce_repr (fst e))%N) /\ ~ (exists e, step_access e /\ fst e = x).
Proof using HC Hss Hun Hne.
  unfold holes, mem_hole_list. rewrite (holes_from_in HC).
  2:{ constructor; [apply sort_by_ascending|]. apply Forall_forall. intros y Hy. now apply sorted_addrs_first. }
  split; intros (H1 & H2 & H3 & H4); (split; [exact H1|]).
  - split; [|split].
    + destruct (proj1 (step_addr _) first_addr_in) as (e & He & Ee). exists e. split; [exact He|]. now rewrite Ee.
    + destruct H3 as (b & Hb & Hlt). apply step_addr in Hb. destruct Hb as (e & He & <-). eauto.
    + intro Z. apply H4. right. now apply step_addr.
  - split; [|split].
    + destruct H2 as (e & He & Le). pose proof (sorted_addrs_first (fst e) (proj2 (step_addr _) (ex_intro _ e (conj He eq_refl)))). clear -H Le. lia.
    + destruct H3 as (e & He & Hlt). exists (fst e). split; [|exact Hlt]. apply step_addr. eauto.
    + intro Z. apply H4. apply step_addr. destruct Z as [<-|Z]; [apply first_addr_in|exact Z].
Qed.
Lemma holes_nodup : NoDup holes.
Proof using HC.
  unfold holes, mem_hole_list. apply (holes_from_nodup HC). constructor; [apply sort_by_ascending|]. apply Forall_forall. intros y Hy. now apply sorted_addrs_first.
Qed.

Definition in_memory (e : C * C) : Prop := exists i, (i < 2 ^ 64)%N /\ fst e = e_u64 C i /\ mem_get m i = Some (snd e).
Lemma in_memory_functional e e' : in_memory e -> in_memory e' -> fst e = fst e' -> snd e = snd e'.
Proof using HC.
  intros (i & Hi & Ei & Mi) (j & Hj & Ej & Mj) E. rewrite Ei, Ej in E.
  apply (u64_inj HC) in E; [subst j; congruence|clear -Hi HC|clear -Hj HC]; pose proof (co_p _ _ HC) as P;
    change (2 ^ 65)%N with 36893488147419103232%N in P; change (2 ^ 64)%N with 18446744073709551616%N in *; lia.
Qed.
Lemma kept_single_valued pub : (forall e, step_access e -> in_memory e) -> (forall e, In e pub -> in_memory e) ->
  (mem_get m 0 = None \/ mem_get m 0 = Some 0) -> (forall e, In e pub -> ~ In (fst e) holes) ->
  forall e e', In e (kept ++ pub) -> In e' (kept ++ pub) -> fst e = fst e' -> snd e = snd e'.
Proof using HC Hss Hun Hne.
  intros Hst Hpb H0 Hph.
  assert (Cs : forall e, In e (kept ++ pub) -> (in_memory e /\ ~ In (fst e) holes) \/ e = (0, 0) \/ exists k, (k < length holes)%nat /\ e = (nth k holes 0, nth (23 + k mod 4) lastp 0)).
  { intros e He. apply in_app_or in He. destruct He as [He|He]; [|left; split; [now apply Hpb|now apply Hph]].
    apply kept_cases in He. destruct He as [He|He]; [|now right]. left. split; [now apply Hst|]. rewrite hole_iff. intros (_ & _ & _ & Z). apply Z. eauto. }
  assert (Hz : forall e, in_memory e -> fst e = 0 -> snd e = 0).
  { intros e (i & Hi & Ei & Mi) E. rewrite Ei, <- (co_zero _ _ HC) in E.
    apply (u64_inj HC) in E; [subst i; destruct H0; congruence|clear -Hi HC|clear -HC]; pose proof (co_p _ _ HC) as P;
      change (2 ^ 65)%N with 36893488147419103232%N in P; change (2 ^ 64)%N with 18446744073709551616%N in *; lia. }
  assert (Hh0 : forall k, (k < length holes)%nat -> nth k holes 0 <> 0).
  { intros k Hk E. assert (Z : In (nth k holes 0) holes) by now apply nth_In. apply hole_iff in Z. destruct Z as (Z & _). rewrite E in Z.
    rewrite <- (co_zero _ _ HC), (co_repr_u64 _ _ HC), N.mod_0_l in Z; [clear -Z; lia|]. pose proof (co_p _ _ HC) as P. clear -P. change (2 ^ 65)%N with 36893488147419103232%N in P. lia. }
  intros e e' He He' E. destruct (Cs e He) as [[M1 N1]|[->|(k & Hk & ->)]], (Cs e' He') as [[M2 N2]|[->|(k' & Hk' & ->)]]; cbn [fst snd] in *.
  - now apply in_memory_functional.
  - now apply Hz.
  - exfalso. apply N1. rewrite E. now apply nth_In.
  - symmetry. apply Hz; [exact M2|now symmetry].
  - reflexivity.
  - exfalso. now apply (Hh0 k' Hk').
  - exfalso. apply N2. rewrite <- E. now apply nth_In.
  - exfalso. now apply (Hh0 k Hk).
  - assert (k = k') by (apply (proj1 (NoDup_nth holes 0) holes_nodup); assumption). now subst.
Qed.
Lemma list_max (l : list (C * C)) : l <> [] -> exists e, In e l /\ forall e', In e' l -> (ce_repr (fst e') <= ce_repr (fst e))%N.
Proof using Type.
  clear. induction l as [|x l IH]; [congruence|]. intros _. destruct l as [|y l].
  - exists x. split; [now left|]. intros e' [<-|[]]. lia.
  - destruct (IH ltac:(discriminate)) as (e & He & Hmax). destruct (N.le_gt_cases (ce_repr (fst x)) (ce_repr (fst e))).
    + exists e. split; [now right|]. intros e' [<-|He']; [assumption|now apply Hmax].
    + exists x. split; [now left|]. intros e' [<-|He']; [lia|]. specialize (Hmax e' He'). lia.
Qed.
Lemma kept_interval pub : (exists e, step_access e /\ (ce_repr (fst e) <= N.of_nat codelen + 1)%N) ->
  (forall e, In e pub -> (ce_repr (fst e) <= N.of_nat codelen)%N \/ exists e', step_access e' /\ fst e' = fst e) ->
  (forall x, (x <= N.of_nat codelen)%N -> (exists e, In e (kept ++ pub) /\ (x < ce_repr (fst e))%N) -> exists e, In e (kept ++ pub) /\ ce_repr (fst e) = x) ->
  exists M, (forall x, (x <= M)%N -> exists e, In e (kept ++ pub) /\ ce_repr (fst e) = x) /\
  (forall e, In e (kept ++ pub) -> (ce_repr (fst e) <= M)%N).
Proof using HC Hss Hun Hne.
  intros (e0 & He0 & Hf) Hpb Hlow. destruct (list_max (kept ++ pub)) as (em & Hem & Hmax).
  { intro Z. pose proof kept_zero as K. apply app_eq_nil in Z. destruct Z as [Z _]. rewrite Z in K. destruct K. }
  exists (ce_repr (fst em)). split; [|exact Hmax]. intros x Hx.
  destruct (N.eq_dec x (ce_repr (fst em))) as [->|Nx]; [eauto|].
  destruct (N.le_gt_cases x (N.of_nat codelen)) as [Lx|Lx].
  { apply Hlow; [exact Lx|]. exists em. split; [exact Hem|]. clear -Hx Nx. lia. }
  assert (Hs : exists e, step_access e /\ (ce_repr (fst em) <= ce_repr (fst e))%N).
  { apply in_app_or in Hem. destruct Hem as [He|He].
    - apply kept_cases in He. destruct He as [He|[He|(k & Hk & He)]].
      + exists em. split; [exact He|]. clear. lia.
      + subst em. cbn [fst] in *. rewrite <- (co_zero _ _ HC), (co_repr_u64 _ _ HC), N.mod_0_l in Hx, Nx; [clear -Hx Nx; lia|..];
          pose proof (co_p _ _ HC) as P; clear -P; change (2 ^ 65)%N with 36893488147419103232%N in P; lia.
      + assert (Z : In (nth k holes 0) holes) by now apply nth_In. apply hole_iff in Z. destruct Z as (_ & _ & (e & He' & Hlt) & _).
        exists e. split; [exact He'|]. rewrite He. cbn [fst]. clear -Hlt. lia.
    - destruct (Hpb em He) as [Z|(e' & He' & E)]; [clear -Z Hx Lx; lia|]. exists e'. split; [exact He'|]. rewrite E. clear. lia. }
  destruct Hs as (es & Hes & Ges).
  assert (Hrx : ce_repr (e_u64 C x) = x).
  { rewrite (co_repr_u64 _ _ HC). apply N.mod_small. pose proof (co_repr_lt _ _ HC (fst em)) as Z. clear -Z Hx. lia. }
  assert (Dec : (exists e, step_access e /\ fst e = e_u64 C x) \/ ~ (exists e, step_access e /\ fst e = e_u64 C x)).
  { rewrite <- step_addr. destruct (in_dec (feq_dec HK) (e_u64 C x) (sorted_addrs rows)); tauto. }
  destruct Dec as [(e & He & Ee)|Hnot].
  - exists e. split; [apply in_or_app; left; now apply kept_steps|]. now rewrite Ee.
  - destruct (kept_hole (e_u64 C x)) as (vv & Hv).
    + apply hole_iff. rewrite Hrx. split; [exact Lx|]. split; [exists e0; split; [exact He0|clear -Hf Lx; lia]|]. split; [|exact Hnot].
      exists es. split; [exact Hes|]. clear -Ges Hx Nx. lia.
    + exists (e_u64 C x, vv). split; [apply in_or_app; now left|exact Hrx].
Qed.

(** ** Constraints *)
Section Constraints.
Context (pi : public_inputs C) (ch : cairo_challenges C) (pub : list (C * C)).
Hypothesis (Hoff : w = (43 - builtin_offset pi)%nat) (Hpub : length pub = codelen).
Hypothesis (Hm : forall e, In e (sorted_mem R pub) -> factor ch e <> 0) (Hr : forall x, In x (rc_sorted R) -> z_range_check ch - x <> 0).
Let cols := full_cols w R pub ch.
Let srt := sorted_mem R pub.

Lemma pub_fits : (length pub <= 4 * n)%nat.
Proof using Hss Hne Hpub. rewrite Hpub. apply Nat.lt_le_incl, codelen_lt. Qed.
Lemma srt_length : length srt = (4 * n)%nat.
Proof using Hss Hne Hpub. apply sorted_mem_length. exact pub_fits. Qed.
Lemma srt_perm : Permutation srt (kept ++ pub).
Proof using Hss Hne Hpub. unfold srt, sorted_mem. rewrite (sort_by_perm _), replaced_kept by exact Hpub. reflexivity. Qed.
Lemma srt_ascending : ascending (fun e => ce_repr (fst e)) srt.
Proof using Type. apply sort_by_ascending. Qed.

Lemma honest_rc_order j : (43 <= j < 46)%nat -> holds pi ch cols n j.
Proof using HC Hss Hne Hoff.
  apply steps_offset. intros k Hk. unfold cols. rewrite !(read_sorted_offset pi R pub ch w Hoff) by (fold n; clear Hpub; lia).
  destruct (rc_steps k Hk) as [->| ->]; ring.
Qed.

Let so := sorted_offset pi cols. Let g := rc_product pi cols. Let oc := offset_cell cols. Let zr := z_range_check ch.
Lemma rc_products k : (k < 3 * n)%nat -> (zr - so k) * g k = (zr - oc k) * match k with O => 1 | S k' => g k' end.
Proof using HC Hr Hoff.
  clear Hpub. intro Hk. pose proof (rc_column_step HC ch (cells OFF_COLUMNS R) (rc_sorted R) k) as S. rewrite off_cells_length, rc_sorted_length in S.
  specialize (S eq_refl Hk Hr). unfold so, g, oc, cols. rewrite (read_sorted_offset pi R pub ch w Hoff), (read_offset pi R pub ch w Hoff), (read_rc_product pi R pub ch w Hoff) by exact Hk.
  destruct k as [|k]; [|rewrite (read_rc_product pi R pub ch w Hoff) by (fold n; lia)]; fold zr in S;
  rewrite (Rmul_comm (F_R (fld_th C HK))), S; apply (Rmul_comm (F_R (fld_th C HK))).
Qed.
Lemma rc_running : running so oc g zr (3 * n).
Proof using HC Hr Hoff.
  clear Hpub. intros k Hk. rewrite rc_products by exact Hk. rewrite Nat.add_comm. cbn [Nat.add]. ring.
Qed.
Lemma upto_list (f : nat -> C) l k : length l = k -> (forall i, (i < k)%nat -> f i = nth i l 0) -> upto f k = l.
Proof using Type.
  clear Hpub. intros L H. apply (nth_ext _ _ 0 0); [unfold upto; now rewrite map_length, seq_length|].
  unfold upto. rewrite map_length, seq_length. intros i Hi. rewrite nth_map_seq by exact Hi. now apply H.
Qed.
Lemma so_list : upto so (3 * n) = rc_sorted R.
Proof using HC Hoff. apply upto_list; [apply rc_sorted_length|]. intros i Hi. now apply read_sorted_offset. Qed.
Lemma oc_list : upto oc (3 * n) = cells OFF_COLUMNS R.
Proof using HC Hoff. apply upto_list; [apply off_cells_length|]. intros i Hi. now apply (read_offset pi). Qed.
Lemma rc_final : g (3 * n - 1)%nat = 1.
Proof using HC Hss Hne Hr Hoff.
  clear Hpub. destruct rows_n as [_ Hn]. assert (Hq : (zr - so 0%nat) * g 0%nat = zr - oc 0%nat) by (rewrite rc_products by lia; ring).
  pose proof (running_products HC so oc g zr (3 * n) rc_running Hq (3 * n - 1) ltac:(lia)) as P.
  replace (S (3 * n - 1)) with (3 * n)%nat in P by lia. rewrite so_list, oc_list in P.
  rewrite (vanish_permutation HK _ _ zr rc_perm) in P.
  assert (V : vanish (cells OFF_COLUMNS R) zr <> 0).
  { intro Z. apply (vanish_zero HK) in Z. apply (Permutation_in _ (Permutation_sym rc_perm)) in Z. apply (Hr _ Z). fold zr. ring. }
  apply (mul_cancel_l HK _ _ _ V). transitivity (g (3 * n - 1)%nat * vanish (cells OFF_COLUMNS R) zr); [ring|]. rewrite P. ring.
Qed.
Lemma honest_rc_product j : (46 <= j < 49)%nat -> holds pi ch cols n j.
Proof using HC Hss Hne Hr Hoff.
  clear Hpub. destruct rows_n as [_ Hn]. apply steps_offset_product. fold so g oc zr. intros k Hk.
  destruct (Nat.eq_dec (k + 1) (3 * n)) as [E|E].
  - rewrite E, Nat.mod_same by lia. rewrite rc_products by lia. replace k with (3 * n - 1)%nat by lia. rewrite rc_final. ring.
  - rewrite Nat.mod_small by lia. apply rc_running. lia.
Qed.

(** Memory products. *)
Let a := sorted_addr pi cols. Let v := sorted_value pi cols. Let q := mem_product pi cols.
Let oa := access_addr cols. Let ov := access_value cols. Let z := z_memory ch. Let al := alpha_memory ch.
Let sm k := compress al (a k, v k). Let om k := compress al (oa k, ov k).
Lemma mem_products k : (k < 4 * n)%nat -> (z - sm k) * q k = (z - om k) * match k with O => 1 | S k' => q k' end.
Proof using HC Hss Hne Hm Hoff Hpub.
  intro Hk. pose proof pub_fits as Fp. pose proof (mem_column_step HC ch (mem_entries R) (sorted_mem R pub) k) as S. rewrite mem_entries_length, sorted_mem_length in S by exact Fp.
  specialize (S eq_refl Hk Hm). unfold sm, om, a, v, oa, ov, q, cols.
  rewrite (read_sorted_entry pi R pub ch w Hoff k Hk Fp), (read_access_entry pi R pub ch w Hoff k Hk), (read_mem_product pi R pub ch w Hoff) by exact Hk.
  unfold factor in S. fold z al in S. fold (compress al (nth k (mem_entries R) (0, 0))) in S. fold (compress al (nth k (sorted_mem R pub) (0, 0))) in S.
  destruct k as [|k]; [|rewrite (read_mem_product pi R pub ch w Hoff) by (fold n; lia)];
  rewrite (Rmul_comm (F_R (fld_th C HK))), S; apply (Rmul_comm (F_R (fld_th C HK))).
Qed.
Lemma mem_running : running sm om q z (4 * n).
Proof using HC Hss Hne Hm Hoff Hpub. intros k Hk. rewrite mem_products by exact Hk. rewrite Nat.add_comm. cbn [Nat.add]. ring. Qed.
Lemma honest_mem_product j : (39 <= j < 43)%nat -> holds pi ch cols n j.
Proof using HC Hss Hne Hm Hoff Hpub. apply steps_product. fold a v q oa ov z al. intros k Hk. exact (mem_running k Hk). Qed.
Lemma sm_list : upto sm (4 * n) = map (compress al) srt.
Proof using HC Hss Hne Hoff Hpub.
  apply upto_list; [rewrite map_length; exact srt_length|]. intros i Hi. unfold sm, a, v, cols. rewrite (read_sorted_entry pi R pub ch w Hoff i Hi pub_fits).
  rewrite (nth_indep _ 0 (compress al (0, 0))) by (rewrite map_length, srt_length; exact Hi). symmetry. apply map_nth.
Qed.
Lemma om_list : upto om (4 * n) = map (compress al) (mem_entries R).
Proof using HC Hoff.
  apply upto_list; [rewrite map_length; apply mem_entries_length|]. intros i Hi. unfold om, oa, ov, cols. rewrite (read_access_entry pi R pub ch w Hoff i Hi).
  rewrite (nth_indep _ 0 (compress al (0, 0))) by (rewrite map_length, mem_entries_length; exact Hi). symmetry. apply map_nth.
Qed.
Lemma mem_final : q (4 * n - 1)%nat * fprod (map (factor ch) pub) = fpow z codelen.
Proof using HC Hss Hne Hm Hoff Hpub.
  destruct rows_n as [_ Hn]. assert (Hq : (z - sm 0%nat) * q 0%nat = z - om 0%nat) by (rewrite mem_products by lia; ring).
  pose proof (running_products HC sm om q z (4 * n) mem_running Hq (4 * n - 1) ltac:(lia)) as P.
  replace (S (4 * n - 1)) with (4 * n)%nat in P by lia. rewrite sm_list, om_list in P.
  rewrite (vanish_permutation HK _ _ z (Permutation_map (compress al) srt_perm)) in P.
  rewrite entries_kept in P. rewrite !map_app, !(vanish_app HK) in P.
  rewrite compress_zeros, vanish_repeat in P. replace (z - 0) with z in P by ring.
  assert (V : vanish (map (compress al) kept) z <> 0).
  { intro Z. apply (vanish_zero HK) in Z. apply in_map_iff in Z. destruct Z as (e & Ee & He).
    apply (Hm e); [apply (Permutation_in _ (Permutation_sym srt_perm)), in_or_app; now left|]. unfold factor. fold z al. fold (compress al e). rewrite Ee. ring. }
  assert (Ep : fprod (map (factor ch) pub) = vanish (map (compress al) pub) z) by (unfold vanish; now rewrite map_map).
  rewrite Ep. apply (mul_cancel_l HK _ _ _ V). rewrite <- P. ring.
Qed.

(** The order and single-value constraints, when the addresses fill an interval and carry one value each. *)
Lemma honest_memory M : (forall x, (x <= M)%N -> exists e, In e (kept ++ pub) /\ ce_repr (fst e) = x) ->
  (forall e, In e (kept ++ pub) -> (ce_repr (fst e) <= M)%N) ->
  (forall e e', In e (kept ++ pub) -> In e' (kept ++ pub) -> fst e = fst e' -> snd e = snd e') ->
  forall j, (31 <= j < 39)%nat -> holds pi ch cols n j.
Proof using HC Hss Hne Hoff Hpub.
  intros Cov Bd Sv. assert (St : forall k, (k + 1 < 4 * n)%nat ->
     (fst (nth (k + 1) srt (0, 0)) = fst (nth k srt (0, 0)) /\ snd (nth (k + 1) srt (0, 0)) = snd (nth k srt (0, 0))) \/
     fst (nth (k + 1) srt (0, 0)) = fst (nth k srt (0, 0)) + 1).
  { intros k Hk. pose proof srt_length as L.
    assert (Hin : forall i, (i < 4 * n)%nat -> In (nth i srt (0, 0)) (kept ++ pub)).
    { intros i Hi. apply (Permutation_in _ srt_perm). apply nth_In. lia. }
    destruct (ascending_steps (fun e => ce_repr (fst e)) srt 0 M (0, 0) k srt_ascending) as [E|E].
    - intros x Hx. destruct (Cov x ltac:(lia)) as (e & He & Ee). exists e. split; [|exact Ee]. apply (Permutation_in _ (Permutation_sym srt_perm)), He.
    - intros e He. split; [lia|]. apply Bd. apply (Permutation_in _ srt_perm), He.
    - lia.
    - left. apply (repr_ext HC) in E. split; [exact E|]. apply Sv; [apply Hin; lia..|exact E].
    - right. rewrite <- (co_u64_repr _ _ HC (fst (nth (k + 1) srt (0, 0)))), E, (co_add _ _ HC), (co_one _ _ HC), (co_u64_repr _ _ HC). reflexivity. }
  apply steps_memory; fold a v; intros k Hk; specialize (St k Hk);
    pose proof (read_sorted_entry pi R pub ch w Hoff k ltac:(fold n; lia) pub_fits) as Ek;
    pose proof (read_sorted_entry pi R pub ch w Hoff (k + 1) ltac:(fold n; lia) pub_fits) as Ek1; fold cols a v srt in Ek, Ek1;
    rewrite <- Ek, <- Ek1 in St; cbn [fst snd] in St; destruct St as [[E1 E2]|E1]; rewrite ?E1, ?E2; ring.
Qed.
End Constraints.
End Run.
End Honest.
