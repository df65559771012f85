(** Trace tables and frames: row and column views. *)
From Coq Require Import List Arith Lia Bool.
From Verif.Base Require Import Outcome.
From Verif.Model Require Import Codec Trace.
From Verif.Proofs Require Import OutcomeFacts.
Import ListNotations.

Section Lists.
Context {A : Type}.
Implicit Types (rows : list (list A)).

Lemma concat_length_const rows c : Forall (fun r => length r = c) rows -> length (concat rows) = length rows * c.
Proof. induction 1 as [|r rows Hr _ IH]; [reflexivity|]. cbn [concat length]. rewrite app_length, IH, Hr. lia. Qed.

Lemma concat_skip rows c k : Forall (fun r => length r = c) rows -> skipn (k * c) (concat rows) = concat (skipn k rows).
Proof.
  intro H. revert k; induction H as [|r rows Hr _ IH]; intro k; [now rewrite !skipn_nil|].
  destruct k as [|k]; [reflexivity|]. cbn [concat skipn Nat.mul]. rewrite <- IH.
  rewrite skipn_app, Hr. replace (c + k * c - c) with (k * c) by lia.
  rewrite skipn_all2 by lia. reflexivity.
Qed.

Lemma concat_row rows c k : Forall (fun r => length r = c) rows -> k < length rows ->
  firstn c (skipn (k * c) (concat rows)) = nth k rows [].
Proof.
  intros H Hk. rewrite concat_skip by exact H.
  rewrite <- (firstn_skipn k rows) in H. apply Forall_app in H. destruct H as [_ H].
  destruct (skipn k rows) as [|r rs] eqn:E.
  { apply (f_equal (@length _)) in E. rewrite skipn_length in E. cbn in E. lia. }
  inversion H as [|? ? Hr ?]; subst. cbn [concat]. rewrite firstn_app, Nat.sub_diag, firstn_all, firstn_O, app_nil_r.
  rewrite <- (firstn_skipn k rows), E, app_nth2; rewrite firstn_length_le by lia; [|lia]. now rewrite Nat.sub_diag.
Qed.

Lemma concat_slice rows c k : Forall (fun r => length r = c) rows -> k < length rows ->
  slice (concat rows) (k * c) (k * c + c) = Ok (nth k rows []).
Proof.
  intros H Hk. rewrite slice_in.
  - replace (k * c + c - k * c) with c by lia. now rewrite concat_row.
  - lia.
  - rewrite (concat_length_const _ c H). nia.
Qed.

Lemma nth_error_skipn' (l : list A) k i : nth_error (skipn k l) i = nth_error l (k + i).
Proof. revert l; induction k as [|k IH]; intro l; [reflexivity|]. destruct l; cbn; [now destruct i|apply IH]. Qed.

Lemma nth_error_firstn' (l : list A) k i : i < k -> nth_error (firstn k l) i = nth_error l i.
Proof. revert l i; induction k as [|k IH]; intros l i H; [lia|]. destruct l; [now destruct i|]. destruct i; [reflexivity|]. cbn. apply IH. lia. Qed.

Lemma concat_idx rows c k j : Forall (fun r => length r = c) rows -> k < length rows -> j < c ->
  idx (concat rows) (k * c + j) = idx (nth k rows []) j.
Proof.
  intros H Hk Hj. unfold idx. rewrite <- (concat_row rows c k H Hk), nth_error_firstn', nth_error_skipn' by lia.
  reflexivity.
Qed.

Lemma concat_idx_out rows c k j : Forall (fun r => length r = c) rows -> length rows <= k ->
  idx (concat rows) (k * c + j) = Panic.
Proof. intros H Hk. apply idx_panic. rewrite (concat_length_const _ c H). nia. Qed.

Lemma every_app_skip s k (l : list A) : every s k l = every s 0 (skipn k l).
Proof. revert k; induction l as [|a l IH]; intros [|k]; cbn; try reflexivity. apply IH. Qed.

(** [step_by] on a table picks one element per row. *)
Lemma every_concat rows c j d : Forall (fun r => length r = c) rows -> j < c ->
  every c 0 (skipn j (concat rows)) = map (fun r => nth j r d) rows.
Proof.
  intros H Hj. induction H as [|r rows Hr Hrs IH]; [now rewrite skipn_nil|].
  cbn [concat map]. rewrite skipn_app, Hr. replace (j - c) with 0 by lia. cbn [skipn].
  assert (E : skipn j r = nth j r d :: skipn (S j) r).
  { rewrite <- Hr in Hj. clear -Hj. revert j Hj; induction r as [|x r IH]; intros j Hj; [cbn in Hj; lia|].
    destruct j; [reflexivity|]. cbn. apply IH. cbn in Hj. lia. }
  rewrite E. cbn [app every]. f_equal. rewrite every_app_skip.
  rewrite skipn_app, skipn_length, Hr.
  rewrite skipn_all2 by (rewrite skipn_length; lia). cbn [app].
  replace (c - 1 - (c - S j)) with j by lia. exact IH.
Qed.
End Lists.

Section Tables.
Context {A : Type}.

(** [t] is the row-major flattening of [rows]. *)
Definition is_table (t : trace_table A) (rows : list (list A)) : Prop :=
  0 < tt_n_cols t /\ tt_table t = concat rows /\ Forall (fun r => length r = tt_n_cols t) rows.

Lemma table_n_rows t rows : is_table t rows -> tt_n_rows t = length rows.
Proof.
  intros (Hc & Ht & H). unfold tt_n_rows. destruct (Nat.eqb_spec (tt_n_cols t) 0); [lia|].
  rewrite Ht, (concat_length_const _ _ H). now apply Nat.div_mul.
Qed.

Lemma table_row t rows k : is_table t rows -> k < length rows -> tt_get_row t k = Ok (nth k rows []).
Proof. intros (Hc & Ht & H) Hk. unfold tt_get_row. rewrite Ht. now apply concat_slice. Qed.

Lemma map_nth_seq {B} (l : list B) d : map (fun i => nth i l d) (seq 0 (length l)) = l.
Proof.
  induction l as [|a l IH]; [reflexivity|]. cbn [length seq map nth]. f_equal.
  rewrite <- seq_shift, map_map. exact IH.
Qed.

Lemma table_rows t rows : is_table t rows -> tt_rows t = Ok rows.
Proof.
  intros Ht. unfold tt_rows. rewrite (table_n_rows _ _ Ht).
  rewrite (traverse_map _ (fun k => nth k rows [])); [now rewrite map_nth_seq|].
  intros k Hk. apply in_seq in Hk. apply (table_row _ _ _ Ht). lia.
Qed.

Lemma table_get t rows k j : is_table t rows -> k < length rows -> j < tt_n_cols t ->
  tt_get t k j = idx (nth k rows []) j.
Proof. intros (Hc & Ht & H) Hk Hj. unfold tt_get. rewrite Ht. now apply concat_idx. Qed.

Lemma table_cols t rows d : is_table t rows ->
  tt_cols t = Ok (map (fun j => map (fun r => nth j r d) rows) (seq 0 (tt_n_cols t))).
Proof.
  intros Ht. unfold tt_cols. apply traverse_map. intros j Hj. apply in_seq in Hj.
  rewrite (table_n_rows _ _ Ht).
  rewrite (traverse_map _ (fun k => nth j (nth k rows []) d)).
  - f_equal. rewrite <- (map_nth_seq rows []) at 2. now rewrite map_map.
  - intros k Hk. apply in_seq in Hk. change (idx (tt_table t) (k * tt_n_cols t + j)) with (tt_get t k j).
    rewrite (table_get _ _ _ _ Ht) by lia. apply idx_nth.
    destruct Ht as (_ & _ & H). rewrite Forall_forall in H. rewrite H; [lia|]. apply nth_In. lia.
Qed.

Lemma table_get_cols t rows cs d : is_table t rows -> cs <> [] -> (forall c, In c cs -> c < tt_n_cols t) ->
  exists t', tt_get_cols t cs = Ok t' /\ is_table t' (map (fun r => map (fun c => nth c r d) cs) rows) /\
    tt_n_cols t' = length cs.
Proof.
  intros Ht Hne Hcs. unfold tt_get_cols. rewrite (table_n_rows _ _ Ht).
  rewrite (traverse_map _ (fun k => map (fun c => nth c (nth k rows []) d) cs)).
  - cbn [obind]. eexists. split; [reflexivity|]. split; [|reflexivity]. split; [|split].
    + cbn. destruct cs; [congruence|cbn; lia].
    + cbn [tt_table]. f_equal. rewrite <- (map_nth_seq rows []) at 2. now rewrite map_map.
    + apply Forall_forall. intros r Hr. apply in_map_iff in Hr. destruct Hr as (r0 & <- & _). apply map_length.
  - intros k Hk. apply in_seq in Hk. apply traverse_map. intros c Hc. specialize (Hcs c Hc).
    change (idx (tt_table t) (k * tt_n_cols t + c)) with (tt_get t k c).
    rewrite (table_get _ _ _ _ Ht) by lia. apply idx_nth.
    destruct Ht as (_ & _ & H). rewrite Forall_forall in H. rewrite H; [lia|]. apply nth_In. lia.
Qed.

(** Transposition. *)
Definition transpose (cols : list (list A)) (n : nat) (d : A) : list (list A) :=
  map (fun i => map (fun c => nth i c d) cols) (seq 0 n).

Lemma transpose_table cols n d : cols <> [] -> is_table (mk_trace (concat (transpose cols n d)) (length cols)) (transpose cols n d).
Proof.
  intros H. split; [destruct cols; [congruence|cbn; lia]|]. split; [reflexivity|].
  apply Forall_forall. intros r Hr. apply in_map_iff in Hr. destruct Hr as (i & <- & _). apply map_length.
Qed.

Lemma new_from_cols_ok c0 cols d : (forall c, In c cols -> length c0 <= length c) ->
  tt_new_from_cols (c0 :: cols) = Ok (mk_trace (concat (transpose (c0 :: cols) (length c0) d)) (length (c0 :: cols))).
Proof.
  intros H. unfold tt_new_from_cols. cbn [idx nth_error unwrap obind].
  rewrite (traverse_map _ (fun i => map (fun c => nth i c d) (c0 :: cols))); [reflexivity|].
  intros i Hi. apply in_seq in Hi. apply traverse_map. intros c [<-|Hc]; apply idx_nth; [lia|].
  specialize (H c Hc). lia.
Qed.

Lemma traverse_panic {B C} (f : B -> outcome C) l : (exists a, In a l /\ f a = Panic) ->
  (forall a, In a l -> f a = Panic \/ exists b, f a = Ok b) -> traverse f l = Panic.
Proof.
  induction l as [|a l IH]; intros (x & Hx & Hp) H; [destruct Hx|]. cbn [traverse].
  destruct (H a) as [E|[b E]]; [now left|now rewrite E|]. rewrite E. cbn [obind].
  destruct Hx as [->|Hx]; [congruence|]. rewrite IH; [reflexivity|eauto|]. intros; apply H; now right.
Qed.

Lemma new_from_cols_panic (c0 : list A) cols : (exists c, In c cols /\ length c < length c0) ->
  tt_new_from_cols (c0 :: cols) = Panic.
Proof.
  intros (c & Hc & Hlt). unfold tt_new_from_cols. cbn [idx nth_error unwrap obind].
  rewrite traverse_panic; [reflexivity| |].
  - exists (length c). split; [apply in_seq; lia|]. apply traverse_panic.
    + exists c. split; [now right|]. now apply idx_panic.
    + intros a _. unfold idx. destruct (nth_error a (length c)); cbn; eauto.
  - intros i _. clear. induction (c0 :: cols) as [|a l IH]; [right; cbn; eauto|].
    cbn [traverse]. unfold idx at 1 3. destruct (nth_error a i); cbn [unwrap obind]; [|now left].
    destruct IH as [->|[b ->]]; cbn [obind]; eauto.
Qed.

Lemma transpose_cols cols n d : cols <> [] -> (forall c, In c cols -> length c = n) ->
  tt_cols (mk_trace (concat (transpose cols n d)) (length cols)) = Ok cols.
Proof.
  intros Hne H. rewrite (table_cols _ _ d (transpose_table cols n d Hne)). f_equal. cbn [tt_n_cols].
  rewrite <- (map_nth_seq cols []) at 2. apply map_ext_in. intros j Hj. apply in_seq in Hj.
  unfold transpose. rewrite map_map.
  assert (Hn : length (nth j cols []) = n) by (apply H; apply nth_In; lia).
  rewrite <- (map_nth_seq (nth j cols []) d), Hn. apply map_ext. intro i.
  rewrite (nth_indep _ d (nth i [] d)) by (rewrite map_length; lia).
  now rewrite (map_nth (fun c => nth i c d)).
Qed.

(** Concatenation of a table with row-major extra columns. *)
Lemma every_nat_seq c n s : 0 < c -> every c 0 (seq s (n * c)) = map (fun i => s + i * c) (seq 0 n).
Proof.
  intro Hc. revert s; induction n as [|n IH]; intro s; [reflexivity|].
  cbn [Nat.mul]. rewrite seq_app.
  destruct c as [|c]; [lia|]. cbn [seq app every]. replace (S c - 1) with c by lia.
  rewrite every_app_skip, skipn_app, seq_length, skipn_all2 by (rewrite seq_length; lia).
  rewrite Nat.sub_diag. cbn [skipn app map Nat.mul]. rewrite IH, <- seq_shift, map_map.
  f_equal; [lia|]. apply map_ext. intro. cbn. lia.
Qed.

Lemma table_concatenate t rows extra m : is_table t rows -> Forall (fun r => length r = m) extra ->
  length extra = length rows ->
  exists t', tt_concatenate t (concat extra) m = Ok t' /\
    is_table t' (map (fun ab => fst ab ++ snd ab) (combine rows extra)) /\ tt_n_cols t' = tt_n_cols t + m.
Proof.
  intros Ht Hx Hlen. pose proof Ht as (Hc & Htab & H). unfold tt_concatenate, step_by.
  destruct (tt_n_cols t) as [|c'] eqn:Ec; [lia|]. rewrite <- Ec in *. cbn [obind].
  rewrite Htab, (concat_length_const _ _ H), every_nat_seq by lia. rewrite map_length, seq_length.
  rewrite (traverse_map _ (fun ki : nat * nat => nth (fst ki) rows [] ++ nth (fst ki) extra [])).
  - cbn [obind]. eexists. split; [reflexivity|]. split; [|reflexivity]. split; [cbn; lia|]. cbn [tt_table tt_n_cols].
    assert (E : map (fun ki : nat * nat => nth (fst ki) rows [] ++ nth (fst ki) extra [])
                  (combine (seq 0 (length rows)) (map (fun i => 0 + i * tt_n_cols t) (seq 0 (length rows)))) =
                map (fun ab => fst ab ++ snd ab) (combine rows extra)).
    { rewrite <- (map_map fst (fun k => nth k rows [] ++ nth k extra [])).
      assert (F : forall (B C : Type) (l : list B) (f : B -> C), map fst (combine l (map f l)) = l).
      { intros B C l f. induction l; cbn; congruence. }
      rewrite F. clear -Hlen. revert extra Hlen; induction rows as [|r rows IH]; intros [|x extra] Hl; cbn in Hl; try lia; [reflexivity|].
      cbn [length seq map combine nth fst snd]. f_equal. rewrite <- seq_shift, map_map. apply IH. lia. }
    rewrite E. split; [reflexivity|]. apply Forall_forall. intros r Hr. apply in_map_iff in Hr.
    destruct Hr as ([a b] & <- & Hab). cbn [fst snd]. rewrite app_length.
    rewrite Forall_forall in H, Hx. rewrite (H a), (Hx b); [lia| |]; eauto using in_combine_l, in_combine_r.
  - intros [k i] Hki.
    assert (Hi : k < length rows /\ i = k * tt_n_cols t).
    { apply (In_nth _ _ (0, 0)) in Hki. destruct Hki as (q & Hq & E).
      rewrite combine_length, map_length, seq_length, Nat.min_id in Hq.
      rewrite combine_nth in E by (now rewrite map_length, seq_length).
      rewrite seq_nth in E by exact Hq.
      rewrite (nth_indep _ 0 (0 + 0 * tt_n_cols t)) in E by (rewrite map_length, seq_length; lia).
      rewrite (map_nth (fun i => 0 + i * tt_n_cols t)), seq_nth in E by exact Hq. inversion E; subst. cbn. lia. }
    destruct Hi as [Hk ->]. cbn [fst]. rewrite concat_slice by assumption. cbn [obind].
    rewrite concat_slice by (rewrite ?Hlen; assumption). reflexivity.
Qed.

(** Frames. *)
Lemma read_from_trace_ok t rows step blowup offsets : is_table t rows -> rows <> [] ->
  fr_read_from_trace t step blowup offsets =
  Ok (mk_frame (concat (map (fun o => nth ((step + o * blowup) mod length rows) rows []) offsets)) (tt_n_cols t)).
Proof.
  intros Ht Hne. assert (Hl : length rows <> 0) by (destruct rows; cbn; congruence).
  unfold fr_read_from_trace. rewrite (table_n_rows _ _ Ht).
  rewrite (traverse_map _ (fun o => nth ((step + o * blowup) mod length rows) rows [])); [reflexivity|].
  intros o _. destruct (Nat.eqb_spec (length rows) 0); [lia|]. apply (table_row _ _ _ Ht).
  now apply Nat.mod_upper_bound.
Qed.

Lemma frame_row (rs : list (list A)) c k : Forall (fun r => length r = c) rs -> k < length rs ->
  fr_get_row (mk_frame (concat rs) c) k = Ok (nth k rs []).
Proof. intros. unfold fr_get_row. cbn. now apply concat_slice. Qed.

Lemma frame_num_rows (rs : list (list A)) c : Forall (fun r => length r = c) rs -> 0 < c ->
  fr_num_rows (mk_frame (concat rs) c) = Ok (length rs).
Proof.
  intros H Hc. unfold fr_num_rows. cbn [fr_row_width fr_data]. destruct (Nat.eqb_spec c 0); [lia|].
  now rewrite (concat_length_const _ _ H), Nat.div_mul.
Qed.
End Tables.
