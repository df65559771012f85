(** C08, C09, C10: trace tables and evaluation frames. *)
From Coq Require Import List Arith Lia Bool.
From Verif.Base Require Import Outcome.
From Verif.Model Require Import Codec Trace.
From Verif.Proofs Require Import OutcomeFacts TraceFacts.
Import ListNotations.

(** C08: a table built from [n]-element columns gives back those columns, and its rows are the
    transposed columns, stored row after row. *)
Theorem C08_views_of_a_table_built_from_columns :
  forall (A : Type) (d : A) (cols : list (list A)) n,
    cols <> [] -> (forall c, In c cols -> length c = n) ->
    exists t, tt_new_from_cols cols = Ok t /\
      tt_n_cols t = length cols /\ tt_n_rows t = n /\
      tt_cols t = Ok cols /\
      (exists rows, tt_rows t = Ok rows /\ length rows = n /\ tt_table t = concat rows /\
         forall i, i < n -> tt_get_row t i = Ok (nth i rows []) /\ length (nth i rows []) = length cols /\
           forall j, j < length cols -> nth j (nth i rows []) d = nth i (nth j cols []) d) /\
      (forall i j, i < n -> j < length cols -> tt_get t i j = Ok (nth i (nth j cols []) d)) /\
      length (tt_table t) = n * length cols.
Proof.
  intros A d cols n Hne Hn. destruct cols as [|c0 cols]; [congruence|].
  assert (H0 : length c0 = n) by (apply Hn; now left).
  exists (mk_trace (concat (transpose (c0 :: cols) n d)) (length (c0 :: cols))).
  pose proof (transpose_table (c0 :: cols) n d Hne) as Ht.
  assert (Hlen : length (transpose (c0 :: cols) n d) = n) by (unfold transpose; now rewrite map_length, seq_length).
  assert (Hrow : forall i j, i < n -> j < length (c0 :: cols) ->
            nth j (nth i (transpose (c0 :: cols) n d) []) d = nth i (nth j (c0 :: cols) []) d).
  { intros i j Hi Hj. unfold transpose.
    rewrite (nth_indep _ [] (map (fun c => nth 0 c d) (c0 :: cols))) by (rewrite map_length, seq_length; exact Hi).
    rewrite (map_nth (fun i => map (fun c => nth i c d) (c0 :: cols))), seq_nth by exact Hi. cbn [Nat.add].
    rewrite (nth_indep _ d (nth i [] d)) by (rewrite map_length; exact Hj).
    exact (map_nth (fun c => nth i c d) (c0 :: cols) [] j). }
  assert (Hrl : forall i, i < n -> length (nth i (transpose (c0 :: cols) n d) []) = length (c0 :: cols)).
  { intros i Hi. destruct Ht as (_ & _ & HF). rewrite Forall_forall in HF. apply HF. apply nth_In. rewrite Hlen. exact Hi. }
  split. { rewrite (new_from_cols_ok c0 cols d), H0; [reflexivity|]. intros c Hc. rewrite (Hn c); [lia|now right]. }
  split; [reflexivity|]. split. { now rewrite (table_n_rows _ _ Ht). }
  split. { now apply transpose_cols. }
  split.
  { exists (transpose (c0 :: cols) n d). split; [now apply table_rows|]. split; [exact Hlen|]. split; [reflexivity|].
    intros i Hi. split; [apply (table_row _ _ _ Ht); now rewrite Hlen|]. split; [now apply Hrl|]. intros j Hj. now apply Hrow. }
  split.
  { intros i j Hi Hj. rewrite (table_get _ _ _ _ Ht) by (rewrite ?Hlen; assumption).
    rewrite (idx_nth _ _ d) by (rewrite Hrl by assumption; exact Hj). now rewrite Hrow. }
  destruct Ht as (_ & -> & HF). rewrite (concat_length_const _ _ HF), Hlen. reflexivity.
Qed.
Print Assumptions C08_views_of_a_table_built_from_columns.

(** C08: construction panics exactly when there is no column or some column is shorter than the first. *)
Theorem C08_construction_panics_iff :
  forall (A : Type) (cols : list (list A)),
    (tt_new_from_cols cols = Panic <-> cols = [] \/ exists c, In c cols /\ length c < length (hd [] cols)) /\
    (forall e, tt_new_from_cols cols <> Err e).
Proof.
  intros A [|c0 cols]; [split; [split; [now left|reflexivity]|discriminate]|].
  destruct (existsb (fun c => length c <? length c0) cols) eqn:Ex.
  - apply existsb_exists in Ex. destruct Ex as (c & Hc & Hlt). apply Nat.ltb_lt in Hlt.
    rewrite new_from_cols_panic by eauto. split; [|discriminate]. split; [|reflexivity].
    intros _. right. exists c. split; [now right|exact Hlt].
  - assert (H : forall c, In c cols -> length c0 <= length c).
    { intros c Hc. apply Nat.nlt_ge. intro Hlt. apply Bool.not_true_iff_false in Ex. apply Ex.
      apply existsb_exists. exists c. split; [exact Hc|]. now apply Nat.ltb_lt. }
    destruct c0 as [|d c0].
    + split; [|discriminate]. split; [discriminate|]. intros [E|(c & _ & Hlt)]; [discriminate|cbn in Hlt; lia].
    + rewrite (new_from_cols_ok _ _ d H). split; [|discriminate]. split; [discriminate|].
      intros [E|(c & [<-|Hc] & Hlt)]; [discriminate|cbn in Hlt; lia|]. specialize (H c Hc). cbn [hd] in Hlt. lia.
Qed.
Print Assumptions C08_construction_panics_iff.

Example C08_example :
  tt_new_from_cols [[1; 2; 3]; [4; 5; 6]] = Ok (mk_trace [1; 4; 2; 5; 3; 6] 2) /\
  tt_cols (mk_trace [1; 4; 2; 5; 3; 6] 2) = Ok [[1; 2; 3]; [4; 5; 6]] /\
  tt_new_from_cols [[1; 2; 3]; [4; 5]] = Panic.
Proof. repeat split. Qed.

(** The tables in question: every table with a column count and full rows is one built from columns;
    this is what the prover handles. *)
Lemma built_is_table (A : Type) (d : A) (cols : list (list A)) n t :
  cols <> [] -> (forall c, In c cols -> length c = n) -> tt_new_from_cols cols = Ok t ->
  t = mk_trace (concat (transpose cols n d)) (length cols).
Proof.
  intros Hne Hn H. destruct cols as [|c0 cols]; [congruence|].
  assert (H0 : length c0 = n) by (apply Hn; now left).
  rewrite (new_from_cols_ok c0 cols d), H0 in H by (intros c Hc; rewrite (Hn c), H0; [lia|now right]).
  now apply ok_inj in H.
Qed.

Lemma empty_n_rows (A : Type) c : tt_n_rows (@mk_trace A [] c) = 0.
Proof. unfold tt_n_rows. cbn. destruct c; [reflexivity|]. apply Nat.div_small. lia. Qed.

Lemma empty_cols (A : Type) c : tt_cols (@mk_trace A [] c) = Ok (repeat [] c).
Proof.
  unfold tt_cols. rewrite empty_n_rows. cbn [seq traverse tt_n_cols].
  rewrite (traverse_map _ (fun _ => [])) by reflexivity. f_equal.
  generalize 0. induction c as [|c IH]; intro s; [reflexivity|]. cbn. f_equal. apply IH.
Qed.

(** C09: selecting columns. *)
Theorem C09_get_cols_selects_columns :
  forall (A : Type) (cols : list (list A)) n t js,
    cols <> [] -> (forall c, In c cols -> length c = n) -> tt_new_from_cols cols = Ok t ->
    (forall j, In j js -> j < length cols) ->
    exists t', tt_get_cols t js = Ok t' /\ tt_n_cols t' = length js /\
      tt_cols t' = Ok (map (fun j => nth j cols []) js).
Proof.
  intros A cols n t js Hne Hn H Hj.
  destruct js as [|j0 js].
  { unfold tt_get_cols. cbn [traverse map].
    assert (E : forall l : list nat, traverse (fun _ : nat => Ok (@nil A)) l = Ok (map (fun _ => []) l)).
    { intro l. now apply traverse_map. }
    rewrite E. cbn [obind]. eexists. split; [reflexivity|]. split; reflexivity. }
  destruct cols as [|c0 cols]; [congruence|].
  destruct n as [|n].
  - (* no rows *)
    assert (c0 = []) by (assert (length c0 = 0) by (apply Hn; now left); now destruct c0). subst c0.
    apply ok_inj in H. subst t. exists (mk_trace [] (length (j0 :: js))). split; [|split; [reflexivity|]].
    + unfold tt_get_cols. rewrite empty_n_rows. reflexivity.
    + rewrite empty_cols. f_equal. clear Hne. induction (j0 :: js) as [|x l IH]; [reflexivity|].
      cbn [length repeat map]. f_equal; [|apply IH; intros; apply Hj; now right].
      assert (E : length (nth x ([] :: cols) []) = 0) by (apply Hn; apply nth_In; apply Hj; now left).
      now destruct (nth x ([] :: cols) []).
  - destruct c0 as [|d c0]; [specialize (Hn [] (or_introl eq_refl)); discriminate|].
    assert (Et := built_is_table _ d _ _ _ Hne Hn H). subst t.
    pose proof (transpose_table ((d :: c0) :: cols) (S n) d Hne) as Ht.
    destruct (table_get_cols _ _ (j0 :: js) d Ht ltac:(discriminate) Hj) as (t' & H' & Ht' & Hc').
    exists t'. split; [exact H'|]. split; [exact Hc'|]. rewrite (table_cols _ _ d Ht'). f_equal.
    rewrite Hc'. rewrite <- (map_nth_seq (map (fun j => nth j ((d :: c0) :: cols) []) (j0 :: js)) []), map_length.
    apply map_ext_in. intros k Hk. apply in_seq in Hk. rewrite map_map.
    rewrite (nth_indep _ [] (nth 0 ((d :: c0) :: cols) [])) by (rewrite map_length; lia).
    rewrite (map_nth (fun j => nth j ((d :: c0) :: cols) [])).
    set (j := nth k (j0 :: js) 0).
    assert (Hjl : j < length ((d :: c0) :: cols)) by (apply Hj; apply nth_In; lia).
    assert (Hcl : length (nth j ((d :: c0) :: cols) []) = S n) by (apply Hn; now apply nth_In).
    rewrite <- (map_nth_seq (nth j ((d :: c0) :: cols) []) d), Hcl. unfold transpose. rewrite map_map.
    apply map_ext. intro i.
    rewrite (nth_indep _ d (nth 0 (map (fun c => nth i c d) ((d :: c0) :: cols)) d)) by (rewrite map_length; lia).
    rewrite (map_nth (fun c => nth c (map (fun c => nth i c d) ((d :: c0) :: cols)) d)). fold j.
    rewrite (nth_indep _ d (nth i [] d)) by (rewrite map_length; exact Hjl).
    now rewrite (map_nth (fun c => nth i c d)).
Qed.
Print Assumptions C09_get_cols_selects_columns.

(** C09: an out-of-range column index is caught (by a panic) as soon as the table has a row. *)
Theorem C09_get_cols_rejects_bad_index :
  forall (A : Type) (cols : list (list A)) n t js,
    cols <> [] -> (forall c, In c cols -> length c = n) -> 0 < n -> tt_new_from_cols cols = Ok t ->
    (exists j, In j js /\ length cols <= j) -> tt_get_cols t js = Panic.
Proof.
  intros A cols n t js Hne Hn Hpos H (j & Hj & Hle).
  destruct cols as [|[|d c0] cols]; [congruence|specialize (Hn [] (or_introl eq_refl)); cbn in Hn; lia|].
  assert (Et := built_is_table _ d _ _ _ Hne Hn H).
  pose proof (transpose_table ((d :: c0) :: cols) n d Hne) as Ht. rewrite <- Et in Ht.
  assert (Hlen : length (transpose ((d :: c0) :: cols) n d) = n) by (unfold transpose; now rewrite map_length, seq_length).
  assert (Hc : tt_n_cols t = length ((d :: c0) :: cols)) by (now rewrite Et).
  assert (Htl : length (tt_table t) = n * tt_n_cols t).
  { destruct Ht as (_ & -> & HF). now rewrite (concat_length_const _ _ HF), Hlen. }
  unfold tt_get_cols. rewrite (table_n_rows _ _ Ht), Hlen.
  assert (Hno : forall r, traverse (fun c => idx (tt_table t) (r * tt_n_cols t + c)) js = Panic \/
                  exists b, traverse (fun c => idx (tt_table t) (r * tt_n_cols t + c)) js = Ok b).
  { intro r. clear. induction js as [|a l IH]; [right; cbn; eauto|].
    cbn [traverse]. unfold idx at 1 3. destruct (nth_error _ _); cbn [unwrap obind]; [|now left].
    destruct IH as [->|[b ->]]; cbn [obind]; eauto. }
  rewrite traverse_panic; [reflexivity| |intros a _; apply Hno].
  exists (n - 1). split; [apply in_seq; lia|]. apply traverse_panic.
  - exists j. split; [exact Hj|]. apply idx_panic. rewrite Htl. rewrite <- Hc in Hle. nia.
  - intros a _. unfold idx. destruct (nth_error _ _); cbn; eauto.
Qed.
Print Assumptions C09_get_cols_rejects_bad_index.

(** C09: concatenating two tables of the same height puts their columns side by side. *)
Theorem C09_concatenate_appends_columns :
  forall (A : Type) (cols1 cols2 : list (list A)) n t1 t2,
    cols1 <> [] -> cols2 <> [] -> (forall c, In c (cols1 ++ cols2) -> length c = n) -> 0 < n ->
    tt_new_from_cols cols1 = Ok t1 -> tt_new_from_cols cols2 = Ok t2 ->
    exists t, tt_concatenate t1 (tt_table t2) (tt_n_cols t2) = Ok t /\
      tt_n_cols t = length cols1 + length cols2 /\ tt_cols t = Ok (cols1 ++ cols2).
Proof.
  intros A cols1 cols2 n t1 t2 Hne1 Hne2 Hn Hpos H1 H2.
  assert (Hn1 : forall c, In c cols1 -> length c = n) by (intros; apply Hn; apply in_or_app; now left).
  assert (Hn2 : forall c, In c cols2 -> length c = n) by (intros; apply Hn; apply in_or_app; now right).
  assert (Hd : exists d : A, True).
  { destruct cols1 as [|[|d c0] cols1]; [congruence|specialize (Hn1 [] (or_introl eq_refl)); cbn in Hn1; lia|eauto]. }
  destruct Hd as [d _].
  assert (E1 := built_is_table _ d _ _ _ Hne1 Hn1 H1). assert (E2 := built_is_table _ d _ _ _ Hne2 Hn2 H2).
  pose proof (transpose_table cols1 n d Hne1) as Ht1. pose proof (transpose_table cols2 n d Hne2) as Ht2.
  rewrite <- E1 in Ht1. rewrite <- E2 in Ht2.
  destruct Ht2 as (Hc2 & Htab2 & HF2).
  destruct (table_concatenate t1 _ _ _ Ht1 HF2) as (t & H & Ht & Hc).
  { unfold transpose. now rewrite !map_length, !seq_length. }
  exists t. rewrite Htab2. split; [exact H|].
  assert (Hlen : tt_n_cols t = length cols1 + length cols2) by (rewrite Hc, E1, E2; reflexivity).
  split; [exact Hlen|]. rewrite (table_cols _ _ d Ht). f_equal. rewrite Hlen, <- app_length.
  rewrite <- (map_nth_seq (cols1 ++ cols2) []) at 2. apply map_ext_in. intros j Hj. apply in_seq in Hj.
  rewrite map_map.
  assert (Hcl : length (nth j (cols1 ++ cols2) []) = n) by (apply Hn; apply nth_In; lia).
  rewrite <- (map_nth_seq (nth j (cols1 ++ cols2) []) d), Hcl.
  unfold transpose.
  assert (Hcomb : forall B C D (f : B -> C) (g : B -> D) l, combine (map f l) (map g l) = map (fun x => (f x, g x)) l).
  { intros B C D f g l. induction l; cbn; congruence. }
  rewrite Hcomb, map_map. apply map_ext. intro i. cbn [fst snd]. rewrite <- map_app.
  rewrite (nth_indep _ d (nth i [] d)) by (rewrite map_length; lia).
  now rewrite (map_nth (fun c => nth i c d)).
Qed.
Print Assumptions C09_concatenate_appends_columns.

Example C09_example :
  tt_get_cols (mk_trace [1; 4; 7; 2; 5; 8] 3) [2; 0] = Ok (mk_trace [7; 1; 8; 2] 2) /\
  tt_get_cols (mk_trace [1; 4; 7; 2; 5; 8] 3) [3] = Panic /\
  tt_concatenate (mk_trace [1; 4; 2; 5] 2) [7; 8] 1 = Ok (mk_trace [1; 4; 7; 2; 5; 8] 3).
Proof. repeat split. Qed.

(** C10: the [k]-th row of the frame read at [step] is row [(step + o_k * blowup) mod n] of the table. *)
Theorem C10_frame_rows :
  forall (A : Type) (cols : list (list A)) n t step blowup offsets,
    cols <> [] -> (forall c, In c cols -> length c = n) -> 0 < n -> tt_new_from_cols cols = Ok t ->
    exists f, fr_read_from_trace t step blowup offsets = Ok f /\
      fr_num_rows f = Ok (length offsets) /\ fr_num_columns f = length cols /\
      (forall k, k < length offsets ->
         fr_get_row f k = tt_get_row t ((step + nth k offsets 0 * blowup) mod n) /\
         is_ok (fr_get_row f k) = true) /\
      (forall k, length offsets <= k -> fr_get_row f k = Panic).
Proof.
  intros A cols n t step blowup offsets Hne Hn Hpos H.
  destruct cols as [|[|d c0] cols]; [congruence|specialize (Hn [] (or_introl eq_refl)); cbn in Hn; lia|].
  assert (Et := built_is_table _ d _ _ _ Hne Hn H).
  pose proof (transpose_table ((d :: c0) :: cols) n d Hne) as Ht. rewrite <- Et in Ht.
  set (rows := transpose ((d :: c0) :: cols) n d) in *.
  assert (Hlen : length rows = n) by (unfold rows, transpose; now rewrite map_length, seq_length).
  rewrite (read_from_trace_ok t rows step blowup offsets Ht) by (intro E; rewrite E in Hlen; cbn in Hlen; lia).
  rewrite Hlen. pose proof Ht as (Hc & _ & HF).
  assert (HF' : Forall (fun r => length r = tt_n_cols t)
     (map (fun o => nth ((step + o * blowup) mod n) rows []) offsets)).
  { apply Forall_forall. intros r Hr. apply in_map_iff in Hr. destruct Hr as (o & <- & _).
    rewrite Forall_forall in HF. apply HF. apply nth_In. rewrite Hlen. apply Nat.mod_upper_bound. lia. }
  eexists. split; [reflexivity|]. split; [|split; [|split]].
  - rewrite frame_num_rows by assumption. now rewrite map_length.
  - cbn. now rewrite Et.
  - intros k Hk. rewrite frame_row by (rewrite ?map_length; assumption).
    rewrite (nth_indep _ [] (nth ((step + 0 * blowup) mod n) rows [])) by (rewrite map_length; exact Hk).
    rewrite (map_nth (fun o => nth ((step + o * blowup) mod n) rows [])).
    rewrite (table_row _ _ _ Ht); [auto|]. rewrite Hlen. apply Nat.mod_upper_bound. lia.
  - intros k Hk. unfold fr_get_row, slice. cbn [fr_row_width fr_data].
    rewrite (concat_length_const _ _ HF'), map_length.
    destruct (Nat.ltb_spec (k * tt_n_cols t + tt_n_cols t) (k * tt_n_cols t)); [lia|].
    destruct (Nat.ltb_spec (length offsets * tt_n_cols t) (k * tt_n_cols t + tt_n_cols t)); [reflexivity|nia].
Qed.
Print Assumptions C10_frame_rows.

(** Wrap-around: four rows, blowup 2, offset 1 read at the last step. *)
Example C10_example :
  fr_read_from_trace (mk_trace [10; 11; 20; 21; 30; 31; 40; 41] 2) 3 2 [0; 1] = Ok (mk_frame [40; 41; 20; 21] 2).
Proof. reflexivity. Qed.
