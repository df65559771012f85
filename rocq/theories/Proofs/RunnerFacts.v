(** Proofs about the dumps of the runner and the public inputs of a run. *)
From Coq Require Import List Arith NArith Bool Lia.
From Coq.Strings Require Import Byte.
From Verif.Base Require Import Outcome Bytes Field Poly.
From Verif.Model Require Import Codec PublicInputs Trace Air CairoDecode CairoTrace CairoAir CairoRunner.
From Verif.Spec Require Import CairoSpec.
From Verif.Proofs Require Import FieldFacts OutcomeFacts BytesFacts PublicInputsFacts TraceFacts DecodeFacts.
Import ListNotations.

(** ** Maps *)
Section Maps.
Context {K V : Type} (eqk : K -> K -> bool) (eqk_spec : forall a b, eqk a b = true <-> a = b).

Lemma map_get_insert k k' v (m : list (K * V)) :
  map_get eqk k (map_insert eqk k' v m) = if eqk k k' then Some v else map_get eqk k m.
Proof using eqk_spec.
  induction m as [|[k0 v0] m IH]; cbn [map_insert map_get]; [reflexivity|].
  destruct (eqk k' k0) eqn:E; cbn [map_get].
  - apply eqk_spec in E. subst k0. now destruct (eqk k k').
  - rewrite IH. destruct (eqk k k0) eqn:E0; [|reflexivity].
    destruct (eqk k k') eqn:E1; [|reflexivity]. apply eqk_spec in E0, E1. rewrite (proj2 (eqk_spec k' k0) (eq_trans (eq_sym E1) E0)) in E. discriminate.
Qed.
Lemma map_get_fold (l : list (K * V)) : forall m k,
  (forall k v v', In (k, v) l -> In (k, v') l -> v = v') ->
  (forall k v v', In (k, v) l -> map_get eqk k m = Some v' -> v = v') ->
  forall v, map_get eqk k (fold_left (fun m e => map_insert eqk (fst e) (snd e) m) l m) = Some v <->
            In (k, v) l \/ map_get eqk k m = Some v.
Proof using eqk_spec.
  induction l as [|[k0 v0] l IH]; intros m k Hf Hm v; cbn [fold_left fst snd In].
  - tauto.
  - rewrite IH.
    + rewrite map_get_insert. destruct (eqk k k0) eqn:E.
      * apply eqk_spec in E. subst k0. split; [intros [H|H]; [tauto|injection H as ->; tauto]|].
        intros [[H|H]|H]; [injection H as ->; tauto|tauto|]. right. f_equal. eapply Hm; [now left|exact H].
      * split; [tauto|]. intros [[H|H]|H]; [injection H as -> ->; rewrite (proj2 (eqk_spec k k) eq_refl) in E; discriminate|tauto|tauto].
    + intros k1 v1 v1' H1 H2. apply (Hf k1); now right.
    + intros k1 v1 v1' H1 H2. rewrite map_get_insert in H2. destruct (eqk k1 k0) eqn:E.
      * apply eqk_spec in E. subst k1. injection H2 as <-. apply (Hf k0); [now right|now left].
      * eapply Hm; [now right; exact H1|exact H2].
Qed.
Lemma map_insert_keys k v (m : list (K * V)) k' : In k' (map fst (map_insert eqk k v m)) <-> k' = k \/ In k' (map fst m).
Proof using eqk_spec.
  induction m as [|[k0 v0] m IH]; cbn [map_insert map fst In]; [intuition|].
  destruct (eqk k k0) eqn:E; cbn [map fst In].
  - apply eqk_spec in E. subst k0. intuition.
  - rewrite IH. intuition.
Qed.
Lemma map_insert_nodup k v (m : list (K * V)) : NoDup (map fst m) -> NoDup (map fst (map_insert eqk k v m)).
Proof using eqk_spec.
  induction m as [|[k0 v0] m IH]; cbn [map_insert map fst]; intro H; [repeat constructor; intros []|].
  apply NoDup_cons_iff in H. destruct H as [H1 H2]. destruct (eqk k k0) eqn:E; cbn [map fst].
  - constructor; assumption.
  - constructor; [|now apply IH]. rewrite map_insert_keys. intros [->|Hin]; [|tauto].
    rewrite (proj2 (eqk_spec k k) eq_refl) in E. discriminate.
Qed.
Lemma fold_insert_nodup (l : list (K * V)) : forall m, NoDup (map fst m) ->
  NoDup (map fst (fold_left (fun m e => map_insert eqk (fst e) (snd e) m) l m)).
Proof using eqk_spec. induction l as [|e l IH]; intros m H; [exact H|]. cbn [fold_left]. apply IH. now apply map_insert_nodup. Qed.
End Maps.

Lemma nrange_in lo hi x : In x (nrange lo hi) <-> (lo <= x < hi)%N.
Proof.
  unfold nrange. rewrite in_map_iff. split.
  - intros (i & <- & Hi). apply in_seq in Hi. lia.
  - intro H. exists (N.to_nat (x - lo)). split; [lia|]. apply in_seq. lia.
Qed.
Lemma nrange_length lo hi : length (nrange lo hi) = N.to_nat (hi - lo).
Proof. unfold nrange. now rewrite map_length, seq_length. Qed.
Lemma nrange_nodup lo hi : NoDup (nrange lo hi).
Proof. unfold nrange. apply FinFun.Injective_map_NoDup; [intros a b H; lia|apply seq_NoDup]. Qed.

(** ** Dumps *)
Lemma slice_concat {A} (rows : list (list A)) c k a b : Forall (fun r => length r = c) rows -> (k < length rows)%nat ->
  (a <= b <= c)%nat -> slice (concat rows) (k * c + a) (k * c + b) = slice (nth k rows []) a b.
Proof.
  intros Hf Hk Hab. assert (Hl : length (nth k rows []) = c) by (rewrite Forall_forall in Hf; apply Hf; now apply nth_In).
  rewrite !slice_in; try lia.
  - f_equal. rewrite <- (concat_row rows c k Hf Hk). rewrite skipn_firstn_comm, firstn_firstn, skipn_skipn', (Nat.add_comm a).
    f_equal. lia.
  - rewrite (concat_length_const rows c Hf). nia.
Qed.

Definition trace_row (e : registers_state) : list byte := le_bytes 8 (r_ap e) ++ le_bytes 8 (r_fp e) ++ le_bytes 8 (r_pc e).
Lemma slice_1 {A} (x y : list A) a : length x = a -> slice (x ++ y) 0 a = Ok x.
Proof. intros <-. rewrite slice_in by (rewrite ?app_length; lia). cbn [skipn]. rewrite Nat.sub_0_r, firstn_app, firstn_all, Nat.sub_diag. now rewrite app_nil_r. Qed.
Lemma slice_2 {A} (x y z : list A) a b : length x = a -> length y = (b - a)%nat -> (a <= b)%nat -> slice (x ++ y ++ z) a b = Ok y.
Proof.
  intros <- Hy Hab. rewrite slice_in by (rewrite ?app_length; lia). rewrite skipn_app, skipn_all, Nat.sub_diag. cbn [skipn app].
  rewrite <- Hy, firstn_app, firstn_all, Nat.sub_diag. cbn [firstn]. now rewrite app_nil_r.
Qed.

Theorem trace_roundtrip entries : Forall (fun e => r_pc e < 2 ^ 64 /\ r_fp e < 2 ^ 64 /\ r_ap e < 2 ^ 64)%N entries ->
  regs_from_bytes_le (write_encoded_trace entries) = Ok entries.
Proof.
  intro H.
  assert (E : write_encoded_trace entries = concat (map trace_row entries)) by (unfold write_encoded_trace; rewrite flat_map_concat_map; reflexivity).
  assert (F : Forall (fun r : list byte => length r = 24%nat) (map trace_row entries)).
  { apply Forall_forall. intros r Hr. apply in_map_iff in Hr. destruct Hr as (e & <- & _). unfold trace_row.
    now rewrite !app_length, !length_le_bytes. }
  unfold regs_from_bytes_le. rewrite E, (concat_length_const _ 24 F), map_length, Nat.mod_mul, Nat.div_mul by lia. cbn [Nat.eqb negb].
  assert (Hrow : forall i, In i (seq 0 (length entries)) -> 
    obind (slice (concat (map trace_row entries)) (i * 24) (i * 24 + 8)) (fun ap =>
    obind (slice (concat (map trace_row entries)) (i * 24 + 8) (i * 24 + 16)) (fun fp =>
    obind (slice (concat (map trace_row entries)) (i * 24 + 16) (i * 24 + 24)) (fun pc =>
      Ok (mk_regs (le_val pc) (le_val fp) (le_val ap))))) = Ok (nth i entries (mk_regs 0 0 0))).
  { intros i Hi. apply in_seq in Hi.
    replace (slice (concat (map trace_row entries)) (i * 24) (i * 24 + 8)) with (slice (concat (map trace_row entries)) (i * 24 + 0) (i * 24 + 8))
      by (now rewrite Nat.add_0_r).
    rewrite !(slice_concat _ 24 i) by (try exact F; rewrite ?map_length; lia).
    rewrite (nth_indep _ [] (trace_row (mk_regs 0 0 0))) by (rewrite map_length; lia). rewrite map_nth.
    set (e := nth i entries (mk_regs 0 0 0)).
    assert (He : (r_pc e < 2 ^ 64 /\ r_fp e < 2 ^ 64 /\ r_ap e < 2 ^ 64)%N) by (rewrite Forall_forall in H; apply H; apply nth_In; lia).
    unfold trace_row. rewrite slice_1 by apply length_le_bytes. cbn [obind].
    rewrite slice_2 by (rewrite ?length_le_bytes; lia). cbn [obind].
    rewrite <- (app_nil_r (le_bytes 8 (r_pc e))), app_assoc, slice_2 by (rewrite ?app_length, ?length_le_bytes; lia). cbn [obind].
    rewrite !le_val_le_bytes by (change (256 ^ N.of_nat 8)%N with (2 ^ 64)%N; tauto). now destruct e. }
  rewrite (traverse_map _ (fun i => nth i entries (mk_regs 0 0 0))) by exact Hrow.
  f_equal. apply map_nth_seq.
Qed.

Section Memory.
Context {C : cairo_env}.
Definition mem_row (x : nat * N) : list byte := le_bytes 8 (N.of_nat (fst x)) ++ le_bytes 32 (snd x).
Definition used_cells (cells : list (option N)) : list (nat * N) :=
  flat_map (fun x => match snd x with None => [] | Some v => [(fst x, v)] end) (combine (seq 0 (length cells)) cells).

Lemma encoded_memory cells : write_encoded_memory cells = concat (map mem_row (used_cells cells)).
Proof.
  unfold write_encoded_memory, used_cells. induction (combine (seq 0 (length cells)) cells) as [|[i [v|]] l IH]; cbn [flat_map]; [reflexivity| |exact IH].
  rewrite map_app, concat_app, IH. cbn [map concat fst snd]. now rewrite app_nil_r.
Qed.
Lemma used_in cells i v : In (i, v) (used_cells cells) <-> nth_error cells i = Some (Some v).
Proof.
  unfold used_cells. rewrite in_flat_map. split.
  - intros ([j o] & Hin & Hv). cbn [fst snd] in Hv. destruct o as [u|]; [|destruct Hv]. destruct Hv as [Hv|[]]. injection Hv as -> ->.
    apply In_nth_error in Hin. destruct Hin as [k Hk].
    assert (L : (k < length (combine (seq 0 (length cells)) cells))%nat) by (apply nth_error_Some; congruence).
    rewrite combine_length, seq_length, Nat.min_id in L.
    rewrite (nth_error_nth' _ (0%nat, None)) in Hk by (rewrite combine_length, seq_length, Nat.min_id; exact L).
    rewrite combine_nth in Hk by apply seq_length. rewrite seq_nth in Hk by exact L. injection Hk as <- Hk.
    rewrite (nth_error_nth' _ None) by exact L. now f_equal.
  - intro H. assert (L : (i < length cells)%nat) by (apply nth_error_Some; congruence).
    exists (i, Some v). split; [|now left].
    replace (i, Some v) with (nth i (combine (seq 0 (length cells)) cells) (0%nat, None)).
    + apply nth_In. now rewrite combine_length, seq_length, Nat.min_id.
    + rewrite combine_nth by apply seq_length. rewrite seq_nth by exact L. f_equal. now apply nth_error_nth.
Qed.

Theorem memory_roundtrip (cells : list (option N)) : (N.of_nat (length cells) <= 2 ^ 64)%N ->
  (forall v, In (Some v) cells -> v < 2 ^ 256)%N ->
  exists m, mem_from_bytes_le (C:=C) (write_encoded_memory cells) = Ok m /\
  forall a, mem_get m a = match nth_error cells (N.to_nat a) with Some (Some v) => Some (e_u64 C v) | _ => None end.
Proof.
  intros Hlen Hval. rewrite encoded_memory. set (us := used_cells cells).
  assert (Hus : forall i v, In (i, v) us -> (N.of_nat i < 2 ^ 64)%N /\ (v < 2 ^ 256)%N).
  { intros i v H. apply used_in in H. split.
    - assert (i < length cells)%nat by (apply nth_error_Some; congruence). lia.
    - apply Hval. eapply nth_error_In. exact H. }
  assert (F : Forall (fun r : list byte => length r = 40%nat) (map mem_row us)).
  { apply Forall_forall. intros r Hr. apply in_map_iff in Hr. destruct Hr as (e & <- & _). unfold mem_row.
    now rewrite !app_length, !length_le_bytes. }
  unfold mem_from_bytes_le. rewrite (concat_length_const _ 40 F), map_length, Nat.mod_mul, Nat.div_mul by lia. cbn [Nat.eqb negb].
  rewrite (ofold_pure _ (fun m i => let x := nth i us (0%nat, 0%N) in map_insert N.eqb (N.of_nat (fst x)) (e_u64 C (snd x)) m)).
  2:{ intros i m Hi. apply in_seq in Hi.
      replace (slice (concat (map mem_row us)) (i * 40) (i * 40 + 8)) with (slice (concat (map mem_row us)) (i * 40 + 0) (i * 40 + 8))
        by (now rewrite Nat.add_0_r).
      rewrite !(slice_concat _ 40 i) by (try exact F; rewrite ?map_length; lia).
      rewrite (nth_indep _ [] (mem_row (0%nat, 0%N))) by (rewrite map_length; lia). rewrite map_nth.
      destruct (nth i us (0%nat, 0%N)) as [k v] eqn:Ek. assert (Hin : In (k, v) us) by (rewrite <- Ek; apply nth_In; lia).
      destruct (Hus k v Hin) as [Hk Hv]. unfold mem_row. cbn [fst snd].
      rewrite slice_1 by apply length_le_bytes. cbn [obind].
      rewrite <- (app_nil_r (le_bytes 32 v)), slice_2 by (rewrite ?length_le_bytes; lia). cbn [obind].
      rewrite !le_val_le_bytes; [reflexivity|exact Hv|exact Hk]. }
  eexists. split; [reflexivity|].
  assert (Efold : forall l m, fold_left (fun m i => let x := nth i us (0%nat, 0%N) in map_insert N.eqb (N.of_nat (fst x)) (e_u64 C (snd x)) m) l m
    = fold_left (fun m e => map_insert N.eqb (fst e) (snd e) m) (map (fun i => let x := nth i us (0%nat, 0%N) in (N.of_nat (fst x), e_u64 C (snd x))) l) m).
  { induction l as [|i l IH]; intro m; [reflexivity|]. cbn [fold_left map fst snd]. apply IH. }
  rewrite Efold. clear Efold.
  set (ents := map (fun i => let x := nth i us (0%nat, 0%N) in (N.of_nat (fst x), e_u64 C (snd x))) (seq 0 (length us))).
  assert (Hents : forall a w, In (a, w) ents <-> exists v, nth_error cells (N.to_nat a) = Some (Some v) /\ w = e_u64 C v).
  { intros a w. unfold ents. rewrite in_map_iff. split.
    - intros (i & E & Hi). apply in_seq in Hi. destruct (nth i us (0%nat, 0%N)) as [k v] eqn:Ek. injection E as <- <-. exists v.
      split; [|reflexivity]. rewrite Nat2N.id. apply used_in. fold us. rewrite <- Ek. apply nth_In. lia.
    - intros (v & Hv & ->). apply used_in in Hv. fold us in Hv. destruct (In_nth _ _ (0%nat, 0%N) Hv) as (i & Hi & Ei).
      exists i. split; [rewrite Ei; cbn; now rewrite N2Nat.id|apply in_seq; lia]. }
  intro a. unfold mem_get.
  assert (Hfun : forall k v v', In (k, v) ents -> In (k, v') ents -> v = v').
  { intros k v v' H1 H2. apply Hents in H1, H2. destruct H1 as (x & H1 & ->), H2 as (y & H2 & ->). congruence. }
  assert (Hnil : forall k v v', In (k, v) ents -> map_get N.eqb k ([] : list (N * C)) = Some v' -> v = v') by (intros; discriminate).
  pose proof (map_get_fold N.eqb N.eqb_eq ents [] a Hfun Hnil) as G.
  destruct (nth_error cells (N.to_nat a)) as [[v|]|] eqn:Ev.
  - apply G. left. apply Hents. eauto.
  - destruct (map_get _ _ _) as [w|]; [|reflexivity]. destruct (proj1 (G w) eq_refl) as [H|H]; [|discriminate].
    apply Hents in H. destruct H as (x & H & _). congruence.
  - destruct (map_get _ _ _) as [w|]; [|reflexivity]. destruct (proj1 (G w) eq_refl) as [H|H]; [|discriminate].
    apply Hents in H. destruct H as (x & H & _). congruence.
Qed.
End Memory.

(** ** Public inputs of a run *)
Section Run.
Context {C : cairo_env} {p : N} (HC : cairo_ok C p).
Let HK : field_ok C := fft_field_ok _ (e_fft_ok _ (co_env _ _ HC)).

(** The entries of the public memory, in order of insertion. *)
Definition cell_of (m : @cairo_memory C) (i : N) : C * C := (e_u64 C i, match mem_get m i with Some v => v | None => fzero end).
Definition public_list (size : N) (out : option (N * N)) : list N :=
  nrange 1 (size + 1) ++ match out with Some (lo, hi) => nrange lo hi | None => [] end.
Definition present (m : @cairo_memory C) (i : N) : Prop := mem_get m i <> None.

Lemma cells_traverse (m : @cairo_memory C) l cells :
  traverse (fun i => obind (unwrap (mem_get m i)) (fun v => Ok (e_u64 C i, v))) l = Ok cells <->
  cells = map (cell_of m) l /\ Forall (present m) l.
Proof.
  split.
  - intro H. split.
    + eapply traverse_ok_map; [|exact H]. intros i b _ E. apply obind_ok in E. destruct E as (v & E & E'). apply unwrap_ok in E.
      apply ok_inj in E'. subst b. unfold cell_of. now rewrite E.
    + apply traverse_inv in H. apply Forall_forall. intros i Hi.
      destruct (In_nth _ _ 0%N Hi) as (k & Hk & E). revert i Hi k Hk E. induction H as [|a b l r Hab _ IH]; intros i Hi k Hk E; [destruct Hi|].
      destruct k as [|k]; cbn in E, Hk.
      * subst i. apply obind_ok in Hab. destruct Hab as (v & Hv & _). apply unwrap_ok in Hv. unfold present. congruence.
      * destruct Hi as [->|Hi]; [apply obind_ok in Hab; destruct Hab as (v & Hv & _); apply unwrap_ok in Hv; unfold present; congruence|].
        apply (IH i Hi k); [lia|exact E].
  - intros [-> H]. apply traverse_map. intros i Hi. rewrite Forall_forall in H. specialize (H i Hi). unfold present in H. unfold cell_of.
    destruct (mem_get m i); [reflexivity|congruence].
Qed.

Lemma outputs_fold (m : @cairo_memory C) l : forall pm pm',
  ofold (fun pm a => obind (unwrap (mem_get m a)) (fun v => Ok (map_insert feqb (e_u64 C a) v pm))) l pm = Ok pm' <->
  pm' = fold_left (fun pm e => map_insert feqb (fst e) (snd e) pm) (map (cell_of m) l) pm /\ Forall (present m) l.
Proof.
  induction l as [|a l IH]; intros pm pm'; cbn [ofold map fold_left].
  - split; [intro H; apply ok_inj in H; subst; auto|intros [-> _]; reflexivity].
  - change (fst (cell_of m a)) with (e_u64 C a). change (snd (cell_of m a)) with (match mem_get m a with Some v => v | None => fzero end).
    destruct (mem_get m a) as [v|] eqn:E; cbn [unwrap obind].
    + rewrite IH. split; intros [-> H]; split; auto; [constructor; auto; unfold present; congruence|now inversion H].
    + split; [discriminate|]. intros [_ H]. inversion H as [|? ? H1]. unfold present in H1. congruence.
Qed.

Lemma from_regs_ok raw (m : @cairo_memory C) size segs pi :
  from_regs_and_mem raw m size segs = Ok pi <->
  raw <> [] /\ Forall (present m) (public_list size (map_get segment_eqb Output segs)) /\
  pi = let d := mk_regs 0 0 0 in let r0 := hd d raw in let rl := last raw d in
    mk_public_inputs (e_u64 C (r_pc r0)) (e_u64 C (r_ap r0)) (e_u64 C (r_fp r0)) (e_u64 C (r_pc rl)) (e_u64 C (r_ap rl)) None None segs
      (of_entries feqb (map (cell_of m) (public_list size (map_get segment_eqb Output segs)))) (length raw).
Proof.
  unfold from_regs_and_mem.
  assert (Hlast : forall pm, obind (usub (length raw) 1) (fun li => obind (idx raw li) (fun ls => obind (idx raw 0%nat) (fun r0 =>
     Ok (mk_public_inputs (e_u64 C (r_pc r0)) (e_u64 C (r_ap r0)) (e_u64 C (r_fp r0)) (e_u64 C (r_pc ls))
        (e_u64 C (r_ap ls)) None None segs pm (length raw))))) = Ok pi <->
     raw <> [] /\ pi = let d := mk_regs 0 0 0 in let r0 := hd d raw in let rl := last raw d in
    mk_public_inputs (e_u64 C (r_pc r0)) (e_u64 C (r_ap r0)) (e_u64 C (r_fp r0)) (e_u64 C (r_pc rl)) (e_u64 C (r_ap rl)) None None segs pm (length raw)).
  { intro pm. destruct raw as [|r raw'] eqn:Er; [cbn; split; [discriminate|intros [H _]; congruence]|]. rewrite <- Er.
    rewrite usub_ok by (subst; cbn; lia). cbn [obind].
    rewrite (idx_nth _ _ (mk_regs 0 0 0)) by (subst; cbn; lia). cbn [obind].
    rewrite (idx_nth _ 0%nat (mk_regs 0 0 0)) by (subst; cbn; lia). cbn [obind].
    replace (nth (length raw - 1) raw (mk_regs 0 0 0)) with (last raw (mk_regs 0 0 0)).
    2:{ clear. destruct raw as [|r l] using rev_ind; [reflexivity|]. rewrite last_last, app_nth2, app_length by (rewrite app_length; cbn; lia).
        cbn. replace (length l + 1 - 1 - length l)%nat with 0%nat by lia. reflexivity. }
    replace (nth 0 raw (mk_regs 0 0 0)) with (hd (mk_regs 0 0 0) raw) by now destruct raw.
    split; [intro H; apply ok_inj in H; split; [subst raw; discriminate|now rewrite <- H]|intros [_ ->]; reflexivity]. }
  assert (Hof : forall l l', of_entries feqb (l ++ l') = fold_left (fun pm e => map_insert feqb (fst e) (snd e) pm) l' (of_entries (K:=C) (V:=C) feqb l))
    by (intros l l'; unfold of_entries; apply fold_left_app).
  split.
  - intro H. apply obind_ok in H. destruct H as (cells & Hc & H). apply cells_traverse in Hc. destruct Hc as [-> Hc].
    apply obind_ok in H. destruct H as (pm & Hp & H). apply Hlast in H. destruct H as [Hr ->].
    split; [exact Hr|]. unfold public_list. destruct (map_get segment_eqb Output segs) as [[lo hi]|].
    + apply outputs_fold in Hp. destruct Hp as [-> Hp]. split; [now apply Forall_app|]. now rewrite map_app, Hof.
    + apply ok_inj in Hp. subst pm. rewrite app_nil_r. auto.
  - intros (Hr & Hf & ->). unfold public_list in *. apply Forall_app in Hf. destruct Hf as [Hf1 Hf2].
    rewrite (proj2 (cells_traverse m _ _) (conj eq_refl Hf1)). cbn [obind].
    destruct (map_get segment_eqb Output segs) as [[lo hi]|].
    + rewrite (proj2 (outputs_fold m _ _ _) (conj eq_refl Hf2)). cbn [obind]. apply Hlast. split; [exact Hr|]. now rewrite map_app, Hof.
    + cbn [obind]. apply Hlast. rewrite app_nil_r. auto.
Qed.

Lemma public_get (m : @cairo_memory C) l : (forall i, In i l -> (i < p)%N) -> Forall (present m) l -> forall a v,
  map_get feqb a (of_entries feqb (map (cell_of m) l)) = Some v <-> exists i, In i l /\ a = e_u64 C i /\ mem_get m i = Some v.
Proof using HC HK.
  intros Hp Hf a v. unfold of_entries.
  assert (Hin : forall k w, In (k, w) (map (cell_of m) l) <-> exists i, In i l /\ k = e_u64 C i /\ mem_get m i = Some w).
  { intros k w. rewrite in_map_iff. unfold cell_of. rewrite Forall_forall in Hf. split.
    - intros (i & E & Hi). injection E as <- <-. exists i. split; [exact Hi|]. split; [reflexivity|]. specialize (Hf i Hi). unfold present in Hf.
      destruct (mem_get m i); congruence.
    - intros (i & Hi & -> & E). exists i. rewrite E. auto. }
  assert (Hfun : forall k w w', In (k, w) (map (cell_of m) l) -> In (k, w') (map (cell_of m) l) -> w = w').
  { intros k w w' H1 H2. apply Hin in H1, H2. destruct H1 as (i & Hi & -> & Ei), H2 as (j & Hj & E & Ej).
    apply (u64_inj HC) in E; [congruence|now apply Hp|now apply Hp]. }
  rewrite (map_get_fold feqb (feqb_spec C HK) _ [] a Hfun) by (intros; discriminate).
  rewrite Hin. cbn [map_get]. split; [intros [H|H]; [exact H|discriminate]|auto].
Qed.
Lemma public_nodup (m : @cairo_memory C) l : NoDup (map fst (of_entries feqb (map (cell_of m) l))).
Proof using HC HK. unfold of_entries. apply fold_insert_nodup; [apply (feqb_spec C HK)|constructor]. Qed.

Lemma public_keys (m : @cairo_memory C) l : map fst (map (cell_of m) l) = map (e_u64 C) l.
Proof. rewrite map_map. reflexivity. Qed.
Lemma public_entries (m : @cairo_memory C) l : (forall i, In i l -> (i < p)%N) -> NoDup l ->
  of_entries feqb (map (cell_of m) l) = map (cell_of m) l.
Proof using HC HK.
  intros Hp Hn. apply of_entries_nodup; [apply (feqb_spec C HK)|]. rewrite public_keys.
  induction Hn as [|x l Hx Hn IH]; [constructor|]. cbn [map]. constructor.
  - rewrite in_map_iff. intros (j & E & Hj). apply (u64_inj HC) in E; [congruence|apply Hp; now right|apply Hp; now left].
  - apply IH. intros i Hi. apply Hp. now right.
Qed.
Lemma public_list_nodup size out : match out with Some (lo, _) => (size < lo)%N | None => True end -> NoDup (public_list size out).
Proof.
  intro H. unfold public_list. destruct out as [[lo hi]|]; [|rewrite app_nil_r; apply nrange_nodup].
  assert (G : forall (A : Type) (l1 l2 : list A), NoDup l1 -> NoDup l2 -> (forall x, In x l1 -> ~ In x l2) -> NoDup (l1 ++ l2)).
  { intros A l1 l2 H1 H2 Hd. induction H1 as [|x l1 Hx H1 IH]; [exact H2|]. cbn. constructor.
    - rewrite in_app_iff. intros [Hi|Hi]; [tauto|]. apply (Hd x); [now left|exact Hi].
    - apply IH. intros y Hy. apply Hd. now right. }
  apply G; [apply nrange_nodup|apply nrange_nodup|]. intros x H1 H2. apply nrange_in in H1, H2. lia.
Qed.
End Run.
