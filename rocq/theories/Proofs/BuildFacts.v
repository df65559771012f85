(** What [build_cairo_execution_trace] builds: one row per step. *)
From Coq Require Import List Arith NArith ZArith Bool Lia.
From Verif.Base Require Import Outcome Field Poly.
From Verif.Model Require Import Codec PublicInputs Trace Air CairoDecode CairoTrace.
From Verif.Proofs Require Import OutcomeFacts FFTFacts TraceFacts.
Import ListNotations.
Local Open Scope felt_scope.

Lemma traverse_on {S A B} (F : A -> outcome B) (f : S -> A) (g : S -> B) ss :
  (forall s, In s ss -> F (f s) = Ok (g s)) -> traverse F (map f ss) = Ok (map g ss).
Proof.
  intro H. induction ss as [|s ss IH]; [reflexivity|]. cbn [map traverse]. rewrite (H s) by now left. cbn [obind].
  rewrite IH by (intros; apply H; now right). reflexivity.
Qed.
Lemma combine_on {S A B} (f : S -> A) (g : S -> B) ss : combine (map f ss) (map g ss) = map (fun s => (f s, g s)) ss.
Proof. induction ss as [|s ss IH]; [reflexivity|]. cbn [map combine]. now rewrite IH. Qed.

Section Build.
Context {C : cairo_env}.

(** Everything computed for one step. *)
Record step_data := mk_step {
  sd_regs : registers_state; sd_flags : instruction_flags; sd_offsets : instruction_offsets;
  sd_dst : C * C; sd_op0 : C * C; sd_op1 : C * C; sd_res : C; sd_upd : C * C * C;
  sd_rf : list C; sd_ro : list C; sd_inst : C }.
Record step_ok (m : @cairo_memory C) (s : step_data) : Prop := {
  so_decode : instruction_flags_and_offsets (sd_regs s) m = Ok (sd_flags s, sd_offsets s);
  so_dst : compute_dst m (sd_flags s) (sd_offsets s) (sd_regs s) = Ok (sd_dst s);
  so_op0 : compute_op0 m (sd_flags s) (sd_offsets s) (sd_regs s) = Ok (sd_op0 s);
  so_op1 : compute_op1 m (sd_flags s) (sd_offsets s) (snd (sd_op0 s)) (sd_regs s) = Ok (sd_op1 s);
  so_res : compute_res (sd_flags s) (snd (sd_op0 s)) (snd (sd_op1 s)) (snd (sd_dst s)) = Ok (sd_res s);
  so_upd : update_values (sd_flags s) (sd_regs s) (snd (sd_op0 s)) (snd (sd_dst s)) (sd_res s) = Ok (sd_upd s);
  so_rf : flags_repr (sd_flags s) = Ok (sd_rf s);
  so_ro : offsets_repr (sd_offsets s) = Ok (sd_ro s);
  so_inst : mem_get m (r_pc (sd_regs s)) = Some (sd_inst s) }.

(** The 34 cells of its row. *)
Definition step_row (s : step_data) (sel : C) : list C :=
  let '(op0, dst, res) := sd_upd s in
  let t := sd_regs s in
  let t0 := nth 9 (sd_rf s) 0 * dst in
  sd_rf s ++ [res; e_u64 C (r_ap t); e_u64 C (r_fp t); e_u64 C (r_pc t); fst (sd_dst s); fst (sd_op0 s); fst (sd_op1 s);
              sd_inst s; dst; op0; snd (sd_op1 s)] ++ sd_ro s ++ [t0; t0 * res; op0 * snd (sd_op1 s); sel].

Lemma flags_repr_length f (r : list C) : flags_repr f = Ok r -> length r = 16%nat.
Proof.
  unfold flags_repr. destruct (op1_src_repr _) as [[? ?] ?]. intro H. apply obind_ok in H. destruct H as ([? ?] & _ & H).
  destruct (pc_update_repr _) as [[? ?] ?]. apply obind_ok in H. destruct H as ([? ?] & _ & H). destruct (opcode_repr _) as [[? ?] ?].
  apply ok_inj in H. now subst r.
Qed.
Lemma offsets_repr_length o (r : list C) : offsets_repr o = Ok r -> length r = 3%nat.
Proof. unfold offsets_repr. intro H. now apply traverse_length in H. Qed.

Lemma list_as_nth {A} (l : list A) n d : length l = n -> l = map (fun c => nth c l d) (seq 0 n).
Proof. intros <-. symmetry. apply map_nth_seq. Qed.

Lemma rows_to_cols_on w (f : step_data -> list C) ss : ss <> [] -> (forall s, In s ss -> length (f s) = w) ->
  rows_to_cols w (map f ss) = Ok (map (fun c => map (fun s => nth c (f s) 0) ss) (seq 0 w)).
Proof.
  intros Hne H. unfold rows_to_cols. destruct ss as [|s0 ss']; [congruence|]. remember (s0 :: ss') as ss.
  rewrite (idx_nth _ 0%nat []) by (subst; cbn; lia). cbn [obind].
  apply traverse_map. intros c Hc. apply in_seq in Hc. apply traverse_on. intros s Hs. apply idx_nth. rewrite H; [lia|exact Hs].
Qed.

(** The nine builtin columns. *)
Definition rc_cols (n : nat) (vals : list C) : list (list C) := map (resize0 n) (decompose_rc_values vals) ++ [resize0 n vals].
Definition sel_of (n i : nat) : C := if (i =? n - 1)%nat then 0 else 1.
Definition build_rows (ss : list step_data) (extra : list (list C)) : list (list C) :=
  map (fun i => step_row (nth i ss (mk_step (mk_regs 0 0 0) (mk_flags NOp ApRegular PcRegular ResOp1 Op1Op0 Op0AP DstAP) (mk_offsets 0 0 0)
                                     (0, 0) (0, 0) (0, 0) 0 (0, 0, 0) [] [] 0)) (sel_of (length ss) i) ++ map (fun c => nth i c 0) extra)
    (seq 0 (length ss)).
Definition sd0 : step_data := mk_step (mk_regs 0 0 0) (mk_flags NOp ApRegular PcRegular ResOp1 Op1Op0 Op0AP DstAP) (mk_offsets 0 0 0)
                                     (0, 0) (0, 0) (0, 0) 0 (0, 0, 0) [] [] 0.

(** The builtin columns of a run: present when there is a range-check segment. *)
Definition rc_extra (m : @cairo_memory C) (pi : public_inputs C) (n : nat) (extra : list (list C)) : Prop :=
  match map_get segment_eqb RangeCheck (memory_segments pi) with
  | None => extra = []
  | Some (lo, hi) => exists vals, traverse (fun a => unwrap (mem_get m a)) (nrange lo hi) = Ok vals /\ extra = rc_cols n vals
  end.

Lemma resize0_length n (l : list C) : length (resize0 n l) = n.
Proof. unfold resize0. rewrite app_length, firstn_length, repeat_length. lia. Qed.
Lemma rc_cols_lengths n vals c : In c (rc_cols n vals) -> length c = n.
Proof.
  unfold rc_cols. rewrite in_app_iff, in_map_iff. intros [(x & <- & _)|[<-|[]]]; apply resize0_length.
Qed.
Lemma selector_nth n i : (0 < n)%nat -> (i < n)%nat -> nth i (repeat (1 : C) (n - 1) ++ [0]) 0 = sel_of n i.
Proof.
  intros Hn Hi. unfold sel_of. destruct (Nat.eqb_spec i (n - 1)) as [->|N].
  - rewrite app_nth2, repeat_length, Nat.sub_diag by (rewrite repeat_length; lia). reflexivity.
  - rewrite app_nth1 by (rewrite repeat_length; lia). rewrite (nth_indep _ 0 1) by (rewrite repeat_length; lia). apply nth_repeat.
Qed.

Lemma build_forward raw m pi ss extra : raw = map sd_regs ss -> ss <> [] -> Forall (step_ok m) ss -> rc_extra m pi (length ss) extra ->
  build_cairo_execution_trace raw m pi = Ok (mk_trace (concat (build_rows ss extra)) (34 + length extra)).
Proof.
  intros -> Hne Hok Hex. rewrite Forall_forall in Hok. unfold build_cairo_execution_trace.
  assert (E : flags_and_offsets (map sd_regs ss) m = Ok (map (fun s => (sd_flags s, sd_offsets s)) ss))
    by (apply traverse_on; intros s Hs; apply (so_decode _ _ (Hok s Hs))).
  rewrite E. cbn [unwrap_r obind]. rewrite !map_map. cbn [fst snd]. rewrite !combine_on.
  rewrite (traverse_on _ _ sd_dst) by (intros s Hs; apply (so_dst _ _ (Hok s Hs))). cbn [obind].
  rewrite (traverse_on _ _ sd_op0) by (intros s Hs; apply (so_op0 _ _ (Hok s Hs))). cbn [obind].
  rewrite !map_map, !combine_on. rewrite (traverse_on _ _ sd_op1) by (intros s Hs; apply (so_op1 _ _ (Hok s Hs))). cbn [obind].
  rewrite !map_map, !combine_on. rewrite (traverse_on _ _ sd_res) by (intros s Hs; apply (so_res _ _ (Hok s Hs))). cbn [obind].
  rewrite !combine_on. rewrite (traverse_on _ _ sd_upd) by (intros s Hs; apply (so_upd _ _ (Hok s Hs))). cbn [obind].
  rewrite !map_map.
  rewrite (traverse_on _ _ sd_rf) by (intros s Hs; apply (so_rf _ _ (Hok s Hs))). cbn [obind].
  rewrite (traverse_on _ _ sd_ro) by (intros s Hs; apply (so_ro _ _ (Hok s Hs))). cbn [obind].
  rewrite (traverse_on _ _ sd_inst) by (intros s Hs; rewrite (so_inst _ _ (Hok s Hs)); reflexivity). cbn [obind].
  rewrite !combine_on.
  rewrite (traverse_on _ _ (fun s => nth 9 (sd_rf s) 0 * snd (fst (sd_upd s)))).
  2:{ intros s Hs. rewrite (idx_nth _ 9%nat 0); [reflexivity|]. rewrite (flags_repr_length _ _ (so_rf _ _ (Hok s Hs))). lia. }
  cbn [obind]. rewrite !combine_on, !map_map. cbn [fst snd].
  rewrite rows_to_cols_on by (try exact Hne; intros s Hs; exact (flags_repr_length _ _ (so_rf _ _ (Hok s Hs)))). cbn [obind].
  rewrite rows_to_cols_on by (try exact Hne; intros s Hs; exact (offsets_repr_length _ _ (so_ro _ _ (Hok s Hs)))). cbn [obind].
  assert (Hlen : (0 < length ss)%nat) by (destruct ss; [congruence|cbn; lia]).
  rewrite map_length, usub_ok by lia. cbn [obind].
  match goal with |- obind (match _ with Some _ => _ | None => Ok ?x end) _ = _ => set (cols := x) end.
  assert (Hfirst : exists rest, cols = map (fun s => nth 0 (sd_rf s) 0) ss :: rest) by (unfold cols; cbn [seq map app]; eauto).
  assert (Hcols : forall c, In c cols -> length c = length ss).
  { intros c Hc. unfold cols in Hc. rewrite !in_app_iff in Hc. destruct Hc as [Hc|[Hc|[Hc|Hc]]].
    - apply in_map_iff in Hc. destruct Hc as (? & <- & _). apply map_length.
    - cbn [In] in Hc. repeat (destruct Hc as [<-|Hc]; [apply map_length|]). destruct Hc.
    - apply in_map_iff in Hc. destruct Hc as (? & <- & _). apply map_length.
    - cbn [In] in Hc. destruct Hc as [<-|[<-|[<-|[<-|[]]]]]; try apply map_length. rewrite app_length, repeat_length. cbn. lia. }
  assert (Hbody : obind (match map_get segment_eqb RangeCheck (memory_segments pi) with
                         | Some range => add_rc_builtin_columns cols range m
                         | None => Ok cols end) tt_new_from_cols = tt_new_from_cols (cols ++ extra) /\ (forall c, In c extra -> length c = length ss)).
  { unfold rc_extra in Hex. destruct (map_get segment_eqb RangeCheck (memory_segments pi)) as [[lo hi]|].
    - destruct Hex as (vals & Ev & ->). split; [|intros c; apply rc_cols_lengths]. unfold add_rc_builtin_columns. cbn [fst snd]. rewrite Ev. cbn [obind].
      destruct Hfirst as (rest & ->). cbn [idx nth_error unwrap obind]. unfold rc_cols. now rewrite map_length.
    - subst extra. rewrite app_nil_r. split; [reflexivity|intros c []]. }
  destruct Hbody as [Hb Hxl]. etransitivity; [exact Hb|]. clear Hb. destruct Hfirst as (rest & Hf). rewrite Hf. cbn [app].
  rewrite (new_from_cols_ok _ _ 0).
  2:{ intros c Hc. apply in_app_or in Hc. rewrite map_length.
      destruct Hc as [Hc|Hc]; [rewrite Hcols by (rewrite Hf; now right); lia|rewrite Hxl by exact Hc; lia]. }
  rewrite app_comm_cons, <- Hf, map_length.
  assert (L34 : length cols = 34%nat) by reflexivity.
  apply (f_equal Ok). apply f_equal2; [|now rewrite app_length, L34]. apply (f_equal (@concat _)). unfold transpose, build_rows. fold sd0. apply map_ext_in. intros i Hi. apply in_seq in Hi.
  rewrite map_app. f_equal.
  assert (Hm : forall g : step_data -> C, nth i (map g ss) 0 = g (nth i ss sd0)).
  { intro g. rewrite (nth_indep _ 0 (g sd0)) by (rewrite map_length; lia). apply map_nth. }
  assert (Hs : In (nth i ss sd0) ss) by (apply nth_In; lia).
  unfold cols. rewrite !map_app. rewrite !map_map. cbn [map]. rewrite !Hm, selector_nth by lia. unfold step_row.
  assert (E1 : map (fun c => nth i (map (fun s => nth c (sd_rf s) 0) ss) 0) (seq 0 16) = sd_rf (nth i ss sd0)).
  { symmetry. etransitivity; [exact (list_as_nth _ 16 0 (flags_repr_length _ _ (so_rf _ _ (Hok _ Hs))))|].
    apply map_ext_in. intros c _. symmetry. apply (Hm (fun s => nth c (sd_rf s) 0)). }
  assert (E2 : map (fun c => nth i (map (fun s => nth c (sd_ro s) 0) ss) 0) (seq 0 3) = sd_ro (nth i ss sd0)).
  { symmetry. etransitivity; [exact (list_as_nth _ 3 0 (offsets_repr_length _ _ (so_ro _ _ (Hok _ Hs))))|].
    apply map_ext_in. intros c _. symmetry. apply (Hm (fun s => nth c (sd_ro s) 0)). }
  rewrite E1, E2. destruct (sd_upd (nth i ss sd0)) as [[op0 dst] res]. reflexivity.
Qed.

Lemma combine_at {A B} (a : list A) (b : list B) i da db : length a = length b -> nth i (combine a b) (da, db) = (nth i a da, nth i b db).
Proof. apply combine_nth. Qed.
Lemma map_at {A B} (g : A -> B) l i d : nth i (map g l) (g d) = g (nth i l d).
Proof. apply map_nth. Qed.

Lemma build_inverse raw m pi t : build_cairo_execution_trace raw m pi = Ok t ->
  exists ss extra, raw = map sd_regs ss /\ ss <> [] /\ Forall (step_ok m) ss /\ rc_extra m pi (length ss) extra.
Proof.
  unfold build_cairo_execution_trace. intro H.
  apply obind_ok in H. destruct H as (fo & Efo & H). apply unwrap_r_ok in Efo. unfold flags_and_offsets in Efo. cbv zeta in H.
  apply obind_ok in H. destruct H as (dst & Edst & H).
  apply obind_ok in H. destruct H as (op0 & Eop0 & H).
  apply obind_ok in H. destruct H as (op1 & Eop1 & H).
  apply obind_ok in H. destruct H as (res & Eres & H).
  apply obind_ok in H. destruct H as (upd & Eupd & H).
  apply obind_ok in H. destruct H as (rf & Erf & H).
  apply obind_ok in H. destruct H as (ro & Ero & H).
  apply obind_ok in H. destruct H as (inst & Einst & H).
  apply obind_ok in H. destruct H as (t0 & Et0 & H).
  apply obind_ok in H. destruct H as (fc & Efc & H).
  apply obind_ok in H. destruct H as (oc & Eoc & H).
  apply obind_ok in H. destruct H as (ls & Els & H). apply usub_inv in Els.
  apply obind_ok in H. destruct H as (cols & Ecols & H). clear H.
  set (n := length raw) in *.
  assert (Lfo : length fo = n) by exact (traverse_length _ _ _ Efo).
  assert (Lf : length (map fst fo) = n) by now rewrite map_length.
  assert (Lo : length (map snd fo) = n) by now rewrite map_length.
  assert (Ldst : length dst = n) by (rewrite (traverse_length _ _ _ Edst), !combine_length; lia).
  assert (Lop0 : length op0 = n) by (rewrite (traverse_length _ _ _ Eop0), !combine_length; lia).
  assert (Lop0' : length (map snd op0) = n) by now rewrite map_length.
  assert (Ldst' : length (map snd dst) = n) by now rewrite map_length.
  assert (Lop1 : length op1 = n) by (rewrite (traverse_length _ _ _ Eop1), !combine_length; lia).
  assert (Lop1' : length (map snd op1) = n) by now rewrite map_length.
  assert (Lres : length res = n) by (rewrite (traverse_length _ _ _ Eres), !combine_length; lia).
  assert (Lupd : length upd = n) by (rewrite (traverse_length _ _ _ Eupd), !combine_length; lia).
  assert (Lrf : length rf = n) by (rewrite (traverse_length _ _ _ Erf); lia).
  assert (Lro : length ro = n) by (rewrite (traverse_length _ _ _ Ero); lia).
  assert (Linst : length inst = n) by (rewrite (traverse_length _ _ _ Einst); lia).
  pose (dt := mk_regs 0 0 0). pose (df := mk_flags NOp ApRegular PcRegular ResOp1 Op1Op0 Op0AP DstAP). pose (do_ := mk_offsets 0 0 0).
  pose (z2 := (0, 0) : C * C).
  pose (ss := map (fun i => mk_step (nth i raw dt) (fst (nth i fo (df, do_))) (snd (nth i fo (df, do_))) (nth i dst z2) (nth i op0 z2) (nth i op1 z2)
                              (nth i res 0) (nth i upd (0, 0, 0)) (nth i rf []) (nth i ro []) (nth i inst 0)) (seq 0 n)).
  assert (Hreg : raw = map sd_regs ss).
  { unfold ss. rewrite map_map. cbn [sd_regs]. symmetry. apply map_nth_seq. }
  assert (Ln : length ss = n) by (unfold ss; now rewrite map_length, seq_length).
  assert (Hok : Forall (step_ok m) ss).
  { apply Forall_forall. intros s Hs. unfold ss in Hs. apply in_map_iff in Hs. destruct Hs as (i & <- & Hi). apply in_seq in Hi.
    pose proof (traverse_nth _ _ _ i dt (df, do_) Efo ltac:(lia)) as A1.
    pose proof (traverse_nth _ _ _ i (df, do_, dt) z2 Edst ltac:(rewrite !combine_length; lia)) as A2.
    pose proof (traverse_nth _ _ _ i (df, do_, dt) z2 Eop0 ltac:(rewrite !combine_length; lia)) as A3.
    pose proof (traverse_nth _ _ _ i (df, do_, snd z2, dt) z2 Eop1 ltac:(rewrite !combine_length; lia)) as A4.
    pose proof (traverse_nth _ _ _ i (df, snd z2, snd z2, snd z2) 0 Eres ltac:(rewrite !combine_length; lia)) as A5.
    pose proof (traverse_nth _ _ _ i (df, dt, snd z2, snd z2, 0) (0, 0, 0) Eupd ltac:(rewrite !combine_length; lia)) as A6.
    pose proof (traverse_nth _ _ _ i df [] Erf ltac:(lia)) as A7.
    pose proof (traverse_nth _ _ _ i do_ [] Ero ltac:(lia)) as A8.
    pose proof (traverse_nth _ _ _ i dt 0 Einst ltac:(lia)) as A9.
    change df with (fst (df, do_)) in A2, A3, A4, A5, A6, A7. change do_ with (snd (df, do_)) in A2, A3, A4, A8.
    rewrite !combine_nth in A2 by (rewrite ?combine_length; lia). rewrite !combine_nth in A3 by (rewrite ?combine_length; lia).
    rewrite !combine_nth in A4 by (rewrite ?combine_length; lia). rewrite !combine_nth in A5 by (rewrite ?combine_length; lia).
    rewrite !combine_nth in A6 by (rewrite ?combine_length; lia).
    rewrite !map_at in A2. rewrite !map_at in A3. rewrite !map_at in A4. rewrite !map_at in A5. rewrite !map_at in A6.
    rewrite map_at in A7. rewrite map_at in A8.
    constructor; cbn [sd_regs sd_flags sd_offsets sd_dst sd_op0 sd_op1 sd_res sd_upd sd_rf sd_ro sd_inst];
      [|exact A2|exact A3|exact A4|exact A5|exact A6|exact A7|exact A8|].
    - rewrite A1. now destruct (nth i fo (df, do_)).
    - apply unwrap_ok in A9. exact A9. }
  destruct (map_get segment_eqb RangeCheck (memory_segments pi)) as [[lo hi]|] eqn:Eg.
  - unfold add_rc_builtin_columns in Ecols. apply obind_ok in Ecols. destruct Ecols as (vals & Ev & _). cbn [fst snd] in Ev.
    exists ss, (rc_cols (length ss) vals). repeat split; [exact Hreg| |exact Hok|].
    + intro Z. rewrite Z in Ln. cbn in Ln. lia.
    + unfold rc_extra. rewrite Eg. eauto.
  - exists ss, []. repeat split; [exact Hreg| |exact Hok|].
    + intro Z. rewrite Z in Ln. cbn in Ln. lia.
    + unfold rc_extra. now rewrite Eg.
Qed.
End Build.
