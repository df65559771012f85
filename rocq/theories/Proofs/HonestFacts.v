(** The main trace of a run: its rows, and the CPU constraints on them. *)
From Coq Require Import List Arith NArith ZArith Bool Lia.
From Verif.Base Require Import Outcome Field Poly.
From Verif.Model Require Import Codec PublicInputs Trace Air CairoDecode CairoTrace CairoAir.
From Verif.Spec Require Import CairoSpec CairoRun CairoColumns.
From Verif.Proofs Require Import FieldFacts OutcomeFacts FFTFacts TraceFacts DecodeFacts CpuFacts BuildFacts MainTraceFacts MainColsFacts CairoAirFacts StepFacts SortedFacts.
Import ListNotations.
Local Open Scope felt_scope.

Lemma list_choice {A} (P : nat -> A -> Prop) (d : A) n : (forall i, (i < n)%nat -> exists a, P i a) ->
  exists l, length l = n /\ forall i, (i < n)%nat -> P i (nth i l d).
Proof.
  induction n as [|n IH]; intro H; [exists []; split; [reflexivity|lia]|].
  destruct IH as (l & Hl & Hp); [intros; apply H; lia|]. destruct (H n ltac:(lia)) as (a & Ha).
  exists (l ++ [a]). split; [rewrite app_length; cbn; lia|]. intros i Hi. destruct (Nat.eq_dec i n) as [->|].
  - rewrite app_nth2, Hl, Nat.sub_diag by lia. exact Ha.
  - rewrite app_nth1 by lia. apply Hp. lia.
Qed.

Section Honest.
Context {C : cairo_env} {p : N} (HC : cairo_ok C p).
Let HK : field_ok C := fft_field_ok _ (e_fft_ok _ (co_env _ _ HC)).
Add Field Kfield39 : (fld_th C HK).
Local Notation "r .[ i ]" := (nth i r (fzero : C)) (at level 2, format "r .[ i ]").

(** Rows of the step table *)
Lemma step_row_length m (s : step_data (C := C)) sel : step_ok m s -> length (step_row s sel) = 34%nat.
Proof using Type.
  intro H. unfold step_row. destruct (sd_upd s) as [[a b] c]. rewrite !app_length, (flags_repr_length _ _ (so_rf _ _ H)), (offsets_repr_length _ _ (so_ro _ _ H)). reflexivity.
Qed.
Lemma nth_concat3 (a b c d : list C) i : length a = 16%nat -> length b = 11%nat -> length c = 3%nat ->
  nth i (a ++ b ++ c ++ d) 0 = if (i <? 16)%nat then nth i a 0 else if (i <? 27)%nat then nth (i - 16) b 0 else if (i <? 30)%nat then nth (i - 27) c 0 else nth (i - 30) d 0.
Proof using Type.
  intros Ha Hb Hc. destruct (Nat.ltb_spec i 16); [now rewrite app_nth1 by lia|]. rewrite app_nth2, Ha by lia.
  destruct (Nat.ltb_spec i 27); [now rewrite app_nth1 by lia|]. rewrite app_nth2, Hb by lia.
  destruct (Nat.ltb_spec i 30); [rewrite app_nth1 by lia; f_equal; lia|]. rewrite app_nth2, Hc by lia. f_equal. lia.
Qed.
Lemma step_row_cell m (s : step_data (C := C)) sel extra i : step_ok m s ->
  nth i (step_row s sel ++ extra) 0 =
  let '(op0, dst, res) := sd_upd s in
  let t := sd_regs s in
  let t0 := nth 9 (sd_rf s) 0 * dst in
  if (i <? 16)%nat then nth i (sd_rf s) 0 else
  if (i <? 27)%nat then nth (i - 16) [res; e_u64 C (r_ap t); e_u64 C (r_fp t); e_u64 C (r_pc t); fst (sd_dst s); fst (sd_op0 s); fst (sd_op1 s);
              sd_inst s; dst; op0; snd (sd_op1 s)] 0 else
  if (i <? 30)%nat then nth (i - 27) (sd_ro s) 0 else nth (i - 30) ([t0; t0 * res; op0 * snd (sd_op1 s); sel] ++ extra) 0.
Proof using Type.
  intro H. unfold step_row. destruct (sd_upd s) as [[a b] c]. cbv zeta. rewrite <- !app_assoc.
  apply nth_concat3; [exact (flags_repr_length _ _ (so_rf _ _ H))|reflexivity|exact (offsets_repr_length _ _ (so_ro _ _ H))].
Qed.

Section Table.
Context (m : @cairo_memory C) (ss : list (step_data (C := C))) (extra : list (list C)).
Hypothesis (Hss : Forall (step_ok m) ss) (Hne : ss <> []).
Let w := (34 + length extra)%nat.
Let rows := build_rows ss extra.

Lemma build_rows_length : length rows = length ss.
Proof using Type. unfold rows, build_rows. now rewrite map_length, seq_length. Qed.
Lemma build_rows_nth i : (i < length ss)%nat -> nth i rows [] = step_row (nth i ss sd0) (sel_of (length ss) i) ++ map (fun c => nth i c 0) extra.
Proof using Type. clear Hss Hne. intro H. unfold rows, build_rows. fold (@sd0 C). exact (nth_map_seq (fun i => step_row (nth i ss sd0) (sel_of (length ss) i) ++ map (fun c => nth i c 0) extra) (length ss) i [] H). Qed.
Lemma step_at i : (i < length ss)%nat -> step_ok m (nth i ss sd0).
Proof using Hss. clear Hne. intro H. rewrite Forall_forall in Hss. apply Hss. now apply nth_In. Qed.
Lemma build_rows_width : Forall (fun r => length r = w) rows.
Proof using Hss.
  clear Hne. apply Forall_forall. intros r Hr. apply (In_nth _ _ []) in Hr. destruct Hr as (i & Hi & <-). rewrite build_rows_length in Hi.
  rewrite build_rows_nth by exact Hi. rewrite app_length, (step_row_length m), map_length by now apply step_at. reflexivity.
Qed.
Lemma build_rows_ne : rows <> [].
Proof using Hne. clear Hss. intro E. pose proof build_rows_length as L. rewrite E in L. destruct ss; [congruence|discriminate]. Qed.
Lemma build_rows_table : is_table (mk_trace (concat rows) w) rows.
Proof using Hss. clear Hne. repeat split; [cbn; unfold w; lia|]. exact build_rows_width. Qed.

(** Flag cells are bits, offset cells 16-bit numbers. *)
Lemma step_flag i j : (i < length ss)%nat -> (j < 15)%nat -> exists b, nth j (nth i rows []) 0 = of_bool b.
Proof using HC Hss.
  clear Hne. intros Hi Hj. rewrite build_rows_nth by exact Hi. pose proof (step_at i Hi) as Hok. rewrite (step_row_cell m) by exact Hok.
  destruct (sd_upd _) as [[a b] c]. cbv zeta. rewrite (proj2 (Nat.ltb_lt _ _)) by lia.
  destruct (step_decoded HC _ _ Hok) as (_ & _ & -> & _). exists (N.testbit (ce_repr (sd_inst (nth i ss sd0))) (48 + N.of_nat j)).
  rewrite app_nth1 by (rewrite map_length, seq_length; lia).
  exact (nth_map_seq (flag_bit (C := C) (ce_repr (sd_inst (nth i ss sd0)))) 15 j 0 Hj).
Qed.
Lemma step_flag15 i : (i < length ss)%nat -> nth 15 (nth i rows []) 0 = 0.
Proof using HC Hss.
  clear Hne. intros Hi. rewrite build_rows_nth by exact Hi. pose proof (step_at i Hi) as Hok. rewrite (step_row_cell m) by exact Hok.
  destruct (sd_upd _) as [[a b] c]. cbv zeta. change (15 <? 16)%nat with true. cbv iota.
  destruct (step_decoded HC _ _ Hok) as (_ & _ & -> & _). reflexivity.
Qed.
Lemma step_offsets x : In x (cells OFF_COLUMNS rows) -> small16 x.
Proof using HC Hss.
  clear Hne. intro Hx. apply cells_in in Hx. destruct Hx as (r & c & Hr & Hc & ->). apply (In_nth _ _ []) in Hr. destruct Hr as (i & Hi & <-).
  rewrite build_rows_length in Hi. rewrite build_rows_nth by exact Hi. pose proof (step_at i Hi) as Hok. rewrite (step_row_cell m) by exact Hok.
  destruct (sd_upd _) as [[a b] e]. cbv zeta. destruct (step_decoded HC _ _ Hok) as (_ & _ & _ & ->).
  destruct Hc as [<-|[<-|[<-|[]]]]; cbn; eexists; (split; [|reflexivity]); apply bits_of_lt.
Qed.
Lemma step_selector i : (i < length ss)%nat -> nth 33 (nth i rows []) 0 = sel_of (length ss) i.
Proof using Hss.
  clear Hne. intros Hi. rewrite build_rows_nth by exact Hi. pose proof (step_at i Hi) as Hok. rewrite (step_row_cell m) by exact Hok.
  destruct (sd_upd _) as [[a b] c]. reflexivity.
Qed.

(** Rows after the steps: bits, and a zero selector. *)
Lemma rc_row_cell r j : In r (rows_rc w rows) -> (j < 27 \/ 30 <= j)%nat -> nth j r 0 = 0.
Proof using Type.
  clear Hss Hne. unfold rows_rc, rc_hole_rows. intros Hr Hj. apply in_map_iff in Hr. destruct Hr as (i & <- & Hi). apply in_seq in Hi.
  pose proof (rc_hole_list_mod3 (C := C) (sorted_u16s rows)) as M. pose proof (Nat.div_mod (length (rc_hole_list (C:=C) (sorted_u16s rows))) 3 ltac:(lia)).
  change OFF_DST with 27%nat. destruct (Nat.lt_ge_cases j 27).
  - rewrite app_nth1 by (rewrite repeat_length; lia). apply nth_repeat.
  - rewrite app_nth2, repeat_length by (rewrite repeat_length; lia). rewrite app_nth2; rewrite firstn_length, skipn_length; [|lia]. apply nth_repeat.
Qed.
Lemma last_prefix_row j : (j < 16 \/ j = 33)%nat -> exists r, In r (rows ++ rows_rc w rows) /\ last_row (rows ++ rows_rc w rows) = r /\
  ((j < 15)%nat -> exists b, nth j r 0 = of_bool b) /\ (j = 15%nat -> nth j r 0 = 0) /\ (j = 33%nat -> nth j r 0 = 0).
Proof using HC Hss Hne.
  intro Hj. exists (last_row (rows ++ rows_rc w rows)). split; [apply last_row_in, app_ne, build_rows_ne|]. split; [reflexivity|].
  assert (Hlen : (0 < length ss)%nat) by (destruct ss; [congruence|cbn; lia]).
  destruct (rows_rc w rows) as [|r0 rs] eqn:E.
  - rewrite app_nil_r. unfold last_row. rewrite build_rows_length. repeat split.
    + intro. apply step_flag; lia.
    + intros ->. apply step_flag15. lia.
    + intros ->. rewrite step_selector by lia. unfold sel_of. now rewrite Nat.eqb_refl.
  - rewrite <- E. rewrite last_row_app_in by (rewrite E; discriminate).
    assert (Hin : In (last_row (rows_rc w rows)) (rows_rc w rows)) by (apply last_row_in; rewrite E; discriminate).
    repeat split; intros; [exists false|..]; apply (rc_row_cell _ _ Hin); lia.
Qed.
Lemma later_row codelen r j : In r (main_rows w codelen rows) -> (exists i, (i < length ss)%nat /\ r = nth i rows []) \/
  (((j < 15)%nat -> exists b, nth j r 0 = of_bool b) /\ (j = 15%nat -> nth j r 0 = 0) /\ (j = 33%nat -> nth j r 0 = 0)).
Proof using HC Hss Hne.
  intros Hr. destruct (Nat.lt_ge_cases j 16) as [Lj|Lj]; [|destruct (Nat.eq_dec j 33) as [Ej|Nj]; [|right; repeat split; lia]].
  all: unfold main_rows in Hr; apply in_app_or in Hr; unfold rows_filled in Hr at 1; rewrite !in_app_iff in Hr.
  all: destruct (last_prefix_row j ltac:(lia)) as (r' & _ & El & P).
  all: assert (Wp : length (last_row (rows ++ rows_rc w rows)) = w) by (apply prefix_width; [exact build_rows_ne|exact build_rows_width|unfold w; lia]).
  all: assert (W34 : (34 <= w)%nat) by (unfold w; lia).
  all: destruct Hr as [[Hr|[Hr|Hr]]|Hr].
  1,5: left; apply (In_nth _ _ []) in Hr; destruct Hr as (i & Hi & <-); rewrite build_rows_length in Hi; eauto.
  1,4: right; repeat split; intros; [exists false|..]; apply (rc_row_cell _ _ Hr); lia.
  1,3: right; apply mem_hole_row_shape in Hr; [|lia]; destruct Hr as [_ Hc]; rewrite Hc, El by lia; exact P.
  1,2: right; apply repeat_spec in Hr; subst r; rewrite zero_mem_cell by (rewrite last_filled_width; [lia|exact build_rows_ne|exact build_rows_width|lia]);
    replace ((19 <=? j)%nat && (j <? 27)%nat)%bool with false by (symmetry; destruct (Nat.leb_spec 19 j), (Nat.ltb_spec j 27); cbn; try reflexivity; lia);
    rewrite last_filled_cell; [rewrite El; exact P|exact build_rows_ne|exact build_rows_width|exact W34|lia].
Qed.
End Table.

(** The table of [build_main_trace]. *)
Lemma main_forward raw m pi (ss : list (step_data (C := C))) extra : raw = map sd_regs ss -> ss <> [] -> Forall (step_ok m) ss -> rc_extra m pi (length ss) extra ->
  let rows := build_rows ss extra in let w := (34 + length extra)%nat in let so := sorted_u16s rows in
  exists t, build_main_trace raw m pi = Ok (t, with_rc_bounds pi (nth 0 so 0%N) (nth (length so - 1) so 0%N)) /\
    is_table t (main_rows w (length (public_memory pi)) rows) /\ tt_n_cols t = w.
Proof using Type.
  intros Hr Hne Hok Hx rows w so. pose proof (build_forward raw m pi ss extra Hr Hne Hok Hx) as Hb.
  exact (main_trace_rows raw m pi _ rows Hb (build_rows_table m ss extra Hok) (build_rows_ne ss extra Hne) ltac:(cbn; lia)).
Qed.
Lemma main_inverse raw m pi t pi' : build_main_trace raw m pi = Ok (t, pi') ->
  exists (ss : list (step_data (C := C))) extra, raw = map sd_regs ss /\ ss <> [] /\ Forall (step_ok m) ss /\ rc_extra m pi (length ss) extra /\
  let rows := build_rows ss extra in let w := (34 + length extra)%nat in let so := sorted_u16s rows in
  pi' = with_rc_bounds pi (nth 0 so 0%N) (nth (length so - 1) so 0%N) /\
    is_table t (main_rows w (length (public_memory pi)) rows) /\ tt_n_cols t = w.
Proof using Type.
  intro H. assert (Hb : exists t0, build_cairo_execution_trace raw m pi = Ok t0).
  { unfold build_main_trace in H. apply obind_ok in H. destruct H as (t0 & E & _). eauto. }
  destruct Hb as (t0 & Hb). destruct (build_inverse raw m pi t0 Hb) as (ss & extra & Hr & Hne & Hok & Hx).
  exists ss, extra. repeat split; try assumption;
    destruct (main_forward raw m pi ss extra Hr Hne Hok Hx) as (t' & E & T & W); rewrite H in E; apply ok_inj in E; injection E as -> ->; [reflexivity|apply T..|exact W].
Qed.

(** Steps of a valid run *)
Definition good_steps (m : @cairo_memory C) (ss : list (step_data (C := C))) : Prop :=
  forall i, (i + 1 < length ss)%nat -> forall sel extra (n : list C), let t' := sd_regs (nth (i + 1) ss sd0) in
    n.[17] = e_u64 C (r_ap t') -> n.[18] = e_u64 C (r_fp t') -> n.[19] = e_u64 C (r_pc t') ->
    forall j, (j < 15)%nat -> nth j (cpu_formulas (step_row (nth i ss sd0) sel ++ extra) n) 0 = 0.
(** [update_values] changes neither operand. *)
Definition unchanged (s : step_data (C := C)) : Prop := fst (sd_upd s) = (snd (sd_op0 s), snd (sd_dst s)).
(** The addresses in the row are those the step reads. *)
Definition covers (m : @cairo_memory C) (s : step_data (C := C)) : Prop :=
  forall a, touches m (sd_regs s) a <-> In a [e_u64 C (r_pc (sd_regs s)); fst (sd_dst s); fst (sd_op0 s); fst (sd_op1 s)].
Lemma valid_run_steps m raw : valid_run m raw ->
  exists ss, raw = map sd_regs ss /\ ss <> [] /\ Forall (step_ok m) ss /\ good_steps m ss /\ Forall unchanged ss /\ Forall (covers m) ss.
Proof using HC.
  intros (Hne & Hrange & Hrun). pose (d := mk_regs 0 0 0).
  destruct (list_choice (fun i s => sd_regs s = nth i raw d /\ (step_ok m s /\ unchanged s /\ covers m s) /\ forall t', nth_error raw (i + 1) = Some t' ->
     forall sel extra (n : list C), n.[17] = e_u64 C (r_ap t') -> n.[18] = e_u64 C (r_fp t') -> n.[19] = e_u64 C (r_pc t') ->
     forall j, (j < 15)%nat -> nth j (cpu_formulas (step_row s sel ++ extra) n) 0 = 0) (@sd0 C) (length raw)) as (ss & Hl & Hs).
  { intros i Hi. destruct (Hrun i (nth i raw d) (nth_error_nth' raw d Hi)) as (s' & Hex & Hnext).
    rewrite Forall_forall in Hrange. destruct (step_built HC m (nth i raw d) s' (Hrange _ (nth_In raw d Hi)) Hex) as (s & Es & Hok & Hf).
    exists s. split; [exact Es|]. split; [unfold covers; rewrite Es; exact Hok|]. intros t' Ht'. rewrite (Hnext t' Ht') in Hf. intros sel extra n N17 N18 N19. now apply Hf. }
  exists ss. assert (Er : raw = map sd_regs ss).
  { apply (nth_ext _ _ d (sd_regs (@sd0 C))); [now rewrite map_length|]. intros i Hi. rewrite map_nth. symmetry. now apply Hs. }
  split; [exact Er|]. split; [intro Z; rewrite Z in Er; now apply Hne|]. split.
  - apply Forall_forall. intros s Hin. apply (In_nth _ _ sd0) in Hin. destruct Hin as (i & Hi & <-). apply Hs. lia.
  - split; [|split; apply Forall_forall; intros s Hin; apply (In_nth _ _ sd0) in Hin; destruct Hin as (i & Hi & <-); apply Hs; lia].
    intros i Hi sel extra n t' N17 N18 N19. apply (proj2 (proj2 (Hs i ltac:(lia))) t'); try assumption.
    unfold t'. rewrite (proj1 (Hs (i + 1)%nat ltac:(lia))). apply nth_error_nth'. lia.
Qed.

(** The CPU constraints on the columns of the main trace, whatever the other columns are. *)
Lemma crow_cols_of w (rows aux : list (list C)) i : Forall (fun r => length r = w) rows -> (i < length rows)%nat ->
  crow (cols_of w rows ++ aux) i = nth i rows [] ++ crow aux i.
Proof using Type.
  intros Hw Hi. unfold crow. rewrite map_app. f_equal. unfold cols_of. rewrite map_map.
  rewrite Forall_forall in Hw. pose proof (Hw _ (nth_In rows [] Hi)) as L.
  etransitivity; [|symmetry; exact (list_as_nth (nth i rows []) w 0 L)]. apply map_ext. intro j.
  rewrite (nth_indep _ 0 (nth j [] 0)) by (rewrite map_length; exact Hi). apply (map_nth (fun r => nth j r 0)).
Qed.

Theorem honest_cpu m (ss : list (step_data (C := C))) extra codelen pi ch aux : ss <> [] -> Forall (step_ok m) ss -> good_steps m ss ->
  let w := (34 + length extra)%nat in let rows := main_rows w codelen (build_rows ss extra) in
  forall j, (j <= 30)%nat -> holds pi ch (cols_of w rows ++ aux) (length rows) j.
Proof using HC.
  intros Hne Hok Hgood w rows j Hj i Hi.
  assert (W34 : (34 <= w)%nat) by (unfold w; lia).
  assert (Hw : Forall (fun r => length r = w) rows).
  { apply main_rows_width; [now apply build_rows_ne|now apply (build_rows_width m)|exact W34]. }
  assert (Hi' : (i < length rows)%nat) by lia. rewrite crow_cols_of by (exact Hw || exact Hi').
  assert (Hr : In (nth i rows []) rows) by now apply nth_In.
  assert (Lr : length (nth i rows []) = w) by (rewrite Forall_forall in Hw; now apply Hw).
  destruct (Nat.lt_ge_cases j 16) as [Lj|Lj].
  - (* flags *)
    rewrite (flag_constraint pi ch _ _ j Lj). unfold flag_value. rewrite app_nth1 by lia.
    destruct (later_row m ss extra Hok Hne codelen (nth i rows []) j Hr) as [(k & Hk & E)|(P & P15 & _)].
    + rewrite E. destruct (Nat.leb_spec j 14).
      * destruct (step_flag m ss extra Hok k j Hk ltac:(lia)) as (b & ->). apply (bit_flag HC).
      * replace j with 15%nat by lia. now apply (step_flag15 m).
    + destruct (Nat.leb_spec j 14); [destruct (P ltac:(lia)) as (b & ->); apply (bit_flag HC)|apply P15; lia].
  - replace j with (16 + (j - 16))%nat by lia. rewrite (cpu_constraint pi ch) by lia. rewrite (app_nth1 (nth i rows []) (crow aux i) 0) by lia.
    destruct (Nat.lt_ge_cases (i + 1) (length ss)) as [Li|Li].
    + (* a step with a successor *)
      assert (Er : forall k, (k < length ss)%nat -> nth k rows [] = nth k (build_rows ss extra) []).
      { intros k Hk. unfold rows, main_rows, rows_filled. rewrite <- app_assoc, app_nth1; [reflexivity|]. now rewrite build_rows_length. }
      rewrite (Er i) at 1 by lia. rewrite build_rows_nth by lia. rewrite <- app_assoc.
      pose proof (main_rows_length w codelen (build_rows ss extra)) as Ln. fold rows in Ln.
      assert (Hmod : ((i + 1) mod length rows = i + 1)%nat).
      { apply Nat.mod_small. rewrite Ln. pose proof (next_pow2_le (n_filled w codelen (build_rows ss extra))) as Q.
        assert (length ss <= n_filled w codelen (build_rows ss extra))%nat by (unfold n_filled, rows_filled; rewrite !app_length, build_rows_length; lia). lia. }
      rewrite Hmod. rewrite Hgood; [ring|exact Li| | | |lia].
      all: rewrite crow_cols_of; [|exact Hw|rewrite <- Hmod; apply Nat.mod_upper_bound; lia].
      all: rewrite app_nth1 by (rewrite Forall_forall in Hw; rewrite Hw; [lia|apply nth_In; rewrite <- Hmod; apply Nat.mod_upper_bound; lia]).
      all: rewrite (Er (i + 1)%nat), build_rows_nth by lia; rewrite (step_row_cell m) by (apply step_at; [exact Hok|lia]);
        destruct (sd_upd _) as [[? ?] ?]; reflexivity.
    + assert (E33 : nth 33 (nth i rows []) 0 = 0).
      { destruct (later_row m ss extra Hok Hne codelen (nth i rows []) 33 Hr) as [(k & Hk & E)|(_ & _ & P)]; [|now apply P].
        destruct (Nat.lt_ge_cases i (length ss)) as [Li'|Li'].
        - assert (Er : nth i rows [] = nth i (build_rows ss extra) []).
          { unfold rows, main_rows, rows_filled. rewrite <- app_assoc, app_nth1; [reflexivity|]. now rewrite build_rows_length. }
          rewrite Er, (step_selector m) by assumption. unfold sel_of. now rewrite (proj2 (Nat.eqb_eq _ _)) by lia.
        - (* a later row that happens to equal a step row *)
          clear E k Hk.
          assert (Hin : In (nth i rows []) (rows_rc w (build_rows ss extra) ++ rows_mem w codelen (build_rows ss extra) ++
              repeat (zero_mem (last_row (rows_filled w codelen (build_rows ss extra)))) (codelen / 4 + 1 + (next_pow2 (n_filled w codelen (build_rows ss extra)) - n_filled w codelen (build_rows ss extra))))).
          { unfold rows, main_rows, rows_filled at 1. rewrite <- !app_assoc. rewrite app_nth2 by (rewrite build_rows_length; lia). apply nth_In.
            unfold rows, main_rows, rows_filled at 1 in Hi'. rewrite <- !app_assoc, app_length in Hi'. rewrite build_rows_length in *. lia. }
          destruct (last_prefix_row m ss extra Hok Hne 33 ltac:(lia)) as (r' & _ & El & _ & _ & P).
          assert (Wp : length (last_row (build_rows ss extra ++ rows_rc w (build_rows ss extra))) = w)
            by (apply prefix_width; [now apply build_rows_ne|now apply (build_rows_width m)|exact W34]).
          rewrite !in_app_iff in Hin. destruct Hin as [Hin|[Hin|Hin]].
          + apply (rc_row_cell ss extra _ _ Hin). lia.
          + apply mem_hole_row_shape in Hin; [|lia]. destruct Hin as [_ Hc]. rewrite Hc by lia. fold w in El. rewrite El. now apply P.
          + apply repeat_spec in Hin. rewrite Hin. rewrite zero_mem_cell by (rewrite last_filled_width; [lia|now apply build_rows_ne|now apply (build_rows_width m)|lia]).
            change ((19 <=? 33)%nat && (33 <? 27)%nat)%bool with false. cbv iota.
            rewrite last_filled_cell; [fold w in El; rewrite El; now apply P|now apply build_rows_ne|now apply (build_rows_width m)|exact W34|lia]. }
      rewrite E33. ring.
Qed.
End Honest.
