(** The trace validator decides satisfaction of the constraints. *)
From Coq Require Import List Arith Lia Bool.
From Verif.Base Require Import Outcome Field Poly.
From Verif.Model Require Import Codec Trace Air Domain Debug.
From Verif.Spec Require Import AirSpec.
From Verif.Proofs Require Import OutcomeFacts FieldFacts PolyFacts FFTFacts TraceFacts.
Import ListNotations.
Local Open Scope felt_scope.

Lemma ofold_flag {A V} (f : A -> outcome V) (v : A -> V) (t : A -> V -> bool) l b :
  (forall x, In x l -> f x = Ok (v x)) ->
  ofold (fun ret x => obind (f x) (fun y => Ok (if t x y then ret else false))) l b = Ok (b && forallb (fun x => t x (v x)) l).
Proof.
  revert b. induction l as [|x l IH]; intros b H; cbn [ofold forallb]; [now rewrite andb_true_r|].
  rewrite H by (now left). cbn [obind]. rewrite IH by (intros; apply H; now right).
  destruct (t x (v x)); cbn; [reflexivity|]. now rewrite andb_false_r.
Qed.

Lemma ofold_bool {A} (f : bool -> A -> outcome bool) (t : A -> bool) l b :
  (forall x ret, In x l -> f ret x = Ok (ret && t x)) -> ofold f l b = Ok (b && forallb t l).
Proof.
  revert b. induction l as [|x l IH]; intros b H; cbn [ofold forallb]; [now rewrite andb_true_r|].
  rewrite H by (now left). cbn [obind]. rewrite IH by (intros; apply H; now right). now rewrite andb_assoc.
Qed.

Lemma forallb_combine_seq {A} (t : nat * A -> bool) (l : list A) (d : A) : forall s,
  forallb t (combine (seq s (length l)) l) = true <-> forall j, (j < length l)%nat -> t ((s + j)%nat, nth j l d) = true.
Proof.
  induction l as [|x l IH]; intros s; cbn [length seq combine forallb].
  - split; [intros; cbn in *; lia|reflexivity].
  - rewrite andb_true_iff, IH. split.
    + intros [H0 H] [|j] Hj; [now rewrite Nat.add_0_r|]. cbn [nth]. replace (s + S j)%nat with (S s + j)%nat by lia. apply H. cbn in Hj. lia.
    + intros H. split.
      * specialize (H 0%nat ltac:(cbn; lia)). now rewrite Nat.add_0_r in H.
      * intros j Hj. specialize (H (S j) ltac:(cbn; lia)). cbn [nth] in H. now replace (s + S j)%nat with (S s + j)%nat in H by lia.
Qed.

Lemma nth_error_combine_repeat (n N : nat) (exs : list nat) i e : (i < N)%nat -> nth_error exs i = Some e ->
  nth_error (combine (repeat n N) exs) i = Some (n, e).
Proof.
  revert N exs. induction i as [|i IH]; intros [|N] [|x exs] Hi He; cbn in *; try lia; try discriminate.
  - now injection He as <-.
  - apply IH; [lia|exact He].
Qed.

Section Validate.
Context {E : env} (HE : env_ok E).
Let HK := fft_field_ok _ (e_fft_ok E HE).
Add Field Kfield20 : (fld_th E (fft_field_ok _ (e_fft_ok E HE))).

Lemma eval_trace_domain (p : poly E) r g : (1 <= r)%nat -> primitive_root r = Some g -> (length p <= 2 ^ r)%nat ->
  evaluate_offset_fft p 1 (2 ^ r) (fone : E) = Ok (map (fun i => peval p (fpow g i)) (seq 0 (2 ^ r))).
Proof using HE.
  intros Hr Hg Hp. unfold evaluate_offset_fft. rewrite next_pow2_le by exact Hp. rewrite Nat.mul_1_r.
  rewrite (proj2 (is_pow2_spec _)) by (now exists r). rewrite Nat.log2_pow2, Hg by lia. f_equal.
  apply map_ext. intro i. f_equal. ring.
Qed.

(** The columns a list of polynomials has on the trace domain. *)
Definition domain_columns (polys : list (poly E)) (g : E) (n : nat) : list (list E) :=
  map (fun p => map (fun i => peval p (fpow g i)) (seq 0 n)) polys.

Context (a : air E) (polys : list (poly E)) (d : domain E) (rap : a_rap a) (r : nat) (g : E).
Context (Hr : (1 <= r)%nat) (Hg : primitive_root r = Some g) (Hd : interpolation_domain_size d = (2 ^ r)%nat).
Context (Hne : polys <> []) (Hlen : Forall (fun p : poly E => (length p <= 2 ^ r)%nat) polys).
Context (bcs : list (boundary_constraint E)) (Hbcs : a_boundary a rap = Ok bcs).
Context (Hrange : forall bc, In bc bcs -> (bc_step bc < 2 ^ r)%nat /\ (bc_col bc < length polys)%nat).
Let cols := domain_columns polys g (2 ^ r).
Let rows := transpose cols (2 ^ r) 0.
Let table := mk_trace (concat rows) (length cols).
Let fr i := mk_frame (concat (map (fun o => map (fun c => nth ((i + o) mod 2 ^ r) c 0) cols) (transition_offsets (a_context a)))) (length cols).

Lemma cols_ne : cols <> [].
Proof using All. unfold cols, domain_columns. intro H. apply map_eq_nil in H. exact (Hne H). Qed.
Lemma cols_len c : In c cols -> length c = (2 ^ r)%nat.
Proof using All. unfold cols, domain_columns. intros H. apply in_map_iff in H. destruct H as [p [<- _]]. now rewrite map_length, seq_length. Qed.

Lemma validate_columns :
  traverse (fun p => unwrap_r (evaluate_offset_fft p 1 (interpolation_domain_size d) (fone : E))) polys = Ok cols /\
  tt_new_from_cols cols = Ok table.
Proof using All.
  split.
  - apply traverse_map. intros p Hp. rewrite Hd, (eval_trace_domain p r g Hr Hg); [reflexivity|]. exact (proj1 (Forall_forall _ _) Hlen p Hp).
  - unfold table, rows. pose proof cols_len as L. pose proof cols_ne as N. destruct cols as [|c0 cs]; [easy|].
    rewrite (new_from_cols_ok c0 cs 0).
    + rewrite (L c0) by (now left). reflexivity.
    + intros c Hc. rewrite (L c0), (L c); [lia|now right|now left].
Qed.

Lemma table_is : is_table table rows.
Proof using All. apply transpose_table. exact cols_ne. Qed.
Lemma rows_len : length rows = (2 ^ r)%nat.
Proof using All. unfold rows, transpose. now rewrite map_length, seq_length. Qed.
Lemma rows_nth i : (i < 2 ^ r)%nat -> nth i rows [] = map (fun c => nth i c 0) cols.
Proof using All. intros H. unfold rows, transpose. now rewrite nth_map_seq. Qed.

Lemma table_frame i : fr_read_from_trace table i 1 (transition_offsets (a_context a)) = Ok (fr i).
Proof using All.
  pose proof (pow2_pos r). rewrite (read_from_trace_ok _ _ i 1 _ table_is).
  - f_equal. unfold fr. cbn [tt_n_cols table]. f_equal. f_equal. apply map_ext. intro o.
    rewrite rows_len, Nat.mul_1_r. apply rows_nth. apply Nat.mod_upper_bound. lia.
  - intro H0. pose proof rows_len as L. rewrite H0 in L. cbn in L. lia.
Qed.

Lemma table_cell step col : (step < 2 ^ r)%nat -> (col < length cols)%nat -> tt_get table step col = Ok (nth step (nth col cols []) 0).
Proof using All.
  intros Hs Hc. rewrite (table_get _ _ _ _ table_is); [|now rewrite rows_len|exact Hc].
  rewrite rows_nth by exact Hs. rewrite (idx_nth _ col (nth step [] 0)) by (now rewrite map_length).
  now rewrite (map_nth (fun c => nth step c 0)).
Qed.

Definition boundary_flag : bool := forallb (fun bc => feqb (bc_value bc) (nth (bc_step bc) (nth (bc_col bc) cols []) 0)) bcs.

Lemma boundary_flag_ok :
  ofold (fun ret bc => obind (tt_get table (bc_step bc) (bc_col bc)) (fun v => Ok (if feqb (bc_value bc) v then ret else false))) bcs true
  = Ok boundary_flag.
Proof using All.
  rewrite (ofold_flag (fun bc => tt_get table (bc_step bc) (bc_col bc)) (fun bc => nth (bc_step bc) (nth (bc_col bc) cols []) 0)
             (fun bc v => feqb (bc_value bc) v)); [reflexivity|].
  intros bc Hbc. destruct (Hrange bc Hbc). apply table_cell; [easy|]. unfold cols, domain_columns. now rewrite map_length.
Qed.

Definition ex_step (e : nat) : nat := (2 ^ r - e)%nat.
Let exs := transition_exemptions (a_context a).
Let NC := num_transition_constraints (a_context a).

(** With all this, whenever the validator returns, it returns whether the trace satisfies the AIR. *)
Theorem validate_trace_sound b : validate_trace a polys d rap = Ok b ->
  (b = true <-> trace_satisfies a rap cols (2 ^ r)).
Proof using All.
  intros H. unfold validate_trace in H. destruct validate_columns as [V1 V2]. rewrite V1 in H. cbn [obind] in H.
  rewrite V2 in H. cbn [obind] in H. rewrite Hbcs in H. cbn [obind] in H. rewrite boundary_flag_ok in H. cbn [obind] in H.
  apply obind_ok in H. destruct H as [steps [Hsteps H]].
  rewrite (table_n_rows _ _ table_is), rows_len in H, Hsteps.
  (* the transition evaluations of every row exist and are covered by exemption steps *)
  assert (Hstep : forall j s e, nth_error steps j = Some s -> nth_error exs j = Some e -> s = (2 ^ r - e)%nat /\ (e <= 2 ^ r)%nat).
  { intros j s e Hs He. pose proof (traverse_length _ _ _ Hsteps) as FL. apply traverse_inv in Hsteps.
    assert (Hj : (j < length steps)%nat) by (apply nth_error_Some; congruence).
    assert (G : forall l m, Forall2 (fun x : nat * nat => fun s => usub (fst x) (snd x) = Ok s) l m -> forall j x s, nth_error l j = Some x -> nth_error m j = Some s -> usub (fst x) (snd x) = Ok s).
    { induction 1 as [|x0 s0 l m Hx _ IH]; intros [|j'] x s' Hx' Hs'; cbn in *; try discriminate.
      - injection Hx' as <-. injection Hs' as <-. exact Hx.
      - exact (IH j' x s' Hx' Hs'). }
    rewrite combine_length, repeat_length in FL.
    specialize (G _ _ Hsteps j (2 ^ r, e)%nat s). cbn [fst snd] in G.
    assert (U : usub (2 ^ r) e = Ok s) by (apply G; [apply nth_error_combine_repeat; [lia|exact He]|exact Hs]).
    apply usub_inv in U. lia. }
  assert (Hsl : (length steps <= length exs)%nat).
  { apply traverse_length in Hsteps. rewrite combine_length in Hsteps. unfold exs. lia. }
  assert (Hev : forall m s0 b0 b1, ofold (fun ret step => obind (fr_read_from_trace table step 1 (transition_offsets (a_context a)))
       (fun fr0 => obind (a_transition a fr0 rap) (fun evaluations =>
         ofold (fun ret (x : nat * E) => let '(i, eval) := x in obind (idx steps i) (fun s => Ok (if (step <? s)%nat && negb (feqb eval 0) then false else ret)))
               (combine (seq 0 (length evaluations)) evaluations) ret))) (seq s0 m) b0 = Ok b1 ->
      (forall i, (s0 <= i < s0 + m)%nat -> exists evals, a_transition a (fr i) rap = Ok evals /\ (length evals <= length steps)%nat) /\
      (b1 = true <-> b0 = true /\ forall i, (s0 <= i < s0 + m)%nat -> forall evals, a_transition a (fr i) rap = Ok evals ->
          forall j, (j < length evals)%nat -> (i < nth j steps 0)%nat -> nth j evals 0 = 0)).
  { induction m as [|m IH]; intros s0 b0 b1 Ho; cbn [seq ofold] in Ho.
    - apply ok_inj in Ho. subst b1. split; [intros; lia|]. split; [intro; split; [assumption|intros; lia]|easy].
    - apply obind_ok in Ho. destruct Ho as [b2 [Hb2 Ho]]. rewrite table_frame in Hb2. cbn [obind] in Hb2.
      apply obind_ok in Hb2. destruct Hb2 as [evals [Hevals Hin]].
      assert (Hle : (length evals <= length steps)%nat).
      { destruct (Nat.le_gt_cases (length evals) (length steps)) as [Hle|Hgt]; [exact Hle|exfalso].
        clear -Hin Hgt HK. revert Hin. generalize b0 b2. 
        assert (G : forall (l : list E) k b0 b2, (length steps < k + length l)%nat -> (k <= length steps)%nat ->
           ofold (fun ret (x : nat * E) => let '(i, eval) := x in obind (idx steps i) (fun s => Ok (if (s0 <? s)%nat && negb (feqb eval 0) then false else ret)))
               (combine (seq k (length l)) l) b0 = Ok b2 -> False).
        { induction l as [|x l IHl]; intros k c0 c2 Hk Hk' Hf; cbn in Hk; [lia|]. cbn [length seq combine ofold] in Hf.
          apply obind_ok in Hf. destruct Hf as [c1 [Hc1 Hf]]. apply obind_ok in Hc1. destruct Hc1 as [sv [Hsv _]].
          apply idx_lt in Hsv. apply (IHl (S k) c1 c2); [lia|lia|exact Hf]. }
        intros c0 c2 Hf. apply (G evals 0%nat c0 c2); [lia|lia|exact Hf]. }
      assert (Hb2 : b2 = b0 && forallb (fun x : nat * E => let '(i, eval) := x in negb ((s0 <? nth i steps 0)%nat && negb (feqb eval 0)))
                             (combine (seq 0 (length evals)) evals)).
      { erewrite ofold_bool in Hin; [apply ok_inj in Hin; symmetry; exact Hin|].
        intros [i eval] ret Hi. apply in_combine_l in Hi. apply in_seq in Hi. rewrite (idx_nth _ _ 0%nat) by lia. cbn [obind].
        destruct ((s0 <? nth i steps 0)%nat && negb (feqb eval 0)); cbn; [now rewrite andb_false_r|now rewrite andb_true_r]. }
      destruct (IH (S s0) b2 b1 Ho) as [I1 I2]. split.
      + intros i Hi. destruct (Nat.eq_dec i s0) as [->|Hn]; [now exists evals|]. apply I1. lia.
      + rewrite I2, Hb2, andb_true_iff, (forallb_combine_seq _ _ 0). split.
        * intros [[Hb0 Hf] Hrest]. split; [exact Hb0|]. intros i Hi ev Hev j Hj Hlt.
          destruct (Nat.eq_dec i s0) as [->|Hn]; [|apply (Hrest i ltac:(lia) ev Hev j Hj Hlt)].
          rewrite Hevals in Hev. apply ok_inj in Hev. subst ev. specialize (Hf j Hj). cbn [Nat.add] in Hf.
          rewrite (proj2 (Nat.ltb_lt _ _) Hlt) in Hf. cbn in Hf. rewrite negb_involutive in Hf. now apply (feqb_spec _ HK) in Hf.
        * intros [Hb0 Hall]. split; [split; [exact Hb0|]|].
          -- intros j Hj. cbn [Nat.add]. destruct (Nat.ltb_spec s0 (nth j steps 0%nat)); [|reflexivity]. cbn. rewrite negb_involutive.
             apply (feqb_spec _ HK). apply (Hall s0 ltac:(lia) evals Hevals j Hj). assumption.
          -- intros i Hi. apply Hall. lia. }
  destruct (Hev (2 ^ r)%nat 0%nat _ _ H) as [H1 H2]. rewrite H2. clear H2 Hev H. cbn [Nat.add] in *. split.
  - intros [Hbf Htr]. constructor.
    + intros bcs' bc Hbc Hin. rewrite Hbcs in Hbc. apply ok_inj in Hbc. subst bcs'. destruct (Hrange bc Hin) as [R1 R2].
      split; [exact R1|]. split; [unfold cols, domain_columns; now rewrite map_length|].
      unfold boundary_flag in Hbf. rewrite forallb_forall in Hbf. specialize (Hbf bc Hin). apply (feqb_spec _ HK) in Hbf. now symmetry.
    + intros i Hi. destruct (H1 i ltac:(lia)) as [evals [Hevals Hle]]. exists evals. split; [exact Hevals|].
      intros j e He Hie. destruct (Nat.lt_ge_cases j (length evals)) as [Hj|Hj]; [|now apply nth_overflow].
      apply (Htr i ltac:(lia) evals Hevals j Hj).
      destruct (Hstep j (nth j steps 0%nat) e) as [-> _]; [apply nth_error_nth'; lia|exact He|exact Hie].
  - intros [Tb Tt]. split.
    + unfold boundary_flag. apply forallb_forall. intros bc Hin. apply (feqb_spec _ HK). symmetry. now apply (Tb bcs bc Hbcs Hin).
    + intros i Hi evals Hevals j Hj Hlt. destruct (H1 i ltac:(lia)) as [ev' [Hev' Hle]]. rewrite Hevals in Hev'. apply ok_inj in Hev'. subst ev'.
      destruct (Tt i ltac:(lia)) as [ev' [Hev' Hz]]. change (a_transition a (fr i) rap = Ok ev') in Hev'. rewrite Hevals in Hev'. apply ok_inj in Hev'. subst ev'.
      assert (He : nth_error exs j = Some (nth j exs 0%nat)) by (apply nth_error_nth'; lia).
      apply (Hz j _ He). destruct (Hstep j (nth j steps 0%nat) _ ltac:(apply nth_error_nth'; lia) He) as [Heq _]. now rewrite <- Heq.
Qed.

(** It does return on AIRs whose data fit together. *)
Theorem validate_trace_total :
  (forall i, (i < 2 ^ r)%nat -> exists evals, a_transition a (fr i) rap = Ok evals /\
       (length evals <= NC)%nat /\ (length evals <= length exs)%nat) ->
  (forall e, In e exs -> (e <= 2 ^ r)%nat) ->
  exists b, validate_trace a polys d rap = Ok b.
Proof using All.
  intros Htr Hex. unfold validate_trace. destruct validate_columns as [V1 V2]. rewrite V1. cbn [obind].
  rewrite V2. cbn [obind]. rewrite Hbcs. cbn [obind]. rewrite boundary_flag_ok. cbn [obind].
  rewrite (table_n_rows _ _ table_is), rows_len.
  rewrite (traverse_map _ (fun x : nat * nat => (fst x - snd x)%nat)).
  2:{ intros [u v] Huv. cbn [fst snd]. pose proof (in_combine_l _ _ _ _ Huv) as Hu. pose proof (in_combine_r _ _ _ _ Huv) as Hv.
      apply repeat_spec in Hu. subst u. apply usub_ok. apply Hex. exact Hv. }
  cbn [obind]. set (steps := map _ _).
  assert (Ls : length steps = Nat.min NC (length exs)) by (unfold steps; now rewrite map_length, combine_length, repeat_length).
  assert (G : forall m s0 b0, (s0 + m <= 2 ^ r)%nat -> exists b1, ofold (fun ret step => obind (fr_read_from_trace table step 1 (transition_offsets (a_context a)))
       (fun fr0 => obind (a_transition a fr0 rap) (fun evaluations =>
         ofold (fun ret (x : nat * E) => let '(i, eval) := x in obind (idx steps i) (fun s => Ok (if (step <? s)%nat && negb (feqb eval 0) then false else ret)))
               (combine (seq 0 (length evaluations)) evaluations) ret))) (seq s0 m) b0 = Ok b1).
  { induction m as [|m IH]; intros s0 b0 Hm; cbn [seq ofold]; [now exists b0|].
    rewrite table_frame. cbn [obind]. destruct (Htr s0 ltac:(lia)) as [evals [He [L1 L2]]]. rewrite He. cbn [obind].
    rewrite (ofold_bool _ (fun x : nat * E => let '(i, eval) := x in negb ((s0 <? nth i steps 0)%nat && negb (feqb eval 0)))).
    - cbn [obind]. apply IH. lia.
    - intros [i eval] ret Hi. apply in_combine_l in Hi. apply in_seq in Hi. rewrite (idx_nth _ _ 0%nat) by lia. cbn [obind].
      destruct ((s0 <? nth i steps 0)%nat && negb (feqb eval 0)); cbn; [now rewrite andb_false_r|now rewrite andb_true_r]. }
  apply G. lia.
Qed.
End Validate.
