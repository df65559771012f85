(** C82: the error of the non-interactive protocol. *)
From Coq Require Import List Arith Lia Bool NArith ZArith.
From Verif.Base Require Import Outcome Bytes Field Poly Zp.
From Verif.Model Require Import Codec Trace Merkle Air Transcript Domain Fri Prover Verifier ExampleAirs.
From Verif.Spec Require Import AirSpec CairoColumns ProvingSpec VerifierSpec LowDegree FriTree OodSpec StarkTree Proximity Rounds Game Oracle ExampleSpec.
From Verif.Proofs Require Import OutcomeFacts FieldFacts PolyFacts FFTFacts MultisetFacts DomainFacts VerifierFacts LowDegreeFacts FriSoundness LineFacts FriRound RoundFacts RoundSoundness
  StarkSoundness CountFacts TapeFacts OracleCount.
From Verif.Properties Require Import RoundProperties GameProperties.
Import ListNotations.
Local Open Scope felt_scope.

Lemma product_nth {E : env} : forall ls (t : list E) n, In t (product ls) -> (n < length ls)%nat -> In (nth n t 0) (nth n ls []).
Proof.
  intros ls t n Hp. apply in_product in Hp. revert n. induction Hp; intros [|n] Hn; cbn in *; try lia; [assumption|]. apply IHHp. lia.
Qed.

Lemma nn_all2 {A} (P : A -> Prop) l : (forall x, In x l -> ~ ~ P x) -> ~ ~ (forall x, In x l -> P x).
Proof.
  induction l as [|x l IH]; intros H No; [apply No; intros x []|]. apply (H x (or_introl eq_refl)). intro Hx. apply IH; [intros z Hz; apply H; now right|].
  intro Hl. apply No. intros z [<-|Hz]; [exact Hx|now apply Hl].
Qed.

Section Oracle.
Context {E : env} (HE : env_ok E) (a : air E) (kr nb r b : nat) (pick : list E -> a_rap a) (d : domain E) (w : E) (e : nat) (wo : words (E := E)).
Local Notation nt := (num_transition_constraints (a_context a)).
Local Notation width := (trace_columns (a_context a)).
Local Notation k := (length (transition_offsets (a_context a))).
Local Notation N := (2 ^ (r + b))%nat.
Local Notation pts := (points (d_coset_offset d) w N).
Local Notation B := (at_boundary kr nb).
Local Notation T := (at_transition a kr nb).
Local Notation Z := (at_point a kr nb).
Local Notation M := (at_terms a kr nb).
Local Notation F := (at_folding a kr nb).
Local Notation len := (tape_length a kr nb r).
Local Notation start := (start a kr nb).
Local Notation segment := (segment a kr nb).
Local Notation committed := (committed a r wo).
Local Notation exc ms := (exception a kr nb r b pick d w e (committed ms)).

Ltac offsets := unfold tape_length, at_folding, at_terms, at_point, at_boundary, at_transition in *.

Lemma start_le j : (start j <= start (S j))%nat.
Proof using Type. destruct j as [|[|[|[|j]]]]; cbn [Oracle.start]; offsets; lia. Qed.
Lemma start_len j : (j < 4 + r)%nat -> (start (S j) <= len)%nat.
Proof using Type. intro H. destruct j as [|[|[|[|j]]]]; cbn [Oracle.start]; offsets; lia. Qed.

Lemma nth_error_firstn {A} (l : list A) n i : (i < n)%nat -> nth_error (firstn n l) i = nth_error l i.
Proof using Type. revert n i. induction l as [|x l IH]; intros [|n] [|i] H; cbn; try lia; try reflexivity. apply IH. lia. Qed.
Lemma root_prefix n ms i : (i < n)%nat -> root_at i (firstn n ms) = root_at (E := E) i ms.
Proof using Type. intro H. unfold root_at. now rewrite nth_error_firstn. Qed.

(** An exceptional challenge is exceptional because of what precedes the next message. *)
Lemma exception_local ms j i t t' : (start j <= i < start (S j))%nat -> (j < 4 + r)%nat -> length t = len -> length t' = len ->
  firstn (start (S j)) t = firstn (start (S j)) t' -> exc ms i t -> exc (firstn (S j) ms) i t'.
Proof using Type.
  intros Hi Hj Lt Lt' Hf H. pose proof (start_len j Hj) as Hl.
  assert (Nt : forall n, (n < start (S j))%nat -> nth n t 0 = nth n t' 0).
  { intros n Hn. rewrite <- (nth_firstn_in 0 t (start (S j)) n Hn), <- (nth_firstn_in 0 t' (start (S j)) n Hn). now rewrite Hf. }
  assert (Pt : forall o l, (o + l <= start (S j))%nat -> part o l t = part o l t').
  { intros o l Hol. apply (part_same 0); [congruence|]. intros n Hn. apply Nt. lia. }
  unfold exception in *. rewrite <- (Nt i ltac:(lia)).
  destruct (i <? B)%nat eqn:C1; [exact H|]. apply Nat.ltb_ge in C1.
  assert (J1 : (1 <= j)%nat) by (destruct j; [cbn [Oracle.start] in Hi; offsets; lia|lia]).
  assert (S1 : (kr <= start (S j))%nat) by (destruct j as [|[|[|[|j]]]]; cbn [Oracle.start]; offsets; lia).
  assert (Qr : tape_rap a kr pick t' = tape_rap a kr pick t) by (unfold tape_rap; now rewrite (Pt 0%nat kr) by lia).
  assert (Qc : play_columns kr (committed (firstn (S j) ms)) t' = play_columns kr (committed ms) t).
  { unfold play_columns. cbn [Oracle.committed s_columns]. now rewrite !root_prefix by lia. }
  rewrite Qr, Qc.
  assert (S2 : (Z <= start (S j))%nat) by (destruct j as [|[|[|[|j]]]]; cbn [Oracle.start]; offsets; lia).
  assert (Qb : tape_boundary kr nb t' = tape_boundary kr nb t) by (unfold tape_boundary; offsets; now rewrite (Pt kr nb), (Pt (kr + nb)%nat nb) by (offsets; lia)).
  assert (Qt : tape_transition a kr nb t' = tape_transition a kr nb t) by (unfold tape_transition; offsets; now rewrite (Pt _ nt), (Pt (kr + nb + nb + nt)%nat nt) by (offsets; lia)).
  rewrite Qb, Qt.
  destruct (i <? B + nb)%nat eqn:C2; [exact H|]. apply Nat.ltb_ge in C2.
  destruct (i <? T)%nat eqn:C3; [exact H|]. apply Nat.ltb_ge in C3.
  destruct (i <? Z)%nat eqn:C4; [exact H|]. apply Nat.ltb_ge in C4.
  assert (J2 : (2 <= j)%nat) by (destruct j as [|[|j]]; cbn [Oracle.start] in Hi; offsets; lia).
  assert (Qe : play_even a kr nb (committed (firstn (S j) ms)) t' = play_even a kr nb (committed ms) t).
  { unfold play_even. cbn [Oracle.committed s_even]. now rewrite !root_prefix by lia. }
  assert (Qo : play_odd a kr nb (committed (firstn (S j) ms)) t' = play_odd a kr nb (committed ms) t).
  { unfold play_odd. cbn [Oracle.committed s_odd]. now rewrite !root_prefix by lia. }
  rewrite Qe, Qo.
  destruct (i =? Z)%nat eqn:C5; [exact H|]. apply Nat.eqb_neq in C5.
  assert (J3 : (3 <= j)%nat) by (destruct j as [|[|[|j]]]; cbn [Oracle.start] in Hi; offsets; lia).
  assert (S3 : (F <= start (S j))%nat) by (destruct j as [|[|[|[|j]]]]; cbn [Oracle.start]; offsets; lia).
  assert (Qv : values_at a (firstn (S j) ms) = values_at a ms) by (unfold values_at; now rewrite nth_error_firstn by lia).
  assert (Qf : play_frame a kr nb (committed (firstn (S j) ms)) t' = play_frame a kr nb (committed ms) t).
  { unfold play_frame. cbn [Oracle.committed s_frame]. now rewrite Qv. }
  assert (Qz : nth Z t' 0 = nth Z t 0) by (symmetry; apply Nt; offsets; lia).
  assert (Q1 : nth (Z + 1) t' 0 = nth (Z + 1) t 0) by (symmetry; apply Nt; offsets; lia).
  assert (Q2 : nth (Z + 2) t' 0 = nth (Z + 2) t 0) by (symmetry; apply Nt; offsets; lia).
  assert (Qm : tape_terms a kr nb t' = tape_terms a kr nb t).
  { unfold tape_terms. apply map_ext_in. intros col Hc. apply in_seq in Hc. symmetry. apply Pt.
    pose proof (Nat.mul_le_mono_r (col + 1) width k ltac:(lia)) as Hm. rewrite Nat.mul_add_distr_r, Nat.mul_1_l in Hm. offsets. lia. }
  assert (Pe : composition_poly_even_ood_evaluation (play_proof a kr nb (committed (firstn (S j) ms)) t') = composition_poly_even_ood_evaluation (play_proof a kr nb (committed ms) t)).
  { unfold play_proof. cbn [composition_poly_even_ood_evaluation Oracle.committed s_even_value]. now rewrite Qv. }
  assert (Po : composition_poly_odd_ood_evaluation (play_proof a kr nb (committed (firstn (S j) ms)) t') = composition_poly_odd_ood_evaluation (play_proof a kr nb (committed ms) t)).
  { unfold play_proof. cbn [composition_poly_odd_ood_evaluation Oracle.committed s_odd_value]. now rewrite Qv. }
  rewrite Qf.
  destruct (i =? Z + 1)%nat eqn:C6.
  { unfold even_exception in *. eapply hides_ext; [| |exact H].
    - intro y. apply deep_ext; try reflexivity; try (symmetry; assumption); cbn [with_gammas c_z c_trace_term_coeffs c_gamma_even c_gamma_odd tape_challenges]; symmetry; assumption.
    - intro y. cbn [tape_challenges c_z]. now rewrite Qz, Pe. }
  destruct (i =? Z + 2)%nat eqn:C7.
  { unfold odd_exception in *. eapply hides_ext; [| |exact H].
    - intro y. apply deep_ext; try reflexivity; try (symmetry; assumption); cbn [with_gammas c_z c_trace_term_coeffs c_gamma_even c_gamma_odd tape_challenges]; symmetry; assumption.
    - intro y. cbn [tape_challenges c_z]. now rewrite Qz, Po. }
  destruct (i <? F)%nat eqn:C8.
  { unfold term_exception in *. eapply hides_ext; [| |exact H].
    - intro y. apply deep_ext; try reflexivity; try (symmetry; assumption); cbn [with_trace_coeff c_z c_trace_term_coeffs c_gamma_even c_gamma_odd tape_challenges]; try (symmetry; assumption). now rewrite Qm.
    - intro y. cbn [tape_challenges c_z]. now rewrite Qz. }
  apply Nat.ltb_ge in C8.
  assert (Ji : j = (4 + (i - F))%nat) by (destruct j as [|[|[|[|j]]]]; cbn [Oracle.start] in Hi; offsets; lia).
  cbn [Oracle.committed s_layer] in *. rewrite root_prefix by lia. exact H.
Qed.

(** ** Bad replies *)
Context (lost : commitment -> Prop).
Definition bad (q : question (E := E)) (c : coin (E := E)) : Prop :=
  let ms := fst q in let u := snd q in let j := pred (length ms) in
  well_formed a (committed ms) /\ length u = start j /\
  ((j = 0%nat /\ lost (root_at 0 ms) /\ exists c1, commits_to_solution a r pick (committed [Root (root_at 0 ms); Root c1]) d b e w (firstn kr (fst c))) \/
   ((1 <= j < 4 + r)%nat /\ exists i, (start j <= i < start (S j))%nat /\ exc ms i (u ++ skipn (start j) (fst c))) \/
   (j = (4 + r)%nat /\ (forall i, (i < len)%nat -> ~ exc ms i u) /\ ~ commits_to_solution a r pick (committed ms) d b e w (firstn kr u) /\
      ~ In (nth Z u 0) (lde_roots_of_unity_coset d) /\ wins a kr nb r pick (committed ms) d w u (snd c))).

Context (samples : list (list E)) (q : nat).
Context (Hsl : length samples = len) (Hsz : forall z, In z (nth Z samples []) -> ~ In z (lde_roots_of_unity_coset d)).
Context (eqd : forall x y : question (E := E), {x = y} + {x <> y}) (adv : adversary (E := E)).
Local Notation table := (table a kr nb r eqd adv).

(** ** A forgery contains a bad reply *)
Lemma forgery_is_bad cs : Forall (fresh r b q samples) cs -> forges a kr nb r pick eqd adv wo d w lost cs ->
  ~ ~ exists n c, nth_error cs n = Some c /\ bad (ask adv (table (firstn n cs))) c.
Proof using Hsl Hsz.
  intros Hc Hforge No. unfold forges in Hforge. cbv zeta in Hforge. destruct (claim adv (table cs)) as [[ms t] v].
  destruct Hforge as (Lm & Lt & Hseg & Hpos & Hwf & Hlost & Hwin).
  assert (Nb : forall n c, nth_error cs n = Some c -> ~ bad (ask adv (table (firstn n cs))) c) by (intros n c Hn Hb; apply No; now exists n, c).
  clear No.
  assert (Org : forall j, (j < 4 + r)%nat -> exists c, In (fst c) (product samples) /\ segment j (fst c) = segment j t /\ ~ bad (firstn (S j) ms, firstn (start j) t) c).
  { intros j Hj. destruct (table_origin a kr nb r eqd adv cs _ _ (Hseg j Hj)) as (n & c & Hn & Ha & Hr). exists c. rewrite Forall_forall in Hc.
    split; [apply (Hc c); now apply nth_error_In in Hn|]. split; [|rewrite <- Ha; now apply Nb].
    unfold reply_to in Hr. cbn [fst] in Hr. rewrite firstn_length, Lm in Hr. replace (pred (Nat.min (S j) (5 + r))) with j in Hr by lia.
    rewrite (proj2 (Nat.ltb_lt _ _) Hj) in Hr. now injection Hr. }
  assert (Wf : forall j, well_formed a (committed (firstn (S j) ms))).
  { intros j u. specialize (Hwf u). cbn [Oracle.committed s_frame] in *. unfold values_at in *. destruct (le_lt_dec j 2) as [J|J].
    - assert (Q : nth_error (firstn (S j) ms) 3 = None) by (apply nth_error_None; rewrite firstn_length; lia). rewrite Q. cbn [snd].
      rewrite repeat_length. split; [reflexivity|]. apply Forall_forall. intros x Hx. apply repeat_spec in Hx. subst x. apply repeat_length.
    - rewrite nth_error_firstn by lia. exact Hwf. }
  assert (Lp : forall j, (j < 4 + r)%nat -> pred (length (firstn (S j) ms)) = j) by (intros j Hj; rewrite firstn_length, Lm; lia).
  assert (Ls : forall j, (j < 4 + r)%nat -> length (firstn (start j) t) = start j).
  { intros j Hj. rewrite firstn_length, Lt. pose proof (start_le j). pose proof (start_len j Hj). lia. }
  (* no challenge is exceptional *)
  assert (Ne : forall i, (i < len)%nat -> ~ exc ms i t).
  { intros i Hi Hx. destruct (lt_dec i kr) as [L|L].
    { unfold exception in Hx. rewrite (proj2 (Nat.ltb_lt i B)) in Hx by (offsets; lia). exact Hx. }
    assert (HJ : exists j, (1 <= j < 4 + r)%nat /\ (start j <= i < start (S j))%nat).
    { destruct (lt_dec i Z) as [L1|L1]; [exists 1%nat; cbn [Oracle.start]; lia|].
      destruct (lt_dec i (Z + 1)) as [L2|L2]; [exists 2%nat; cbn [Oracle.start]; lia|].
      destruct (lt_dec i F) as [L3|L3]; [exists 3%nat; cbn [Oracle.start]; lia|].
      exists (4 + (i - F))%nat. change (4 + (i - F))%nat with (S (S (S (S (i - F))))). cbn [Oracle.start]. offsets. lia. }
    destruct HJ as (j & Hj & Hji). destruct (Org j ltac:(lia)) as (c & Hp & Hs & Hnb). apply Hnb. unfold bad. cbn [fst snd].
    rewrite (Lp j ltac:(lia)). split; [apply Wf|]. split; [apply Ls; lia|]. right. left. split; [exact Hj|]. exists i. split; [exact Hji|].
    pose proof (product_width _ _ Hp) as Lc. rewrite Hsl in Lc. pose proof (start_le j) as Sl. pose proof (start_len j ltac:(lia)) as Se.
    apply (exception_local ms j i t); try assumption; try lia.
    - rewrite app_length, firstn_length, skipn_length. lia.
    - unfold Oracle.segment, part in Hs.
      rewrite firstn_app, firstn_firstn, (Nat.min_r (start (S j)) (start j)) by exact Sl. rewrite (Ls j) by lia. rewrite Hs.
      rewrite <- (firstn_skipn (start j) (firstn (start (S j)) t)). f_equal; [rewrite firstn_firstn; f_equal; lia|]. now rewrite skipn_firstn_comm. }
  (* the columns are not near a solution *)
  assert (Nc : ~ commits_to_solution a r pick (committed ms) d b e w (firstn kr t)).
  { intro Hs. destruct (Org 0%nat ltac:(lia)) as (c & Hp & Hseg0 & Hnb). apply Hnb. unfold bad. cbn [fst snd]. rewrite (Lp 0%nat ltac:(lia)).
    split; [apply Wf|]. split; [reflexivity|]. left. split; [reflexivity|]. rewrite root_prefix by lia. split; [exact Hlost|]. exists (root_at 1 ms).
    unfold Oracle.segment, part in Hseg0. cbn [Oracle.start skipn] in Hseg0. rewrite Nat.sub_0_r in Hseg0. rewrite Hseg0. exact Hs. }
  (* the positions *)
  destruct (table_origin a kr nb r eqd adv cs _ _ Hpos) as (n & c & Hn & Ha & Hr). pose proof (Nb n c Hn) as Hnb. rewrite Ha in Hnb. apply Hnb.
  unfold reply_to in Hr. cbn [fst] in Hr. rewrite Lm in Hr. cbn [Nat.pred Nat.add] in Hr. rewrite (proj2 (Nat.ltb_ge _ _)) in Hr by lia. injection Hr as Hr.
  unfold bad. cbn [fst snd]. rewrite Lm. cbn [pred Nat.add]. split; [exact Hwf|]. split; [cbn [Oracle.start]; exact Lt|]. right. right. split; [reflexivity|].
  split; [exact Ne|]. split; [exact Nc|]. split; [|now rewrite Hr].
  destruct (Org 2%nat ltac:(lia)) as (c2 & Hp & Hseg2 & _). unfold Oracle.segment in Hseg2. cbn [Oracle.start] in Hseg2. apply (f_equal (fun l => nth 0 l 0)) in Hseg2.
  rewrite !nth_part, !Nat.add_0_r in Hseg2 by lia. rewrite <- Hseg2. apply Hsz. apply product_nth; [exact Hp|]. rewrite Hsl. offsets. lia.
Qed.

(** ** Few replies are bad, whatever the question *)
Context (PL : playable a nb r b e d w) (size rho : nat) (Hsize : forall l, In l samples -> NoDup l /\ (size <= length l)%nat).
Context (Hhope : hopeless a kr r pick wo d b e w samples size rho lost).
Let dec : forall x y : E, {x = y} + {x <> y} := feq_dec (fft_field_ok E (e_fft_ok E HE)).

Definition block_bound (j i : nat) : nat := if ((start j <=? i) && (i <? start (S j)))%nat then bound a kr nb r e i else 0%nat.
Lemma block_sum j : (j < 4 + r)%nat -> list_sum (map (block_bound j) (seq 0 len)) = list_sum (map (bound a kr nb r e) (seq (start j) (start (S j) - start j))).
Proof using Hsl.
  intro Hj. pose proof (start_le j) as Sl. pose proof (start_len j Hj) as Se.
  assert (Q : len = (start j + ((start (S j) - start j) + (len - start (S j))))%nat) by lia. rewrite Q. rewrite seq_app, sum_app, seq_app, sum_app. cbn [Nat.add].
  rewrite (sum_const (block_bound j) 0 (start j)), (sum_const (block_bound j) 0 (len - start (S j))).
  - rewrite !Nat.mul_0_r, Nat.add_0_r. cbn [Nat.add]. f_equal. apply map_ext_in. intros i Hi. apply in_seq in Hi. unfold block_bound.
    rewrite (proj2 (Nat.leb_le _ _)), (proj2 (Nat.ltb_lt _ _)) by lia. reflexivity.
  - intros i Hi. unfold block_bound. rewrite (proj2 (Nat.ltb_ge i _)) by lia. now rewrite andb_false_r.
  - intros i Hi. unfold block_bound. now rewrite (proj2 (Nat.leb_gt _ _)) by lia.
Qed.
Lemma block_weight j : (1 <= j < 4 + r)%nat -> (list_sum (map (block_bound j) (seq 0 len)) <= worst a nb r rho e)%nat.
Proof using Hsl.
  intro Hj. rewrite block_sum by lia. unfold worst.
  assert (Ev : forall i, bound a kr nb r e i = bound a kr nb r e i) by reflexivity. clear Ev.
  destruct j as [|[|[|[|l]]]]; [lia|..]; cbn [Oracle.start].
  - replace (Z - kr)%nat with (nb + (nb + (nt + nt)))%nat by (offsets; lia). rewrite seq_app, sum_app, seq_app, sum_app, seq_app, sum_app.
    rewrite (sum_const _ 0 nb), (sum_const _ 1 nb), (sum_const _ 0 nt), (sum_const _ 1 nt); [lia|..];
    (intros i Hi; unfold bound; repeat match goal with
      | |- context [(?x <? ?y)%nat] => first [rewrite (proj2 (Nat.ltb_ge x y)) by (offsets; lia)|rewrite (proj2 (Nat.ltb_lt x y)) by (offsets; lia)]
      | |- context [(?x =? ?y)%nat] => first [rewrite (proj2 (Nat.eqb_neq x y)) by (offsets; lia)|rewrite (proj2 (Nat.eqb_eq x y)) by (offsets; lia)]
      end; reflexivity).
  - replace (Z + 1 - Z)%nat with 1%nat by lia. rewrite (sum_const _ (stark_bound a (2 ^ r)) 1); [lia|].
    intros i Hi; unfold bound; repeat match goal with
      | |- context [(?x <? ?y)%nat] => first [rewrite (proj2 (Nat.ltb_ge x y)) by (offsets; lia)|rewrite (proj2 (Nat.ltb_lt x y)) by (offsets; lia)]
      | |- context [(?x =? ?y)%nat] => first [rewrite (proj2 (Nat.eqb_neq x y)) by (offsets; lia)|rewrite (proj2 (Nat.eqb_eq x y)) by (offsets; lia)]
      end; reflexivity.
  - replace (F + 0 - (Z + 1))%nat with (2 + width * k)%nat by (offsets; lia). rewrite (sum_const _ (e + 1) (2 + width * k)); [lia|].
    intros i Hi. unfold bound. do 4 (rewrite (proj2 (Nat.ltb_ge _ _)) by (offsets; lia)). rewrite (proj2 (Nat.eqb_neq i Z)) by lia.
    destruct (i =? Z + 1)%nat; [reflexivity|]. destruct (i =? Z + 2)%nat; [reflexivity|]. now rewrite (proj2 (Nat.ltb_lt _ _)) by (offsets; lia).
  - replace (F + S l - (F + l))%nat with 1%nat by lia. rewrite (sum_const _ (e / 2 ^ (l + 1) + 1) 1).
    + pose proof (Nat.div_le_upper_bound e (2 ^ (l + 1)) e ltac:(apply Nat.pow_nonzero; lia)) as Q.
      assert (e <= 2 ^ (l + 1) * e)%nat by (pose proof (Nat.pow_nonzero 2 (l + 1)); nia). specialize (Q H). nia.
    + intros i Hi. assert (i = (F + l)%nat) by lia. subst i. unfold bound. do 4 (rewrite (proj2 (Nat.ltb_ge _ _)) by (offsets; lia)).
      do 3 (rewrite (proj2 (Nat.eqb_neq _ _)) by (offsets; lia)). rewrite (proj2 (Nat.ltb_ge _ _)) by lia. do 3 f_equal. lia.
Qed.

Lemma skipn_set_nth {A} (i o : nat) (x : A) t (u : list A) : length u = o -> (o <= i < length t)%nat -> u ++ skipn o (set_nth i x t) = set_nth i x (u ++ skipn o t).
Proof using Type. clear.
  intros Hu Hi. unfold set_nth. rewrite skipn_app, firstn_length, (Nat.min_l i) by lia. replace (o - i)%nat with 0%nat by lia.
  rewrite firstn_app, (firstn_all2 u) by lia. rewrite <- app_assoc. apply f_equal. rewrite Hu.
  assert (Q1 : skipn o (firstn i t) = firstn (i - o) (skipn o t)) by now rewrite firstn_skipn_comm, Nat.add_comm, Nat.sub_add by lia.
  assert (Q2 : skipn (S i) (u ++ skipn o t) = skipn (S i) t).
  { rewrite skipn_app, (skipn_all2 u) by lia. cbn [app]. rewrite skipn_skipn'. apply (f_equal (fun n => skipn n t)). lia. }
  now rewrite Q1, Q2.
Qed.

Lemma bad_count qn (l : list (coin (E := E))) : NoDup l -> (forall c, In c l -> fresh r b q samples c /\ bad qn c) ->
  (size * length l <= worst a nb r rho e * (volume samples * N ^ q))%nat \/ (length l <= volume samples * (N - e - 1) ^ q)%nat.
Proof using All.
  intros HN Hl. destruct l as [|c0 l']; [left; cbn; lia|]. set (l := c0 :: l') in *. assert (H0 : In c0 l) by now left. clearbody l.
  destruct (Hl c0 H0) as (_ & Hwf & Hu & _). destruct qn as [ms u]. cbn [fst snd] in *. set (j := pred (length ms)) in *.
  assert (Hb : forall c, In c l -> _) by exact (fun c Hc => proj2 (proj2 (proj2 (Hl c Hc)))). cbn [fst snd] in Hb. fold j in Hb.
  assert (V : forall t v, In (t, v) l -> In v (vectors (seq 0 N) q)).
  { intros t v Hi. destruct (Hl _ Hi) as ((_ & <- & Hv) & _). apply vectors_in. intros i Hin. apply in_seq. specialize (Hv i Hin). lia. }
  pose proof (vectors_length (seq 0 N) q) as VL. rewrite seq_length in VL.
  assert (PW : forall t v, In (t, v) l -> In t (product samples)) by (intros t v Hi; apply (Hl (t, v) Hi)).
  destruct (Nat.eq_dec j 0) as [J0|J0].
  { left. destruct (Nat.eq_dec size 0) as [->|Sz]; [lia|].
    assert (C1 : (length l <= (rho * volume (firstn kr samples) / size) * volume (skipn kr samples) * N ^ q)%nat).
    { rewrite <- VL. apply (pairs_count (list_eq_dec dec)); [exact HN|exact V|]. intros X HX HXW.
      set (Y := nodup (list_eq_dec dec) (map (firstn kr) X)). transitivity (length (list_prod Y (product (skipn kr samples)))).
      - rewrite <- (map_length (fun t => (firstn kr t, skipn kr t)) X). apply NoDup_incl_length.
        + apply FinFun.Injective_map_NoDup; [|exact HX]. intros t t' Q. injection Q as Q1 Q2. rewrite <- (firstn_skipn kr t), <- (firstn_skipn kr t'). congruence.
        + intros tv Hi. apply in_map_iff in Hi. destruct Hi as (t & <- & Ht). apply in_prod; [unfold Y; apply nodup_In; now apply in_map|].
          destruct (HXW t Ht) as (v & Hv). pose proof (PW t v Hv) as Hp. apply in_product in Hp. apply in_product.
          clear -Hp. revert t samples Hp. induction kr as [|n IH]; intros t l Hp; [exact Hp|]. destruct Hp; [constructor|]. cbn [skipn]. now apply IH.
      - rewrite prod_length, product_length. apply Nat.mul_le_mono_r. apply Nat.div_le_lower_bound; [exact Sz|].
        destruct (Hb c0 H0) as [(_ & Hlost & _)|[(Hj & _)|(Hj & _)]]; [|lia..].
        apply (Hhope (root_at 0 ms)); [exact Hlost|apply NoDup_nodup|]. intros xs Hxs. unfold Y in Hxs. apply nodup_In, in_map_iff in Hxs.
        destruct Hxs as (t & <- & Ht). destruct (HXW t Ht) as (v & Hv). split.
        + pose proof (PW t v Hv) as Hp. apply in_product in Hp. apply in_product.
          clear -Hp. revert t samples Hp. induction kr as [|n IH]; intros t l Hp; [constructor|]. destruct Hp; [constructor|]. cbn [firstn]. constructor; [assumption|now apply IH].
        + destruct (Hb _ Hv) as [(_ & _ & H)|[(Hj & _)|(Hj & _)]]; [exact H|lia..]. }
    pose proof (Nat.mul_div_le (rho * volume (firstn kr samples)) size Sz) as Q1.
    assert (Q2 : (rho <= worst a nb r rho e)%nat) by (unfold worst; lia).
    assert (Q3 : (volume samples = volume (firstn kr samples) * volume (skipn kr samples))%nat) by (rewrite <- volume_app, firstn_skipn; reflexivity).
    rewrite Q3. set (R := (rho * volume (firstn kr samples) / size)%nat) in *. set (v1 := volume (firstn kr samples)) in *. set (v2 := volume (skipn kr samples)) in *. set (n := (N ^ q)%nat) in *.
    transitivity (size * (R * v2 * n))%nat; [now apply Nat.mul_le_mono_l|]. transitivity (rho * v1 * (v2 * n))%nat; [replace (size * (R * v2 * n))%nat with (size * R * (v2 * n))%nat by ring; now apply Nat.mul_le_mono_r|].
    transitivity (worst a nb r rho e * v1 * (v2 * n))%nat; [apply Nat.mul_le_mono_r, Nat.mul_le_mono_r; exact Q2|apply Nat.eq_le_incl; ring]. }
  destruct (lt_dec j (4 + r)) as [J1|J1].
  { left. pose proof (product_width _ _ (PW (fst c0) (snd c0) ltac:(now destruct c0))) as _.
    destruct PL as [A P Hd Hw Hpoly Hex Hbc He].
    set (exc' := fun i t => (start j <= i < start (S j))%nat /\ exc ms i (u ++ skipn (start j) t)).
    assert (C3 : forall X, NoDup X -> (forall t, In t X -> exists v, In (t, v) l) -> (size * length X <= worst a nb r rho e * volume samples)%nat).
    { intros X HX HXW. etransitivity; [|apply Nat.mul_le_mono_r, (block_weight j); lia]. rewrite <- Hsl at 1.
      apply (exceptional_fraction dec samples exc' (block_bound j) size); [|intros l0 H; exact (proj2 (Hsize l0 H))|exact HX|intros t Ht; destruct (HXW t Ht) as (v & Hv); exact (PW t v Hv)|].
      - intros i t Hp Hi. pose proof (product_width _ _ Hp) as Lt. unfold exc', block_bound. destruct (lt_dec i (start j)) as [L1|L1].
        { rewrite (proj2 (Nat.leb_gt _ _)) by exact L1. intros [|y m] _ Hm; [cbn; lia|]. destruct (Hm y (or_introl eq_refl)). lia. }
        destruct (le_lt_dec (start (S j)) i) as [L2|L2].
        { rewrite (proj2 (Nat.ltb_ge i _)), andb_false_r by exact L2. intros [|y m] _ Hm; [cbn; lia|]. destruct (Hm y (or_introl eq_refl)). lia. }
        rewrite (proj2 (Nat.leb_le _ _)), (proj2 (Nat.ltb_lt _ _)) by lia. cbn [andb].
        eapply few_mono; [apply (exception_few HE a kr nb r b pick d w e (committed ms) A P Hd Hw Hpoly Hex (fun rap bcs bc H1 H2 => proj2 (Hbc rap bcs H1) bc H2) (fun rap bcs H => proj1 (Hbc rap bcs H)) He Hwf i (u ++ skipn (start j) t))|].
        + rewrite app_length, skipn_length, Hu. lia.
        + lia.
        + intros x [_ Hx]. rewrite <- skipn_set_nth; [exact Hx|exact Hu|lia].
      - intros t Ht. destruct (HXW t Ht) as (v & Hv). destruct (Hb _ Hv) as [(Hj & _)|[(Hj & i & Hi & Hx)|(Hj & _)]]; [lia| |lia].
        exists i. cbn [fst] in Hx. split; [rewrite Hsl; pose proof (start_len j J1); lia|]. split; [exact Hi|exact Hx]. }
    destruct (Nat.eq_dec size 0) as [->|Sz]; [lia|].
    assert (C4 : (length l <= (worst a nb r rho e * volume samples / size) * N ^ q)%nat).
    { rewrite <- VL. apply (pairs_count (list_eq_dec dec)); [exact HN|exact V|]. intros X HX HXW. apply Nat.div_le_lower_bound; [exact Sz|]. now apply C3. }
    pose proof (Nat.mul_div_le (worst a nb r rho e * volume samples) size Sz) as Q1. set (R := (worst a nb r rho e * volume samples / size)%nat) in *.
    transitivity (size * (R * N ^ q))%nat; [now apply Nat.mul_le_mono_l|]. rewrite !Nat.mul_assoc. now apply Nat.mul_le_mono_r. }
  right. destruct PL as [A P Hd Hw Hpoly Hex Hbc He].
  rewrite <- product_length, Nat.mul_comm. apply (fibres (list_eq_dec dec) fst); [intros [t v] Hi; exact (PW t v Hi)| |exact HN].
  intros t l1 _ Hl1 Hn1 Hf. destruct l1 as [|[t0 v0] l2]; [cbn; lia|]. set (l1 := (t0, v0) :: l2) in *. assert (H1 : In (t0, v0) l1) by now left. clearbody l1. clear l2.
  destruct (Hb _ (Hl1 _ H1)) as [(Hj & _)|[(Hj & _)|(Hj & Hx & Hns & Hz & _)]]; [lia..|].
  assert (Hul : length u = len) by (rewrite Hu, Hj; reflexivity).
  rewrite <- (map_length snd). apply (few_positions HE a kr nb r b pick d w e (committed ms) A P Hd Hw Hpoly Hex (fun rap bcs bc H1 H2 => proj2 (Hbc rap bcs H1) bc H2) (fun rap bcs H => proj1 (Hbc rap bcs H)) He Hwf u); try assumption.
  - apply nodup_map_in; [|exact Hn1]. intros [t1 v1] [t2 v2] Q1 Q2 Q. cbn [snd] in Q. pose proof (Hf _ Q1) as F1. pose proof (Hf _ Q2) as F2. cbn [fst] in F1, F2. congruence.
  - intros v Hv. apply in_map_iff in Hv. destruct Hv as ([t1 v1] & <- & Hi). cbn [snd]. destruct (Hl _ (Hl1 _ Hi)) as ((_ & L1 & L2) & _). split; [exact L1|]. split; [exact L2|].
    destruct (Hb _ (Hl1 _ Hi)) as [(Hj' & _)|[(Hj' & _)|(_ & _ & _ & _ & Hwin)]]; [lia..|exact Hwin].
Qed.
End Oracle.

(** ** The theorem *)
Lemma lists_in {A} (l : list A) v : incl v l -> In v (product (repeat l (length v))).
Proof.
  intro H. apply in_product. induction v as [|x v IH]; [constructor|]. cbn [length repeat]. constructor; [apply H; now left|]. apply IH. intros z Hz. apply H. now right.
Qed.

(** A prover that asks an ideal hash function [Q] questions, whatever they are, and then claims a proof, succeeds for at most the fraction
    [Q * m / M] of the function's replies, where [m / M] bounds both the largest share of exceptional values for the challenges that follow
    one message and the share of the vectors of positions that miss all differences. *)
Theorem C82_forgeries_are_few :
  forall (E : env) (a : air E) kr nb r b pick d w e wo lost samples size rho q eqd adv Q m M W,
  env_ok E -> playable a nb r b e d w -> fair a kr nb r d size samples -> hopeless a kr r pick wo d b e w samples size rho lost ->
  (worst a nb r rho e * M <= m * size)%nat -> ((2 ^ (r + b) - e - 1) ^ q * M <= m * (2 ^ (r + b)) ^ q)%nat ->
  NoDup W -> (forall cs, In cs W -> length cs = Q /\ Forall (fresh r b q samples) cs /\ forges a kr nb r pick eqd adv wo d w lost cs) ->
  (M * length W <= Q * m * (volume samples * (2 ^ (r + b)) ^ q) ^ Q)%nat.
Proof.
  intros E a kr nb r b pick d w e wo lost samples size rho q eqd adv Q m M W HE PL [Fl Fs Fp] Hh Hm1 Hm2 HN HW.
  destruct (Nat.eq_dec M 0) as [->|HM]; [cbn; lia|].
  assert (Sz : size <> 0%nat).
  { intros ->. rewrite Nat.mul_0_r in Hm1. assert (2 <= worst a nb r rho e)%nat by (unfold worst; nia). nia. }
  set (N := (2 ^ (r + b))%nat) in *. set (coins := list_prod (product samples) (product (repeat (seq 0 N) q))).
  assert (Lc : length coins = (volume samples * N ^ q)%nat).
  { unfold coins. rewrite prod_length, !product_length. f_equal. clear. induction q as [|q IH]; [reflexivity|]. cbn [repeat Nat.pow].
    change (volume (seq 0 N :: repeat (seq 0 N) q)) with (length (seq 0 N) * volume (repeat (seq 0 N) q))%nat. now rewrite IH, seq_length. }
  pose (dec := feq_dec (fft_field_ok E (e_fft_ok E HE))).
  assert (decc : forall x y : coin (E := E), {x = y} + {x <> y}) by (decide equality; [apply (list_eq_dec Nat.eq_dec)|apply (list_eq_dec dec)]).
  assert (Fc : forall c : list E * list nat, fresh r b q samples c <-> In c coins).
  { intros [t v]. unfold coins. rewrite in_prod_iff. unfold fresh. cbn [fst snd]. fold N. split.
    - intros (H1 & <- & H3). split; [exact H1|]. apply lists_in. intros i Hi. apply in_seq. specialize (H3 i Hi). lia.
    - intros (H1 & H2). split; [exact H1|]. pose proof (product_width _ _ H2) as L. rewrite repeat_length in L. split; [exact L|]. apply in_product in H2.
      clear -H2. revert v H2. induction q as [|q IH]; intros v H; inversion H; subst; [easy|]. intros i [<-|Hi]; [|now apply (IH l)]. match goal with G : In _ (seq 0 N) |- _ => apply in_seq in G; lia end. }
  rewrite <- Lc. apply le_stable. intro No.
  apply (nn_all2 (fun cs => exists n c, nth_error cs n = Some c /\ bad a kr nb r b pick d w e wo lost (ask adv (table a kr nb r eqd adv (firstn n cs))) c) W).
  { intros cs Hcs. destruct (HW cs Hcs) as (_ & H2 & H3). now apply (forgery_is_bad a kr nb r b pick d w e wo lost samples q Fl Fp eqd adv). }
  intro Hb. apply No. clear No.
  apply (adaptive_count decc coins m M Q (fun u c => bad a kr nb r b pick d w e wo lost (ask adv (table a kr nb r eqd adv u)) c)); [|exact HN|].
  - intros u l Hl Hi. etransitivity; [|exact (Nat.eq_le_incl _ _ (f_equal (Nat.mul m) (eq_sym Lc)))].
    destruct (bad_count HE a kr nb r b pick d w e wo lost samples q Fl Fp eqd adv PL size rho Fs Hh (ask adv (table a kr nb r eqd adv u)) l Hl) as [B|B].
    { intros c Hc. destruct (Hi c Hc) as [H1 H2]. split; [now apply Fc|exact H2]. }
    + fold N in B. set (V := (volume samples * N ^ q)%nat) in *. set (wo' := worst a nb r rho e) in *.
      assert (size * (M * length l) <= size * (m * V))%nat by (transitivity (M * (wo' * V))%nat; [nia|]; replace (M * (wo' * V))%nat with (wo' * M * V)%nat by ring; replace (size * (m * V))%nat with (m * size * V)%nat by ring; now apply Nat.mul_le_mono_r).
      apply Nat.mul_le_mono_pos_l in H; [exact H|lia].
    + fold N in B. transitivity (M * (volume samples * (N - e - 1) ^ q))%nat; [now apply Nat.mul_le_mono_l|].
      replace (M * (volume samples * (N - e - 1) ^ q))%nat with (volume samples * ((N - e - 1) ^ q * M))%nat by ring.
      replace (m * (volume samples * N ^ q))%nat with (volume samples * (m * N ^ q))%nat by ring. now apply Nat.mul_le_mono_l.
  - intros cs Hcs. destruct (HW cs Hcs) as (H1 & H2 & _). split; [exact H1|]. split; [|now apply Hb].
    intros c Hc. apply Fc. rewrite Forall_forall in H2. now apply H2.
Qed.
Print Assumptions C82_forgeries_are_few.
