(** C77: the error of the protocol is a number. *)
From Coq Require Import List Arith Lia Bool NArith ZArith.
From Verif.Base Require Import Outcome Bytes Field Poly Zp.
From Verif.Model Require Import Codec Trace Merkle Air Transcript Domain Fri Prover Verifier ExampleAirs.
From Verif.Spec Require Import AirSpec CairoColumns ProvingSpec VerifierSpec LowDegree FriTree OodSpec StarkTree Proximity Rounds Game ExampleSpec.
From Verif.Proofs Require Import OutcomeFacts FieldFacts PolyFacts FFTFacts MultisetFacts DomainFacts VerifierFacts LowDegreeFacts FriSoundness LineFacts FriRound RoundFacts RoundSoundness
  StarkSoundness CountFacts TapeFacts.
From Verif.Properties Require Import RoundProperties.
Import ListNotations.
Local Open Scope felt_scope.

Section Game.
Context {E : env} (HE : env_ok E) (a : air E) (kr nb r b : nat) (pick : list E -> a_rap a) (d : domain E) (w : E) (e : nat).
Local Notation nt := (num_transition_constraints (a_context a)).
Local Notation width := (trace_columns (a_context a)).
Local Notation k := (length (transition_offsets (a_context a))).
Local Notation N := (2 ^ (r + b))%nat.
Local Notation pts := (points (d_coset_offset d) w N).
Local Notation g := (trace_primitive_root d).
Context (s : strategy (E := E)).

Local Notation B := (at_boundary kr nb).
Local Notation T := (at_transition a kr nb).
Local Notation Z := (at_point a kr nb).
Local Notation M := (at_terms a kr nb).
Local Notation F := (at_folding a kr nb).
Local Notation len := (tape_length a kr nb r).
Local Notation rap := (tape_rap a kr pick).
Local Notation bco := (tape_boundary kr nb).
Local Notation tco := (tape_transition a kr nb).
Local Notation terms := (tape_terms a kr nb).
Local Notation chal t := (tape_challenges a kr nb r pick t []).
Local Notation cols := (play_columns kr s).
Local Notation even := (play_even a kr nb s).
Local Notation odd := (play_odd a kr nb s).
Local Notation rows := (play_frame a kr nb s).
Local Notation words := (play_words a kr nb r s).
Local Notation proof := (play_proof a kr nb s).

(** Entry [i] of the tape is exceptional. *)
Definition exception (i : nat) (t : list E) : Prop :=
  let x := nth i t 0 in
  if (i <? B)%nat then False
  else if (i <? B + nb)%nat then exists bcs bc, a_boundary a (rap t) = Ok bcs /\ nth_error bcs (i - B) = Some bc /\
    boundary_exception a d r e pts (rap t) (cols t) (bco t) (tco t) (i - B) bc x
  else if (i <? T)%nat then False
  else if (i <? Z)%nat then (i - T < length (transition_degrees (a_context a)))%nat /\
    transition_exception a d r e pts (rap t) (cols t) (bco t) (tco t) (i - T) x
  else if (i =? Z)%nat then point_exception a d r e pts (rap t) (cols t) (even t) (odd t) (bco t) (tco t) x
  else if (i =? Z + 1)%nat then even_exception (proof t) (chal t) g (rows t) r e pts (cols t) (even t) (odd t) x
  else if (i =? Z + 2)%nat then odd_exception (proof t) (chal t) g (rows t) r e pts (cols t) (even t) (odd t) x
  else if (i <? F)%nat then term_exception (proof t) (chal t) g (rows t) r e pts (cols t) (even t) (odd t) ((i - M) / k) ((i - M) mod k) x
  else round_exception (r + b) e r (d_coset_offset d) w (i - F) (s_layer s (i - F) (firstn i t)) x.
Definition bound (i : nat) : nat :=
  if (i <? B)%nat then 0
  else if (i <? B + nb)%nat then 1
  else if (i <? T)%nat then 0
  else if (i <? Z)%nat then 1
  else if (i =? Z)%nat then stark_bound a (2 ^ r)
  else if (i =? Z + 1)%nat then e + 1
  else if (i =? Z + 2)%nat then e + 1
  else if (i <? F)%nat then e + 1
  else e / 2 ^ (i - F + 1) + 1.

Ltac offsets := unfold tape_length, at_folding, at_terms, at_point, at_boundary, at_transition in *.

(** The parts of the game that do not depend on entry [i]. *)
Section Off.
Context (i : nat) (x : E) (t : list E) (Ht : length t = len) (Hi : (i < len)%nat).
Local Notation u := (set_nth i x t).
Lemma u_length : length u = length t. Proof using Ht Hi. apply set_nth_length. lia. Qed.
Lemma u_off j : j <> i -> nth j u 0 = nth j t 0. Proof using Ht Hi. apply set_nth_off. lia. Qed.
Lemma u_part o l : (i < o \/ o + l <= i)%nat -> part o l u = part o l t.
Proof using Ht Hi. intro H. apply (part_same 0); [exact u_length|]. intros j Hj. apply u_off. lia. Qed.
Lemma u_firstn o : (o <= i)%nat -> firstn o u = firstn o t.
Proof using Ht Hi. intro H. apply (firstn_same 0); [exact u_length|]. intros j Hj. apply u_off. lia. Qed.
Lemma u_rap : (kr <= i)%nat -> rap u = rap t.
Proof using Ht Hi. intro H. unfold tape_rap. now rewrite u_part by lia. Qed.
Lemma u_cols : (kr <= i)%nat -> cols u = cols t.
Proof using Ht Hi. intro H. unfold play_columns. now rewrite u_firstn. Qed.
Lemma u_bco : (i < kr \/ B + nb <= i)%nat -> bco u = bco t.
Proof using Ht Hi. intro H. unfold tape_boundary. offsets. rewrite !u_part by lia. reflexivity. Qed.
Lemma u_tco : (i < kr + nb + nb \/ Z <= i)%nat -> tco u = tco t.
Proof using Ht Hi. intro H. unfold tape_transition. offsets. rewrite !u_part by lia. reflexivity. Qed.
Lemma u_even : (Z <= i)%nat -> even u = even t. Proof using Ht Hi. intro H. unfold play_even. now rewrite u_firstn. Qed.
Lemma u_odd : (Z <= i)%nat -> odd u = odd t. Proof using Ht Hi. intro H. unfold play_odd. now rewrite u_firstn. Qed.
Lemma u_rows : (Z < i)%nat -> rows u = rows t. Proof using Ht Hi. intro H. unfold play_frame. rewrite u_firstn by lia. reflexivity. Qed.
Lemma u_terms : (i < M \/ F <= i)%nat -> terms u = terms t.
Proof using Ht Hi.
  intro H. unfold tape_terms. apply map_ext_in. intros col Hc. apply in_seq in Hc. apply u_part. offsets.
  pose proof (Nat.mul_le_mono_r (col + 1) width k ltac:(lia)) as Hm. rewrite Nat.mul_add_distr_r, Nat.mul_1_l in Hm. lia.
Qed.
End Off.

Lemma tape_lengths t : length t = len -> length (bco t) = nb /\ length (tco t) = nt /\ length (terms t) = width /\ Forall (fun l => length l = k) (terms t) /\
  length (part F r t) = r.
Proof using Type.
  intro Ht. unfold tape_boundary, tape_transition, tape_terms. rewrite !combine_length, map_length, seq_length.
  split; [offsets; rewrite !part_length by lia; lia|]. split; [offsets; rewrite !part_length by lia; lia|]. split; [reflexivity|].
  split; [|offsets; rewrite part_length by lia; reflexivity].
  apply Forall_forall. intros l Hl. apply in_map_iff in Hl. destruct Hl as (col & <- & Hc). apply in_seq in Hc. apply part_length. offsets.
  pose proof (Nat.mul_le_mono_r (col + 1) width k ltac:(lia)) as Hm. rewrite Nat.mul_add_distr_r, Nat.mul_1_l in Hm. lia.
Qed.

Lemma bound_sum : list_sum (map bound (seq 0 len)) = error_weight a nb r e.
Proof using Type.
  unfold error_weight.
  assert (Q : len = (B + (nb + (nt + (nt + (1 + (1 + (1 + (width * k + r))))))))%nat) by (offsets; lia). rewrite Q.
  rewrite (seq_app B), sum_app, (seq_app nb), sum_app, (seq_app nt), sum_app, (seq_app nt), sum_app, (seq_app 1 (1 + (1 + (width * k + r)))), sum_app, (seq_app 1 (1 + (width * k + r))), sum_app, (seq_app 1 (width * k + r)), sum_app,
    (seq_app (width * k)), sum_app.
  rewrite (sum_const bound 0 B), (sum_const bound 1 nb), (sum_const bound 0 nt), (sum_const bound 1 nt), (sum_const bound (stark_bound a (2 ^ r)) 1),
    (sum_const bound (e + 1) 1), (sum_const bound (e + 1) 1), (sum_const bound (e + 1) (width * k)).
  { rewrite (sum_shift bound r). rewrite (map_ext_in (fun i => bound _) (fun l => e / 2 ^ (l + 1) + 1)%nat); [lia|].
    intros l Hl. apply in_seq in Hl. unfold bound. do 4 (rewrite (proj2 (Nat.ltb_ge _ _)) by (offsets; lia)). do 3 (rewrite (proj2 (Nat.eqb_neq _ _)) by (offsets; lia)).
    rewrite (proj2 (Nat.ltb_ge _ _)) by (offsets; lia). do 3 f_equal. offsets. lia. }
  all: intros i Hi; unfold bound;
    repeat match goal with
    | |- context [(?x <? ?y)%nat] => first [rewrite (proj2 (Nat.ltb_ge x y)) by (offsets; lia)|rewrite (proj2 (Nat.ltb_lt x y)) by (offsets; lia)]
    | |- context [(?x =? ?y)%nat] => first [rewrite (proj2 (Nat.eqb_neq x y)) by (offsets; lia)|rewrite (proj2 (Nat.eqb_eq x y)) by (offsets; lia)]
    end; reflexivity.
Qed.

Context (A : admissible a r b k) (P : proving_ok a r b) (Hd : domain_new a = Ok d) (Hw : primitive_root (r + b) = Some w).
Context (Hpoly : forall g, primitive_root r = Some g -> transition_is_polynomial a (2 ^ r + 1) g).
Context (Hex : (length (transition_exemptions (a_context a)) <= length (transition_degrees (a_context a)) <= nt)%nat).
Context (Hbc : forall rap bcs bc, a_boundary a rap = Ok bcs -> In bc bcs -> (bc_step bc < 2 ^ r)%nat /\ (bc_col bc < width)%nat).
Context (Hnb : forall rap bcs, a_boundary a rap = Ok bcs -> length bcs = nb).
Context (He : (3 * e + 2 ^ r <= N)%nat).
Context (Hs : well_formed a s).

Lemma k_pos : (1 <= k)%nat. Proof using A. exact (ad_k _ _ _ _ A). Qed.

Lemma exception_few i t : length t = len -> (i < len)%nat -> few (bound i) (fun x => exception i (set_nth i x t)).
Proof using All.
  intros Ht Hi. pose proof k_pos as Hk. unfold exception, bound.
  assert (At : forall x, nth i (set_nth i x t) 0 = x) by (intro x; apply set_nth_at; lia).
  destruct (i <? B)%nat eqn:C1; [intros [|y l] _ Hl; [cbn; lia|destruct (Hl y (or_introl eq_refl))]|]. apply Nat.ltb_ge in C1.
  destruct (i <? B + nb)%nat eqn:C2.
  { apply Nat.ltb_lt in C2. 
    destruct (a_boundary a (rap t)) as [bcs|err|] eqn:Hb;
      [|intros [|y l] _ Hl; [cbn; lia|]; destruct (Hl y (or_introl eq_refl)) as (bcs' & bc' & Hb' & _); rewrite (u_rap i y t Ht Hi) in Hb' by (offsets; lia); congruence..].
    pose proof (Hnb _ _ Hb) as Hl. destruct (nth_error bcs (i - B)) as [bc|] eqn:Ebc; [|apply nth_error_None in Ebc; lia].
    apply (few_mono 1 (boundary_exception a d r e pts (rap t) (cols t) (bco t) (tco t) (i - B) bc)).
    - apply (proj2 (C72_few_constraint_coefficients E a r b k d w e (rap t) (cols t) (bco t) (tco t) (i - B) HE A P Hd Hw Hpoly He) bcs bc); [|exact Hb|exact Ebc|].
      + unfold tape_boundary. offsets. rewrite combine_length, !part_length by lia. lia.
      + apply (Hbc _ bcs bc Hb). now apply nth_error_In in Ebc.
    - intros x (bcs' & bc' & Hb' & Hn & H). rewrite (u_rap i x t Ht Hi), (u_cols i x t Ht Hi), (u_tco i x t Ht Hi), At in H by (offsets; lia).
      rewrite (u_rap i x t Ht Hi) in Hb' by (offsets; lia). rewrite Hb in Hb'. apply ok_inj in Hb'. subst bcs'. rewrite Ebc in Hn. injection Hn as <-.
      unfold boundary_exception in *.
      replace (with_beta (i - B) x (bco t)) with (with_beta (i - B) x (bco (set_nth i x t))); [exact H|]. unfold tape_boundary. offsets.
      pose proof (u_length i x t Ht Hi) as Lu. apply with_beta_ext; try (rewrite !part_length; lia); [apply (u_part i x t Ht Hi); lia|].
      intros j Hj. destruct (lt_dec j nb) as [L|L]; [|rewrite !nth_overflow by (rewrite part_length; lia); reflexivity].
      rewrite !nth_part by exact L. apply (u_off i x t Ht Hi). lia. }
  apply Nat.ltb_ge in C2.
  destruct (i <? T)%nat eqn:C3; [intros [|y l] _ Hl; [cbn; lia|destruct (Hl y (or_introl eq_refl))]|]. apply Nat.ltb_ge in C3.
  destruct (i <? Z)%nat eqn:C4.
  { apply Nat.ltb_lt in C4. destruct (lt_dec (i - T) (length (transition_degrees (a_context a)))) as [Hj|Hj];
      [|intros [|y l] _ Hl; [cbn; lia|destruct (Hl y (or_introl eq_refl)); contradiction]].
    apply (few_mono 1 (transition_exception a d r e pts (rap t) (cols t) (bco t) (tco t) (i - T))).
    - apply (proj1 (C72_few_constraint_coefficients E a r b k d w e (rap t) (cols t) (bco t) (tco t) (i - T) HE A P Hd Hw Hpoly He)); [|exact Hj].
      unfold tape_transition. offsets. rewrite combine_length, !part_length by lia. lia.
    - intros x (_ & H). rewrite (u_rap i x t Ht Hi), (u_cols i x t Ht Hi), (u_bco i x t Ht Hi), At in H by (offsets; lia).
      unfold transition_exception in *.
      replace (with_beta (i - T) x (tco t)) with (with_beta (i - T) x (tco (set_nth i x t))); [exact H|]. unfold tape_transition. offsets.
      pose proof (u_length i x t Ht Hi) as Lu. apply with_beta_ext; try (rewrite !part_length; lia); [apply (u_part i x t Ht Hi); lia|].
      intros j Hj'. destruct (lt_dec j nt) as [L|L]; [|rewrite !nth_overflow by (rewrite part_length; lia); reflexivity].
      rewrite !nth_part by exact L. apply (u_off i x t Ht Hi). lia. }
  apply Nat.ltb_ge in C4.
  destruct (i =? Z)%nat eqn:C5.
  { apply Nat.eqb_eq in C5. apply (few_mono _ (point_exception a d r e pts (rap t) (cols t) (even t) (odd t) (bco t) (tco t))).
    - exact (C72_few_points E a r b k d w e (rap t) (cols t) (even t) (odd t) (bco t) (tco t) HE A Hd Hw He).
    - intros x H. rewrite (u_rap i x t Ht Hi), (u_cols i x t Ht Hi), (u_bco i x t Ht Hi), (u_tco i x t Ht Hi), (u_even i x t Ht Hi), (u_odd i x t Ht Hi), At in H by (offsets; lia).
      exact H. }
  apply Nat.eqb_neq in C5.
  destruct (C72_few_terms E a r b k d w e (proof t) (chal t) (rows t) (cols t) (even t) (odd t) HE A Hd Hw He) as (FT & FE & FO).
  assert (Pf : forall x, fr_num_columns (trace_ood_frame_evaluations (proof (set_nth i x t))) = fr_num_columns (trace_ood_frame_evaluations (proof t)) /\
     composition_poly_even_ood_evaluation (proof (set_nth i x t)) = composition_poly_even_ood_evaluation (proof t) /\
     composition_poly_odd_ood_evaluation (proof (set_nth i x t)) = composition_poly_odd_ood_evaluation (proof t)).
  { intro x. unfold play_proof. cbn [trace_ood_frame_evaluations composition_poly_even_ood_evaluation composition_poly_odd_ood_evaluation fr_num_columns fr_row_width].
    rewrite (u_firstn i x t Ht Hi) by (offsets; lia). repeat split. }
  assert (Zx : forall x, nth Z (set_nth i x t) 0 = nth Z t 0) by (intro x; apply (u_off i x t Ht Hi); lia).
  destruct (i =? Z + 1)%nat eqn:C6.
  { apply Nat.eqb_eq in C6. eapply few_mono; [exact FE|]. intros x H. destruct (Pf x) as (P1 & P2 & P3).
    unfold even_exception in *. rewrite (u_cols i x t Ht Hi), (u_even i x t Ht Hi), (u_odd i x t Ht Hi), (u_rows i x t Ht Hi), At in H by (offsets; lia).
    eapply hides_ext; [| |exact H].
    - intro y. apply deep_ext; try assumption; cbn [with_gammas c_z c_trace_term_coeffs c_gamma_even c_gamma_odd tape_challenges]; [apply Zx|apply (u_terms i x t Ht Hi); offsets; lia|reflexivity|].
      apply (u_off i x t Ht Hi). lia.
    - intro y. cbn [tape_challenges c_z]. now rewrite Zx, P2. }
  apply Nat.eqb_neq in C6.
  destruct (i =? Z + 2)%nat eqn:C7.
  { apply Nat.eqb_eq in C7. eapply few_mono; [exact FO|]. intros x H. destruct (Pf x) as (P1 & P2 & P3).
    unfold odd_exception in *. rewrite (u_cols i x t Ht Hi), (u_even i x t Ht Hi), (u_odd i x t Ht Hi), (u_rows i x t Ht Hi), At in H by (offsets; lia).
    eapply hides_ext; [| |exact H].
    - intro y. apply deep_ext; try assumption; cbn [with_gammas c_z c_trace_term_coeffs c_gamma_even c_gamma_odd tape_challenges]; [apply Zx|apply (u_terms i x t Ht Hi); offsets; lia| |reflexivity].
      apply (u_off i x t Ht Hi). lia.
    - intro y. cbn [tape_challenges c_z]. now rewrite Zx, P3. }
  apply Nat.eqb_neq in C7.
  destruct (i <? F)%nat eqn:C8.
  { apply Nat.ltb_lt in C8. eapply few_mono; [exact (FT ((i - M) / k)%nat ((i - M) mod k)%nat)|]. intros x H. destruct (Pf x) as (P1 & P2 & P3).
    unfold term_exception in *. rewrite (u_cols i x t Ht Hi), (u_even i x t Ht Hi), (u_odd i x t Ht Hi), (u_rows i x t Ht Hi), At in H by (offsets; lia).
    eapply hides_ext; [| |exact H].
    - intro y. apply deep_ext; try assumption; cbn [with_trace_coeff c_z c_trace_term_coeffs c_gamma_even c_gamma_odd tape_challenges]; [apply Zx| |apply (u_off i x t Ht Hi); lia|apply (u_off i x t Ht Hi); lia].
      pose proof (Nat.div_mod (i - M) k ltac:(lia)) as DM. pose proof (Nat.mod_upper_bound (i - M) k ltac:(lia)) as MB.
      assert (Cw : ((i - M) / k < width)%nat) by (apply Nat.div_lt_upper_bound; [lia|]; offsets; nia).
      pose proof (u_length i x t Ht Hi) as Lu.
      assert (NC : forall c v, (c < width)%nat -> nth c (terms v) [] = part (M + c * k) k v).
      { intros c v Hc. unfold tape_terms. rewrite (nth_indep _ [] (part (M + 0 * k) k v)) by (now rewrite map_length, seq_length).
        rewrite (map_nth (fun col => part (M + col * k) k v)). rewrite seq_nth by exact Hc. reflexivity. }
      unfold set_coeff. rewrite !NC by exact Cw.
      replace (set_nth ((i - M) mod k) 0 (part (M + (i - M) / k * k) k (set_nth i x t))) with (set_nth ((i - M) mod k) 0 (part (M + (i - M) / k * k) k t)).
      + apply (set_nth_same []); [unfold tape_terms; now rewrite !map_length|]. intros c Hc. destruct (lt_dec c width) as [L|L].
        * rewrite !NC by exact L. apply (u_part i x t Ht Hi). offsets. nia.
        * rewrite !nth_overflow by (unfold tape_terms; rewrite map_length, seq_length; lia). reflexivity.
      + assert (Wk : ((i - M) / k * k + k <= width * k)%nat) by nia.
        apply (set_nth_same 0); [rewrite !part_length; [reflexivity|offsets; lia|offsets; lia]|]. intros j Hj. destruct (lt_dec j k) as [L|L].
        * rewrite !nth_part by exact L. symmetry. apply (u_off i x t Ht Hi). offsets. nia.
        * rewrite !nth_overflow by (rewrite part_length; offsets; lia). reflexivity.
    - intro y. cbn [tape_challenges c_z]. now rewrite Zx. }
  apply Nat.ltb_ge in C8.
  destruct (shape HE a r b k d w A Hd Hw) as (g' & D). pose proof (offset_nonzero HE A D) as Hh. rewrite <- (ds_offset _ _ _ _ _ _ D) in Hh.
  apply (few_mono _ (round_exception (r + b) e r (d_coset_offset d) w (i - F) (s_layer s (i - F) (firstn i t)))).
  - apply (C71_few_exceptional_foldings E); [exact HE|lia|offsets; lia|exact Hh|exact (ds_Wprim _ _ _ _ _ _ D)|exact He].
  - intros x H. rewrite (u_firstn i x t Ht Hi), At in H by lia. exact H.
Qed.

Lemma no_exception t : length t = len -> (forall i, (i < len)%nat -> ~ exception i t) ->
  unexceptional a d r b e w (proof t) (chal t) (rows t) (cols t) (even t) (odd t) (words t).
Proof using A He Hex Hnb Hs.
  intros Ht H. destruct (tape_lengths t Ht) as (L1 & L2 & L3 & L4 & L5). pose proof k_pos as Hk. unfold exception in H.
  constructor; cbn [tape_challenges c_z c_boundary_coeffs c_transition_coeffs c_trace_term_coeffs c_gamma_even c_gamma_odd c_zetas c_rap].
  - intros j Hj X. assert (Hi : (T + j < len)%nat) by (offsets; lia). apply (H _ Hi).
    rewrite (proj2 (Nat.ltb_ge _ _)) by (offsets; lia). rewrite (proj2 (Nat.ltb_ge _ _)) by (offsets; lia). rewrite (proj2 (Nat.ltb_ge _ _)) by (offsets; lia).
    rewrite (proj2 (Nat.ltb_lt _ _)) by (offsets; lia). replace (T + j - T)%nat with j by lia. split; [exact Hj|].
    replace (nth (T + j) t 0) with (snd (nth j (tco t) (0, 0))); [exact X|]. unfold tape_transition. rewrite combine_nth by (offsets; rewrite !part_length by lia; reflexivity).
    cbn [snd]. apply nth_part. lia.
  - intros bcs j bc Hb Hbj X. assert (Hj : (j < nb)%nat).
    { rewrite <- (Hnb _ _ Hb). apply nth_error_Some. congruence. }
    assert (Hi : (B + j < len)%nat) by (offsets; lia). apply (H _ Hi).
    rewrite (proj2 (Nat.ltb_ge _ _)) by (offsets; lia). rewrite (proj2 (Nat.ltb_lt _ _)) by (offsets; lia). replace (B + j - B)%nat with j by lia.
    exists bcs, bc. split; [exact Hb|]. split; [exact Hbj|].
    replace (nth (B + j) t 0) with (snd (nth j (bco t) (0, 0))); [exact X|]. unfold tape_boundary. rewrite combine_nth by (offsets; rewrite !part_length by lia; reflexivity).
    cbn [snd]. now apply nth_part.
  - intro X. assert (Hi : (Z < len)%nat) by (offsets; lia). apply (H _ Hi). do 4 (rewrite (proj2 (Nat.ltb_ge _ _)) by (offsets; lia)). now rewrite Nat.eqb_refl.
  - intros col row Hc Hr X. destruct (Hs (firstn (Z + 1) t)) as [Hs1 _]. change (length (rows t) = k) in Hs1. rewrite Hs1 in Hr.
    pose proof (Nat.mul_le_mono_r (col + 1) width k ltac:(lia)) as Hm. rewrite Nat.mul_add_distr_r, Nat.mul_1_l in Hm.
    assert (Hi : (M + (col * k + row) < len)%nat) by (offsets; lia). apply (H _ Hi).
    do 4 (rewrite (proj2 (Nat.ltb_ge _ _)) by (offsets; lia)). do 3 (rewrite (proj2 (Nat.eqb_neq _ _)) by (offsets; lia)). rewrite (proj2 (Nat.ltb_lt _ _)) by (offsets; lia).
    replace (M + (col * k + row) - M)%nat with (col * k + row)%nat by lia. rewrite Nat.div_add_l, (Nat.div_small row k Hr), Nat.add_0_r by lia.
    rewrite Nat.add_comm with (n := (col * k)%nat) (m := row), Nat.mod_add, (Nat.mod_small row k Hr) by lia.
    replace (nth (M + (row + col * k)) t 0) with (nth row (nth col (terms t) []) 0); [exact X|].
    unfold tape_terms. rewrite (nth_indep _ [] (part (M + 0 * k) k t)) by (now rewrite map_length, seq_length).
    rewrite (map_nth (fun col => part (M + col * k) k t)). rewrite seq_nth by exact Hc. rewrite nth_part by exact Hr. f_equal. lia.
  - intro X. assert (Hi : (Z + 1 < len)%nat) by (offsets; lia). apply (H _ Hi). do 4 (rewrite (proj2 (Nat.ltb_ge _ _)) by (offsets; lia)).
    rewrite (proj2 (Nat.eqb_neq _ _)) by lia. now rewrite Nat.eqb_refl.
  - intro X. assert (Hi : (Z + 2 < len)%nat) by (offsets; lia). apply (H _ Hi). do 4 (rewrite (proj2 (Nat.ltb_ge _ _)) by (offsets; lia)).
    do 2 (rewrite (proj2 (Nat.eqb_neq _ _)) by lia). now rewrite Nat.eqb_refl.
  - intros (l & f & zeta & Hf & Hz & X). unfold play_words in X. rewrite map_length, seq_length in X.
    assert (Hl : (l < r)%nat) by (rewrite <- L5; apply nth_error_Some; congruence).
    assert (Hi : (F + l < len)%nat) by (offsets; lia). apply (H _ Hi).
    do 4 (rewrite (proj2 (Nat.ltb_ge _ _)) by (offsets; lia)). do 3 (rewrite (proj2 (Nat.eqb_neq _ _)) by (offsets; lia)). rewrite (proj2 (Nat.ltb_ge _ _)) by (offsets; lia).
    replace (F + l - F)%nat with l by lia.
    unfold play_words in Hf. rewrite nth_error_map, (nth_error_nth' _ 0%nat) in Hf by (now rewrite seq_length). rewrite seq_nth in Hf by exact Hl. cbn [option_map Nat.add] in Hf.
    injection Hf as <-. apply (nth_error_nth _ _ 0) in Hz. rewrite nth_part in Hz by exact Hl. rewrite Hz. exact X.
Qed.

(** ** A tape that is neither exceptional nor preceded by a solution is won with few vectors of positions only *)
Lemma few_positions t queries q : length t = len -> (forall i, (i < len)%nat -> ~ exception i t) -> ~ commits_to_solution a r pick s d b e w (firstn kr t) ->
  ~ In (nth Z t 0) (lde_roots_of_unity_coset d) -> NoDup queries ->
  (forall v, In v queries -> length v = q /\ (forall i, In i v -> (i < N)%nat) /\ wins a kr nb r pick s d w t v) ->
  (length queries <= (N - e - 1) ^ q)%nat.
Proof using All.
  intros Ht Hx Hn Hz Hnd Hv. destruct (tape_lengths t Ht) as (L1 & L2 & L3 & L4 & L5). destruct (shape HE a r b k d w A Hd Hw) as (g' & D).
  set (good := filter (fun i => if consistent_dec HE (proof t) (chal t) g (rows t) (cols t) (even t) (odd t) (words t) (d_coset_offset d * fpow w i) then true else false) (seq 0 N)).
  assert (Gin : forall i, In i good <-> (i < N)%nat /\ consistent_at (proof t) (chal t) g (rows t) (cols t) (even t) (odd t) (words t) (d_coset_offset d * fpow w i)).
  { intro i. unfold good. rewrite filter_In, in_seq.
    destruct (consistent_dec HE (proof t) (chal t) g (rows t) (cols t) (even t) (odd t) (words t) (d_coset_offset d * fpow w i)) as [Q|Q]; split; intros [H1 H3];
      try discriminate H3; try contradiction; (split; [lia|]); assumption || reflexivity. }
  destruct queries as [|v0 queries]; [cbn; lia|].
  destruct (Hs (firstn (Z + 1) t)) as [Hs1 Hs2]. pose proof (Hv v0 (or_introl eq_refl)) as (_ & _ & H2 & _).
  assert (Hb : exists bcs, a_boundary a (rap t) = Ok bcs) by (unfold step_2 in H2; cbn [tape_challenges c_rap] in H2; destruct (a_boundary a (rap t)); [eauto|discriminate H2..]).
  destruct Hb as (bcs & Hb). pose proof (Hnb _ _ Hb) as Hl.
  destruct (le_lt_dec N (length good + e)) as [Enough|Less].
  - exfalso. apply Hn.
    destruct (run_satisfies HE A D e He (proof t) (chal t) (rows t) (cols t) (even t) (odd t) (words t) good bcs) as (polys & Q1 & Q2 & Q3); try assumption.
    + reflexivity.
    + rewrite Hl. exact L1.
    + unfold play_words. rewrite map_length, seq_length. exact L5.
    + unfold play_words. now rewrite map_length, seq_length.
    + apply (outside HE D). exact Hz.
    + now apply no_exception.
    + apply NoDup_filter, seq_NoDup.
    + intros i Hi. now apply Gin.
    + exists polys. split; [exact Q1|]. split; [exact Q2|exact Q3].
  - apply (C72_lucky_queries N q e good (v0 :: queries)); [exact Less|exact Hnd|]. intros v Hv'. destruct (Hv v Hv') as (Q1 & Q2 & _ & Q3).
    split; [exact Q1|]. intros i Hi. apply Gin. split; [now apply Q2|]. exact (Q3 i Hi).
Qed.

(** ** All tapes together *)
Context (samples : list (list E)) (Hsl : length samples = len) (Hsz : forall z, In z (nth Z samples []) -> ~ In z (lde_roots_of_unity_coset d)).
Let dec : forall x y : E, {x = y} + {x <> y} := feq_dec (fft_field_ok E (e_fft_ok E HE)).

Lemma game_count q R (W : list (list E * list nat)) :
  (forall X, NoDup X -> (forall xs, In xs X -> In xs (product (firstn kr samples)) /\ commits_to_solution a r pick s d b e w xs) -> (length X <= R)%nat) ->
  NoDup W -> (forall t v, In (t, v) W -> In t (product samples) /\ length v = q /\ (forall i, In i v -> (i < N)%nat) /\ wins a kr nb r pick s d w t v) ->
  (length W <= (R * volume (skipn kr samples) + list_sum (map (fun i => bound i * volume (firstn i samples ++ skipn (S i) samples)) (seq 0 len))) * N ^ q +
     volume samples * (N - e - 1) ^ q)%nat.
Proof using All.
  intros HR HN HW. apply le_stable. intro Hc.
  apply (nn_all (fun tv => commits_to_solution a r pick s d b e w (firstn kr (fst tv))) W). intro D1.
  apply (nn_all (fun tv : list E * list nat => exists i, (i < len)%nat /\ exception i (fst tv)) W). intro D2. apply Hc. clear Hc.
  destruct (split_by _ W D1) as (W1 & W2 & HL & I1 & I2 & ND & P1 & P2). destruct (ND HN) as [N1 N2].
  assert (D2' : Forall (fun tv : list E * list nat => (exists i, (i < len)%nat /\ exception i (fst tv)) \/ ~ (exists i, (i < len)%nat /\ exception i (fst tv))) W2).
  { apply Forall_forall. intros x Hx. rewrite Forall_forall in D2. apply D2, I2, Hx. }
  destruct (split_by _ W2 D2') as (W3 & W4 & HL' & I3 & I4 & ND' & P3 & P4). destruct (ND' N2) as [N3 N4].
  assert (V : forall t v, In (t, v) W -> In v (vectors (seq 0 N) q)).
  { intros t v Hi. destruct (HW t v Hi) as (_ & <- & Hv & _). apply vectors_in. intros i Hin. apply in_seq. specialize (Hv i Hin). lia. }
  pose proof (vectors_length (seq 0 N) q) as VL. rewrite seq_length in VL.
  (* solutions *)
  assert (C1 : (length W1 <= R * volume (skipn kr samples) * N ^ q)%nat).
  { rewrite <- VL. apply (pairs_count (list_eq_dec dec)); [exact N1|intros t v Hi; apply (V t v), I1, Hi|]. intros X HX HXW.
    set (Y := nodup (list_eq_dec dec) (map (firstn kr) X)). transitivity (length (list_prod Y (product (skipn kr samples)))).
    - rewrite <- (map_length (fun t => (firstn kr t, skipn kr t)) X). apply NoDup_incl_length.
      + apply FinFun.Injective_map_NoDup; [|exact HX]. intros t t' Q. injection Q as Q1 Q2. rewrite <- (firstn_skipn kr t), <- (firstn_skipn kr t'). congruence.
      + intros tv Hi. apply in_map_iff in Hi. destruct Hi as (t & <- & Ht). apply in_prod; [unfold Y; apply nodup_In; now apply in_map|].
        destruct (HXW t Ht) as (v & Hv). destruct (HW t v (I1 _ Hv)) as (Hp & _). apply in_product in Hp. apply in_product.
        clear -Hp. revert t samples Hp. induction kr as [|n IH]; intros t l Hp; [exact Hp|]. destruct Hp; [constructor|]. cbn [skipn]. now apply IH.
    - rewrite prod_length, product_length. apply Nat.mul_le_mono_r, HR; [apply NoDup_nodup|]. intros xs Hxs. unfold Y in Hxs. apply nodup_In, in_map_iff in Hxs.
      destruct Hxs as (t & <- & Ht). destruct (HXW t Ht) as (v & Hv). split; [|exact (P1 _ Hv)].
      destruct (HW t v (I1 _ Hv)) as (Hp & _). apply in_product in Hp. apply in_product.
      clear -Hp. revert t samples Hp. induction kr as [|n IH]; intros t l Hp; [constructor|]. destruct Hp; [constructor|]. cbn [firstn]. constructor; [assumption|now apply IH]. }
  (* exceptions *)
  assert (C3 : (length W3 <= list_sum (map (fun i => bound i * volume (firstn i samples ++ skipn (S i) samples)) (seq 0 len)) * N ^ q)%nat).
  { rewrite <- VL. apply (pairs_count (list_eq_dec dec)); [exact N3|intros t v Hi; apply (V t v), I2, I3, Hi|]. intros X HX HXW.
    apply (exceptional_tapes dec samples exception bound); [|lia|exact HX| |].
    - intros i t Hp Hi. apply exception_few; [|lia]. rewrite <- Hsl. now apply product_width.
    - intros t Ht. destruct (HXW t Ht) as (v & Hv). now destruct (HW t v (I2 _ (I3 _ Hv))).
    - intros t Ht. destruct (HXW t Ht) as (v & Hv). exact (P3 _ Hv). }
  (* luck *)
  assert (C4 : (length W4 <= (N - e - 1) ^ q * volume samples)%nat).
  { rewrite <- product_length. apply (fibres (list_eq_dec dec) fst); [intros [t v] Hi; now destruct (HW t v (I2 _ (I4 _ Hi)))| |exact N4].
    intros t l _ Hl Hnl Hf. destruct l as [|[t0 v0] l]; [cbn; lia|]. assert (t0 = t) by (apply (Hf (t0, v0)); now left). subst t0.
    assert (Hi0 : In (t, v0) W) by (apply I2, I4, Hl; now left). destruct (HW t v0 Hi0) as (Hp & _). pose proof (product_width _ _ Hp) as Lt. rewrite Hsl in Lt.
    rewrite <- (map_length snd). apply (few_positions t); [exact Lt| | | | |].
    - intros i Hi Hx. apply (P4 (t, v0)); [apply Hl; now left|]. now exists i.
    - apply (P2 (t, v0)). apply I4, Hl. now left.
    - apply Hsz. apply in_product in Hp. rewrite <- Lt in *. assert (HZ : (Z < length t)%nat) by (rewrite Lt; offsets; lia).
      clear -Hp HZ. revert HZ. generalize Z. intros z Hz. revert z Hz. induction Hp; intros [|z] Hz; cbn in *; try lia; [assumption|]. apply IHHp. lia.
    - clear -Hnl Hf. revert Hnl Hf. generalize ((t, v0) :: l). intros m Hn Hf. induction Hn as [|[t1 v1] m Hni Hn IH]; [constructor|]. cbn [map].
      constructor; [|apply IH; intros; apply Hf; now right]. intro Hi. apply in_map_iff in Hi. destruct Hi as ([t2 v2] & Q & Hi). cbn [snd] in Q. subst v2.
      apply Hni. pose proof (Hf (t1, v1) (or_introl eq_refl)) as Q1. pose proof (Hf (t2, v1) (or_intror Hi)) as Q2. cbn [fst] in Q1, Q2. now subst.
    - intros v Hv. apply in_map_iff in Hv. destruct Hv as ([t1 v1] & <- & Hi). pose proof (Hf _ Hi) as Q. cbn [fst] in Q. subst t1. destruct (HW t v1 (I2 _ (I4 _ (Hl _ Hi)))) as (_ & H). exact H. }
  rewrite HL, HL'. nia.
Qed.
End Game.

(** ** The error

    [samples] are the sets from which the entries of the tape are drawn, [size] or more elements each. Suppose that, of the challenges of the
    randomized AIR, at most [rho] in [size] let the prover commit to columns near a solution. Then, of all tapes and vectors of [q]
    positions, the prover wins with at most the fraction [(rho + error_weight) / size + ((N - e - 1) / N)^q], for [N = 2^(r+b)]. *)
Theorem C77_winning_runs_are_few :
  forall (E : env) (a : air E) kr nb r b pick d w e s samples size rho q W, env_ok E ->
  playable a nb r b e d w -> well_formed a s -> fair a kr nb r d size samples ->
  (forall X, NoDup X -> (forall xs, In xs X -> In xs (product (firstn kr samples)) /\ commits_to_solution a r pick s d b e w xs) ->
     (size * length X <= rho * volume (firstn kr samples))%nat) ->
  winning a kr nb r pick s d w b q samples W ->
  (size * length W <= (rho + error_weight a nb r e) * (volume samples * (2 ^ (r + b)) ^ q) +
     size * (volume samples * (2 ^ (r + b) - e - 1) ^ q))%nat.
Proof.
  intros E a kr nb r b pick d w e s samples size rho q W HE [A P Hd Hw Hpoly Hex Hb He] Hs [Fl Fs Fz] HR [HN HW].
  destruct (Nat.eq_dec size 0) as [->|Hsz]; [lia|]. set (R := (rho * volume (firstn kr samples) / size)%nat).
  pose proof (game_count HE a kr nb r b pick d w e s A P Hd Hw Hpoly Hex (fun rap bcs bc H1 H2 => proj2 (Hb rap bcs H1) bc H2) (fun rap bcs H => proj1 (Hb rap bcs H)) He Hs samples Fl Fz q R W) as H.
  assert (HX : forall X, NoDup X -> (forall xs, In xs X -> In xs (product (firstn kr samples)) /\ commits_to_solution a r pick s d b e w xs) -> (length X <= R)%nat).
  { intros X H1 H2. apply Nat.div_le_lower_bound; [exact Hsz|]. exact (HR X H1 H2). }
  specialize (H HX HN HW). set (V := volume samples) in *.
  assert (S1 : (size * (R * volume (skipn kr samples)) <= rho * V)%nat).
  { unfold V. rewrite <- (firstn_skipn kr samples) at 2. rewrite volume_app. pose proof (Nat.mul_div_le (rho * volume (firstn kr samples)) size Hsz) as Q. fold R in Q. nia. }
  assert (S2 : (size * list_sum (map (fun i => bound a kr nb r e i * volume (firstn i samples ++ skipn (S i) samples)) (seq 0 (tape_length a kr nb r))) <= error_weight a nb r e * V)%nat).
  { rewrite <- (bound_sum a kr nb r e), <- sum_mul, Nat.mul_comm, <- sum_mul. apply sum_le. intros i Hi. apply in_seq in Hi.
    pose proof (volume_cut i samples ltac:(lia)) as Q. fold V in Q. destruct (Fs (nth i samples []) ltac:(apply nth_In; lia)) as [_ Q2].
    rewrite <- Nat.mul_assoc. apply Nat.mul_le_mono_l. rewrite <- Q, Nat.mul_comm. now apply Nat.mul_le_mono_r. }
  set (X := list_sum _) in *. set (Y := (R * volume (skipn kr samples))%nat) in *. set (n := ((2 ^ (r + b)) ^ q)%nat) in *. set (m := ((2 ^ (r + b) - e - 1) ^ q)%nat) in *.
  transitivity (size * ((Y + X) * n + V * m))%nat; [now apply Nat.mul_le_mono_l|]. rewrite Nat.mul_add_distr_l. apply Nat.add_le_mono_r.
  rewrite !Nat.mul_assoc, Nat.mul_add_distr_l. apply Nat.mul_le_mono_r. lia.
Qed.
Print Assumptions C77_winning_runs_are_few.

(** The weight in closed form. *)
Theorem C77_error_weight :
  forall (E : env) (a : air E) nb r e,
  (error_weight a nb r e <= nb + num_transition_constraints (a_context a) + Nat.max (3 * 2 ^ r + 3) (a_degree_bound a + 2 * 2 ^ r + 1) +
     (e + 1) * (2 + trace_columns (a_context a) * length (transition_offsets (a_context a))) + e + r)%nat.
Proof.
  intros E a nb r e. unfold error_weight, stark_bound, ood_bound.
  assert (Q : forall n e, (list_sum (map (fun l => e / 2 ^ (l + 1) + 1) (seq 0 n)) <= e + n)%nat).
  { clear. induction n as [|n IH]; intro e; [cbn; lia|]. cbn [seq map]. rewrite <- seq_shift, map_map.
    rewrite (map_ext_in _ (fun l => (e / 2) / 2 ^ (l + 1) + 1)%nat).
    - specialize (IH (e / 2)%nat). change (2 ^ (0 + 1))%nat with 2%nat.
      change (e / 2 + 1 + list_sum (map (fun l => e / 2 / 2 ^ (l + 1) + 1) (seq 0 n)) <= e + S n)%nat.
      pose proof (Nat.div_mod e 2 ltac:(lia)). lia.
    - intros l _. f_equal. replace (2 ^ (S l + 1))%nat with (2 * 2 ^ (l + 1))%nat by reflexivity. symmetry. apply Nat.div_div; [lia|]. apply Nat.pow_nonzero. lia. }
  specialize (Q r e). lia.
Qed.
Print Assumptions C77_error_weight.

(** ** Accepted proofs are wins *)
Section Tape.
Context {E : env} (a : air E) (kr nb r : nat) (pick : list E -> a_rap a) (xs : list E) (c : challenges E a).
Local Notation nt := (num_transition_constraints (a_context a)).
Local Notation width := (trace_columns (a_context a)).
Local Notation k := (length (transition_offsets (a_context a))).
Context (Hx : length xs = kr) (Hrap : c_rap E a c = pick xs) (Hb : length (c_boundary_coeffs E a c) = nb) (Ht : length (c_transition_coeffs E a c) = nt)
  (Hw : length (c_trace_term_coeffs E a c) = width) (Hk : Forall (fun l => length l = k) (c_trace_term_coeffs E a c)) (Hz : length (c_zetas E a c) = r).
Lemma tape_of_length : length (tape_of a xs c) = tape_length a kr nb r.
Proof using All.
  unfold tape_of. rewrite !app_length, !map_length. cbn [length]. rewrite (concat_uniform _ _ Hk), Hw, Hx, Hb, Ht, Hz.
  unfold tape_length, at_folding, at_terms, at_point. lia.
Qed.
Lemma tape_of_challenges queries : tape_challenges a kr nb r pick (tape_of a xs c) queries =
  Verifier.mk_challenges E a (c_z E a c) (c_boundary_coeffs E a c) (c_transition_coeffs E a c) (c_trace_term_coeffs E a c) (c_gamma_even E a c) (c_gamma_odd E a c)
    (c_zetas E a c) queries (c_rap E a c) 0%N.
Proof using All.
  unfold tape_challenges, tape_of. cbv zeta.
  set (bc := c_boundary_coeffs E a c) in *. set (tc := c_transition_coeffs E a c) in *. set (cc := c_trace_term_coeffs E a c) in *.
  set (u := xs ++ map fst bc ++ map snd bc ++ map fst tc ++ map snd tc).
  assert (Lu : length u = at_point a kr nb) by (unfold u, at_point; rewrite !app_length, !map_length; lia).
  assert (Q : forall v, xs ++ map fst bc ++ map snd bc ++ map fst tc ++ map snd tc ++ v = u ++ v) by (intro v; unfold u; now rewrite <- !app_assoc).
  rewrite Hrap. f_equal.
  - rewrite Q. cbn [app]. now apply nth_here.
  - unfold tape_boundary. rewrite (part_here xs (map fst bc)) by (rewrite ?map_length; lia). rewrite (app_assoc xs). rewrite (part_here (xs ++ map fst bc) (map snd bc)).
    + apply combine_fst_snd.
    + rewrite app_length, map_length. unfold at_boundary. lia.
    + rewrite map_length. exact Hb.
  - unfold tape_transition. rewrite (app_assoc xs), (app_assoc (xs ++ _)). rewrite (part_here ((xs ++ map fst bc) ++ map snd bc) (map fst tc)) by (rewrite ?app_length, ?map_length; lia).
    rewrite (app_assoc ((xs ++ _) ++ _)). rewrite (part_here (((xs ++ map fst bc) ++ map snd bc) ++ map fst tc) (map snd tc)).
    + apply combine_fst_snd.
    + rewrite !app_length, !map_length. unfold at_transition. lia.
    + rewrite map_length. exact Ht.
  - unfold tape_terms. rewrite Q, (app_assoc u), <- Hw. apply (concat_rows []); [exact Hk|]. rewrite app_length, Lu. reflexivity.
  - rewrite Q. change (u ++ [c_z E a c; c_gamma_even E a c; c_gamma_odd E a c] ++ concat cc ++ c_zetas E a c)
      with (u ++ [c_z E a c] ++ c_gamma_even E a c :: c_gamma_odd E a c :: concat cc ++ c_zetas E a c). rewrite app_assoc. apply nth_here. rewrite app_length, Lu. reflexivity.
  - rewrite Q. change (u ++ [c_z E a c; c_gamma_even E a c; c_gamma_odd E a c] ++ concat cc ++ c_zetas E a c)
      with (u ++ [c_z E a c; c_gamma_even E a c] ++ c_gamma_odd E a c :: concat cc ++ c_zetas E a c). rewrite app_assoc. apply nth_here. rewrite app_length, Lu. reflexivity.
  - rewrite Q, (app_assoc u), (app_assoc (u ++ _)). rewrite <- (app_nil_r (c_zetas E a c)) at 1. apply part_here; [|exact Hz].
    rewrite !app_length, Lu, (concat_uniform _ _ Hk), Hw. cbn [length]. unfold at_folding, at_terms. lia.
  - unfold tape_rap. f_equal. unfold part. cbn [skipn]. rewrite <- Hx, firstn_app, firstn_all, Nat.sub_diag. apply app_nil_r.
Qed.
End Tape.

(** An accepted proof whose challenges are the tape [tape_of xs c], and which states and commits to what the strategy says for that tape and
    opens it truthfully, is a win of the game, with the positions that the verifier asked for. *)
Theorem C77_accepted_proofs_win :
  forall (E : env) fuel (mk : nat -> air E) opts (p : stark_proof E) kr nb r b pick d w e s xs c t', env_ok E ->
  let a := mk (trace_length p) in playable a nb r b e d w -> well_formed a s ->
  verify E fuel mk opts p = Ok true -> step_1 E fuel a p d tr_new = Ok (c, t') -> length xs = kr -> c_rap E a c = pick xs ->
  let t := tape_of a xs c in
  proof_plays a kr nb r s b d w t p ->
  truthful p c (r + b) (d_coset_offset d) w (play_columns kr s t) (play_even a kr nb s t) (play_odd a kr nb s t) (play_words a kr nb r s t) ->
  length t = tape_length a kr nb r /\ ~ In (nth (at_point a kr nb) t 0) (lde_roots_of_unity_coset d) /\
  length (c_iotas E a c) = fri_number_of_queries (a_options a) /\ (forall i, In i (c_iotas E a c) -> (i < 2 ^ (r + b))%nat) /\
  wins a kr nb r pick s d w t (c_iotas E a c).
Proof.
  intros E fuel mk opts p kr nb r b pick d w e s xs c t' HE a [A P Hd Hw Hpoly Hex Hb He] Hs Hv Hc Hx Hrap t (P1 & P2 & P3 & P4 & P5) Htr.
  destruct (step_1_shape fuel a p d _ c t' Hc) as (Scl & Sck & Stl & bcs & Sbc & Sbl).
  destruct (step_1_facts HE _ _ _ _ _ _ _ Hc) as (Hzl & _ & (Hil & _) & (Hout & _)).
  destruct (Hs (firstn (at_point a kr nb + 1) t)) as [Hs1 Hs2].
  destruct (C72_accepted_queries_consistent E fuel mk opts p r b _ d c t' w (play_frame a kr nb s t) (play_columns kr s t) (play_even a kr nb s t) (play_odd a kr nb s t)
    (play_words a kr nb r s t) HE A Hv Hd Hc Hw P1 Hs2) as (H2 & Hq); [unfold play_words; now rewrite map_length, seq_length|exact P5|exact Htr|].
  assert (Hzr : length (c_zetas E a c) = r).
  { rewrite Hzl, P5. transitivity (length (play_words a kr nb r s t)); [|unfold play_words; now rewrite map_length, seq_length].
    generalize (play_words a kr nb r s t). clear. generalize (r + b)%nat (d_coset_offset d) w. intros m h w' l. revert m h w'.
    induction l as [|f fs IH]; intros; cbn [layer_roots length]; [reflexivity|]. now rewrite IH. }
  destruct (Hb _ _ Sbc) as [Hbl _].
  pose proof (tape_of_challenges a kr nb r pick xs c Hx Hrap (eq_trans Sbl Hbl) Stl Scl Sck Hzr) as TC.
  pose proof (tape_of_length a kr nb r pick xs c Hx Hrap (eq_trans Sbl Hbl) Stl Scl Sck Hzr) as TL.
  split; [exact TL|]. split.
  { pose proof (f_equal (c_z E a) (TC [])) as Q. cbn [tape_challenges c_z] in Q. fold t in Q. rewrite Q. exact Hout. }
  split; [exact Hil|]. split; [intros i Hi; now apply Hq|]. unfold wins. fold t in TC. rewrite TC. split.
  - unfold step_2 in *. cbn [c_rap c_z c_boundary_coeffs c_transition_coeffs]. rewrite <- P1, <- P2, <- P3. exact H2.
  - intros i Hi. destruct (Hq i Hi) as [_ [F1 F2]]. split; cbn [c_zetas].
    + unfold play_proof at 1. cbn [fri_last_value]. rewrite <- P4. exact F1.
    + destruct (play_words a kr nb r s t) as [|f fs]; [exact I|]. rewrite F2. apply deep_ext; try reflexivity; try assumption. now rewrite P1.
Qed.
Print Assumptions C77_accepted_proofs_win.
