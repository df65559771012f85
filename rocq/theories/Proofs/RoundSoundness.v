(** From one accepted run to polynomials that pass the out-of-domain check. *)
From Coq Require Import List Arith NArith Bool Lia.
From Verif.Base Require Import Outcome Bytes Field Poly.
From Verif.Model Require Import Codec Trace Merkle Air Transcript Domain Verifier.
From Verif.Spec Require Import AirSpec CairoColumns ProvingSpec VerifierSpec LowDegree FriTree OodSpec StarkTree Proximity Rounds.
From Verif.Proofs Require Import OutcomeFacts FieldFacts PolyFacts FFTFacts MultisetFacts TraceFacts DomainFacts TranscriptFacts PolyAir HonestFacts VerifierFacts
  OodFacts LowDegreeFacts FriSoundness StarkSoundness LineFacts FriRound RoundFacts.
Import ListNotations.
Local Open Scope felt_scope.

Section Rounds.
Context {E : env} (HE : env_ok E).
Let HF : fft_ok E := e_fft_ok E HE.
Let HK : field_ok E := fft_field_ok E HF.
Add Field Kfield66 : (fld_th E HK).

Context {a : air E} {d : domain E} {r b k : nat} {g w : E}.
Local Notation h := (e_u64 E (coset_offset (a_options a))).
Context (A : admissible a r b k) (D : domain_shape d r b h g w).
Context (e : nat) (He : (3 * e + 2 ^ r <= 2 ^ (r + b))%nat).
Local Notation width := (trace_columns (a_context a)).
Local Notation n := (2 ^ r)%nat.
Local Notation pts := (points h w (2 ^ (r + b))).

Lemma pts_nodup : NoDup pts.
Proof using A D HE. apply (coset_nodup HK w h); [exact (ds_Wprim _ _ _ _ _ _ D)|exact (offset_nonzero HE A D)]. Qed.
Lemma pts_length : length pts = (2 ^ (r + b))%nat.
Proof using Type. exact (coset_length w h (2 ^ (r + b))). Qed.
Lemma room : (2 * e + (n + 1) <= length pts)%nat.
Proof using A He. rewrite pts_length. pose proof (wide A). lia. Qed.
Lemma pts_coset x : In x pts -> on_coset h w x.
Proof using Type. intro H. apply (coset_in w h) in H. destruct H as (i & _ & ->). now exists i. Qed.
Lemma outside z : ~ In z (lde_roots_of_unity_coset d) -> ~ on_coset h w z.
Proof using D HE.
  clear e He. intros H (i & ->). apply H. pose proof (ds_Wprim _ _ _ _ _ _ D) as HW. pose proof (Nat.pow_nonzero 2 (r + b) ltac:(lia)) as P.
  rewrite <- (prim_pow_mod HK w (2 ^ (r + b)) i) by (exact HW || lia). rewrite <- (lde_point HE D) by (now apply Nat.mod_upper_bound).
  apply nth_In. rewrite (ds_lde _ _ _ _ _ _ D). rewrite map_length, seq_length. now apply Nat.mod_upper_bound.
Qed.

(** ** Few points are exceptional *)
Theorem point_few rap cols even odd bco tco : few (stark_bound a n) (point_exception a d r e pts rap cols even odd bco tco).
Proof using A D HE He.
  intros l Hl HP. destruct (le_lt_dec (length l) (stark_bound a n)) as [?|L]; [assumption|exfalso].
  destruct l as [|z l]; [cbn in L; lia|].
  destruct (HP z (or_introl eq_refl)) as (ps & h1 & h2 & W & N & N1 & N2 & _ & No). apply No.
  exists (z :: l). split; [exact Hl|]. split; [exact L|]. intros y Hy.
  destruct (HP y Hy) as (qs & k1 & k2 & W' & N' & N1' & N2' & Pa & _). pose proof room as R.
  apply (passes_at_ext a d rap qs ps bco tco k1 k2 h1 h2); [exact (eq_trans W' (eq_sym W))| | | |exact Pa].
  - apply (near_polys_unique HE pts e (n + 1) cols); [exact pts_nodup|exact R|exact (eq_trans W' (eq_sym W))|exact N'|exact N].
  - apply (near_unique HE pts e (n + 1) even); [exact pts_nodup|exact R|exact N1'|exact N1].
  - apply (near_unique HE pts e (n + 1) odd); [exact pts_nodup|exact R|exact N2'|exact N2].
Qed.

(** ** Few coefficients of the DEEP composition are exceptional *)
Lemma hides_few u v : few (e + 1) (hides (fun x => x) pts e n u v).
Proof using A D HE He. apply (line_few HE); [apply nodup_id, pts_nodup|rewrite pts_length; exact He]. Qed.

Section Run.
Context (p : stark_proof E) (c : challenges E a) (rows : list (list E)) (cols : nat -> E -> E) (even odd : E -> E).
Context (Hfr : trace_ood_frame_evaluations p = mk_frame (concat rows) width) (Hrl : length rows = k)
        (Hrw : Forall (fun row => length row = width) rows).
Context (Hcl : length (c_trace_term_coeffs E a c) = width) (Hck : Forall (fun l => length l = k) (c_trace_term_coeffs E a c)).
Context (Hz : ~ on_coset h w (c_z E a c)).
Local Notation op := (opened width cols even odd).
Local Notation deep := (deep_word p c g rows op).

Lemma split_term col row x : (col < width)%nat -> (row < k)%nat ->
  deep x = deep_word p (with_trace_coeff col row 0 c) g rows op x +
    nth row (nth col (c_trace_term_coeffs E a c) []) 0 * ((cols col x - nth col (nth row rows []) 0) * finv (x - c_z E a c * fpow g row)).
Proof using All.
  intros Hc Hr. destruct (nth_error (c_trace_term_coeffs E a c) col) as [cl|] eqn:Ecl; [|apply nth_error_None in Ecl; lia].
  pose proof Hck as Hck'. rewrite Forall_forall in Hck'. pose proof (Hck' cl (nth_error_In _ _ Ecl)) as Hlk.
  destruct (nth_error cl row) as [old|] eqn:Eo; [|apply nth_error_None in Eo; lia].
  rewrite (nth_error_nth _ _ [] Ecl), (nth_error_nth _ _ 0 Eo). unfold deep_word.
  rewrite (deep_value_coeff HE p c g rows x (op x) col row 0 cl old Ecl Eo); [|rewrite Hfr; exact Hc|lia].
  rewrite opened_nth by exact Hc. ring.
Qed.
Lemma split_even x : deep x = deep_word p (with_gammas 0 (c_gamma_odd E a c) c) g rows op x +
    c_gamma_even E a c * ((even x - composition_poly_even_ood_evaluation p) * finv (x - c_z E a c * c_z E a c)).
Proof using All.
  pose proof (proj1 (deep_value_gammas HE p c g rows x (op x) (c_gamma_even E a c) 0 (c_gamma_odd E a c))) as H.
  change (deep_value p (with_gammas (c_gamma_even E a c) (c_gamma_odd E a c) c) g rows x (op x)) with (deep x) in H.
  change (deep_value p (with_gammas 0 (c_gamma_odd E a c) c) g rows x (op x)) with (deep_word p (with_gammas 0 (c_gamma_odd E a c) c) g rows op x) in H.
  set (U := deep_word p (with_gammas 0 (c_gamma_odd E a c) c) g rows op x) in *. transitivity (U + (deep x - U)); [ring|]. rewrite H. cbn [opened lde_composition_poly_even_evaluation]. ring.
Qed.
Lemma split_odd x : deep x = deep_word p (with_gammas (c_gamma_even E a c) 0 c) g rows op x +
    c_gamma_odd E a c * ((odd x - composition_poly_odd_ood_evaluation p) * finv (x - c_z E a c * c_z E a c)).
Proof using All.
  pose proof (proj2 (deep_value_gammas HE p c g rows x (op x) (c_gamma_odd E a c) 0 (c_gamma_even E a c))) as H.
  change (deep_value p (with_gammas (c_gamma_even E a c) (c_gamma_odd E a c) c) g rows x (op x)) with (deep x) in H.
  change (deep_value p (with_gammas (c_gamma_even E a c) 0 c) g rows x (op x)) with (deep_word p (with_gammas (c_gamma_even E a c) 0 c) g rows op x) in H.
  set (U := deep_word p (with_gammas (c_gamma_even E a c) 0 c) g rows op x) in *. transitivity (U + (deep x - U)); [ring|]. rewrite H. cbn [opened lde_composition_poly_odd_evaluation]. ring.
Qed.

(** The set on which the DEEP composition is a polynomial. *)
Context (S : list E) (HS : all_but e pts S) (HL : low_degree (fun x => In x S) deep n).

Lemma unhide u v gamma : (forall x, deep x = u x + gamma * v x) -> ~ hides (fun x => x) pts e n u v gamma -> fits (fun x => x) S v n.
Proof using All.
  intros Hs No. assert (NS : NoDup (map (fun x : E => x) S)) by (apply nodup_id, HS).
  destruct (fits_dec HE (fun x => x) S v n NS) as [Y|N]; [exact Y|]. exfalso. apply No. exists S. split; [exact HS|]. split; [|tauto].
  destruct HL as (q & Lq & Eq). exists q. split; [exact Lq|]. intros x Hx. rewrite <- Hs. now apply Eq.
Qed.
Lemma n_pos : (1 <= n)%nat. Proof using All. clear. pose proof (Nat.pow_nonzero 2 r). lia. Qed.

Lemma column_poly col row : (col < width)%nat -> (row < k)%nat ->
  ~ term_exception p c g rows r e pts cols even odd col row (nth row (nth col (c_trace_term_coeffs E a c) []) 0) ->
  exists q, (length q <= n + 1)%nat /\ peval q (c_z E a c * fpow g row) = nth col (nth row rows []) 0 /\ forall x, In x S -> cols col x = peval q x.
Proof using All.
  intros Hc Hr No. apply (quotient_fits HE S (cols col) _ _ n n_pos).
  - intros x Hx. apply (not_shifted HE D); [exact Hz|]. apply pts_coset, (proj1 (proj2 HS)), Hx.
  - eapply unhide; [|exact No]. intro x. now apply split_term.
Qed.
Lemma even_poly : ~ even_exception p c g rows r e pts cols even odd (c_gamma_even E a c) ->
  exists q, (length q <= n + 1)%nat /\ peval q (c_z E a c * c_z E a c) = composition_poly_even_ood_evaluation p /\ forall x, In x S -> even x = peval q x.
Proof using All.
  intros No. apply (quotient_fits HE S even _ _ n n_pos).
  - intros x Hx. apply (not_square HE A D). apply pts_coset, (proj1 (proj2 HS)), Hx.
  - eapply unhide; [|exact No]. exact split_even.
Qed.
Lemma odd_poly : ~ odd_exception p c g rows r e pts cols even odd (c_gamma_odd E a c) ->
  exists q, (length q <= n + 1)%nat /\ peval q (c_z E a c * c_z E a c) = composition_poly_odd_ood_evaluation p /\ forall x, In x S -> odd x = peval q x.
Proof using All.
  intros No. apply (quotient_fits HE S odd _ _ n n_pos).
  - intros x Hx. apply (not_square HE A D). apply pts_coset, (proj1 (proj2 HS)), Hx.
  - eapply unhide; [|exact No]. exact split_odd.
Qed.

Theorem run_passes :
  (forall col row, (col < width)%nat -> (row < k)%nat ->
     ~ term_exception p c g rows r e pts cols even odd col row (nth row (nth col (c_trace_term_coeffs E a c) []) 0)) ->
  ~ even_exception p c g rows r e pts cols even odd (c_gamma_even E a c) ->
  ~ odd_exception p c g rows r e pts cols even odd (c_gamma_odd E a c) ->
  step_2 E a p d c = Ok true ->
  exists polys h1 h2, length polys = width /\ near_polys pts e (n + 1) cols polys /\ near_poly pts e (n + 1) even h1 /\ near_poly pts e (n + 1) odd h2 /\
    passes_at a d (c_rap E a c) polys (c_boundary_coeffs E a c) (c_transition_coeffs E a c) h1 h2 (c_z E a c).
Proof using All.
  intros NT Ne No H2.
  destruct (list_choice (fun col (q : poly E) => (length q <= n + 1)%nat /\ peval q (c_z E a c * fpow g 0) = nth col (nth 0 rows []) 0 /\
     forall x, In x S -> cols col x = peval q x) [] width) as (polys & Hl & Hp).
  { intros col Hc. apply column_poly; [exact Hc|exact (ad_k _ _ _ _ A)|]. apply NT; [exact Hc|exact (ad_k _ _ _ _ A)]. }
  destruct (even_poly Ne) as (h1 & L1 & V1 & E1). destruct (odd_poly No) as (h2 & L2 & V2 & E2).
  assert (Near : near_polys pts e (n + 1) cols polys).
  { intros j Hj. destruct (Hp j ltac:(lia)) as (L & _ & Eq). split; [exact L|]. exists S. split; [exact HS|exact Eq]. }
  exists polys, h1, h2. split; [exact Hl|]. split; [exact Near|].
  split; [split; [exact L1|exists S; split; [exact HS|exact E1]]|]. split; [split; [exact L2|exists S; split; [exact HS|exact E2]]|].
  exists p, c. split; [exact H2|]. split; [|now repeat split].
  rewrite Hfr, (ds_root _ _ _ _ _ _ D). unfold shifted_frame. rewrite Hl. f_equal. f_equal.
  apply (rows_eq A); [exact Hl|exact Hrl|exact Hrw|]. intros col row Hc Hr.
  destruct (column_poly col row Hc Hr (NT col row Hc Hr)) as (q & Lq & Vq & Eq). rewrite <- Vq.
  apply (near_unique HE pts e (n + 1) (cols col)); [exact pts_nodup|exact room| |apply Near; lia].
  split; [exact Lq|]. exists S. split; [exact HS|exact Eq].
Qed.
End Run.

(** ** Enough consistent positions: the columns satisfy the constraints *)
Theorem run_satisfies (p : stark_proof E) (c : challenges E a) rows cols even odd words (good : list nat) bcs :
  (forall g, primitive_root r = Some g -> transition_is_polynomial a (2 ^ r + 1) g) ->
  (length (transition_exemptions (a_context a)) <= length (transition_degrees (a_context a)) <= num_transition_constraints (a_context a))%nat ->
  (forall rap bcs bc, a_boundary a rap = Ok bcs -> In bc bcs -> (bc_step bc < 2 ^ r)%nat /\ (bc_col bc < width)%nat) ->
  trace_ood_frame_evaluations p = mk_frame (concat rows) width -> length rows = k -> Forall (fun row => length row = width) rows ->
  length (c_trace_term_coeffs E a c) = width -> Forall (fun l => length l = k) (c_trace_term_coeffs E a c) ->
  length (c_transition_coeffs E a c) = num_transition_constraints (a_context a) ->
  a_boundary a (c_rap E a c) = Ok bcs -> length (c_boundary_coeffs E a c) = length bcs ->
  length (c_zetas E a c) = length words -> length words = r -> ~ on_coset h w (c_z E a c) ->
  step_2 E a p d c = Ok true -> unexceptional a d r b e w p c rows cols even odd words ->
  NoDup good -> (forall i, In i good -> (i < 2 ^ (r + b))%nat /\ consistent_at p c (trace_primitive_root d) rows cols even odd words (d_coset_offset d * fpow w i)) ->
  (2 ^ (r + b) <= length good + e)%nat ->
  exists polys, length polys = width /\ near_polys (points (d_coset_offset d) w (2 ^ (r + b))) e (2 ^ r + 1) cols polys /\
     trace_satisfies a (c_rap E a c) (domain_columns polys (trace_primitive_root d) (2 ^ r)) (2 ^ r).
Proof using A D HE He.
  intros Hpoly Hex Hbc Hfr Hrl Hrw Scl Sck Stl Sbc Sbl Hzz Hwl Hz H2 [UT UB UP UR UE UO UF] Gnd Gin Enough.
  pose proof (ds_offset _ _ _ _ _ _ D) as Ho. pose proof (ds_root _ _ _ _ _ _ D) as Hg. rewrite Ho, Hg in *.
  set (N := (2 ^ (r + b))%nat) in *. pose proof (ad_r _ _ _ _ A) as Hr1.
  destruct words as [|f words']; [cbn in Hwl; lia|]. set (words := f :: words') in *.
  set (S := map (fun i => h * fpow w i) good).
  assert (HS : all_but e (points h w N) S).
  { split; [|split].
    - unfold S. pose proof (coset_nodup HK w h N (ds_Wprim _ _ _ _ _ _ D) (offset_nonzero HE A D)) as HN. unfold coset in HN.
      assert (Inj : forall i j, (i < N)%nat -> (j < N)%nat -> h * fpow w i = h * fpow w j -> i = j).
      { intros i j Hi Hj Q. rewrite NoDup_nth with (d := 0) in HN. rewrite map_length, seq_length in HN. apply (HN i j Hi Hj).
        rewrite !(nth_indep _ 0 (h * fpow w 0)) by (rewrite map_length, seq_length; assumption).
        rewrite !(map_nth (fun i => h * fpow w i)), !seq_nth by assumption. exact Q. }
      assert (Gl : forall i, In i good -> (i < N)%nat) by (intros i Hi; now apply Gin). clear -Gnd Inj Gl. induction Gnd as [|i l Hi Hl IH]; [constructor|]. cbn [map].
      constructor; [|apply IH; intros; apply Gl; now right]. intro Hc. apply in_map_iff in Hc. destruct Hc as (j & Q & Hj).
      apply Inj in Q; [now subst|apply Gl; now right|apply Gl; now left].
    - intros x Hx. apply in_map_iff in Hx. destruct Hx as (i & <- & Hi). apply Gin in Hi. apply (coset_in w h). exists i. tauto.
    - pose proof (coset_length w h N) as LN. change (length (points h w N) = N) in LN. rewrite LN. unfold S. rewrite map_length. exact Enough. }
  assert (Cons : forall x, In x S -> consistent_at p c g rows cols even odd words x).
  { intros x Hx. apply in_map_iff in Hx. destruct Hx as (i & <- & Hi). now apply Gin in Hi. }
  assert (HL : low_degree (fun x => In x S) (deep_word p c g rows (opened (trace_columns (a_context a)) cols even odd)) (2 ^ r)).
  { destruct (fri_run HE words (r + b) e h w (c_zetas E a c) (fri_last_value p) S) as (q & Lq & Eq);
      [lia|exact Hzz|exact (offset_nonzero HE A D)|exact (ds_Wprim _ _ _ _ _ _ D)|rewrite Hwl; exact He|exact HS| |exact UF|].
    - intros x Hx. exact (proj1 (Cons x Hx)).
    - rewrite Hwl in Lq. exists q. split; [exact Lq|]. intros x Hx. rewrite <- (Eq x Hx). symmetry. exact (proj2 (Cons x Hx)). }
  destruct (run_passes p c rows cols even odd Hfr Hrl Hrw Scl Sck Hz S HS HL) as (polys & h1 & h2 & Pl & Pn & Pe & Po & Pp);
    [intros col row Hcol Hrow; apply UR; [exact Hcol|now rewrite Hrl]|exact UE|exact UO|exact H2|].
  exists polys. split; [exact Pl|]. split; [exact Pn|].
  assert (NN : forall Q : Prop, (passes_often a d (c_rap E a c) polys (c_boundary_coeffs E a c) (c_transition_coeffs E a c) h1 h2 (stark_bound a (2 ^ r)) -> ~ ~ Q) -> ~ ~ Q).
  { intros Q HQ Hn. apply UP. exists polys, h1, h2. do 5 (split; [assumption|]). intro O. exact (HQ O Hn). }
  assert (Stable : forall x y : E, ~ ~ (x = y) -> x = y) by (intros x y Hn; destruct (feq_dec HK x y) as [Q|Q]; [exact Q|contradiction]).
  constructor.
  - intros bcs' bc Hb Hin. rewrite Sbc in Hb. apply ok_inj in Hb. subst bcs'. destruct (Hbc _ bcs bc Sbc Hin) as [B1 B2]. split; [exact B1|].
    split; [unfold domain_columns; rewrite map_length, Pl; exact B2|]. apply Stable. apply NN. intros O Hn.
    destruct (In_nth_error _ _ Hin) as [j Hj]. apply (UB bcs j bc Sbc Hj). exists polys, h1, h2. rewrite Hg.
    split; [exact Pl|]. split; [exact Pn|]. split; [apply Pe|]. split; [apply Po|]. split; [|exact Hn].
    rewrite with_beta_same; [exact O|]. rewrite Sbl. apply nth_error_Some. congruence.
  - intros i Hi. destruct (Hpoly g (ds_g _ _ _ _ _ _ D) (c_rap E a c) polys Pl (near_forall _ _ _ _ _ Pn)) as (cs & Htrn & _).
    eexists. split; [rewrite (domain_columns_frame HE D polys i Hi); apply Htrn|].
    intros j ex Hexj Hie. apply Stable. apply NN. intros O Hn.
    assert (Hj : (j < length (transition_exemptions (a_context a)))%nat) by (apply nth_error_Some; congruence).
    apply (UT j ltac:(lia)). exists polys, h1, h2. rewrite Hg.
    split; [exact Pl|]. split; [exact Pn|]. split; [apply Pe|]. split; [apply Po|]. split.
    + rewrite with_beta_same; [exact O|]. rewrite Stl. lia.
    + intro Hold. apply Hn. apply (Hold i ex _ Hie Hexj). rewrite (domain_columns_frame HE D polys i Hi). apply Htrn.
Qed.
End Rounds.
