(** C71, C72: one accepted run, unless a challenge is exceptional or the queries are lucky, comes from a satisfying trace. *)
From Coq Require Import List Arith Lia Bool NArith ZArith.
From Verif.Base Require Import Outcome Bytes Field Poly Zp.
From Verif.Model Require Import Codec Trace Merkle Air Transcript Domain Fri Prover Verifier ExampleAirs.
From Verif.Spec Require Import AirSpec CairoColumns ProvingSpec VerifierSpec LowDegree FriTree OodSpec StarkTree Proximity Rounds ExampleSpec.
From Verif.Proofs Require Import OutcomeFacts FieldFacts PolyFacts FFTFacts MultisetFacts TraceFacts DomainFacts VerifierFacts OodFacts LowDegreeFacts FriSoundness StarkSoundness
  FriComplete LineFacts FriRound RoundFacts RoundSoundness.
From Verif.Proofs Require Import ExampleFacts.
From Verif.Examples Require Import Toy.
From Verif.Properties Require Import ExampleProperties StarkProperties OodProperties LowDegreeProperties.
Import ListNotations.
Local Open Scope felt_scope.

(** ** C71: proximity survives random combination and folding *)

(** Of two words that are not both polynomials where their combination is one, at all but [e] of the points, only [e + 1]
    coefficients can be the cause. *)
Theorem C71_few_coefficients_hide :
  forall (E : env) (pt : E -> E) (D : list E) e d u v, env_ok E -> NoDup (map pt D) -> (3 * e + d <= length D)%nat ->
    few (e + 1) (hides pt D e d u v).
Proof. intros E pt D e d u v HE. exact (line_few HE pt D e d u v). Qed.
Print Assumptions C71_few_coefficients_hide.

(** In every round of FRI the word determines few exceptional challenges. *)
Theorem C71_few_exceptional_foldings :
  forall (E : env) m e k (h w : E) i f, env_ok E -> (k <= m)%nat -> (i < k)%nat -> h <> 0 -> is_prim w (2 ^ m) -> (3 * e + 2 ^ k <= 2 ^ m)%nat ->
    few (e / 2 ^ (i + 1) + 1) (round_exception m e k h w i f).
Proof. intros E m e k h w i f HE. exact (round_few HE m e k h w i f). Qed.
Print Assumptions C71_few_exceptional_foldings.

(** One run of FRI, with any words whatsoever: if the verifier's checks can be answered at all but [e] of the positions and no
    challenge is exceptional, the first word is, at these positions, a polynomial with as many coefficients as the rounds allow. *)
Theorem C71_fri_run :
  forall (E : env) m e (h w : E) f fs zetas last positions, env_ok E ->
    (length (f :: fs) <= m)%nat -> length zetas = length (f :: fs) -> h <> 0 -> is_prim w (2 ^ m) -> (3 * e + 2 ^ length (f :: fs) <= 2 ^ m)%nat ->
    NoDup positions -> (2 ^ m <= length positions + e)%nat ->
    (forall iota, In iota positions -> (iota < 2 ^ m)%nat /\ exists q, answers m h w (f :: fs) zetas last iota q) ->
    ~ fri_exception m e h w (f :: fs) zetas ->
    exists poly, (length poly <= 2 ^ length (f :: fs))%nat /\ forall iota, In iota positions -> f (h * fpow w iota) = peval poly (h * fpow w iota).
Proof.
  intros E m e h w f fs zetas last positions HE Hm Hz Hh Hw Hn Hnd Hc Ha Hx. pose proof (fft_field_ok _ (e_fft_ok E HE)) as HK.
  destruct (fri_run HE (f :: fs) m e h w zetas last (map (fun i => h * fpow w i) positions) Hm Hz Hh Hw Hn) as (q & Lq & Eq); [| |exact Hx|].
  - split; [|split].
    + assert (G : forall l, NoDup l -> (forall i, In i l -> (i < 2 ^ m)%nat) -> NoDup (map (fun i => h * fpow w i) l)).
      { induction l as [|i l IH]; intros H1 H2; cbn [map]; constructor; inversion H1; subst.
        - rewrite in_map_iff. intros (j & Ej & Hj). apply (mul_cancel_l HK) in Ej; [|exact Hh].
          apply (prim_inj HK w (2 ^ m)) in Ej; [subst; contradiction|exact Hw|apply H2; now right|apply H2; now left].
        - apply IH; [assumption|]. intros. apply H2. now right. }
      apply G; [exact Hnd|]. intros i Hi. now apply Ha.
    + intros x Hxx. apply in_map_iff in Hxx. destruct Hxx as (i & <- & Hi). apply (coset_in w h). exists i. split; [now apply Ha|reflexivity].
    + pose proof (coset_length w h (2 ^ m)) as L. change (length (points h w (2 ^ m)) = (2 ^ m)%nat) in L. rewrite L, map_length. exact Hc.
  - intros x Hxx. apply in_map_iff in Hxx. destruct Hxx as (i & <- & Hi). destruct (Ha i Hi) as (_ & q & Hq).
    exact (answers_fold HE (f :: fs) m h w zetas last i q Hm Hz Hw Hq).
  - exists q. split; [exact Lq|]. intros i Hi. apply Eq. now apply (in_map (fun i => h * fpow w i)).
Qed.
Print Assumptions C71_fri_run.

(** ** C72: the whole protocol *)

Section Counts.
Context {E : env} (HE : env_ok E) (a : air E) (r b k : nat) (d : domain E) (w : E) (e : nat).
Context (A : admissible a r b k) (P : proving_ok a r b) (Hd : domain_new a = Ok d) (Hw : primitive_root (r + b) = Some w).
Context (Hpoly : forall g, primitive_root r = Some g -> transition_is_polynomial a (2 ^ r + 1) g).
Context (He : (3 * e + 2 ^ r <= 2 ^ (r + b))%nat).
Local Notation pts := (points (d_coset_offset d) w (2 ^ (r + b))).

Lemma shape : exists g, domain_shape d r b (e_u64 E (coset_offset (a_options a))) g w.
Proof using A HE Hd Hw.
  destruct (domain_new_shape HE a d r b Hd (ad_n _ _ _ _ A) (ad_blowup _ _ _ _ A) (ad_r _ _ _ _ A)) as (g & W & D).
  assert (w = W) by (pose proof (ds_W _ _ _ _ _ _ D); congruence). subst W. eauto.
Qed.

Lemma transition_few rap cols bco tco j : (j < length tco)%nat -> (j < length (transition_degrees (a_context a)))%nat ->
  few 1 (transition_exception a d r e pts rap cols bco tco j).
Proof using All.
  intros Hj Hjd. destruct shape as (g & D). rewrite (ds_offset _ _ _ _ _ _ D). apply few_one. intros beta beta' H H'.
  destruct H as (ps & h1 & h2 & W1 & N1 & L1 & L2 & O1 & No). destruct H' as (qs & k1 & k2 & W2 & N2 & L3 & L4 & O2 & _).
  destruct (felt_eq_dec E HE beta beta') as [Q|Q]; [exact Q|exfalso]. apply No.
  apply (C59_transition_constraint_holds E a r b k d rap ps (2 ^ r + 1) (2 ^ r + 1)%nat j beta beta' HE A P Hd ltac:(lia) Hpoly W1
    (near_forall _ _ _ _ _ N1) Hjd Q).
  exists bco, tco, h1, h2, k1, k2. do 5 (split; [assumption|]). split; [exact O1|].
  apply (passes_often_ext a d rap qs ps); [exact (eq_trans W2 (eq_sym W1))| |exact O2].
  apply (near_polys_unique HE (points (e_u64 E (coset_offset (a_options a))) w (2 ^ (r + b))) e (2 ^ r + 1) cols);
    [exact (pts_nodup HE A D)|exact (room A e He)|exact (eq_trans W2 (eq_sym W1))|exact N2|exact N1].
Qed.
Lemma boundary_few rap cols bco tco j bcs bc : (j < length bco)%nat -> a_boundary a rap = Ok bcs -> nth_error bcs j = Some bc -> (bc_step bc < 2 ^ r)%nat ->
  few 1 (boundary_exception a d r e pts rap cols bco tco j bc).
Proof using All.
  intros Hj Hb Hbc Hst. destruct shape as (g & D). rewrite (ds_offset _ _ _ _ _ _ D). apply few_one. intros beta beta' H H'.
  destruct H as (ps & h1 & h2 & W1 & N1 & L1 & L2 & O1 & No). destruct H' as (qs & k1 & k2 & W2 & N2 & L3 & L4 & O2 & _).
  destruct (felt_eq_dec E HE beta beta') as [Q|Q]; [exact Q|exfalso]. apply No.
  apply (C59_boundary_constraint_holds E a r b k d rap ps (2 ^ r + 1) (2 ^ r + 1)%nat j beta beta' bcs bc HE A P Hd ltac:(lia) Hpoly W1
    (near_forall _ _ _ _ _ N1) Hb Hbc Hst Q).
  exists bco, tco, h1, h2, k1, k2. do 5 (split; [assumption|]). split; [exact O1|].
  apply (passes_often_ext a d rap qs ps); [exact (eq_trans W2 (eq_sym W1))| |exact O2].
  apply (near_polys_unique HE (points (e_u64 E (coset_offset (a_options a))) w (2 ^ (r + b))) e (2 ^ r + 1) cols);
    [exact (pts_nodup HE A D)|exact (room A e He)|exact (eq_trans W2 (eq_sym W1))|exact N2|exact N1].
Qed.
End Counts.

(** The columns being fixed, at most one value of the second coefficient of a constraint is exceptional ... *)
Theorem C72_few_constraint_coefficients :
  forall (E : env) (a : air E) r b k d w e rap cols bco tco j,
  env_ok E -> admissible a r b k -> proving_ok a r b -> domain_new a = Ok d -> primitive_root (r + b) = Some w ->
  (forall g, primitive_root r = Some g -> transition_is_polynomial a (2 ^ r + 1) g) -> (3 * e + 2 ^ r <= 2 ^ (r + b))%nat ->
  let pts := points (d_coset_offset d) w (2 ^ (r + b)) in
  ((j < length tco)%nat -> (j < length (transition_degrees (a_context a)))%nat -> few 1 (transition_exception a d r e pts rap cols bco tco j)) /\
  (forall bcs bc, (j < length bco)%nat -> a_boundary a rap = Ok bcs -> nth_error bcs j = Some bc -> (bc_step bc < 2 ^ r)%nat ->
     few 1 (boundary_exception a d r e pts rap cols bco tco j bc)).
Proof.
  intros E a r b k d w e rap cols bco tco j HE A P Hd Hw Hpoly He pts. split.
  - exact (transition_few HE a r b k d w e A P Hd Hw Hpoly He rap cols bco tco j).
  - intros bcs bc. exact (boundary_few HE a r b k d w e A P Hd Hw Hpoly He rap cols bco tco j bcs bc).
Qed.
Print Assumptions C72_few_constraint_coefficients.

(** ... the halves and all coefficients being fixed too, so are at most [stark_bound] points ... *)
Theorem C72_few_points :
  forall (E : env) (a : air E) r b k d w e rap cols even odd bco tco,
  env_ok E -> admissible a r b k -> domain_new a = Ok d -> primitive_root (r + b) = Some w -> (3 * e + 2 ^ r <= 2 ^ (r + b))%nat ->
  few (stark_bound a (2 ^ r)) (point_exception a d r e (points (d_coset_offset d) w (2 ^ (r + b))) rap cols even odd bco tco).
Proof.
  intros E a r b k d w e rap cols even odd bco tco HE A Hd Hw He. destruct (shape HE a r b k d w A Hd Hw) as (g & D).
  rewrite (ds_offset _ _ _ _ _ _ D). exact (point_few HE A D e He rap cols even odd bco tco).
Qed.
Print Assumptions C72_few_points.

(** ... and, the stated values being fixed too, at most [e + 1] values of each coefficient of the DEEP composition. *)
Theorem C72_few_terms :
  forall (E : env) (a : air E) r b k d w e p (c : challenges E a) rows cols even odd,
  env_ok E -> admissible a r b k -> domain_new a = Ok d -> primitive_root (r + b) = Some w -> (3 * e + 2 ^ r <= 2 ^ (r + b))%nat ->
  let pts := points (d_coset_offset d) w (2 ^ (r + b)) in let g := trace_primitive_root d in
  (forall col row, few (e + 1) (term_exception p c g rows r e pts cols even odd col row)) /\
  few (e + 1) (even_exception p c g rows r e pts cols even odd) /\ few (e + 1) (odd_exception p c g rows r e pts cols even odd).
Proof.
  intros E a r b k d w e p c rows cols even odd HE A Hd Hw He pts g. destruct (shape HE a r b k d w A Hd Hw) as (g' & D).
  unfold pts. rewrite (ds_offset _ _ _ _ _ _ D). split; [intros col row|split]; apply (hides_few HE A D e He).
Qed.
Print Assumptions C72_few_terms.

(** What an accepted, complete and truthful proof says about the words: the second step succeeds and the queried positions are consistent. *)
Theorem C72_accepted_queries_consistent :
  forall (E : env) fuel (mk : nat -> air E) opts (p : stark_proof E) r b k d c t w rows cols even odd words,
  env_ok E -> let a := mk (trace_length p) in admissible a r b k ->
  verify E fuel mk opts p = Ok true -> domain_new a = Ok d -> step_1 E fuel a p d tr_new = Ok (c, t) -> primitive_root (r + b) = Some w ->
  trace_ood_frame_evaluations p = mk_frame (concat rows) (trace_columns (a_context a)) ->
  Forall (fun row => length row = trace_columns (a_context a)) rows -> length words = r ->
  fri_layers_merkle_roots p = layer_roots (r + b) (d_coset_offset d) w words ->
  truthful p c (r + b) (d_coset_offset d) w cols even odd words ->
  step_2 E a p d c = Ok true /\
  forall iota, In iota (c_iotas E a c) -> (iota < 2 ^ (r + b))%nat /\
    consistent_at p c (trace_primitive_root d) rows cols even odd words (d_coset_offset d * fpow w iota).
Proof.
  intros E fuel mk opts p r b k d c t w rows cols even odd words HE a A Hv Hd Hc Hw Hfr Hrw Hwl Hroots Htr.
  destruct (shape HE a r b k d w A Hd Hw) as (g & D). pose proof (ds_offset _ _ _ _ _ _ D) as Ho. pose proof (ds_root _ _ _ _ _ _ D) as Hg. rewrite Ho, Hg in *.
  set (h := e_u64 E (coset_offset (a_options a))) in *. set (N := (2 ^ (r + b))%nat) in *. pose proof (ad_r _ _ _ _ A) as Hr1.
  destruct (step_1_facts HE _ _ _ _ _ _ _ Hc) as (_ & _ & (_ & Hiob) & _). rewrite (ds_lde_order _ _ _ _ _ _ D) in Hiob. fold N in Hiob.
  split.
  { unfold verify in Hv. fold a in Hv. destruct (_ <? _)%nat; [discriminate Hv|]. rewrite Hd in Hv. cbn [obind] in Hv. rewrite Hc in Hv. cbn [obind] in Hv.
    destruct (_ <? _)%N; [discriminate Hv|]. ok_as Hv b2 Hb2. destruct b2; [exact Hb2|discriminate Hv]. }
  intros iota Hi. pose proof (Hiob iota Hi) as Hlt. split; [exact Hlt|].
  destruct (In_nth_error _ _ Hi) as [j Hj]. destruct (Htr j iota Hj) as (q & o & Hqj & Hoj & Hs & Hcf & T1 & T2 & T3).
  destruct (accepted_query HE fuel mk opts p r b d c t w words j iota q (ad_n _ _ _ _ A) Hr1 (ad_blowup _ _ _ _ A) (ad_ex_le _ _ _ _ A) Hv Hd Hc Hw ltac:(lia)) as [F1 F2];
    [rewrite Ho; exact Hroots|exact Hj|exact Hqj|exact Hs|rewrite Ho; exact Hcf|].
  rewrite (lde_point HE D iota Hlt) in F1, F2. fold h in F1, F2. split; [exact F1|].
  destruct words as [|f words']; [exact I|]. destruct (F2 o f words' eq_refl Hoj) as (rows' & R1 & R2 & R3). rewrite R3, Hg.
  assert (Wpos : (0 < trace_columns (a_context a))%nat).
  { destruct (trace_columns (a_context a)) eqn:Z; [|lia]. rewrite Hfr in R1. discriminate R1. }
  assert (rows' = rows).
  { rewrite Hfr, (frame_num_rows rows _ Hrw Wpos) in R1. apply ok_inj in R1.
    apply (nth_ext _ _ [] []); [now symmetry|]. intros i Hii. specialize (R2 i Hii). rewrite Hfr, (frame_row rows _ i Hrw) in R2 by lia. now apply ok_inj in R2. }
  subst rows'. unfold deep_word. apply deep_value_same.
  - intros i Hii. rewrite Hfr in Hii. cbn [fr_num_columns fr_row_width] in Hii. rewrite T1 by exact Hii. now rewrite opened_nth by exact Hii.
  - exact T2.
  - exact T3.
Qed.
Print Assumptions C72_accepted_queries_consistent.

(** One accepted proof. Suppose it is complete, truthful about the words and free of hash coincidences, and no challenge is
    exceptional. Then the words of the columns are near polynomials whose values on the trace domain satisfy every constraint;
    or the positions at which the words are consistent, which are fixed before the queries, are fewer than [2^(r+b) - e], and
    all queries fell on them. *)
Theorem C72_accepted_run_satisfies :
  forall (E : env) fuel (mk : nat -> air E) opts (p : stark_proof E) r b k d c w e rows cols even odd words,
  env_ok E -> let a := mk (trace_length p) in
  admissible a r b k -> proving_ok a r b ->
  (forall g, primitive_root r = Some g -> transition_is_polynomial a (2 ^ r + 1) g) ->
  (length (transition_exemptions (a_context a)) <= length (transition_degrees (a_context a)) <= num_transition_constraints (a_context a))%nat ->
  (forall rap bcs bc, a_boundary a rap = Ok bcs -> In bc bcs -> (bc_step bc < 2 ^ r)%nat /\ (bc_col bc < trace_columns (a_context a))%nat) ->
  (3 * e + 2 ^ r <= 2 ^ (r + b))%nat -> accepted_run fuel mk opts p r b k e d c w rows cols even odd words ->
  (exists polys, length polys = trace_columns (a_context a) /\
     near_polys (points (d_coset_offset d) w (2 ^ (r + b))) e (2 ^ r + 1) cols polys /\
     trace_satisfies a (c_rap E a c) (domain_columns polys (trace_primitive_root d) (2 ^ r)) (2 ^ r)) \/
  lucky_run d r b e w p c rows cols even odd words.
Proof.
  intros E fuel mk opts p r b k d c w e rows cols even odd words HE a A P Hpoly Hex Hbc He [Hv Hd (t & Hc) Hw Hfr Hrl Hrw Hwl Hroots Htr U].
  fold a in Hd, Hc, Hfr, Hrw, U. unfold lucky_run. pose proof (fft_field_ok _ (e_fft_ok E HE)) as HK.
  destruct (shape HE a r b k d w A Hd Hw) as (g & D). pose proof U as U0. destruct U as [UT UB UP UR UE UO UF].
  pose proof (ds_offset _ _ _ _ _ _ D) as Ho. pose proof (ds_root _ _ _ _ _ _ D) as Hg. rewrite Ho, Hg in *.
  set (h := e_u64 E (coset_offset (a_options a))) in *. set (N := (2 ^ (r + b))%nat) in *. set (pts := points h w N) in *.
  destruct (step_1_shape fuel a p d _ c t Hc) as (Scl & Sck & Stl & bcs & Sbc & Sbl). rewrite (ad_offsets _ _ _ _ A), seq_length in Sck.
  destruct (step_1_facts HE _ _ _ _ _ _ _ Hc) as (Hzl & _ & (_ & Hiob) & (Hout & _)). rewrite (ds_lde_order _ _ _ _ _ _ D) in Hiob. fold N in Hiob.
  destruct (C72_accepted_queries_consistent E fuel mk opts p r b k d c t w rows cols even odd words HE A Hv Hd Hc Hw Hfr Hrw Hwl) as (H2 & Hcons);
    [rewrite Ho; exact Hroots|rewrite Ho; exact Htr|].
  assert (Hzz : length (c_zetas E a c) = length words).
  { rewrite Hzl, Hroots. clear. generalize (r + b)%nat h w. induction words as [|f fs IH]; intros; cbn [layer_roots length]; [reflexivity|]. now rewrite IH. }
  pose proof (ad_r _ _ _ _ A) as Hr1.
  set (good := filter (fun i => if consistent_dec HE p c g rows cols even odd words (h * fpow w i) then true else false) (seq 0 N)).
  assert (Gin : forall i, In i good <-> (i < N)%nat /\ consistent_at p c g rows cols even odd words (h * fpow w i)).
  { intro i. unfold good. rewrite filter_In, in_seq. destruct (consistent_dec HE p c g rows cols even odd words (h * fpow w i)) as [Q|Q]; split; intros [H1 H3];
      try discriminate; try contradiction; (split; [lia|]); assumption || reflexivity. }
  assert (Gnd : NoDup good) by (apply NoDup_filter, seq_NoDup).
  assert (Hq : forall iota, In iota (c_iotas E a c) -> In iota good).
  { intros iota Hi. apply Gin. rewrite <- Ho, <- Hg. exact (Hcons iota Hi). }
  destruct (le_lt_dec N (length good + e)) as [Enough|Less]; [left|right; exists good; split; [exact Gnd|]; split; [exact Less|]; split; [exact Gin|exact Hq]].
  (* enough consistent positions *)
  replace h with (d_coset_offset d) in Gin by exact Ho. rewrite <- Hg in Gin.
  destruct (run_satisfies HE A D e He p c rows cols even odd words good bcs) as (polys & Pl & Pn & Ps); try assumption.
  - exact (outside HE D _ Hout).
  - intros i Hi. now apply Gin.
  - exists polys. split; [exact Pl|]. rewrite Ho in Pn. rewrite Hg in Ps. split; [exact Pn|exact Ps].
Qed.
Print Assumptions C72_accepted_run_satisfies.

(** How many query vectors are that lucky. *)
Theorem C72_lucky_queries :
  forall N q e (lucky : list nat) (vectors : list (list nat)), (length lucky + e < N)%nat -> NoDup vectors ->
    (forall v, In v vectors -> length v = q /\ forall i, In i v -> In i lucky) ->
    (length vectors <= (N - e - 1) ^ q)%nat.
Proof.
  intros N q e lucky vecs Hn Hnd Hv. transitivity (length lucky ^ q)%nat.
  - rewrite <- vectors_length. apply NoDup_incl_length; [exact Hnd|]. intros v Hi. destruct (Hv v Hi) as [<- Hall]. now apply vectors_in.
  - apply Nat.pow_le_mono_l. lia.
Qed.
Print Assumptions C72_lucky_queries.

(** The exceptions are no accusation of the honest: with polynomials that satisfy the constraints, halves that pass the
    out-of-domain check, true values in the frame and words of FRI that are polynomials, no challenge is exceptional. *)
Theorem C72_honest_run_unexceptional :
  forall (E : env) (a : air E) r b k d w e (p : stark_proof E) (c : challenges E a) rows polys h1 h2 words,
  env_ok E -> admissible a r b k -> domain_new a = Ok d -> primitive_root (r + b) = Some w -> (3 * e + 2 ^ r <= 2 ^ (r + b))%nat ->
  length polys = trace_columns (a_context a) -> Forall (fun q : poly E => (length q <= 2 ^ r + 1)%nat) polys ->
  (length h1 <= 2 ^ r + 1)%nat -> (length h2 <= 2 ^ r + 1)%nat ->
  trace_satisfies a (c_rap E a c) (domain_columns polys (trace_primitive_root d) (2 ^ r)) (2 ^ r) ->
  passes_often a d (c_rap E a c) polys (c_boundary_coeffs E a c) (c_transition_coeffs E a c) h1 h2 (stark_bound a (2 ^ r)) ->
  ~ In (c_z E a c) (lde_roots_of_unity_coset d) ->
  (forall col row, (col < trace_columns (a_context a))%nat -> (row < length rows)%nat ->
     nth col (nth row rows []) 0 = peval (nth col polys []) (c_z E a c * fpow (trace_primitive_root d) row)) ->
  composition_poly_even_ood_evaluation p = peval h1 (c_z E a c * c_z E a c) ->
  composition_poly_odd_ood_evaluation p = peval h2 (c_z E a c * c_z E a c) ->
  (forall i f, nth_error words i = Some f -> low_degree (fun _ => True) f (2 ^ (length words - i))) ->
  unexceptional a d r b e w p c rows (fun j => peval (nth j polys [])) (peval h1) (peval h2) words.
Proof.
  intros E a r b k d w e p c rows polys h1 h2 words HE A Hd Hw He Pl Pf L1 L2 Hs Ho Hz Hv V1 V2 Hwords.
  pose proof (fft_field_ok _ (e_fft_ok E HE)) as HK. destruct (shape HE a r b k d w A Hd Hw) as (g & D).
  pose proof (ds_offset _ _ _ _ _ _ D) as Hoff. pose proof (ds_root _ _ _ _ _ _ D) as Hg.
  set (pts := points (d_coset_offset d) w (2 ^ (r + b))).
  assert (Pd : NoDup pts) by (unfold pts; rewrite Hoff; exact (pts_nodup HE A D)).
  assert (Rm : (2 * e + (2 ^ r + 1) <= length pts)%nat) by (unfold pts; rewrite Hoff; exact (room A e He)).
  assert (Own : forall q : poly E, (length q <= 2 ^ r + 1)%nat -> near_poly pts e (2 ^ r + 1) (peval q) q).
  { intros q Lq. split; [exact Lq|]. exists pts. split; [|reflexivity]. split; [exact Pd|]. split; [apply incl_refl|lia]. }
  assert (Near : near_polys pts e (2 ^ r + 1) (fun j => peval (nth j polys [])) polys).
  { intros j Hj. apply Own. rewrite Forall_forall in Pf. apply Pf, nth_In, Hj. }
  assert (Same : forall ps, length ps = trace_columns (a_context a) -> near_polys pts e (2 ^ r + 1) (fun j => peval (nth j polys [])) ps ->
    forall j x, peval (nth j polys []) x = peval (nth j ps []) x).
  { intros ps Lp Np. apply (near_polys_unique HE pts e (2 ^ r + 1) (fun j => peval (nth j polys []))); [exact Pd|exact Rm|congruence|exact Near|exact Np]. }
  assert (Cols : forall ps, length ps = trace_columns (a_context a) -> near_polys pts e (2 ^ r + 1) (fun j => peval (nth j polys [])) ps ->
    domain_columns ps (trace_primitive_root d) (2 ^ r) = domain_columns polys (trace_primitive_root d) (2 ^ r)).
  { intros ps Lp Np. unfold domain_columns. set (F := fun q : poly E => map (fun i => peval q (fpow (trace_primitive_root d) i)) (seq 0 (2 ^ r))).
    apply (nth_ext _ _ (F []) (F [])); [rewrite !map_length; congruence|]. intros j _. rewrite !(map_nth F). unfold F.
    apply map_ext. intro i. symmetry. now apply Same. }
  assert (Coset : forall x, In x pts -> on_coset (e_u64 E (coset_offset (a_options a))) w x) by (unfold pts; rewrite Hoff; exact pts_coset).
  constructor.
  - intros j Hj (ps & k1 & k2 & Lp & Np & _ & _ & _ & No). apply No. fold pts in Np. rewrite (Cols ps Lp Np).
    intros i ex evals Hi Hex Hev. destruct Hs as [_ Ht]. destruct (Ht i ltac:(lia)) as (evals' & He1 & He2). rewrite Hev in He1. apply ok_inj in He1. subst evals'.
    exact (He2 j ex Hex Hi).
  - intros bcs j bc Hb Hbc (ps & k1 & k2 & Lp & Np & _ & _ & _ & No). apply No. fold pts in Np. rewrite (Cols ps Lp Np).
    destruct Hs as [Hbd _]. apply (Hbd bcs bc Hb). exact (nth_error_In _ _ Hbc).
  - intros (ps & k1 & k2 & Lp & Np & N1 & N2 & _ & No). apply No. fold pts in Np, N1, N2. destruct Ho as (zs & O1 & O2 & O3).
    exists zs. split; [exact O1|]. split; [exact O2|]. intros z Hzs. apply (passes_at_ext a d _ polys ps _ _ h1 h2 k1 k2).
    + exact (eq_trans Pl (eq_sym Lp)).
    + now apply Same.
    + apply (near_unique HE pts e (2 ^ r + 1) (peval h1)); [exact Pd|exact Rm|now apply Own|exact N1].
    + apply (near_unique HE pts e (2 ^ r + 1) (peval h2)); [exact Pd|exact Rm|now apply Own|exact N2].
    + now apply O3.
  - intros col row Hc Hr. apply (never_hides HE). fold pts. rewrite Hv by assumption. apply (quotient_line HE).
    + rewrite Forall_forall in Pf. apply Pf, nth_In. lia.
    + intros x Hx. rewrite Hg. apply (not_shifted HE D); [exact (RoundSoundness.outside HE D _ Hz)|now apply Coset].
  - apply (never_hides HE). fold pts. rewrite V1. apply (quotient_line HE); [exact L1|]. intros x Hx. apply (not_square HE A D). now apply Coset.
  - apply (never_hides HE). fold pts. rewrite V2. apply (quotient_line HE); [exact L2|]. intros x Hx. apply (not_square HE A D). now apply Coset.
  - intros (i & f & zeta & Hf & _ & (S & _ & _ & No)). apply No. destruct (Hwords i f Hf) as (q & Lq & Eq). exists q. split; [|intros x _; now apply Eq].
    assert (Hi : (i < length words)%nat) by (apply nth_error_Some; congruence).
    replace (length words - i)%nat with (Datatypes.S (length words - 1 - i)) in Lq by lia. cbn [Nat.pow] in Lq. lia.
Qed.
Print Assumptions C72_honest_run_unexceptional.

(** ** Examples *)

(** The honest proof of the toy Fibonacci air with four rows, on eight points: one wrong position in each word is allowed. *)
Definition ok_or {A} (x : A) (o : outcome A) : A := match o with Ok y => y | _ => x end.
Lemma ok_or_ok {A} (x : A) o : is_ok o = true -> o = Ok (ok_or x o).
Proof. destruct o; [reflexivity|discriminate..]. Qed.
Definition no_proof : stark_proof toy := mk_stark_proof 4 [] (mk_frame [] 0) [] 0 0 [] 0 [] [] 0%N.
Definition honest_proof : stark_proof toy := ok_or no_proof (prove toy 20 query_air (toy_table [1; 1; 2; 3]%Z)).
Definition no_challenges : challenges toy ood_air := mk_challenges toy ood_air 0 [] [] [] 0 0 [] [] tt 0%N.
Definition honest_step := ok_or (no_challenges, tr_new) (step_1 toy 20 ood_air honest_proof ood_domain tr_new).
Definition honest_challenges : challenges toy ood_air := fst honest_step.
Definition honest_halves : poly toy * poly toy :=
  ok_or ([], []) (obind (round_1 toy ood_air (toy_table [1; 1; 2; 3]%Z) ood_domain tr_new) (fun x =>
    obind (round_2 toy ood_air ood_domain (fst x) (c_transition_coeffs toy ood_air honest_challenges) (c_boundary_coeffs toy ood_air honest_challenges))
      (fun y => Ok (r2_even toy y, r2_odd toy y)))).
Definition honest_rows : list (list toy) := map (fun x => [x]) (fr_data (trace_ood_frame_evaluations honest_proof)).
Definition honest_w : toy := match primitive_root (K := toy) 3 with Some w => w | None => f97 0 end.

Definition feqb_toy (x y : toy) : bool := Z.eqb (zval x) (zval y).
Lemma feqb_toy_true x y : feqb_toy x y = true -> x = y.
Proof. unfold feqb_toy. rewrite Z.eqb_eq. apply zp_eq. Qed.
Lemma honest_proof_ok : prove toy 20 query_air (toy_table [1; 1; 2; 3]%Z) = Ok honest_proof.
Proof. apply ok_or_ok. vm_compute. reflexivity. Qed.
Lemma honest_accepted : verify toy 20 query_air toy_opts honest_proof = Ok true.
Proof. vm_compute. reflexivity. Qed.
Lemma honest_step_is_ok : is_ok (step_1 toy 20 ood_air honest_proof ood_domain tr_new) = true.
Proof. vm_compute. reflexivity. Qed.
Lemma honest_step_ok : step_1 toy 20 ood_air honest_proof ood_domain tr_new = Ok (honest_challenges, snd honest_step).
Proof.
  rewrite (ok_or_ok (no_challenges, tr_new) _ honest_step_is_ok). fold honest_step. unfold honest_challenges. now rewrite <- surjective_pairing.
Qed.
Lemma honest_root : primitive_root (K := toy) 3 = Some honest_w.
Proof. unfold honest_w. destruct (primitive_root (K := toy) 3) as [w|] eqn:H; [reflexivity|discriminate H]. Qed.
Definition honest_passes (z : toy) : bool :=
  match step_2 toy ood_air
    (mk_stark_proof 4 [] (shifted_frame ood_polys (transition_offsets (a_context ood_air)) (trace_primitive_root ood_domain) z) []
       (peval (fst honest_halves) (z * z)) (peval (snd honest_halves) (z * z)) [] 0 [] [] 0%N) ood_domain
    (mk_challenges toy ood_air z (c_boundary_coeffs toy ood_air honest_challenges) (c_transition_coeffs toy ood_air honest_challenges) [] 0 0 [] [] tt 0%N)
  with Ok true => true | _ => false end.
Lemma honest_often : passes_often ood_air ood_domain tt ood_polys (c_boundary_coeffs toy ood_air honest_challenges) (c_transition_coeffs toy ood_air honest_challenges)
  (fst honest_halves) (snd honest_halves) (stark_bound ood_air (2 ^ 2)).
Proof.
  exists ood_points. split; [exact ood_points_distinct|]. split; [apply Nat.ltb_lt; vm_compute; reflexivity|].
  assert (H : forallb honest_passes ood_points = true) by (vm_compute; reflexivity).
  intros z Hz. rewrite forallb_forall in H. specialize (H z Hz). unfold honest_passes in H.
  match type of H with (match step_2 _ _ ?p _ ?c with _ => _ end) = true => exists p, c end.
  destruct (step_2 _ _ _ _ _) as [[]| |]; try discriminate. repeat (split; [reflexivity|]). reflexivity.
Qed.
Lemma honest_columns : domain_columns ood_polys (trace_primitive_root ood_domain) 4 = [fibs (f97 1 : toy) (f97 1 : toy) 4].
Proof.
  assert (G : forall (f : F97 -> Z) l l', (forall x y, f x = f y -> x = y) -> map f l = map f l' -> l = l').
  { intros f l. induction l as [|x l IH]; intros [|y l'] Hf He; cbn in *; try discriminate; [reflexivity|]. injection He as H1 H2. f_equal; [now apply Hf|now apply IH]. }
  assert (G2 : forall l l' : list (list F97), map (map (@zval 97)) l = map (map (@zval 97)) l' -> l = l').
  { induction l as [|x l IH]; intros [|y l'] He; cbn in *; try discriminate; [reflexivity|]. injection He as H1 H2. f_equal; [|now apply IH].
    apply (G (@zval 97)); [intros; now apply zp_eq|exact H1]. }
  apply G2. vm_compute. reflexivity.
Qed.
Lemma honest_satisfies : trace_satisfies ood_air tt (domain_columns ood_polys (trace_primitive_root ood_domain) (2 ^ 2)) (2 ^ 2).
Proof. change (2 ^ 2)%nat with 4%nat. rewrite honest_columns. exact (fibonacci_satisfies toy_ok (f97 1 : toy) (f97 1 : toy) toy_opts 4 ltac:(lia)). Qed.
Definition truthb (p : stark_proof toy) (c : challenges toy ood_air) (m : nat) (h w : toy) (q0 h1 h2 : poly toy) (words : list (toy -> toy)) : bool :=
  forallb (fun j => match nth_error (c_iotas toy ood_air c) j, nth_error (query_list p) j, nth_error (deep_poly_openings p) j with
    | Some iota, Some q, Some o =>
        let x := h * fpow w iota in
        answer_shapeb (length words) q && clash_freeb m h w words iota q &&
        feqb_toy (nth 0 (lde_trace_evaluations o) 0) (peval q0 x) &&
        feqb_toy (lde_composition_poly_even_evaluation o) (peval h1 x) && feqb_toy (lde_composition_poly_odd_evaluation o) (peval h2 x)
    | _, _, _ => false end) (seq 0 (length (c_iotas toy ood_air c))).
Lemma truthb_true p c m h w polys h1 h2 words : truthb p c m h w (nth 0 polys []) h1 h2 words = true ->
  truthful p c m h w (fun j => peval (nth j polys [])) (peval h1) (peval h2) words.
Proof.
  intros H j iota Hj. unfold truthb in H. rewrite forallb_forall in H.
  assert (Hl : (j < length (c_iotas toy ood_air c))%nat) by (apply nth_error_Some; congruence).
  specialize (H j (proj2 (in_seq _ _ _) (conj (Nat.le_0_l _) Hl))). rewrite Hj in H.
  destruct (nth_error (query_list p) j) as [q|]; [|discriminate]. destruct (nth_error (deep_poly_openings p) j) as [o|]; [|discriminate].
  rewrite !andb_true_iff in H. destruct H as [[[[H1 H2] H3] H4] H5]. exists q, o. split; [reflexivity|]. split; [reflexivity|].
  split; [exact (answer_shapeb_true _ _ H1)|]. split; [exact (clash_freeb_true _ _ _ _ _ _ H2)|]. split; [|split; now apply feqb_toy_true].
  intros [|i] Hi; [now apply feqb_toy_true|cbn in Hi; lia].
Qed.
Lemma honest_truthful : truthful honest_proof honest_challenges 3 (d_coset_offset ood_domain) honest_w
  (fun j => peval (nth j ood_polys [])) (peval (fst honest_halves)) (peval (snd honest_halves)) query_words.
Proof. apply truthb_true. vm_compute. reflexivity. Qed.
Lemma honest_words i f : nth_error query_words i = Some f -> low_degree (K := toy) (fun _ => True) f (2 ^ (length query_words - i)).
Proof.
  destruct i as [|[|i]]; intro H; [| |destruct i; discriminate]; injection H as <-.
  - exists (map f97 [80; 89; 74]%Z). split; [cbn; lia|reflexivity].
  - exists (map f97 [61; 74]%Z). split; [cbn; lia|reflexivity].
Qed.
Lemma honest_unexceptional : unexceptional ood_air ood_domain 2 1 1 honest_w honest_proof honest_challenges honest_rows
  (fun j => peval (nth j ood_polys [])) (peval (fst honest_halves)) (peval (snd honest_halves)) query_words.
Proof.
  apply (C72_honest_run_unexceptional toy ood_air 2 1 3 ood_domain honest_w 1 honest_proof honest_challenges honest_rows ood_polys).
  - exact toy_ok.
  - exact (fibonacci_admissible toy_ok (f97 1) (f97 1) toy_opts 2 1 toy_usable).
  - exact ood_domain_ok.
  - exact honest_root.
  - cbn. lia.
  - vm_compute. reflexivity.
  - eapply Forall_impl; [|exact ood_short]. cbn. intros. lia.
  - apply Nat.leb_le. vm_compute. reflexivity.
  - apply Nat.leb_le. vm_compute. reflexivity.
  - exact honest_satisfies.
  - exact honest_often.
  - intro H. apply (in_map (@zval 97)) in H. vm_compute in H. repeat destruct H as [H|H]; try discriminate H. exact H.
  - intros col row Hc Hr. assert (Lr : length honest_rows = 3%nat) by (vm_compute; reflexivity). rewrite Lr in Hr. cbn in Hc.
    destruct col as [|?]; [|lia]. destruct row as [|[|[|?]]]; [| | |lia]; apply feqb_toy_true; vm_compute; reflexivity.
  - apply feqb_toy_true. vm_compute. reflexivity.
  - apply feqb_toy_true. vm_compute. reflexivity.
  - exact honest_words.
Qed.
Lemma honest_layers : fri_layers_merkle_roots honest_proof = layer_roots (E := toy) 3 (d_coset_offset ood_domain) honest_w query_words.
Proof.
  assert (H : roots_eqb (fri_layers_merkle_roots honest_proof) (layer_roots (E := toy) 3 (d_coset_offset ood_domain) honest_w query_words) = true) by (vm_compute; reflexivity).
  revert H. generalize (fri_layers_merkle_roots honest_proof), (layer_roots (E := toy) 3 (d_coset_offset ood_domain) honest_w query_words).
  intros l l'. unfold roots_eqb. match goal with |- context [if ?x then _ else _] => destruct x end; [easy|discriminate].
Qed.
Lemma honest_frame : trace_ood_frame_evaluations honest_proof = mk_frame (concat honest_rows) 1.
Proof. vm_compute. reflexivity. Qed.
Lemma honest_proof_length : trace_length honest_proof = 4%nat.
Proof. vm_compute. reflexivity. Qed.
Example C72_example :
  admissible ood_air 2 1 3 /\ proving_ok ood_air 2 1 /\ (3 * 1 + 2 ^ 2 <= 2 ^ (2 + 1))%nat /\
  accepted_run 20 query_air toy_opts honest_proof 2 1 3 1 ood_domain honest_challenges honest_w honest_rows
    (fun j => peval (nth j ood_polys [])) (peval (fst honest_halves)) (peval (snd honest_halves)) query_words.
Proof.
  split; [exact (fibonacci_admissible toy_ok (f97 1) (f97 1) toy_opts 2 1 toy_usable)|].
  split. { constructor; [cbn; lia|intros e [<-|[]]; cbn; lia|discriminate|intros deg [<-|[]]; cbn; lia|cbn; lia|cbn; eauto]. }
  split; [cbn; lia|]. constructor.
  - exact honest_accepted.
  - exact ood_domain_ok.
  - exists (snd honest_step). exact honest_step_ok.
  - exact honest_root.
  - exact honest_frame.
  - vm_compute. reflexivity.
  - vm_compute. repeat constructor.
  - reflexivity.
  - exact honest_layers.
  - exact honest_truthful.
  - exact honest_unexceptional.
Qed.

(** C71: neither [x] nor [- x] is constant, and the coefficient 1 hides it. *)
Definition four_points : list toy := points one_h one_w 4.
Lemma one_w_root : primitive_root (K := toy) 2 = Some one_w.
Proof. vm_compute. f_equal. apply zp_eq. reflexivity. Qed.
Lemma one_w_prim : is_prim one_w (2 ^ 2).
Proof. exact (proj1 (primitive_root_prim (e_fft_ok toy toy_ok) 2 one_w ltac:(lia) one_w_root)). Qed.
Lemma four_distinct : NoDup four_points.
Proof.
  unfold four_points. change (NoDup (coset one_w one_h 4)). apply (coset_nodup (fft_field_ok toy (e_fft_ok toy toy_ok)) one_w one_h 4); [exact one_w_prim|].
  intro H. apply (f_equal (@zval 97)) in H. vm_compute in H. discriminate.
Qed.
Example C71_hiding_example :
  NoDup (map (fun x : toy => x) four_points) /\ (3 * 1 + 1 <= length four_points)%nat /\
  hides (fun x : toy => x) four_points 1 1 (fun x => x) (fun x => fopp x) (f97 1 : toy).
Proof.
  split; [rewrite map_id; exact four_distinct|]. split; [cbn; lia|]. exists four_points. split; [split; [exact four_distinct|split; [apply incl_refl|lia]]|].
  split.
  - exists []. split; [cbn; lia|]. intros x Hx. assert (H : forallb (fun x : toy => feqb_toy (x + f97 1 * fopp x) 0) four_points = true) by (vm_compute; reflexivity).
    rewrite forallb_forall in H. apply feqb_toy_true. exact (H x Hx).
  - intros [(q & Lq & Eq) _].
    pose proof (Eq (nth 0 four_points 0) ltac:(apply nth_In; cbn; lia)) as E0. pose proof (Eq (nth 1 four_points 0) ltac:(apply nth_In; cbn; lia)) as E1.
    assert (S : forall x y : toy, peval q x = peval q y).
    { intros x y. destruct q as [|c [|? ?]]; [reflexivity| |cbn in Lq; lia]. cbn [peval]. f_equal. apply feqb_toy_true. unfold feqb_toy. cbn. now rewrite !Z.mul_0_r. }
    rewrite (S _ (nth 1 four_points 0)), <- E1 in E0. apply (f_equal (@zval 97)) in E0. vm_compute in E0. discriminate.
Qed.

(** C71: the line [3 + 5 x], folded once with the challenge 1, is answered at all four positions, and the challenge is not exceptional. *)
Example C71_run_example :
  is_prim one_w (2 ^ 2) /\ (3 * 0 + 2 ^ 1 <= 2 ^ 2)%nat /\
  (forall iota, In iota (seq 0 4) -> (iota < 2 ^ 2)%nat /\ exists q, answers (E := toy) 2 one_h one_w [peval [f97 3; f97 5]] [f97 1] (f97 8) iota q) /\
  ~ fri_exception 2 0 one_h one_w [peval [f97 3; f97 5]] [f97 1 : toy].
Proof.
  split; [exact one_w_prim|]. split; [cbn; lia|]. split.
  - intros iota Hi. assert (H : forallb (one_check (f97 1) (f97 8)) (seq 0 4) = true) by (vm_compute; reflexivity). rewrite forallb_forall in H.
    split; [apply in_seq in Hi; cbn; lia|]. exists (one_answer iota). apply one_answers. exact (H iota Hi).
  - intros ([|i] & f & zeta & Hf & _ & (A & _ & _ & No)); [|destruct i; discriminate]. injection Hf as <-. apply No. exists [f97 3; f97 5].
    split; [cbn; lia|]. intros x _. reflexivity.
Qed.

(** Two queries on eight points, of which six are lucky: 36 of the 64 pairs at most. *)
Example C72_lucky_example :
  (length (seq 0 6) + 1 < 8)%nat /\ NoDup (list_prod (seq 0 6) (seq 0 6)) /\ length (list_prod (seq 0 6) (seq 0 6)) = ((8 - 1 - 1) ^ 2)%nat.
Proof.
  split; [cbn; lia|]. split; [|reflexivity].
  assert (H : forall l : list (nat * nat), (fix nd (l : list (nat * nat)) := match l with [] => true | x :: r => negb (existsb (fun y => (fst x =? fst y)%nat && (snd x =? snd y)%nat) r) && nd r end) l = true -> NoDup l).
  { induction l as [|x l IH]; intro H; constructor; apply andb_true_iff in H; destruct H as [H1 H2]; [|now apply IH].
    intro Hx. apply negb_true_iff in H1. assert (existsb (fun y => (fst x =? fst y)%nat && (snd x =? snd y)%nat) l = true); [|congruence].
    apply existsb_exists. exists x. split; [exact Hx|]. now rewrite !Nat.eqb_refl. }
  apply H. reflexivity.
Qed.
