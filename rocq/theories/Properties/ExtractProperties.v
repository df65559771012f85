(** C86: what a root binds, without any assumption on what it is the root of. *)
From Coq Require Import List Arith Lia Bool NArith ZArith.
From Verif.Base Require Import Outcome Bytes Field Poly Zp.
From Verif.Model Require Import Codec Trace Merkle Air Transcript Domain Options Fri Prover Verifier ExampleAirs.
From Verif.Spec Require Import AirSpec ProvingSpec VerifierSpec HashSpec LowDegree FriTree OodSpec StarkTree Proximity Rounds Openings Game Oracle ExampleSpec Extract.
From Verif.Proofs Require Import OutcomeFacts FieldFacts PolyFacts FFTFacts TraceFacts MerkleFacts BindingFacts DomainFacts ExampleFacts VerifierFacts LowDegreeFacts FriSoundness
  RoundFacts RoundSoundness CountFacts TapeFacts OpeningFacts HonestAux ExtractFacts.
From Verif.Examples Require Import Toy.
From Verif.Properties Require Import ExampleProperties RoundProperties GameProperties GameAirProperties OracleAirProperties OpeningProperties.
Import ListNotations.
Local Open Scope felt_scope.

(** Any number of words can be put behind one root: every position but 0 then opens to the values of all of them. *)
Theorem C86_one_root_many_words :
  forall (E : env) m (words : list (nat -> E)), exists root, forall f i, In f words -> (0 < i < 2 ^ m)%nat ->
    exists path, opens_to (E := E) path root i (e_leaf E (f i)).
Proof.
  intros E m words. exists (comb (e_node E) (comb_trees (e_node E) m (map (fun f i => e_leaf E (f i)) words)) []). intros f i Hf Hi.
  destruct (comb_opens (e_node E) m (map (fun f i => e_leaf E (f i)) words) [] i (fun i => e_leaf E (f i)) Hi) as (path & H).
  - apply in_map_iff. now exists f.
  - exists path. unfold path_verify in H. apply list_byte_eqb_spec in H. now symmetry.
Qed.
Print Assumptions C86_one_root_many_words.

(** So the first layer of an answer can be any two of the prepared values that fold into the last value. *)
Theorem C86_prepared_answers :
  forall (E : env) m (values : list E), (1 <= m)%nat -> exists root, forall iota (x zeta last ev esym : E), (0 < iota < 2 ^ m)%nat -> iota <> (2 ^ m / 2)%nat ->
    In ev values -> In esym values -> (ev + esym) * finv (1 + 1) + zeta * (ev - esym) * finv ((1 + 1) * fpow x 1) = last ->
    exists path psym, fri_query_consistent m [root] [zeta] last iota x (mk_fri_decommitment [psym] [esym] [path] [ev]).
Proof.
  intros E m values Hm. destruct (C86_one_root_many_words E m (map (fun v (_ : nat) => v) values)) as (root & H). exists root.
  intros iota x zeta last ev esym Hi Hh Hev Hes Q. assert (L : forall v, In v values -> In (fun _ : nat => v) (map (fun v (_ : nat) => v) values)) by (intros v Hv; apply in_map_iff; now exists v).
  assert (Hs : (0 < (iota + 2 ^ m / 2) mod 2 ^ m < 2 ^ m)%nat).
  { destruct m as [|m]; [lia|]. change (2 ^ S m)%nat with (2 * 2 ^ m)%nat in *. rewrite (Nat.mul_comm 2), Nat.div_mul in * by lia. pose proof (pow2_pos m) as P.
    split; [|apply Nat.mod_upper_bound; lia]. destruct (Nat.lt_ge_cases (iota + 2 ^ m) (2 ^ m * 2)) as [C|C].
    - rewrite Nat.mod_small by lia. lia.
    - replace (iota + 2 ^ m)%nat with (iota - 2 ^ m + 1 * (2 ^ m * 2))%nat by lia. rewrite Nat.mod_add by lia. rewrite Nat.mod_small by lia. lia. }
  destruct (H _ iota (L ev Hev) Hi) as (path & Hp). destruct (H _ _ (L esym Hes) Hs) as (psym & Hps). exists path, psym.
  intros k root' path' ev' psym' esym' zeta' R1 R2 R3 R4 R5 R6. destruct k as [|k]; [|destruct k; discriminate R1].
  cbn in R1, R2, R3, R4, R5, R6. injection R1 as <-. injection R2 as <-. injection R3 as <-. injection R4 as <-. injection R5 as <-. injection R6 as <-.
  rewrite Nat.sub_0_r. split; [exact Hp|]. split; [exact Hps|exact Q].
Qed.
Print Assumptions C86_prepared_answers.

(** The expected statement fails for every hash function: it is not a matter of collisions. *)
Theorem C86_binding_refuted :
  forall (E : env) (x y : E), e_leaf E x <> e_leaf E y ->
  ~ (forall root i p1 p2 (u v : E), opens_to (E := E) p1 root i (e_leaf E u) -> opens_to (E := E) p2 root i (e_leaf E v) -> e_leaf E u = e_leaf E v).
Proof.
  intros E x y N H. destruct (C86_one_root_many_words E 1 [fun _ => x; fun _ => y]) as (root & R).
  destruct (R (fun _ => x) 1%nat ltac:(now left) ltac:(cbn; lia)) as (p1 & O1). destruct (R (fun _ => y) 1%nat ltac:(right; now left) ltac:(cbn; lia)) as (p2 & O2).
  exact (N (H root 1%nat p1 p2 x y O1 O2)).
Qed.
Print Assumptions C86_binding_refuted.

(** Position 0 is the exception: two openings of it agree, or hashes coincide. *)
Theorem C86_position_zero_binds :
  forall (E : env) root p1 p2 (x y : E), opens_to (E := E) p1 root 0 (e_leaf E x) -> opens_to (E := E) p2 root 0 (e_leaf E y) ->
  let calls := path_calls (e_node E) p1 0 (e_leaf E x) ++ path_calls (e_node E) p2 0 (e_leaf E y) in
  e_leaf E x = e_leaf E y \/ node_clash (e_node E) calls \/ leaf_clash (e_node E) calls [e_leaf E x; e_leaf E y].
Proof.
  intros E root p1 p2 x y H1 H2 calls. unfold opens_to in H1, H2.
  destruct (Nat.le_ge_cases (length p1) (length p2)) as [L|L].
  - destruct (zero_agree (e_node E) p1 p2 _ _ L (eq_trans H1 (eq_sym H2))) as [Q|[Q|(z & Hz & Q)]]; [now left|right; left; exact Q|].
    right. right. exists z. split; [apply in_or_app; now right|]. destruct Q as [Q|[]]. now left.
  - destruct (zero_agree (e_node E) p2 p1 _ _ L (eq_trans H2 (eq_sym H1))) as [Q|[Q|(z & Hz & Q)]]; [left; now symmetry| |].
    + right. left. revert Q. apply clash_incl. intros z Hz. apply in_app_or in Hz. apply in_or_app. tauto.
    + right. right. exists z. split; [apply in_or_app; now left|]. destruct Q as [Q|[]]. right. now left.
Qed.
Print Assumptions C86_position_zero_binds.

(** Whoever knows the evaluated hashes knows the value that an opening of a given length shows, if none of them collide. *)
Theorem C86_length_binds :
  forall (E : env) (K : evaluations E) m root i path (x : E), collision_free K -> known_opening K m path i x -> opens_to (E := E) path root i (e_leaf E x) ->
  value_below K m root i = Some x.
Proof. intros E K m root i path x. apply known_value. Qed.
Print Assumptions C86_length_binds.

(** ** Acceptance, whatever the roots are roots of *)

Section Known.
Context {E : env} (HE : env_ok E).
Let HF : field_ok E := fft_field_ok E (e_fft_ok E HE).
Add Field Kfield81 : (fld_th E HF).

(** The parts of the proof that the verifier's answer depends on, and the words that say what they are. *)
Definition valued (p : stark_proof E) {a : air E} (c : challenges E a) (h w : E) (cols : nat -> E -> E) (even odd : E -> E) (words : list (E -> E)) : Prop :=
  forall j iota, nth_error (c_iotas E a c) j = Some iota ->
    exists q o, nth_error (query_list p) j = Some q /\ nth_error (deep_poly_openings p) j = Some o /\ answer_shape (length words) q /\ says h w words iota q /\
      (forall i, (i < trace_columns (a_context a))%nat -> nth i (lde_trace_evaluations o) 0 = cols i (h * fpow w iota)) /\
      lde_composition_poly_even_evaluation o = even (h * fpow w iota) /\ lde_composition_poly_odd_evaluation o = odd (h * fpow w iota).

Lemma accepted_parts fuel mk opts (p : stark_proof E) r b k d c t : let a := mk (trace_length p) in admissible a r b k ->
  verify E fuel mk opts p = Ok true -> domain_new a = Ok d -> step_1 E fuel a p d tr_new = Ok (c, t) ->
  accepted a opts p c r b (trace_primitive_root d) (lde_roots_of_unity_coset d).
Proof using HE.
  intros a A Hv Hd Hc.
  destruct (proj1 (verdict_exact HE fuel mk opts p r b true (ad_n _ _ _ _ A) (ad_r _ _ _ _ A) (ad_blowup _ _ _ _ A) (ad_ex_le _ _ _ _ A) Hv) eq_refl)
    as (d' & c' & t' & Hd' & Hc' & Acc).
  fold a in Hd', Hc', Acc. rewrite Hd in Hd'. apply ok_inj in Hd'. subst d'. rewrite Hc in Hc'. apply ok_inj in Hc'.
  pose proof (f_equal fst Hc') as Ec. cbn [fst] in Ec. now subst c'.
Qed.

Lemma valued_consistent fuel (mk : nat -> air E) opts (p : stark_proof E) r b k d c t w rows cols even odd words :
  let a := mk (trace_length p) in admissible a r b k ->
  verify E fuel mk opts p = Ok true -> domain_new a = Ok d -> step_1 E fuel a p d tr_new = Ok (c, t) -> primitive_root (r + b) = Some w ->
  trace_ood_frame_evaluations p = mk_frame (concat rows) (trace_columns (a_context a)) ->
  Forall (fun row => length row = trace_columns (a_context a)) rows -> length words = r -> length (fri_layers_merkle_roots p) = r ->
  valued p c (d_coset_offset d) w cols even odd words ->
  step_2 E a p d c = Ok true /\
  forall iota, In iota (c_iotas E a c) -> (iota < 2 ^ (r + b))%nat /\
    consistent_at p c (trace_primitive_root d) rows cols even odd words (d_coset_offset d * fpow w iota).
Proof using HE.
  intros a A Hv Hd Hc Hw Hfr Hrw Hwl Hroots Htr.
  destruct (shape HE a r b k d w A Hd Hw) as (g & D). pose proof (ds_offset _ _ _ _ _ _ D) as Ho. pose proof (ds_root _ _ _ _ _ _ D) as Hg.
  pose proof (accepted_parts fuel mk opts p r b k d c t A Hv Hd Hc) as Acc. rewrite Ho, Hg in *.
  set (h := e_u64 E (coset_offset (a_options a))) in *. set (N := (2 ^ (r + b))%nat) in *. pose proof (ad_r _ _ _ _ A) as Hr1.
  destruct (step_1_facts HE _ _ _ _ _ _ _ Hc) as (Hzl & _ & (_ & Hiob) & _). rewrite (ds_lde_order _ _ _ _ _ _ D) in Hiob. fold N in Hiob.
  split.
  { unfold verify in Hv. fold a in Hv. destruct (_ <? _)%nat; [discriminate Hv|]. rewrite Hd in Hv. cbn [obind] in Hv. rewrite Hc in Hv. cbn [obind] in Hv.
    destruct (_ <? _)%N; [discriminate Hv|]. ok_as Hv b2 Hb2. destruct b2; [exact Hb2|discriminate Hv]. }
  intros iota Hi. pose proof (Hiob iota Hi) as Hlt. split; [exact Hlt|].
  destruct (In_nth_error _ _ Hi) as [j Hj]. destruct (Htr j iota Hj) as (q & o & Hqj & Hoj & Hs & Hq & T1 & T2 & T3).
  pose proof (acc_fri _ _ _ _ _ _ _ _ Acc j iota q Hj Hqj) as F. rewrite (lde_point HE D iota Hlt) in F. fold h in F.
  split; [apply (says_fold HE words (r + b) h w (fri_layers_merkle_roots p) _ _ iota q); [exact (eq_trans Hroots (eq_sym Hwl))|exact (eq_trans Hzl (eq_trans Hroots (eq_sym Hwl)))|exact Hs|exact Hq|exact F]|].
  destruct words as [|f words']; [exact I|].
  destruct (acc_openings _ _ _ _ _ _ _ _ Acc j iota o Hj Hoj) as (_ & rows' & q' & Hq' & R1 & R2 & R3). rewrite Hqj in Hq'. injection Hq' as <-.
  rewrite (lde_point HE D iota Hlt) in R3. fold h in R3. destruct Hs as (_ & S2 & _). destruct (layers_evaluations q) as [|ev evs] eqn:Eq; [discriminate S2|].
  cbn [says] in Hq. rewrite Eq in Hq. destruct Hq as (Q1 & _). cbn [hd_error hd] in *. injection R3 as R3. rewrite <- Q1, R3.
  assert (Wpos : (0 < trace_columns (a_context a))%nat).
  { destruct (trace_columns (a_context a)) eqn:Z; [|lia]. rewrite Hfr in R1. discriminate R1. }
  assert (rows' = rows).
  { rewrite Hfr, (frame_num_rows rows _ Hrw Wpos) in R1. apply ok_inj in R1.
    apply (nth_ext _ _ [] []); [now symmetry|]. intros i Hii. specialize (R2 i Hii). rewrite Hfr, (frame_row rows _ i Hrw) in R2 by lia. now apply ok_inj in R2. }
  subst rows'. unfold deep_word. apply deep_value_same.
  - intros i Hii. rewrite Hfr in Hii. cbn [fr_num_columns fr_row_width] in Hii. rewrite T1 by exact Hii. now rewrite opened_nth by exact Hii.
  - exact T2.
  - exact T3.
Qed.

(** Acceptance and known evaluations give the values. *)
Lemma known_valued (K : evaluations E) fuel (mk : nat -> air E) opts (p : stark_proof E) r b k d c t w :
  let a := mk (trace_length p) in let wo := words_below K a (r + b) (d_coset_offset d) w in admissible a r b k ->
  verify E fuel mk opts p = Ok true -> domain_new a = Ok d -> step_1 E fuel a p d tr_new = Ok (c, t) -> primitive_root (r + b) = Some w ->
  length (fri_layers_merkle_roots p) = r -> collision_free K -> known_proof K p c (r + b) ->
  valued p c (d_coset_offset d) w (w_columns wo (nth 0 (lde_trace_merkle_roots p) []) (nth 1 (lde_trace_merkle_roots p) []))
    (w_even wo (composition_poly_root p)) (w_odd wo (composition_poly_root p)) (map (fun l => w_layer wo l (nth l (fri_layers_merkle_roots p) [])) (seq 0 r)).
Proof using HE.
  intros a wo A Hv Hd Hc Hw Hr HK0 Hkp j iota Hj. destruct (shape HE a r b k d w A Hd Hw) as (g & D). pose proof (ds_offset _ _ _ _ _ _ D) as Ho.
  pose proof (accepted_parts fuel mk opts p r b k d c t A Hv Hd Hc) as Acc.
  destruct (step_1_facts HE _ _ _ _ _ _ _ Hc) as (Hzl & _ & (_ & Hiob) & _). rewrite (ds_lde_order _ _ _ _ _ _ D) in Hiob.
  pose proof (Hiob iota (nth_error_In _ _ Hj)) as Hlt. pose proof (ds_Wprim _ _ _ _ _ _ D) as Hp.
  assert (Hh : d_coset_offset d <> 0).
  { rewrite Ho. intro Z. apply (ad_coset _ _ _ _ A 0 w 0%nat Hw). rewrite Z. ring. }
  destruct (Hkp j iota Hj) as (q & o & Hq & Hoj & Hs & Hka & Hcc & (C1 & C2 & C3 & C4) & Hha). exists q, o. split; [exact Hq|]. split; [exact Hoj|].
  assert (El : map (fun l => w_layer wo l (nth l (fri_layers_merkle_roots p) [])) (seq 0 r) = layer_words K (r + b) (d_coset_offset d) w (fri_layers_merkle_roots p)).
  { rewrite (layer_words_map HE K a). now rewrite Hr. }
  rewrite El, layer_words_length. split; [exact Hs|]. split; [|split].
  - apply (known_says HE K _ HK0 (r + b) _ w (c_zetas E a c) (fri_last_value p)); [lia|exact Hh|exact Hp|exact Hzl|exact Hs|exact Hka|].
    rewrite Ho, <- (lde_point HE D iota Hlt). exact (acc_fri _ _ _ _ _ _ _ _ Acc j iota q Hj Hq).
  - intros i Hi. fold a in Hi. unfold wo. cbn [words_below w_columns]. set (main := (trace_columns (a_context a) - a_n_aux a)%nat).
    assert (G : forall n path values, nth_error (lde_trace_merkle_proofs o) n = Some path -> nth_error (value_parts a (lde_trace_evaluations o)) n = Some values ->
      on_points [] (r + b) (d_coset_offset d) w (row_below K (r + b) (nth n (lde_trace_merkle_roots p) [])) (d_coset_offset d * fpow w iota) = values).
    { intros n path values Hn Hvn. apply (on_points_at HE); [exact Hh|exact Hp|intro i'; unfold row_below; now rewrite below_mod|].
      apply (known_row_value K (r + b) path); [exact HK0|exact (C4 n path values Hn Hvn)|].
      destruct (nth_error (lde_trace_merkle_roots p) n) as [root|] eqn:Er.
      - rewrite (nth_error_nth _ _ _ Er). exact (Hcc n root path values Er Hn Hvn).
      - apply nth_error_None in Er. assert (n < length (lde_trace_merkle_proofs o))%nat by (apply nth_error_Some; congruence). lia. }
    assert (P0 : exists path, nth_error (lde_trace_merkle_proofs o) 0 = Some path).
    { destruct (lde_trace_merkle_proofs o) as [|path ?]; [cbn in C3; destruct (_ =? _)%nat; lia|now exists path]. }
    destruct P0 as (path0 & P0). pose proof (G 0%nat path0 _ P0 eq_refl) as G0.
    destruct (Nat.ltb_spec i main) as [L|L]; [rewrite G0|].
    + fold main. symmetry. now apply HonestAux.nth_firstn_lt.
    + assert (P1 : exists path, nth_error (lde_trace_merkle_proofs o) 1 = Some path).
      { destruct (lde_trace_merkle_proofs o) as [|? [|path ?]]; [discriminate P0| |now exists path]. exfalso. cbn in C3. revert C2. fold a. destruct (Nat.eqb_spec (a_n_aux a) 0) as [Z|Z]; [|intro C5; pose proof (eq_trans C3 C5) as C6; discriminate C6].
        intros _. unfold main in L. rewrite Z, Nat.sub_0_r in L. exact (Nat.lt_irrefl _ (Nat.lt_le_trans _ _ _ Hi L)). }
      destruct P1 as (path1 & P1). rewrite (G 1%nat path1 _ P1 eq_refl). fold main. rewrite HonestAux.nth_skipn_add. f_equal. lia.
  - assert (G : on_points [] (r + b) (d_coset_offset d) w (row_below K (r + b) (composition_poly_root p)) (d_coset_offset d * fpow w iota) =
      [lde_composition_poly_even_evaluation o; lde_composition_poly_odd_evaluation o]).
    { apply (on_points_at HE); [exact Hh|exact Hp|intro i'; unfold row_below; now rewrite below_mod|].
      apply (known_row_value K (r + b) (lde_composition_poly_proof o)); [exact HK0|exact Hha|]. exact (proj1 (acc_openings _ _ _ _ _ _ _ _ Acc j iota o Hj Hoj)). }
    unfold wo. cbn [words_below w_even w_odd]. rewrite G. now split.
Qed.

Lemma valued_wins fuel (mk : nat -> air E) opts (p : stark_proof E) kr nb r b pick d w e s xs c t' :
  let a := mk (trace_length p) in playable a nb r b e d w -> well_formed a s ->
  verify E fuel mk opts p = Ok true -> step_1 E fuel a p d tr_new = Ok (c, t') -> length xs = kr -> c_rap E a c = pick xs ->
  let t := tape_of a xs c in
  trace_ood_frame_evaluations p = trace_ood_frame_evaluations (play_proof a kr nb s t) ->
  composition_poly_even_ood_evaluation p = composition_poly_even_ood_evaluation (play_proof a kr nb s t) ->
  composition_poly_odd_ood_evaluation p = composition_poly_odd_ood_evaluation (play_proof a kr nb s t) ->
  fri_last_value p = s_last s t -> length (fri_layers_merkle_roots p) = r ->
  valued p c (d_coset_offset d) w (play_columns kr s t) (play_even a kr nb s t) (play_odd a kr nb s t) (play_words a kr nb r s t) ->
  length t = tape_length a kr nb r /\ wins a kr nb r pick s d w t (c_iotas E a c).
Proof using HE.
  intros a [A P Hd Hw Hpoly Hex Hb He] Hs Hv Hc Hx Hrap t P1 P2 P3 P4 P5 Htr.
  destruct (step_1_shape fuel a p d _ c t' Hc) as (Scl & Sck & Stl & bcs & Sbc & Sbl).
  destruct (step_1_facts HE _ _ _ _ _ _ _ Hc) as (Hzl & _ & (Hil & _) & (Hout & _)).
  destruct (Hs (firstn (at_point a kr nb + 1) t)) as [Hs1 Hs2].
  destruct (valued_consistent fuel mk opts p r b _ d c t' w (play_frame a kr nb s t) (play_columns kr s t) (play_even a kr nb s t) (play_odd a kr nb s t)
    (play_words a kr nb r s t) A Hv Hd Hc Hw P1 Hs2) as (H2 & Hq); [unfold play_words; now rewrite map_length, seq_length|exact P5|exact Htr|].
  assert (Hzr : length (c_zetas E a c) = r) by now rewrite Hzl.
  destruct (Hb _ _ Sbc) as [Hbl _].
  pose proof (tape_of_challenges a kr nb r pick xs c Hx Hrap (eq_trans Sbl Hbl) Stl Scl Sck Hzr) as TC.
  pose proof (tape_of_length a kr nb r pick xs c Hx Hrap (eq_trans Sbl Hbl) Stl Scl Sck Hzr) as TL.
  split; [exact TL|]. unfold wins. fold t in TC. rewrite TC. split.
  - unfold step_2 in *. cbn [c_rap c_z c_boundary_coeffs c_transition_coeffs]. rewrite <- P1, <- P2, <- P3. exact H2.
  - intros i Hi. destruct (Hq i Hi) as [_ [F1 F2]]. split; cbn [c_zetas].
    + unfold play_proof at 1. cbn [fri_last_value]. rewrite <- P4. exact F1.
    + destruct (play_words a kr nb r s t) as [|f fs]; [exact I|]. rewrite F2. apply deep_ext; try reflexivity; try assumption. now rewrite P1.
Qed.
End Known.

(** What C82 assumes of the roots follows from two checks that the verifier does not make, the lengths of the paths and the openings of the
    columns: an accepted proof that would pass them is a forgery, for the words that the evaluated hashes show, if none of these collide. *)
Theorem C86_checked_proofs_forge :
  forall (E : env) fuel (mk : nat -> air E) opts (p : stark_proof E) kr nb r b pick d w e (K : evaluations E) rows xs c t' eqd adv (lost : commitment -> Prop) cs, env_ok E ->
  let a := mk (trace_length p) in let ms := messages rows p in let t := tape_of a xs c in let wo := words_below K a (r + b) (d_coset_offset d) w in
  playable a nb r b e d w -> verify E fuel mk opts p = Ok true -> step_1 E fuel a p d tr_new = Ok (c, t') -> length xs = kr -> c_rap E a c = pick xs ->
  trace_ood_frame_evaluations p = mk_frame (concat rows) (trace_columns (a_context a)) ->
  length rows = length (transition_offsets (a_context a)) -> Forall (fun row => length row = trace_columns (a_context a)) rows ->
  length (fri_layers_merkle_roots p) = r -> collision_free K -> known_proof K p c (r + b) ->
  lost (nth 0 (lde_trace_merkle_roots p) []) ->
  let tbl := table a kr nb r eqd adv cs in
  claim adv tbl = (ms, t, c_iotas E a c) ->
  (forall j, (j < 4 + r)%nat -> lookup eqd (firstn (S j) ms, firstn (start a kr nb j) t) tbl = Some (segment a kr nb j t, [])) ->
  lookup eqd (ms, t) tbl = Some ([], c_iotas E a c) ->
  forges a kr nb r pick eqd adv wo d w lost cs.
Proof.
  intros E fuel mk opts p kr nb r b pick d w e K rows xs c t' eqd adv lost cs HE a ms t wo PL Hv Hc Hx Hrap Hfr Hrl Hrw Lr HK Hkp Hlost tbl Hcl Hseg Hpos.
  assert (Wf : well_formed a (committed a r wo ms)) by (intro u; cbn; split; [exact Hrl|exact Hrw]).
  assert (Wd : play_words a kr nb r (committed a r wo ms) t = map (fun l => w_layer wo l (nth l (fri_layers_merkle_roots p) [])) (seq 0 r)).
  { unfold play_words. apply map_ext. intro l. cbn [committed s_layer]. f_equal. apply (messages_layer rows p l). }
  pose proof (known_valued HE K fuel mk opts p r b _ d c t' w (pl_admissible _ _ _ _ _ _ _ PL) Hv (pl_domain _ _ _ _ _ _ _ PL) Hc (pl_root _ _ _ _ _ _ _ PL) Lr HK Hkp) as V.
  destruct (valued_wins HE fuel mk opts p kr nb r b pick d w e (committed a r wo ms) xs c t' PL Wf Hv Hc Hx Hrap) as (H1 & H5);
    [exact Hfr|reflexivity|reflexivity|symmetry; exact (messages_last r rows p Lr)|exact Lr|exact (eq_ind_r (fun ws => valued p c (d_coset_offset d) w _ _ _ ws) V Wd)|].
  unfold forges. fold tbl. cbv zeta. rewrite Hcl. split; [unfold ms; now rewrite messages_length, Lr|]. split; [exact H1|]. split; [exact Hseg|]. split; [exact Hpos|].
  split; [exact Wf|]. split; [exact Hlost|exact H5].
Qed.
Print Assumptions C86_checked_proofs_forge.

(** ** Honest proofs *)

Section Honest.
Context {E : env} (HE : env_ok E).

Definition more (K K' : evaluations E) : Prop := incl (ev_values K) (ev_values K') /\ incl (ev_rows K) (ev_rows K') /\ incl (ev_pairs K) (ev_pairs K').
Definition grows (P : evaluations E -> Prop) : Prop := forall K K', more K K' -> P K -> P K'.
Definition join (K K' : evaluations E) : evaluations E := mk_evaluations (ev_values K ++ ev_values K') (ev_rows K ++ ev_rows K') (ev_pairs K ++ ev_pairs K').
Lemma join_l K K' : more K (join K K').
Proof using Type. repeat split; cbn; apply incl_appl, incl_refl. Qed.
Lemma join_r K K' : more K' (join K K').
Proof using Type. repeat split; cbn; apply incl_appr, incl_refl. Qed.
Lemma both (P Q : evaluations E -> Prop) : grows P -> grows Q -> (exists K, P K) -> (exists K, Q K) -> exists K, P K /\ Q K.
Proof using Type. intros GP GQ (K & HP) (K' & HQ). exists (join K K'). split; [exact (GP _ _ (join_l K K') HP)|exact (GQ _ _ (join_r K K') HQ)]. Qed.
Lemma grows_and (P Q : evaluations E -> Prop) : grows P -> grows Q -> grows (fun K => P K /\ Q K).
Proof using Type. intros GP GQ K K' H [H1 H2]. split; [exact (GP _ _ H H1)|exact (GQ _ _ H H2)]. Qed.
Lemma every {I} (P : I -> evaluations E -> Prop) l : (forall i, grows (P i)) -> (forall i, In i l -> exists K, P i K) -> exists K, forall i, In i l -> P i K.
Proof using Type.
  intros G. induction l as [|i l IH]; intro H; [exists (mk_evaluations [] [] []); intros i []|].
  destruct (both (P i) (fun K => forall i, In i l -> P i K) (G i)) as (K & H1 & H2).
  - intros K K' M H1 j Hj. exact (G j _ _ M (H1 j Hj)).
  - apply H. now left.
  - apply IH. intros j Hj. apply H. now right.
  - exists K. intros j [<-|Hj]; [exact H1|now apply H2].
Qed.

Lemma grows_opening m path i (x : E) : grows (fun K => known_opening K m path i x).
Proof using Type. intros K K' (M1 & M2 & M3) ((L & H) & Hx). split; [split; [exact L|exact (incl_tran H M3)]|now apply M1]. Qed.
Lemma grows_row m path i (xs : list E) : grows (fun K => known_row K m path i xs).
Proof using Type. intros K K' (M1 & M2 & M3) ((L & H) & Hx). split; [split; [exact L|exact (incl_tran H M3)]|now apply M2]. Qed.
Lemma opening_known m path i (x : E) : length path = m -> exists K, known_opening K m path i x.
Proof using Type. intro L. exists (mk_evaluations [x] [] (path_calls (e_node E) path i (e_leaf E x))). split; [split; [exact L|apply incl_refl]|now left]. Qed.
Lemma row_known m path i (xs : list E) : length path = m -> exists K, known_row K m path i xs.
Proof using Type. intro L. exists (mk_evaluations [] [xs] (path_calls (e_node E) path i (e_leaves E xs))). split; [split; [exact L|apply incl_refl]|now left]. Qed.
Lemma grows_answers n : forall m iota (q : fri_decommitment E), grows (fun K => known_answers K m n iota q).
Proof using Type.
  induction n as [|n IH]; intros m iota q K K' M H; [exact I|]. destruct H as (H1 & H2 & H3).
  split; [exact (grows_opening _ _ _ _ _ _ M H1)|]. split; [exact (grows_opening _ _ _ _ _ _ M H2)|exact (IH _ _ _ _ _ M H3)].
Qed.

Lemma opening_length m (h w : E) f path i x : opens_to (E := E) path (word_commit m h w f) i (e_leaf E x) -> ~ opening_clash m h w f path i x -> length path = m.
Proof using Type.
  intros Ho Hn. destruct (opening_binds (e_node E) m _ path i _ (word_leaves_length m h w f) Ho) as [[L _]|[C|C]]; [exact L|exfalso; apply Hn; now left|exfalso; apply Hn; right; now left].
Qed.
Lemma row_length m (h w : E) f path i xs : opens_to (E := E) path (row_commit m h w f) i (e_leaves E xs) -> ~ row_clash m h w f path i xs -> length path = m.
Proof using Type.
  intros Ho Hn. assert (Lr : length (row_leaves m h w f) = (2 ^ m)%nat) by (unfold row_leaves; now rewrite map_length, seq_length).
  destruct (opening_binds (e_node E) m _ path i _ Lr Ho) as [[L _]|[C|C]]; [exact L|exfalso; apply Hn; now left|exfalso; apply Hn; right; now left].
Qed.

Lemma answers_known fs : forall m (h w : E) zetas last iota q, length zetas = length fs -> answers m h w fs zetas last iota q ->
  exists K, known_answers K m (length fs) iota q.
Proof using HE.
  induction fs as [|f fs IH]; intros m h w zetas last iota q Hz H; [exists (mk_evaluations [] [] []); exact I|].
  destruct zetas as [|zeta zetas]; [discriminate|]. cbn [length] in Hz. injection Hz as Hz. pose proof (answers_later HE _ _ _ _ _ _ _ _ _ _ H) as H2.
  destruct H as ((S1 & S2 & S3 & S4) & (C1 & C2 & _) & H). destruct q as [psym esym pa ev].
  cbn [layers_auth_paths layers_evaluations layers_auth_paths_sym layers_evaluations_sym length] in *.
  destruct pa as [|pa0 pa]; [discriminate|]. destruct ev as [|ev0 ev]; [discriminate|].
  destruct psym as [|ps0 psym]; [discriminate|]. destruct esym as [|es0 esym]; [discriminate|]. cbn [hd] in C1, C2.
  destruct (H 0%nat _ pa0 ev0 ps0 es0 zeta eq_refl eq_refl eq_refl eq_refl eq_refl eq_refl) as (O1 & O2 & _). rewrite Nat.sub_0_r in O2.
  cbn [length known_answers layers_auth_paths layers_evaluations layers_auth_paths_sym layers_evaluations_sym hd].
  apply both; [apply grows_opening|apply grows_and; [apply grows_opening|apply grows_answers]|apply opening_known; exact (opening_length _ _ _ _ _ _ _ O1 C1)|].
  apply both; [apply grows_opening|apply grows_answers|apply opening_known; exact (opening_length _ _ _ _ _ _ _ O2 C2)|]. exact (IH _ _ _ zetas last _ _ Hz H2).
Qed.
End Honest.

(** The two checks would not reject honest proofs: a proof as in C74, whose roots commit to words, passes them. *)
Theorem C86_committed_proofs_known :
  forall (E : env) fuel (mk : nat -> air E) opts (p : stark_proof E) r b k e d c w rows cols even odd words, env_ok E ->
  admissible (mk (trace_length p)) r b k -> committed_run fuel mk opts p r b k e d c w rows cols even odd words ->
  length (fri_layers_merkle_roots p) = r /\ exists K, known_proof K p c (r + b) /\
    (perfect_hash (e_leaf E) (e_node E) -> perfect_hash (e_leaves E) (e_node E) -> collision_free K).
Proof.
  intros E fuel mk opts p r b k e d c w rows cols even odd words HE A [Hv Hd (t & Hc) Hw Hfr Hrl Hrw Hwl Hroots Hcols Hhalves Hans _].
  assert (Lr : length (fri_layers_merkle_roots p) = r) by (rewrite Hroots, layer_roots_length; exact Hwl). split; [exact Lr|].
  pose proof (accepted_parts HE fuel mk opts p r b k d c t A Hv Hd Hc) as Acc. set (a := mk (trace_length p)) in *.
  destruct (shape HE a r b k d w A Hd Hw) as (g & D). destruct (step_1_facts HE _ _ _ _ _ _ _ Hc) as (Hzl & _ & (_ & Hiob) & _). rewrite (ds_lde_order _ _ _ _ _ _ D) in Hiob.
  assert (H : exists K, forall j, In j (seq 0 (length (c_iotas E a c))) -> forall iota, nth_error (c_iotas E a c) j = Some iota ->
    exists q o, nth_error (query_list p) j = Some q /\ nth_error (deep_poly_openings p) j = Some o /\
      answer_shape (length (fri_layers_merkle_roots p)) q /\ known_answers K (r + b) (length (fri_layers_merkle_roots p)) iota q /\
      columns_checked a p iota o /\ known_columns K a p (r + b) iota o /\ known_halves K (r + b) iota o).
  { apply every.
    - intros j K K' M H iota Hj. destruct (H iota Hj) as (q & o & H1 & H2 & H3 & H4 & H5 & (H6 & H7 & H8 & H9) & H10). exists q, o. do 3 (split; [assumption|]).
      split; [exact (grows_answers _ _ _ _ _ _ M H4)|]. split; [exact H5|]. split; [|exact (grows_row _ _ _ _ _ _ M H10)].
      do 3 (split; [assumption|]). intros n path values P V. exact (grows_row _ _ _ _ _ _ M (H9 n path values P V)).
    - intros j Hj. apply in_seq in Hj. destruct (nth_error (c_iotas E a c) j) as [iota|] eqn:Ej; [|apply nth_error_None in Ej; lia].
      destruct (Hans j iota Ej) as (q & o & Hq & Ho & Sq & Cf & Cc & (L1 & L2 & Nc) & Nh).
      assert (KA : exists K, known_answers K (r + b) (length (fri_layers_merkle_roots p)) iota q).
      { rewrite Hroots, layer_roots_length. apply (answers_known HE words _ (d_coset_offset d) w (c_zetas E a c) (fri_last_value p)); [rewrite Hzl; congruence|].
        split; [exact Sq|]. split; [exact Cf|]. pose proof (acc_fri _ _ _ _ _ _ _ _ Acc j iota q Ej Hq) as F.
        rewrite (lde_point HE D iota (Hiob iota (nth_error_In _ _ Ej))), <- (ds_offset _ _ _ _ _ _ D) in F. now rewrite <- Hroots. }
      assert (KH : exists K, known_halves K (r + b) iota o).
      { apply row_known. pose proof (proj1 (acc_openings _ _ _ _ _ _ _ _ Acc j iota o Ej Ho)) as O. rewrite Hhalves in O. exact (row_length _ _ _ _ _ _ _ O Nh). }
      assert (KC : exists K, forall n, In n (seq 0 2) -> forall path values, nth_error (lde_trace_merkle_proofs o) n = Some path ->
        nth_error (value_parts a (lde_trace_evaluations o)) n = Some values -> known_row K (r + b) path iota values).
      { apply every.
        - intros n K K' M H path values P V. exact (grows_row _ _ _ _ _ _ M (H path values P V)).
        - intros n Hn. apply in_seq in Hn. destruct (nth_error (lde_trace_merkle_proofs o) n) as [path|] eqn:P; [|exists (mk_evaluations [] [] []); discriminate].
          destruct (nth_error (value_parts a (lde_trace_evaluations o)) n) as [values|] eqn:V; [|exists (mk_evaluations [] [] []); discriminate].
          assert (Ln : (n < length (column_parts a cols))%nat) by (rewrite <- L2; apply nth_error_Some; congruence).
          destruct (nth_error (column_parts a cols) n) as [f|] eqn:F; [|apply nth_error_None in F; lia].
          assert (R : nth_error (lde_trace_merkle_roots p) n = Some (row_commit (r + b) (d_coset_offset d) w f)) by (rewrite Hcols; now apply map_nth_error).
          destruct (row_known (r + b) path iota values) as (K & HK); [exact (row_length _ _ _ _ _ _ _ (Cc n _ path values R P V) (Nc n f path values F P V))|].
          exists K. intros path' values' Q1 Q2. injection Q1 as <-. injection Q2 as <-. exact HK. }
      destruct (both _ _ (grows_answers _ _ _ _) (grows_row _ _ _ _) KA KH) as (K1 & A1 & A2). destruct KC as (K2 & A3).
      exists (join K1 K2). intros iota' Q. injection Q as <-. exists q, o. split; [exact Hq|]. split; [exact Ho|]. split; [rewrite Lr, <- Hwl; exact Sq|].
      split; [exact (grows_answers _ _ _ _ _ _ (join_l K1 K2) A1)|]. split; [exact Cc|]. split; [|exact (grows_row _ _ _ _ _ _ (join_l K1 K2) A2)].
      split; [exact L1|]. split; [rewrite Hcols, map_length; unfold column_parts; destruct (a_n_aux a =? 0)%nat; reflexivity|]. split; [rewrite L2, Hcols, map_length; reflexivity|].
      intros n path values P V. apply (grows_row _ _ _ _ _ _ (join_r K1 K2)). apply (A3 n); [|exact P|exact V]. apply in_seq. split; [lia|].
      assert (n < length (value_parts a (lde_trace_evaluations o)))%nat by (apply nth_error_Some; congruence). unfold value_parts in *. cbn in *. lia. }
  destruct H as (K & H). exists K. split.
  - intros j iota Hj. apply (H j); [|exact Hj]. apply in_seq. split; [lia|]. apply nth_error_Some. congruence.
  - intros HH HL. split; [intros x y _ _; apply (ph_leaf _ _ HH)|]. split; [intros x y _ _; apply (ph_leaf _ _ HL)|].
    intros (x & y & _ & _ & N & Q). apply N. destruct (ph_node _ _ HH _ _ _ _ Q) as [Q1 Q2]. destruct x, y. cbn in Q1, Q2. congruence.
Qed.
Print Assumptions C86_committed_proofs_known.

(** ** Examples *)

(** With hash functions without coincidences: a root that opens each of seven positions to every element of the field. *)
Example C86_example : perfect_hash (e_leaf clear) (e_node clear) /\
  exists root, forall (v : clear) i, (0 < i < 8)%nat -> exists path, opens_to (E := clear) path root i (e_leaf clear v).
Proof.
  split; [exact clear_hash|]. destruct (C86_one_root_many_words clear 3 (map (fun n (_ : nat) => f97 (Z.of_nat n) : clear) (seq 0 97))) as (root & H). exists root.
  intros v i Hi. apply (H (fun _ => v) i); [|exact Hi]. apply in_map_iff. destruct (zval_bound 97 v) as [V1 V3]. pose proof (Z.mod_small (zval v) 97 ltac:(lia)) as V2. exists (Z.to_nat (zval v)). split.
  - assert (Q : f97 (Z.of_nat (Z.to_nat (zval v))) = v); [|now rewrite Q]. apply zp_eq. rewrite Z2Nat.id by exact V1. cbn. exact V2.
  - apply in_seq. lia.
Qed.

(** The honest proof of C74 meets the premises of [C86_checked_proofs_forge] on roots and openings. *)
Example C86_honest_example : exists d c w (K : evaluations clear),
  verify clear 20 clear_air toy_opts clear_proof = Ok true /\ (exists t, step_1 clear 20 (clear_air (trace_length clear_proof)) clear_proof d tr_new = Ok (c, t)) /\
  primitive_root (K := clear) (2 + 1) = Some w /\ length (fri_layers_merkle_roots clear_proof) = 2%nat /\ collision_free K /\ known_proof K clear_proof c (2 + 1) /\
  c_iotas clear _ c <> [].
Proof.
  destruct C74_example as (_ & _ & _ & A & _ & _ & _ & _ & _ & _ & _ & Pr & d & c & w & rows & polys & h1 & h2 & words & R).
  assert (Lp : trace_length clear_proof = 4%nat) by (vm_compute; reflexivity).
  assert (A' : admissible (clear_air (trace_length clear_proof)) 2 1 3) by (rewrite Lp; exact A).
  destruct (C86_committed_proofs_known clear 20 clear_air toy_opts clear_proof 2 1 3 1 d c w rows _ _ _ words clear_ok A' R) as (L & K & H1 & H2).
  exists d, c, w, K. destruct R as [Hv Hd Hc Hw _ _ _ _ _ _ _ _ _]. do 4 (split; [assumption|]). split; [exact (H2 clear_hash clear_rows)|]. split; [exact H1|].
  destruct Hc as (t & Hc). destruct (step_1_facts clear_ok _ _ _ _ _ _ _ Hc) as (_ & _ & (Hil & _) & _). intro Z. rewrite Z in Hil. discriminate Hil.
Qed.
