(** The proof of an honest prover is an accepted run in the sense of [Spec/Rounds.v]. *)
From Coq Require Import List Arith NArith Lia Field Bool.
From Verif.Base Require Import Outcome Field Poly.
From Verif.Model Require Import Codec Trace Merkle Air Transcript Domain Fri Evaluator Prover Verifier.
From Verif.Spec Require Import AirSpec CairoColumns ProvingSpec ProverLog VerifierSpec HashSpec LowDegree FriTree OodSpec StarkTree Proximity Rounds Openings.
From Verif.Proofs Require Import OutcomeFacts FieldFacts PolyFacts FFTFacts TraceFacts MerkleFacts FriFacts
  DomainFacts TranscriptFacts ComposeFacts DeepFacts Completeness Replay OodFacts FriComplete StarkComplete HonestOpenings.
From Verif.Properties Require Import StarkProperties.
Import ListNotations.
Local Open Scope felt_scope.

Section HonestRound.
Context {E : env} (HE : env_ok E).
Let HF : fft_ok E := e_fft_ok E HE.
Let HK : field_ok E := fft_field_ok E HF.
Add Field Kfield67 : (fld_th E HK).

Lemma satisfies_ext (a : air E) rap cols cols' n : length cols = length cols' ->
  (forall j i, (j < length cols)%nat -> (i < n)%nat -> nth i (nth j cols []) 0 = nth i (nth j cols' []) 0) ->
  trace_satisfies a rap cols n -> trace_satisfies a rap cols' n.
Proof using Type.
  intros L H [B T]. constructor.
  - intros bcs bc Hb Hin. destruct (B bcs bc Hb Hin) as (B1 & B2 & B3). split; [exact B1|]. split; [lia|]. rewrite <- H by lia. exact B3.
  - intros i Hi. destruct (T i Hi) as (evals & T1 & T2). exists evals. split; [|exact T2]. rewrite <- T1, L. do 2 f_equal. f_equal.
    apply map_ext. intro o. assert (G : forall l l' : list (list E), length l = length l' ->
      (forall j, (j < length l)%nat -> nth ((i + o) mod n) (nth j l []) 0 = nth ((i + o) mod n) (nth j l' []) 0) ->
      map (fun c => nth ((i + o) mod n) c 0) l = map (fun c => nth ((i + o) mod n) c 0) l').
    { induction l as [|c l IH]; intros [|c' l'] Hl Hn; cbn in *; try discriminate; [reflexivity|]. f_equal; [exact (Hn 0%nat ltac:(lia))|].
      apply IH; [lia|]. intros j Hj. exact (Hn (S j) ltac:(lia)). }
    symmetry. apply G; [exact L|]. intros j Hj. apply H; [exact Hj|]. apply Nat.mod_upper_bound. lia.
Qed.

(** The words of the layers. *)
Fixpoint layer_words (p : poly E) (zs : list E) : list (E -> E) :=
  match zs with [] => [] | z :: zs' => peval p :: layer_words (fold_polynomial p z) zs' end.
Lemma layer_words_length zs : forall p, length (layer_words p zs) = length zs.
Proof using Type. induction zs as [|z zs IH]; intro p; cbn [layer_words length]; [reflexivity|now rewrite IH]. Qed.
Lemma layer_words_low zs : forall p i f, (length p <= 2 ^ length zs)%nat -> nth_error (layer_words p zs) i = Some f ->
  low_degree (fun _ => True) f (2 ^ (length zs - i)).
Proof using Type.
  induction zs as [|z zs IH]; intros p i f Hp Hf; [destruct i; discriminate|]. cbn [length Nat.pow] in *. destruct i as [|i]; cbn [layer_words nth_error] in Hf.
  - injection Hf as <-. exists p. split; [exact Hp|reflexivity].
  - cbn [Nat.sub]. apply (IH (fold_polynomial p z)); [|exact Hf]. apply fold_length. lia.
Qed.
Lemma layer_words_roots ls : forall p h m zs last w, layers_rel E p h m ls zs last -> (length p <= 2 ^ m)%nat -> (length ls <= m)%nat ->
  primitive_root m = Some w -> map (fl_root E) ls = layer_roots m h w (layer_words p zs).
Proof using HE.
  induction ls as [|l ls IH]; intros p h m zs last w Hrel Hp Hm Hw; destruct zs as [|z zs]; cbn [layers_rel] in Hrel; try contradiction; [reflexivity|].
  destruct Hrel as [Hl Hrel]. cbn [length] in Hm. cbn [map layer_words layer_roots].
  destruct (fri_layer_new_ok E HE p h m l Hl Hp ltac:(lia)) as (w' & Hw' & Hev & Hds & Hmb). rewrite Hw in Hw'. injection Hw' as <-.
  assert (Hlen : length (fl_evaluation l) = (2 ^ m)%nat) by (rewrite Hev, map_length, seq_length; reflexivity). f_equal.
  - unfold fl_root, tree_root, word_commit, tree_depth.
    assert (Et : tree_leaves (fl_tree l) = word_leaves m h w (peval p)).
    { unfold merkle_build in Hmb. destruct (map (e_leaf E) (fl_evaluation l)) as [|c cs] eqn:Em; [discriminate|].
      apply ok_inj in Hmb. rewrite <- Hmb. cbn [tree_leaves]. rewrite <- Em. rewrite (complete_pow2_id _ m) by (rewrite map_length; exact Hlen).
      rewrite Hev, map_map. reflexivity. }
    rewrite Et. unfold word_leaves at 1. rewrite map_length, seq_length, Nat.log2_pow2 by lia. reflexivity.
  - assert (Lf : (length (fold_polynomial p z) <= 2 ^ (m - 1))%nat).
    { apply fold_length. replace (2 * 2 ^ (m - 1))%nat with (2 ^ m)%nat; [exact Hp|]. rewrite <- Nat.pow_succ_r'. f_equal. lia. }
    destruct ls as [|l2 ls].
    + destruct zs; [reflexivity|contradiction].
    + destruct zs as [|z2 zs]; [contradiction|]. cbn [length] in Hm.
      destruct (fri_layer_new_ok E HE _ _ _ _ (proj1 Hrel) Lf ltac:(lia)) as (w2 & Hw2 & _).
      assert (Ew : w2 = w * w).
      { assert (Hpw := primitive_root_pow HF (m - 1) 1 w2 w ltac:(lia) Hw2).
        replace (m - 1 + 1)%nat with m in Hpw by lia. specialize (Hpw Hw). cbn in Hpw. rewrite <- Hpw. ring. }
      rewrite (IH _ _ _ _ _ (w * w) Hrel Lf); [reflexivity|cbn [length]; lia|]. now rewrite <- Ew.
Qed.

Lemma columns_of_interpolants polys g r (cols : list (list E)) :
  length polys = length cols -> (forall c, In c cols -> length c = (2 ^ r)%nat) ->
  (forall j i, (j < length cols)%nat -> (i < 2 ^ r)%nat -> peval (nth j polys []) (fpow g i) = nth i (nth j cols []) 0) ->
  domain_columns polys g (2 ^ r) = cols.
Proof using HE.
  intros L W V. apply nth_ext with (d := []) (d' := []); [unfold domain_columns; rewrite map_length; exact L|].
  intros j Hj. unfold domain_columns in Hj. rewrite map_length in Hj. apply (eq_ind _ (fun m => (j < m)%nat) Hj) in L as Hj'. clear Hj. rename Hj' into Hj.
  assert (Lj : length (nth j (domain_columns polys g (2 ^ r)) []) = (2 ^ r)%nat).
  { unfold domain_columns. rewrite (nth_indep _ [] (map (fun i => peval (K := E) [] (fpow g i)) (seq 0 (2 ^ r)))) by (rewrite map_length; exact (eq_ind_r (fun m => (j < m)%nat) Hj L)).
    rewrite (map_nth (fun p => map (fun i => peval p (fpow g i)) (seq 0 (2 ^ r)))), map_length. apply seq_length. }
  apply nth_ext with (d := 0) (d' := 0); [rewrite Lj; symmetry; apply W; apply nth_In; exact Hj|].
  intros i Hi. rewrite Lj in Hi. rewrite (domain_columns_nth polys j i Hi). exact (V j i Hj Hi).
Qed.
(** The polynomials of the first round take the values of the main table and of the auxiliary table built from it. *)
Lemma round_1_columns (a : air E) r b k d h g W (A : admissible a r b k) (D : domain_shape d r b (e_u64 E (coset_offset (a_options a))) g W)
    (mt : trace_table E) t (r1 : round1 E a) t' : h = e_u64 E (coset_offset (a_options a)) -> valid_trace a r mt -> round_1 E a mt d t = Ok (r1, t') ->
  trace_of a mt (r1_rap E a r1) (2 ^ r) (domain_columns (r1_trace_polys E a r1) g (2 ^ r)).
Proof using HE.
  intros Hh (mcols & Hne & Hmc & Hv) H. unfold round_1 in H. ok_as H ic Hic. destruct ic as [[[[mp me] mtree] mroot] t0].
  destruct (interpolate_and_commit_ok HE A D mt mcols t mp me mtree mroot t0 Hmc Hne Hic) as (Hmi & Hme & ->).
  ok_as H rp Hrp. destruct rp as [rap t1]. ok_as H aux Haux.
  destruct (Hv _ _ _ _ Hrp Haux) as (acols & Hac & Hlen & Hsat).
  unfold tt_is_empty in H. pose proof Hac as (Hnc & _). destruct (Nat.eqb_spec (tt_n_cols aux) 0) as [E0|E0].
  - ok_as H ldt Hldt. apply ok_inj in H. injection H as <- <-. cbn [r1_trace_polys r1_rap]. exists aux, mcols, acols. do 3 (split; [assumption|]).
    rewrite Hnc in E0. destruct acols as [|? ?]; [|discriminate]. rewrite app_nil_r in *. destruct Hmi as (I1 & _ & I3).
    apply columns_of_interpolants; [exact I1|exact (proj1 (proj2 Hmc))|exact I3].
  - ok_as H ic2 Hic2. destruct ic2 as [[[[ap ae] atree] aroot] t2]. ok_as H ldt Hldt. apply ok_inj in H. injection H as <- <-. cbn [r1_trace_polys r1_rap].
    assert (Hane : acols <> []) by (intro; subst; cbn in Hnc; congruence).
    destruct (interpolate_and_commit_ok HE A D aux acols t1 ap ae atree aroot t2 Hac Hane Hic2) as (Hai & Hae & ->).
    destruct (interpolants_app HE A D _ _ _ _ Hmi Hai) as (I1 & _ & I3).
    exists aux, mcols, acols. do 3 (split; [assumption|]). apply columns_of_interpolants; [exact I1| |exact I3].
    intros c Hc. apply in_app_or in Hc. destruct Hc as [Hc|Hc]; [exact (proj1 (proj2 Hmc) c Hc)|exact (proj1 (proj2 Hac) c Hc)].
Qed.

(** What the prover of a valid trace commits to, and the challenges it draws. *)
Theorem honest_parts fuel (mk : nat -> air E) (mt : trace_table E) r b k proof :
  let a := mk (tt_n_rows mt) in
  admissible a r b k -> tt_n_rows mt = (2 ^ r)%nat -> valid_trace a r mt -> prove E fuel mk mt = Ok proof ->
  exists d g w (c : challenges E a) t polys h1 h2 deep,
    domain_new a = Ok d /\ domain_shape d r b (e_u64 E (coset_offset (a_options a))) g w /\ trace_length proof = (2 ^ r)%nat /\
    step_1 E fuel a proof d tr_new = Ok (c, t) /\
    length polys = trace_columns (a_context a) /\ Forall (fun p : poly E => (length p <= 2 ^ r)%nat) polys /\
    trace_satisfies a (c_rap E a c) (domain_columns polys g (2 ^ r)) (2 ^ r) /\
    trace_of a mt (c_rap E a c) (2 ^ r) (domain_columns polys g (2 ^ r)) /\
    (exists bcs, a_boundary a (c_rap E a c) = Ok bcs) /\
    (length h1 <= 2 ^ r)%nat /\ (length h2 <= 2 ^ r)%nat /\
    (forall z, fpow z (2 ^ r) - 1 <> 0 -> passes_at a d (c_rap E a c) polys (c_boundary_coeffs E a c) (c_transition_coeffs E a c) h1 h2 z) /\
    ~ In (c_z E a c) (lde_roots_of_unity_coset d) /\
    trace_ood_frame_evaluations proof = mk_frame (concat (shifted_rows polys (seq 0 k) g (c_z E a c))) (trace_columns (a_context a)) /\
    composition_poly_even_ood_evaluation proof = peval h1 (c_z E a c * c_z E a c) /\
    composition_poly_odd_ood_evaluation proof = peval h2 (c_z E a c * c_z E a c) /\
    (length deep <= 2 ^ r)%nat /\ length (c_zetas E a c) = r /\
    fri_layers_merkle_roots proof = layer_roots (r + b) (d_coset_offset d) w (layer_words deep (c_zetas E a c)) /\
    composition_poly_root proof = row_commit (r + b) (d_coset_offset d) w (fun x => [peval h1 x; peval h2 x]) /\
    ((forall rap aux, a_build_aux a mt rap = Ok aux -> tt_n_cols aux = a_n_aux a) ->
     lde_trace_merkle_roots proof = map (row_commit (r + b) (d_coset_offset d) w) (column_parts a (fun j => peval (nth j polys []))) /\
     forall j iota o, nth_error (c_iotas E a c) j = Some iota -> nth_error (deep_poly_openings proof) j = Some o ->
       columns_checked a proof iota o /\ length (lde_trace_merkle_proofs o) = length (column_parts a (fun j => peval (nth j polys [])))) /\
    forall j iota, nth_error (c_iotas E a c) j = Some iota ->
      exists q o, nth_error (query_list proof) j = Some q /\ nth_error (deep_poly_openings proof) j = Some o /\
        answer_shape r q /\ lde_trace_evaluations o = map (fun p => peval p (d_coset_offset d * fpow w iota)) polys /\
        lde_composition_poly_even_evaluation o = peval h1 (d_coset_offset d * fpow w iota) /\
        lde_composition_poly_odd_evaluation o = peval h2 (d_coset_offset d * fpow w iota).
Proof using HE.
  intros a A Hrows Hvt H0. rewrite prove_log_erase in H0. ok_as H0 pc Hlog. destruct pc as [proof' c]. apply ok_inj in H0. cbn [fst] in H0. subst proof'.
  destruct (replay HE fuel mk mt r b proof c (ad_n _ _ _ _ A) (ad_r _ _ _ _ A) (ad_blowup _ _ _ _ A) Hlog) as (d & t & Hd & Hstep).
  pose proof Hlog as H. unfold prove_log in H. fold a in H, Hd. rewrite Hd in H. cbn [obind] in H.
  destruct (domain_new_shape HE a d r b Hd (ad_n _ _ _ _ A) (ad_blowup _ _ _ _ A) (ad_r _ _ _ _ A)) as (g & W & D).
  set (h := e_u64 E (coset_offset (a_options a))) in *.
  ok_as H rr1 Hr1. destruct rr1 as [r1 t1].
  destruct (round_1_ok HE A D mt _ r1 t1 Hvt Hr1) as (cols & root0 & t0 & Hpne & Hint & Hsat & Hlde & Hpl & Hroot0 & Hrap & Ht1).
  ok_as H bcs Hbcs.
  ok_as H s1 Hs1. destruct s1 as [ba t2]. ok_as H s2 Hs2. destruct s2 as [bb t3].
  ok_as H s3 Hs3. destruct s3 as [ta t4]. ok_as H s4 Hs4. destruct s4 as [tb t5].
  ok_as H r2 Hr2. ok_as H sz Hsz. destruct sz as [z t6].
  destruct (ad_poly _ _ _ _ A g (ds_g _ _ _ _ _ _ D) (r1_rap E a r1) (r1_trace_polys E a r1) Hpl) as (cs & Hcs & Hdeg).
  { apply Hint. }
  destruct (round_2_ok HE A D cols (r1_trace_polys E a r1) r1 (combine ta tb) (combine ba bb) bcs cs r2 Hpne Hint Hsat eq_refl Hlde Hbcs Hcs Hdeg Hr2)
    as (Hel & Hol & Hee & Hoe & Htree & Hroot & Hdb & (mx & Hmx & Hmxle) & Htm & Hid).
  destruct (sample_z_ood_spec E HK _ _ _ _ _ _ Hsz) as [Hzl Hzt].
  set (polys := r1_trace_polys E a r1) in *.
  assert (Hoff := ad_offsets _ _ _ _ A).
  assert (Er3 : round_3 E a d r1 r2 z = mk_round3 E (shifted_rows polys (seq 0 k) g z) (peval (r2_even E r2) (z * z)) (peval (r2_odd E r2) (z * z))).
  { unfold round_3. rewrite (ds_root _ _ _ _ _ _ D), Hoff. reflexivity. }
  rewrite Er3 in H. cbn [r3_trace_ood r3_even_ood r3_odd_ood] in H.
  ok_as H g1 Hg1. destruct g1 as [gamma t8]. ok_as H g2 Hg2. destruct g2 as [gamma_p t9].
  ok_as H g3 Hg3. destruct g3 as [tg t10]. rewrite Nat.mul_comm in Hg3.
  destruct (sample_rows_flat E _ _ _ _ _ Hg3) as (m & Hm & Hmc & Hml & Hmk). rewrite Hoff, seq_length in Hm, Hmk.
  ok_as H deep Hdeep. rewrite (ds_root _ _ _ _ _ _ D) in Hdeep.
  assert (Hn0 : (0 < 2 ^ r)%nat) by apply pow2_pos.
  destruct (deep_poly_ok HK a polys (2 ^ r) g z k (proj1 (proj2 Hint)) Hn0 Hoff r2 _ gamma gamma_p m
     (eq_trans Hml (eq_sym Hpl)) Hmk Hel Hol eq_refl) as (deep' & Hdeep' & Hdl & Hdv).
  rewrite Hmc in Hdeep'. rewrite Hdeep' in Hdeep. apply ok_inj in Hdeep. subst deep'.
  ok_as H fc Hfc. destruct fc as [[[lv layers] zetas] t11]. rewrite (shape_lde_length HE D) in Hfc, H.
  rewrite (ds_root_order _ _ _ _ _ _ D) in Hfc.
  destruct (fri_commit_log_zetas _ _ _ _ _ _ _ _ _ Hfc) as (Hlne & t12' & Hzs' & _).
  assert (Hfc' := fri_commit_log_erase r deep t10 h (2 ^ (r + b))). fold h in Hfc. rewrite Hfc in Hfc'. cbn [obind] in Hfc'.
  pose proof (ad_r _ _ _ _ A) as Hr1'. pose proof (ad_b _ _ _ _ A) as Hb1.
  destruct (fri_commit_spec E r deep h (r + b) t10 lv layers t11 Hfc') as (zs & last & t12 & Hzs & Hrel & Hlv & Ht11 & Hlay); [lia|lia|].
  rewrite Hzs in Hzs'. apply ok_inj in Hzs'. injection Hzs' as -> _.
  destruct (tr_challenge t11) as [ch t13] eqn:Hch.
  ok_as H no Hno. ok_as H nc Hnc. ok_as H zeros Hzeros.
  ok_as H qp Hqp. destruct qp as [[ql1 iotas1] t14]. ok_as H ops Hops. apply ok_inj in H.
  unfold fri_query_phase in Hqp. destruct layers as [|l0 layers'] eqn:El; [congruence|]. rewrite <- El in *.
  ok_as Hqp si Hsi. destruct si as [iotas t15]. ok_as Hqp ql Hql. apply ok_inj in Hqp. injection Hqp as <- <- <-.
  destruct (sample_indices_spec E _ _ _ _ _ Hsi) as [Hiol Hiob].
  pose proof (open_one HE A D r1 r2 iotas ops Hpne Hlde Hee Hoe Htree Hroot Hiob Hops) as Hopen.
  assert (Hdec : Forall2 (fun i q => exists os, traverse (fri_open_layer E i) layers = Ok os /\
     q = mk_fri_decommitment (map (o_psym E) os) (map (o_esym E) os) (map (o_path E) os) (map (o_ev E) os)) iotas ql).
  { apply traverse_inv in Hql. clear -Hql. induction Hql as [|i q is qs Hq _ IH]; constructor; [|exact IH]. unfold fri_decommit in Hq.
    apply obind_ok in Hq. destruct Hq as (os & Hos & Hq). apply ok_inj in Hq. exists os. split; [exact Hos|now symmetry]. }
  pose proof (f_equal fst H) as Hp. pose proof (f_equal snd H) as Hcc. cbn [fst snd] in Hp, Hcc. clear H Hlog.
  assert (Hz0 : length zetas = r). { rewrite (layers_rel_length E _ _ _ _ _ _ Hrel), Hlay. lia. }
  assert (Ho : d_coset_offset d = h) by exact (ds_offset _ _ _ _ _ _ D).
  exists d, g, W, c, t, polys, (r2_even E r2), (r2_odd E r2), deep.
  split; [exact Hd|]. split; [exact D|]. split; [rewrite <- Hp; exact (ad_n _ _ _ _ A)|]. split; [exact Hstep|]. split; [exact Hpl|].
  split; [exact (proj1 (proj2 Hint))|].
  rewrite <- Hcc, Ho. cbn [c_rap c_z c_boundary_coeffs c_transition_coeffs c_zetas c_iotas].
  split.
  { apply (satisfies_ext a _ cols); [|intros j i Hj Hi|exact Hsat].
    - unfold domain_columns. rewrite map_length. symmetry. exact (proj1 Hint).
    - rewrite (domain_columns_nth polys j i Hi). symmetry. exact (proj2 (proj2 Hint) j i Hj Hi). }
  split; [exact (round_1_columns a r b k d h g W A D mt _ r1 t1 eq_refl Hvt Hr1)|].
  split; [eauto|]. split; [exact Hel|]. split; [exact Hol|]. split.
  { intros z' Hz'.
    set (p' := mk_stark_proof (2 ^ r) [] (shifted_frame polys (transition_offsets (a_context a)) (trace_primitive_root d) z') []
      (peval (r2_even E r2) (z' * z')) (peval (r2_odd E r2) (z' * z')) [] 0 [] [] 0%N).
    set (c' := mk_challenges E a z' (combine ba bb) (combine ta tb) [] 0 0 [] [] (r1_rap E a r1) 0%N).
    exists p', c'. split; [|repeat split].
    apply (C31_out_of_domain_check_accepts E a r b k mt d _ r1 t1 bcs (combine ta tb) (combine ba bb) r2 z' p' c' HE A Hvt Hd Hr1 Hbcs Hr2); try reflexivity.
    intro Z. apply Hz'. rewrite Z. ring. }
  split; [exact Hzl|]. rewrite <- Hp.
  cbn [trace_ood_frame_evaluations composition_poly_even_ood_evaluation composition_poly_odd_ood_evaluation fri_layers_merkle_roots query_list deep_poly_openings].
  split; [now rewrite Hpl|]. split; [reflexivity|]. split; [reflexivity|]. split; [exact Hdl|]. split; [exact Hz0|].
  split.
  { apply (layer_words_roots layers deep h (r + b) zetas last W Hrel); [|rewrite Hlay; lia|exact (ds_W _ _ _ _ _ _ D)].
    etransitivity; [exact Hdl|]. apply Nat.pow_le_mono_r; lia. }
  split.
  { cbn [composition_poly_root]. rewrite Hroot. rewrite map_map in Htree. exact (proj2 (row_tree (r + b) h W (fun x => [peval (r2_even E r2) x; peval (r2_odd E r2) x]) _ Htree)). }
  split.
  { intro Hna. destruct (round_1_trees HE A D mt _ r1 t1 Hvt Hna Hr1) as [Ht1' Hr1'']. cbn [lde_trace_merkle_roots]. split; [exact Hr1''|].
    intros j iota o Hj Hoj. assert (Hin : (iota < 2 ^ (r + b))%nat) by (apply Hiob; now apply nth_error_In with j).
    apply (honest_columns_checked HE (W := W) A _ _ (r1_trees E a r1) iota o); [exact Hr1''|exact Ht1'| |exact Hin|].
    - pose proof (open_trees HE A D r1 r2 iotas ops Hiob Hops) as Hot. clear -Hot Hj Hoj. revert j Hj Hoj.
      induction Hot as [|i o' is os H _ IH]; intros [|j] Hj Hoj; cbn in Hj, Hoj; try discriminate; [injection Hj as <-; injection Hoj as <-; assumption|exact (IH j Hj Hoj)].
    - assert (Ho4 : lde_trace_evaluations o = map (fun p => peval p (pt h W iota)) polys).
      { clear -Hopen Hj Hoj. revert j Hj Hoj. induction Hopen as [|i o' is os (_ & _ & _ & O4) _ IH]; intros [|j] Hj Hoj; cbn in Hj, Hoj; try discriminate; [injection Hj as <-; injection Hoj as <-; assumption|exact (IH j Hj Hoj)]. }
      rewrite Ho4, <- Hpl. symmetry. exact (part_values polys (pt h W iota) [] 0%nat eq_refl). }
  intros j iota Hj.
  assert (G : exists q, nth_error ql j = Some q /\ answer_shape r q).
  { clear -Hdec Hj Hlay Hr1'. revert j Hj. induction Hdec as [|i q is qs (os & Hos & ->) _ IH]; intros [|j] Hj; cbn in Hj; try discriminate; [|now apply IH].
    eexists. split; [reflexivity|]. pose proof (traverse_length _ _ _ Hos) as L. unfold answer_shape.
    cbn [layers_auth_paths layers_evaluations layers_auth_paths_sym layers_evaluations_sym]. rewrite !map_length. lia. }
  destruct G as (q & Hq & Sq).
  assert (G : exists o, nth_error ops j = Some o /\ lde_trace_evaluations o = map (fun p => peval p (pt h W iota)) polys /\
    lde_composition_poly_even_evaluation o = peval (r2_even E r2) (pt h W iota) /\ lde_composition_poly_odd_evaluation o = peval (r2_odd E r2) (pt h W iota)).
  { clear -Hopen Hj. revert j Hj. induction Hopen as [|i o is os (O1 & O2 & O3 & O4) _ IH]; intros [|j] Hj; cbn in Hj; try discriminate; [|now apply IH].
    injection Hj as ->. exists o. split; [reflexivity|]. split; [exact O4|]. split; [exact O2|exact O3]. }
  destruct G as (o & Hop & O1 & O2 & O3). exists q, o. split; [exact Hq|]. split; [exact Hop|]. split; [exact Sq|]. split; [exact O1|]. split; [exact O2|exact O3].
Qed.
End HonestRound.
