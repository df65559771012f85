(** The number of parts of a proof that the prover returns, and of bytes of its encoding. *)
From Coq Require Import List Arith NArith Lia Field Bool.
From Verif.Base Require Import Outcome Bytes Field Poly.
From Verif.Model Require Import Codec Trace Merkle Air Transcript Domain Fri Evaluator Prover Verifier.
From Verif.Spec Require Import CodecSpec CliSpec AirSpec ProverLog VerifierSpec HashSpec LowDegree FriTree StarkTree Openings FullForgery.
From Verif.Proofs Require Import CodecFacts OutcomeFacts FieldFacts PolyFacts FFTFacts TraceFacts MerkleFacts FriFacts
  DomainFacts TranscriptFacts ComposeFacts DeepFacts Completeness Replay HonestOpenings HonestRound ProofShape.
Import ListNotations.

Section Honest.
Context {E : env} (HE : env_ok E).
Local Open Scope felt_scope.

(** Both paths of every layer have full length. *)
Lemma layer_paths ls : forall p h m zs last i os, layers_rel E p h m ls zs last -> (length p <= 2 ^ m)%nat -> (length ls <= m)%nat ->
  traverse (fri_open_layer E i) ls = Ok os ->
  forall k, (k < length ls)%nat -> length (nth k (map (o_path E) os) []) = (m - k)%nat /\ length (nth k (map (o_psym E) os) []) = (m - k)%nat.
Proof using HE.
  induction ls as [|l ls IH]; intros p h m zs last i os Hrel Hp Hm Hos k Hk; [cbn in Hk; lia|].
  destruct zs as [|z zs]; [contradiction|]. cbn [layers_rel] in Hrel. destruct Hrel as [Hl Hrel]. cbn [length] in Hm, Hk.
  destruct (fri_layer_new_ok E HE p h m l Hl Hp ltac:(lia)) as (w & Hw & Hev & Hds & Hmb).
  cbn [traverse] in Hos. ok_as Hos o Ho. ok_as Hos os' Hos'.
  apply ok_inj in Hos. subst os.
  assert (Td : tree_depth (fl_tree l) = m).
  { unfold merkle_build in Hmb. destruct (map (e_leaf E) (fl_evaluation l)) as [|x xs] eqn:Em; [discriminate|]. apply ok_inj in Hmb. rewrite <- Hmb.
    assert (L : length (x :: xs) = (2 ^ m)%nat) by (rewrite <- Em, Hev, !map_length, seq_length; reflexivity).
    unfold tree_depth. cbn [tree_leaves]. rewrite (complete_pow2_id _ m L), L. apply Nat.log2_pow2. lia. }
  destruct k as [|k].
  - cbn [map nth]. unfold fri_open_layer in Ho. destruct (fl_domain_size l =? 0)%nat; [discriminate|]. cbv zeta in Ho.
    apply obind_ok in Ho. destruct Ho as (v1 & _ & Ho). apply obind_ok in Ho. destruct Ho as (p1 & H1 & Ho).
    apply obind_ok in Ho. destruct Ho as (v2 & _ & Ho). apply obind_ok in Ho. destruct Ho as (p2 & H2 & Ho). apply ok_inj in Ho. subst o.
    unfold o_path, o_psym. cbn [fst snd]. unfold tree_path in H1, H2.
    destruct (_ <? _)%nat in H1; [|discriminate]. destruct (_ <? _)%nat in H2; [|discriminate]. apply ok_inj in H1, H2. subst p1 p2.
    rewrite !mt_path_length, Td. lia.
  - cbn [map nth]. assert (Lf : (length (fold_polynomial p z) <= 2 ^ (m - 1))%nat).
    { apply fold_length. replace (2 * 2 ^ (m - 1))%nat with (2 ^ m)%nat; [exact Hp|]. rewrite <- Nat.pow_succ_r'. f_equal. lia. }
    destruct (IH _ _ _ _ _ i os' Hrel Lf ltac:(lia) Hos' k ltac:(lia)) as [-> ->]. lia.
Qed.

(** Everything an honest proof consists of has its full size. *)
Theorem honest_complete fuel (mk : nat -> air E) (mt : trace_table E) r b k proof :
  let a := mk (tt_n_rows mt) in
  admissible a r b k -> tt_n_rows mt = (2 ^ r)%nat -> valid_trace a r mt ->
  (forall rap aux, a_build_aux a mt rap = Ok aux -> tt_n_cols aux = a_n_aux a) ->
  prove E fuel mk mt = Ok proof ->
  complete_proof a proof r b /\ length (lde_trace_merkle_roots proof) = (if (a_n_aux a =? 0)%nat then 1 else 2)%nat.
Proof using HE.
  intros a A Hrows Hvt Hna H0. pose proof H0 as Hp0.
  destruct (honest_parts HE fuel mk mt r b k proof A Hrows Hvt Hp0)
    as (d0 & g0 & w0 & c0 & t0 & polys0 & h10 & h20 & deep0 & Hd0 & D0 & Htl & Hc0 & Pl & Pf & _ & _ & _ & _ & _ & _ & _ & Hfr & _ & _ & Ld0 & Lz & Hroots & _ & Hcol & _).
  fold a in c0, Hd0, D0, Hc0, Pl, Hcol, Hfr.
  destruct (Hcol Hna) as [Hcr _].
  assert (Lr : length (lde_trace_merkle_roots proof) = (if (a_n_aux a =? 0)%nat then 1 else 2)%nat).
  { rewrite Hcr, map_length. unfold column_parts. cbn [length]. now destruct (a_n_aux a =? 0)%nat. }
  split; [|exact Lr]. clear Hc0 Hcol.
  rewrite prove_log_erase in H0. ok_as H0 pc Hlog. destruct pc as [proof' c]. apply ok_inj in H0. cbn [fst] in H0. subst proof'.
  pose proof Hlog as H. unfold prove_log in H. fold a in H. rewrite Hd0 in H. cbn [obind] in H.
  destruct (domain_new_shape HE a d0 r b Hd0 (ad_n _ _ _ _ A) (ad_blowup _ _ _ _ A) (ad_r _ _ _ _ A)) as (g & W & D).
  set (h := e_u64 E (coset_offset (a_options a))) in *.
  ok_as H rr1 Hr1. destruct rr1 as [r1 t1].
  destruct (round_1_ok HE A D mt _ r1 t1 Hvt Hr1) as (cols & root0 & tt0 & Hpne & Hint & Hsat & Hlde & Hpl & Hroot0 & Hrap & Ht1).
  ok_as H bcs Hbcs.
  ok_as H s1 Hs1. destruct s1 as [ba t2]. ok_as H s2 Hs2. destruct s2 as [bb t3].
  ok_as H s3 Hs3. destruct s3 as [ta t4]. ok_as H s4 Hs4. destruct s4 as [tb t5].
  ok_as H r2 Hr2. ok_as H sz Hsz. destruct sz as [z t6].
  destruct (ad_poly _ _ _ _ A g (ds_g _ _ _ _ _ _ D) (r1_rap E a r1) (r1_trace_polys E a r1) Hpl) as (cs & Hcs & Hdeg).
  { apply Hint. }
  destruct (round_2_ok HE A D cols (r1_trace_polys E a r1) r1 (combine ta tb) (combine ba bb) bcs cs r2 Hpne Hint Hsat eq_refl Hlde Hbcs Hcs Hdeg Hr2)
    as (Hel & Hol & Hee & Hoe & Htree & Hroot & Hdb & (mx & Hmx & Hmxle) & Htm & Hid).
  set (polys := r1_trace_polys E a r1) in *.
  assert (Hoff := ad_offsets _ _ _ _ A).
  assert (Er3 : round_3 E a d0 r1 r2 z = mk_round3 E (shifted_rows polys (seq 0 k) g z) (peval (r2_even E r2) (z * z)) (peval (r2_odd E r2) (z * z))).
  { unfold round_3. rewrite (ds_root _ _ _ _ _ _ D), Hoff. reflexivity. }
  rewrite Er3 in H. cbn [r3_trace_ood r3_even_ood r3_odd_ood] in H.
  ok_as H g1 Hg1. destruct g1 as [gamma t8]. ok_as H g2 Hg2. destruct g2 as [gamma_p t9].
  ok_as H g3 Hg3. destruct g3 as [tg t10]. rewrite Nat.mul_comm in Hg3.
  destruct (sample_rows_flat E _ _ _ _ _ Hg3) as (m & Hm & Hmc & Hml & Hmk). rewrite Hoff, seq_length in Hm, Hmk.
  ok_as H deep Hdeep. rewrite (ds_root _ _ _ _ _ _ D) in Hdeep.
  assert (Hn0 : (0 < 2 ^ r)%nat) by apply pow2_pos.
  destruct (deep_poly_ok (fft_field_ok E (e_fft_ok E HE)) a polys (2 ^ r) g z k (proj1 (proj2 Hint)) Hn0 Hoff r2 _ gamma gamma_p m
     (eq_trans Hml (eq_sym Hpl)) Hmk Hel Hol eq_refl) as (deep' & Hdeep' & Hdl & Hdv).
  rewrite Hmc in Hdeep'. rewrite Hdeep' in Hdeep. apply ok_inj in Hdeep. subst deep'.
  ok_as H fc Hfc. destruct fc as [[[lv layers] zetas] t11]. rewrite (shape_lde_length HE D) in Hfc, H.
  rewrite (ds_root_order _ _ _ _ _ _ D) in Hfc.
  destruct (fri_commit_log_zetas _ _ _ _ _ _ _ _ _ Hfc) as (Hlne & t12' & Hzs' & _).
  assert (Hfc' := fri_commit_log_erase r deep t10 h (2 ^ (r + b))). fold h in Hfc. rewrite Hfc in Hfc'. cbn [obind] in Hfc'.
  pose proof (ad_r _ _ _ _ A) as Hr1'. pose proof (ad_b _ _ _ _ A) as Hb1.
  destruct (fri_commit_spec E r deep h (r + b) t10 lv layers t11 Hfc') as (zs & last & t12 & Hzs & Hrel & Hlv & Ht11 & Hlay); [lia|lia|].
  destruct (tr_challenge t11) as [ch t13] eqn:Hch.
  ok_as H no Hno. ok_as H nc Hnc. ok_as H zeros Hzeros.
  ok_as H qp Hqp. destruct qp as [[ql1 iotas1] t14]. ok_as H ops Hops. apply ok_inj in H.
  unfold fri_query_phase in Hqp. destruct layers as [|l0 layers'] eqn:El; [congruence|]. rewrite <- El in *.
  ok_as Hqp si Hsi. destruct si as [iotas t15]. ok_as Hqp ql Hql. apply ok_inj in Hqp. injection Hqp as <- <- <-.
  destruct (sample_indices_spec E _ _ _ _ _ Hsi) as [Hiol Hiob].
  pose proof (open_one HE A D r1 r2 iotas ops Hpne Hlde Hee Hoe Htree Hroot Hiob Hops) as Hopen.
  pose proof (open_trees HE A D r1 r2 iotas ops Hiob Hops) as Hot.
  destruct (round_1_trees HE A D mt _ r1 t1 Hvt Hna Hr1) as [Htr1 Hrt1].
  pose proof (f_equal fst H) as Hp. cbn [fst] in Hp. clear H Hlog.
  assert (Hlay' : length layers = r) by (rewrite Hlay; lia).
  assert (Lt : length (r1_trees E a r1) = length (lde_trace_merkle_roots proof)).
  { rewrite <- Hp. cbn [lde_trace_merkle_roots]. rewrite Hrt1, map_length. exact (forall2_length _ _ _ Htr1). }
  assert (Dt : Forall (fun tree => tree_depth tree = (r + b)%nat) (r1_trees E a r1)).
  { clear -Htr1. induction Htr1 as [|t f ts fs Ht _ IH]; constructor; [exact (proj1 (row_tree _ _ _ _ _ Ht))|exact IH]. }
  rewrite map_map in Htree. pose proof (proj1 (row_tree (r + b) h W (fun x => [peval (r2_even E r2) x; peval (r2_odd E r2) x]) _ Htree)) as Dc.
  constructor.
  - rewrite <- Hp. reflexivity.
  - rewrite Hfr. reflexivity.
  - rewrite Hfr. cbn [fr_data]. rewrite Hoff, seq_length.
    assert (G : forall l (z' : E), length (concat (shifted_rows polys0 l g0 z')) = (length l * trace_columns (a_context a))%nat).
    { intros l z'. rewrite <- Pl. unfold shifted_rows. induction l as [|x l IH]; [reflexivity|]. cbn [map concat length]. rewrite app_length, IH, map_length. reflexivity. }
    rewrite G, seq_length. reflexivity.
  - rewrite <- Hp. cbn [fri_layers_merkle_roots]. now rewrite map_length.
  - rewrite <- Hp. cbn [query_list]. rewrite (traverse_length _ _ _ Hql). exact Hiol.
  - rewrite <- Hp. cbn [deep_poly_openings]. rewrite <- (forall2_length _ _ _ Hopen). exact Hiol.
  - rewrite <- Hp. cbn [query_list]. intros q Hq. apply traverse_inv in Hql.
    assert (G : exists i, fri_decommit E layers i = Ok q).
    { clear -Hql Hq. induction Hql as [|i x is xs Hx _ IH]; [destruct Hq|]. destruct Hq as [<-|Hq]; [eauto|now apply IH]. }
    destruct G as (i & Hi). unfold fri_decommit in Hi. apply obind_ok in Hi. destruct Hi as (os & Hos & Hi). apply ok_inj in Hi. subst q.
    pose proof (traverse_length _ _ _ Hos) as L. split.
    + unfold answer_shape. cbn [layers_auth_paths layers_evaluations layers_auth_paths_sym layers_evaluations_sym]. rewrite !map_length. lia.
    + cbn [layers_auth_paths layers_auth_paths_sym]. intros k' Hk'.
      apply (layer_paths layers deep h (r + b) zs last i os Hrel); [|rewrite Hlay'; lia|exact Hos|rewrite Hlay'; exact Hk'].
      etransitivity; [exact Hdl|]. apply Nat.pow_le_mono_r; lia.
  - rewrite <- Lt. rewrite <- Hp. cbn [deep_poly_openings]. intros o Ho. unfold open_deep_composition_poly in Hops. apply traverse_inv in Hops.
    assert (G : exists i, Forall2 (fun tree path => tree_path (e_node E) tree i = Some path) (r1_trees E a r1) (lde_trace_merkle_proofs o)).
    { clear -Hot Ho. induction Hot as [|i x is xs Hx _ IH]; [destruct Ho|]. destruct Ho as [<-|Ho]; [eauto|now apply IH]. }
    destruct G as (i & Hi).
    assert (G : exists i, lde_trace_evaluations o = map (fun p => peval p (h * fpow W i)) polys).
    { clear -Hopen Ho. induction Hopen as [|j x is xs (_ & _ & _ & Hx) _ IH]; [destruct Ho|]. destruct Ho as [<-|Ho]; [eauto|now apply IH]. }
    destruct G as (j & Hj).
    assert (G : exists i, tree_path (e_node E) (r2_tree E r2) i = Some (lde_composition_poly_proof o)).
    { clear -Hops Ho. induction Hops as [|j x is xs Hx _ IH]; [destruct Ho|]. destruct Ho as [<-|Ho]; [|now apply IH].
      destruct (length (lde_roots_of_unity_coset d0) =? 0)%nat; [discriminate|]. cbv zeta in Hx.
      apply obind_ok in Hx. destruct Hx as (cp & Hcp & Hx). apply obind_ok in Hx. destruct Hx as (ev & _ & Hx). apply obind_ok in Hx. destruct Hx as (od & _ & Hx).
      apply obind_ok in Hx. destruct Hx as (tp & _ & Hx). apply obind_ok in Hx. destruct Hx as (row & _ & Hx). apply ok_inj in Hx. subst x.
      cbn [lde_composition_poly_proof]. eexists. destruct (tree_path (e_node E) (r2_tree E r2) _) as [q|] eqn:Q in Hcp; [|discriminate]. apply ok_inj in Hcp. subst cp. exact Q. }
    destruct G as (jc & Hjc). unfold tree_path in Hjc. destruct (_ <? _)%nat in Hjc; [|discriminate]. injection Hjc as Hjc.
    split; [rewrite <- Hjc, mt_path_length; exact Dc|]. split; [symmetry; exact (forall2_length _ _ _ Hi)|]. split; [|rewrite Hj, map_length; exact Hpl].
    clear -Hi Dt. induction Hi as [|tree path ts ps Hx _ IH]; [constructor|]. inversion Dt as [|? ? D1 D2]; subst. constructor; [|now apply IH].
    unfold tree_path in Hx. destruct (_ <? _)%nat in Hx; [|discriminate]. injection Hx as <-. now rewrite mt_path_length.
Qed.
End Honest.
