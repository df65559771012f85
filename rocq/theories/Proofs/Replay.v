(** The verifier replays the prover's transcript. *)
From Coq Require Import List Arith NArith Lia Bool.
From Verif.Base Require Import Outcome Bytes Field Poly.
From Verif.Model Require Import Codec Trace Merkle Air Transcript Domain Fri Evaluator Prover Verifier.
From Verif.Spec Require Import AirSpec ProverLog.
From Verif.Proofs Require Import OutcomeFacts FieldFacts PolyFacts FFTFacts TraceFacts DomainFacts TranscriptFacts FriFacts Completeness.
Import ListNotations.

Section Replay.
Context {E : env} (HE : env_ok E).
Notation T := (e_tr E).

Lemma sample_rows_blocks rows len (t : T) xs t' :
  batch_sample_challenges E (rows * len) t = Ok (xs, t') -> sample_rows E rows len t = Ok (blocks rows len xs, t').
Proof using Type.
  revert t xs. induction rows as [|rows IH]; intros t xs H; cbn [Nat.mul] in H.
  - cbn in *. injection H as <- <-. reflexivity.
  - rewrite batch_sample_app in H. ok_as H r1 H1. destruct r1 as [ys t1]. ok_as H r2 H2. destruct r2 as [zs t2].
    apply ok_inj in H. injection H as <- <-. cbn [sample_rows]. rewrite H1. cbn [obind]. rewrite (IH _ _ H2). cbn [obind].
    pose proof (batch_sample_length E _ _ _ _ H1) as Hl. cbn [blocks].
    rewrite firstn_app, Hl, Nat.sub_diag, firstn_O, app_nil_r, firstn_all2 by lia.
    rewrite skipn_app, Hl, Nat.sub_diag, skipn_O, skipn_all2 by lia. reflexivity.
Qed.

Lemma fri_loop_log_erase r : forall p h n (t : T),
  fri_loop E r p h n t = obind (fri_loop_log E r p h n t) (fun x => let '(l, q, _, t) := x in Ok (l, q, t)).
Proof using Type.
  induction r as [|r IH]; intros p h n t; cbn [fri_loop fri_loop_log]; [reflexivity|].
  destruct (transcript_to_field E t) as [[zeta t1]|e|]; cbn [obind]; try reflexivity.
  destruct (fri_layer_new E _ _ _) as [layer|e|]; cbn [obind]; try reflexivity. rewrite IH.
  destruct (fri_loop_log E r _ _ _ _) as [[[[ls q] zs] t2]|e|]; reflexivity.
Qed.
Lemma fri_commit_log_erase L p (t : T) h n :
  fri_commit_phase E L p t h n = obind (fri_commit_log E L p t h n) (fun x => let '(v, l, _, t) := x in Ok (v, l, t)).
Proof using Type.
  unfold fri_commit_phase, fri_commit_log. destruct (fri_layer_new E p h n) as [l0|e|]; cbn [obind]; try reflexivity.
  rewrite fri_loop_log_erase. destruct (fri_loop_log E _ _ _ _ _) as [[[[ls q] zs] t2]|e|]; cbn [obind]; try reflexivity.
  destruct (transcript_to_field E t2) as [[zeta t1]|e|]; reflexivity.
Qed.

Lemma fri_loop_log_zetas r : forall p h n (t : T) ls q zs t1 zl t2,
  fri_loop_log E r p h n t = Ok (ls, q, zs, t1) -> transcript_to_field E t1 = Ok (zl, t2) ->
  exists z0 rest t', transcript_to_field E t = Ok (z0, t') /\ zs ++ [zl] = z0 :: rest /\
    sample_zetas E (map (fl_root E) ls) t' = Ok (rest, t2).
Proof using Type.
  induction r as [|r IH]; intros p h n t ls q zs t1 zl t2 H Hz; cbn [fri_loop_log] in H.
  - apply ok_inj in H. injection H as <- <- <- <-. exists zl, [], t2. repeat split. exact Hz.
  - ok_as H x Hx. destruct x as [zeta t3]. ok_as H layer Hl. ok_as H y Hy. destruct y as [[[ls' q'] zs'] t4].
    apply ok_inj in H. injection H as <- <- <- <-.
    destruct (IH _ _ _ _ _ _ _ _ _ _ Hy Hz) as (z0 & rest & t' & H1 & H2 & H3).
    exists zeta, (z0 :: rest), t3. split; [exact Hx|]. split; [cbn; now rewrite H2|].
    cbn [map sample_zetas]. rewrite H1. cbn [obind]. rewrite H3. reflexivity.
Qed.
Lemma fri_commit_log_zetas L p (t : T) h n v ls zs t' :
  fri_commit_log E L p t h n = Ok (v, ls, zs, t') ->
  ls <> [] /\ exists t2, sample_zetas E (map (fl_root E) ls) t = Ok (zs, t2) /\ t' = tr_append t2 (fe_to (e_codec E) v).
Proof using Type.
  unfold fri_commit_log. intro H. ok_as H l0 Hl0. ok_as H y Hy. destruct y as [[[ls' q'] zs'] t4].
  ok_as H x Hx. destruct x as [zl t5]. apply ok_inj in H. injection H as <- <- <- <-. split; [discriminate|].
  destruct (fri_loop_log_zetas _ _ _ _ _ _ _ _ _ _ _ Hy Hx) as (z0 & rest & t6 & H1 & H2 & H3).
  exists t5. split; [|reflexivity]. cbn [map sample_zetas]. rewrite H1. cbn [obind]. rewrite H3. cbn [obind]. now rewrite H2.
Qed.

Lemma round_1_transcript (a : air E) mt d (t : T) r1 t' : round_1 E a mt d t = Ok (r1, t') ->
  r1_trace_polys E a r1 <> [] /\
  exists root0 t1, idx (r1_roots E a r1) 0 = Ok root0 /\ a_build_rap a (tr_append t root0) = Ok (r1_rap E a r1, t1) /\
    t' = match nth_error (r1_roots E a r1) 1 with Some x => tr_append t1 x | None => t1 end.
Proof using Type.
  assert (Hic : forall tab (t : T) polys evals tree root t',
     interpolate_and_commit E tab d t = Ok (polys, evals, tree, root, t') -> polys <> [] /\ t' = tr_append t root).
  { clear. intros tab t polys evals tree root t' H. unfold interpolate_and_commit in H.
    ok_as H ps Hps. ok_as H ev Hev. ok_as H ldt Hldt. ok_as H rows Hrows. ok_as H bc Hbc. destruct bc as [tr rt].
    apply ok_inj in H. injection H as <- <- <- <- <-. split; [|reflexivity].
    intros ->. cbn in Hev. apply ok_inj in Hev. subst ev. discriminate. }
  intros H. unfold round_1 in H. ok_as H ic Hic1. destruct ic as [[[[mp me] mtree] mroot] t0].
  destruct (Hic _ _ _ _ _ _ _ Hic1) as [Hne ->].
  ok_as H rp Hrp. destruct rp as [rap t1]. ok_as H aux Haux. destruct (tt_is_empty aux).
  - ok_as H ldt Hldt. apply ok_inj in H. injection H as <- <-. cbn. split; [exact Hne|]. exists mroot, t1. auto.
  - ok_as H ic2 Hic2. destruct ic2 as [[[[ap ae] atree] aroot] t2]. ok_as H ldt Hldt. apply ok_inj in H. injection H as <- <-.
    destruct (Hic _ _ _ _ _ _ _ Hic2) as [Hne2 ->].
    cbn. split; [destruct mp; [congruence|discriminate]|]. exists mroot, t1. auto.
Qed.

Theorem prove_log_erase fuel mk mt :
  prove E fuel mk mt = obind (prove_log E fuel mk mt) (fun x => Ok (fst x)).
Proof using Type.
  unfold prove, prove_log. set (a := mk (tt_n_rows mt)).
  destruct (domain_new a) as [d|e|]; cbn [obind]; try reflexivity.
  destruct (round_1 E a mt d tr_new) as [[r1 t1]|e|]; cbn [obind]; try reflexivity.
  destruct (a_boundary a (r1_rap E a r1)) as [bcs|e|]; cbn [obind]; try reflexivity.
  destruct (batch_sample_challenges E (length bcs) t1) as [[ba t2]|e|]; cbn [obind]; try reflexivity.
  destruct (batch_sample_challenges E (length bcs) t2) as [[bb t3]|e|]; cbn [obind]; try reflexivity.
  destruct (batch_sample_challenges E (num_transition_constraints (a_context a)) t3) as [[ta t4]|e|]; cbn [obind]; try reflexivity.
  destruct (batch_sample_challenges E (num_transition_constraints (a_context a)) t4) as [[tb t5]|e|]; cbn [obind]; try reflexivity.
  destruct (round_2 E a d r1 (combine ta tb) (combine ba bb)) as [r2|e|]; cbn [obind]; try reflexivity.
  destruct (sample_z_ood E fuel _ _ _) as [[z t6]|e|]; cbn [obind]; try reflexivity.
  set (r3 := round_3 E a d r1 r2 z). unfold round_4.
  destruct (transcript_to_field E _) as [[gamma t7]|e|]; cbn [obind]; try reflexivity.
  destruct (transcript_to_field E t7) as [[gamma_p t8]|e|]; cbn [obind]; try reflexivity.
  destruct (batch_sample_challenges E _ t8) as [[tg t9]|e|]; cbn [obind]; try reflexivity.
  destruct (compute_deep_composition_poly E a _ r2 r3 z _ gamma gamma_p tg) as [deep|e|]; cbn [obind]; try reflexivity.
  rewrite fri_commit_log_erase.
  destruct (fri_commit_log E _ deep t9 _ _) as [[[[lv layers] zetas] t10]|e|]; cbn [obind]; try reflexivity.
  destruct (tr_challenge t10) as [ch t11].
  destruct (generate_nonce E ch _) as [no|e|] eqn:Hno; cbn [obind]; try reflexivity.
  destruct no as [nc|]; cbn [unwrap obind]; try reflexivity.
  destruct (generate_nonce_spec E ch _ nc Hno) as ((gz & Hgz & _) & _). rewrite Hgz. cbn [obind].
  destruct (fri_query_phase E _ _ layers _) as [[[ql iotas] t12]|e|]; cbn [obind]; try reflexivity.
  destruct (open_deep_composition_poly E a d r1 r2 iotas) as [ops|e|]; cbn [obind]; reflexivity.
Qed.

Theorem replay fuel mk mt r b proof c :
  let a := mk (tt_n_rows mt) in
  a_trace_length a = 2 ^ r -> 1 <= r -> a_blowup a = 2 ^ b ->
  prove_log E fuel mk mt = Ok (proof, c) ->
  exists d t, domain_new a = Ok d /\ step_1 E fuel a proof d tr_new = Ok (c, t).
Proof using HE.
  intros a Hn Hr Hb H. unfold prove_log in H. fold a in H.
  ok_as H d Hd. destruct (domain_new_shape HE a d r b Hd Hn Hb Hr) as (g & W & D).
  ok_as H rr1 Hr1. destruct rr1 as [r1 t1].
  destruct (round_1_transcript a mt d _ r1 t1 Hr1) as (Hpne & root0 & t0 & Hroot0 & Hrap & Ht1).
  ok_as H bcs Hbcs.
  ok_as H s1 Hs1. destruct s1 as [ba t2]. ok_as H s2 Hs2. destruct s2 as [bb t3].
  ok_as H s3 Hs3. destruct s3 as [ta t4]. ok_as H s4 Hs4. destruct s4 as [tb t5].
  ok_as H r2 Hr2. ok_as H sz Hsz. destruct sz as [z t6].
  ok_as H g1 Hg1. destruct g1 as [gamma t8]. ok_as H g2 Hg2. destruct g2 as [gamma_p t9].
  ok_as H g3 Hg3. destruct g3 as [tg t10]. rewrite Nat.mul_comm in Hg3. apply sample_rows_blocks in Hg3.
  ok_as H deep Hdeep. ok_as H fc Hfc. destruct fc as [[[lv layers] zs] t11].
  destruct (fri_commit_log_zetas _ _ _ _ _ _ _ _ _ Hfc) as (Hlne & t12 & Hzs & Ht11).
  destruct (tr_challenge t11) as [ch t13] eqn:Hch.
  ok_as H no Hno. ok_as H nc Hnc. ok_as H gz Hgz.
  ok_as H qp Hqp. destruct qp as [[ql iotas] t14]. ok_as H ops Hops.
  apply ok_inj in H. pose proof (f_equal fst H) as Hp. pose proof (f_equal snd H) as Hc. cbn [fst snd] in Hp, Hc. subst proof c. clear H.
  exists d. unfold fri_query_phase in Hqp. destruct layers as [|l0 layers'] eqn:El; [congruence|]. rewrite <- El in *.
  ok_as Hqp si Hsi. destruct si as [iotas' t15]. ok_as Hqp ql' Hql. apply ok_inj in Hqp. injection Hqp as <- <- <-.
  exists t15. split; [exact Hd|]. unfold step_1.
  cbn [lde_trace_merkle_roots composition_poly_root composition_poly_even_ood_evaluation composition_poly_odd_ood_evaluation
       trace_ood_frame_evaluations fri_layers_merkle_roots fri_last_value nonce].
  rewrite Hroot0. cbn [obind]. rewrite Hrap. cbn [obind]. rewrite <- Ht1. rewrite Hbcs. cbn [obind].
  rewrite Hs1. cbn [obind]. rewrite Hs2. cbn [obind]. rewrite Hs3. cbn [obind]. rewrite Hs4. cbn [obind].
  rewrite Hsz. cbn [obind].
  set (polys := r1_trace_polys E a r1) in *. set (rows := r3_trace_ood E (round_3 E a d r1 r2 z)) in *.
  assert (Hw : Forall (fun row => length row = length polys) rows).
  { apply Forall_forall. intros row Hrow. unfold rows, round_3, fr_get_trace_evaluations in Hrow. cbn in Hrow.
    apply in_map_iff in Hrow. destruct Hrow as (q & <- & _). apply map_length. }
  assert (Hpos : 0 < length polys) by (destruct polys; [congruence|cbn; lia]).
  rewrite (frame_num_rows _ _ Hw Hpos). cbn [obind].
  rewrite (traverse_map _ (fun i => nth i rows [])).
  2:{ intros i Hi. apply in_seq in Hi. apply frame_row; [exact Hw|lia]. }
  cbn [obind]. rewrite map_nth_seq.
  rewrite Hg1. cbn [obind]. rewrite Hg2. cbn [obind]. rewrite Hg3. cbn [obind].
  rewrite Hzs. cbn [obind]. rewrite <- Ht11, Hch. rewrite Hgz. cbn [obind].
  rewrite (ds_lde_order _ _ _ _ _ _ D). rewrite (shape_lde_length HE D) in Hsi. rewrite Hsi. reflexivity.
Qed.
End Replay.
