(** The openings of an honest proof: the roots commit to the rows of the columns and halves, and all paths check. *)
From Coq Require Import List Arith NArith Lia Field Bool.
From Verif.Base Require Import Outcome Field Poly.
From Verif.Model Require Import Codec Trace Merkle Air Transcript Domain Fri Evaluator Prover Verifier.
From Verif.Spec Require Import AirSpec CairoColumns ProvingSpec VerifierSpec HashSpec LowDegree FriTree Openings.
From Verif.Proofs Require Import OutcomeFacts FieldFacts PolyFacts FFTFacts TraceFacts MerkleFacts FriFacts
  DomainFacts TranscriptFacts VerifierFacts ComposeFacts DeepFacts Completeness.
Import ListNotations.
Local Open Scope felt_scope.

Section HonestOpenings.
Context {E : env} (HE : env_ok E).
Let HF : fft_ok E := e_fft_ok E HE.
Let HK : field_ok E := fft_field_ok E HF.
Add Field Kfield70 : (fld_th E HK).

Lemma row_leaves_length m (h w : E) f : length (row_leaves m h w f) = (2 ^ m)%nat.
Proof using Type. unfold row_leaves. now rewrite map_length, seq_length. Qed.
Lemma row_leaves_ext m (h w : E) f f' : (forall x, f x = f' x) -> row_leaves m h w f = row_leaves m h w f'.
Proof using Type. intro H. unfold row_leaves. apply map_ext. intro i. now rewrite H. Qed.
Lemma row_tree m (h w : E) f tree : merkle_build (row_leaves m h w f) = Ok tree -> tree_depth tree = m /\ tree_root (e_node E) tree = row_commit m h w f.
Proof using Type.
  intro Hb. unfold merkle_build in Hb. destruct (row_leaves m h w f) as [|x xs] eqn:Em; [discriminate|]. apply ok_inj in Hb.
  assert (L := row_leaves_length m h w f). rewrite Em in L. rewrite (complete_pow2_id _ m L) in Hb. subst tree.
  assert (T : tree_depth (mk_tree (x :: xs)) = m) by (unfold tree_depth; cbn [tree_leaves]; rewrite L; apply Nat.log2_pow2; lia).
  split; [exact T|]. unfold tree_root. rewrite T. cbn [tree_leaves]. unfold row_commit. now rewrite Em.
Qed.
Lemma row_opening m (h w : E) f tree i path : merkle_build (row_leaves m h w f) = Ok tree -> (i < 2 ^ m)%nat -> tree_path (e_node E) tree i = Some path ->
  opens_to (E := E) path (row_commit m h w f) i (e_leaves E (f (h * fpow w i))).
Proof using Type.
  intros Hb Hi Hp. destruct (row_tree m h w f tree Hb) as [T1 T2]. apply path_verify_iff. rewrite <- T2.
  pose proof (build_path_verify (e_node E) _ _ i path i Hb Hp) as H. rewrite row_leaves_length in H. specialize (H Hi). rewrite T1 in H.
  specialize (H (Nat.mod_small i (2 ^ m) Hi)). unfold row_leaves in H. set (F := fun i0 => e_leaves E (f (h * fpow w i0))) in H.
  rewrite (nth_indep _ [] (F 0%nat)) in H by (rewrite map_length, seq_length; exact Hi). rewrite map_nth, seq_nth in H by exact Hi. exact H.
Qed.

Context {a : air E} {d : domain E} {r b k : nat} {g W : E}.
Let h : E := e_u64 E (coset_offset (a_options a)).
Context (A : admissible a r b k) (D : domain_shape d r b h g W).

Lemma commit_rows (mt : trace_table E) cols t polys evals tree root t' :
  has_columns mt (2 ^ r) cols -> cols <> [] -> interpolate_and_commit E mt d t = Ok (polys, evals, tree, root, t') ->
  merkle_build (row_leaves (r + b) h W (fun x => map (fun p => peval p x) polys)) = Ok tree /\
  root = row_commit (r + b) h W (fun x => map (fun p => peval p x) polys).
Proof using A D HE.
  intros Hc Hne H. destruct (interpolate_and_commit_ok HE A D mt cols t polys evals tree root t' Hc Hne H) as ((L & _) & He & _).
  unfold interpolate_and_commit in H. ok_as H ps Hps. ok_as H ev Hev. ok_as H ldt Hldt. ok_as H rows Hrows. ok_as H tr Htr. destruct tr as [tree' root'].
  apply ok_inj in H. injection H as -> -> -> -> _. rewrite He in Hldt.
  assert (Hp : polys <> []) by (intro Z; rewrite Z in L; destruct cols; [congruence|discriminate]).
  destruct (lde_table HE D (ad_n _ _ _ _ A) (ad_blowup _ _ _ _ A) (ad_b _ _ _ _ A) _ _ Hp Hldt) as [Htab _].
  rewrite (table_rows _ _ Htab) in Hrows. apply ok_inj in Hrows. subst rows.
  unfold batch_commit in Htr. ok_as Htr tree' Htree. apply ok_inj in Htr. injection Htr as -> <-. rewrite map_map in Htree.
  split; [exact Htree|]. exact (proj2 (row_tree (r + b) h W _ tree Htree)).
Qed.

(** The part of [polys] that starts at [j]. *)
Lemma part_values (polys : list (poly E)) x : forall pre j, j = length pre -> 
  map (fun i => peval (nth i (pre ++ polys) []) x) (seq j (length polys)) = map (fun p => peval p x) polys.
Proof using Type.
  induction polys as [|p ps IH]; intros pre j ->; [reflexivity|]. cbn [length seq map]. f_equal.
  - now rewrite app_nth2, Nat.sub_diag by lia.
  - replace (pre ++ p :: ps) with ((pre ++ [p]) ++ ps) by (now rewrite <- app_assoc). apply IH. rewrite app_length. cbn. lia.
Qed.
Lemma part_values_front (polys post : list (poly E)) x : 
  map (fun i => peval (nth i (polys ++ post) []) x) (seq 0 (length polys)) = map (fun p => peval p x) polys.
Proof using Type.
  rewrite <- (part_values polys x [] 0%nat eq_refl). apply map_ext_in. intros i Hi. apply in_seq in Hi. cbn [app]. now rewrite app_nth1 by lia.
Qed.

Lemma round_1_trees (mt : trace_table E) t (r1 : round1 E a) t' : valid_trace a r mt ->
  (forall rap aux, a_build_aux a mt rap = Ok aux -> tt_n_cols aux = a_n_aux a) ->
  round_1 E a mt d t = Ok (r1, t') ->
  let parts := column_parts a (fun j => peval (nth j (r1_trace_polys E a r1) [])) in
  Forall2 (fun tree f => merkle_build (row_leaves (r + b) h W f) = Ok tree) (r1_trees E a r1) parts /\
  r1_roots E a r1 = map (row_commit (r + b) h W) parts.
Proof using A D HE.
  intros Hvt Hna H. destruct (round_1_ok HE A D mt t r1 t' Hvt H) as (_ & _ & _ & _ & _ & _ & _ & Hpl & _). destruct Hvt as (mcols & Hne & Hmc & Hv).
  unfold round_1 in H. ok_as H ic Hic. destruct ic as [[[[mp me] mtree] mroot] t0].
  destruct (interpolate_and_commit_ok HE A D mt mcols t mp me mtree mroot t0 Hmc Hne Hic) as (Hmi & _).
  destruct (commit_rows mt mcols t mp me mtree mroot t0 Hmc Hne Hic) as (Hmt & Hmr).
  ok_as H rp Hrp. destruct rp as [rap t1]. ok_as H aux Haux. specialize (Hna _ _ Haux).
  destruct (Hv _ _ _ _ Hrp Haux) as (acols & Hac & Hlen & _). pose proof Hac as (Hnc & _).
  unfold tt_is_empty in H. destruct (Nat.eqb_spec (tt_n_cols aux) 0) as [E0|E0].
  - ok_as H ldt Hldt. apply ok_inj in H. injection H as <- <-. cbn [r1_trace_polys r1_trees r1_roots] in *. cbv zeta. unfold column_parts.
    rewrite <- Hna, E0. cbn [Nat.eqb]. rewrite Nat.sub_0_r, <- Hpl.
    assert (X : forall x, map (fun p => peval p x) mp = map (fun j => peval (nth j mp []) x) (seq 0 (length mp))).
    { intro x. symmetry. exact (part_values mp x [] 0%nat eq_refl). }
    split; [constructor; [|constructor]|cbn [map]; apply f_equal2; [|reflexivity]].
    + rewrite <- (row_leaves_ext _ _ _ _ _ X). exact Hmt.
    + rewrite Hmr. unfold row_commit. now rewrite (row_leaves_ext _ _ _ _ _ X).
  - ok_as H ic2 Hic2. destruct ic2 as [[[[ap ae] atree] aroot] t2]. ok_as H ldt Hldt. apply ok_inj in H. injection H as <- <-.
    cbn [r1_trace_polys r1_trees r1_roots] in *. cbv zeta.
    assert (Hane : acols <> []) by (intro Z; subst; cbn in Hnc; congruence).
    destruct (interpolate_and_commit_ok HE A D aux acols t1 ap ae atree aroot t2 Hac Hane Hic2) as ((Hal & _) & _).
    destruct (commit_rows aux acols t1 ap ae atree aroot t2 Hac Hane Hic2) as (Hat & Har).
    assert (La : length ap = a_n_aux a). { etransitivity; [exact Hal|]. congruence. }
    rewrite app_length in Hpl. unfold column_parts. destruct (Nat.eqb_spec (a_n_aux a) 0) as [Z|Z]; [congruence|].
    replace (trace_columns (a_context a) - a_n_aux a)%nat with (length mp) by (symmetry; apply Nat.add_sub_eq_r; rewrite <- La; exact Hpl). rewrite <- La.
    assert (X : forall x, map (fun p => peval p x) mp = map (fun j => peval (nth j (mp ++ ap) []) x) (seq 0 (length mp))).
    { intro x. symmetry. exact (part_values_front mp ap x). }
    assert (Y : forall x, map (fun p => peval p x) ap = map (fun j => peval (nth j (mp ++ ap) []) x) (seq (length mp) (length ap))).
    { intro x. symmetry. exact (part_values ap x mp _ eq_refl). }
    split; [constructor; [|constructor; [|constructor]]|cbn [map]; apply f_equal2; [|apply f_equal2; [|reflexivity]]].
    + rewrite <- (row_leaves_ext _ _ _ _ _ X). exact Hmt.
    + rewrite <- (row_leaves_ext _ _ _ _ _ Y). exact Hat.
    + rewrite Hmr. unfold row_commit. now rewrite (row_leaves_ext _ _ _ _ _ X).
    + rewrite Har. unfold row_commit. now rewrite (row_leaves_ext _ _ _ _ _ Y).
Qed.

Lemma open_trees (r1 : round1 E a) (r2 : round2 E) iotas openings : (forall i, In i iotas -> (i < 2 ^ (r + b))%nat) ->
  open_deep_composition_poly E a d r1 r2 iotas = Ok openings ->
  Forall2 (fun i o => Forall2 (fun tree path => tree_path (e_node E) tree i = Some path) (r1_trees E a r1) (lde_trace_merkle_proofs o)) iotas openings.
Proof using A D HE.
  intros Hi H. unfold open_deep_composition_poly in H. apply traverse_inv in H.
  induction H as [|i o is os Ho _ IH]; constructor.
  2:{ apply IH. intros; apply Hi; now right. }
  assert (Hii : (i < 2 ^ (r + b))%nat) by (apply Hi; now left). rewrite (shape_lde_length HE D) in Ho.
  destruct (Nat.eqb_spec (2 ^ (r + b)) 0); [lia|]. rewrite (Nat.mod_small i _ Hii) in Ho.
  ok_as Ho cp Hcp. ok_as Ho ev Hev. ok_as Ho od Hod. ok_as Ho tps Htps. ok_as Ho row Hrow. apply ok_inj in Ho. subst o. cbn [lde_trace_merkle_proofs].
  apply traverse_inv in Htps. clear -Htps. induction Htps as [|tree path ts ps Hp _ IH]; constructor; [|exact IH]. now apply unwrap_ok in Hp.
Qed.

Lemma forall2_length {X Y} (R : X -> Y -> Prop) l l' : Forall2 R l l' -> length l = length l'.
Proof using Type. induction 1; cbn; congruence. Qed.

(** The discarded check succeeds for the openings of the prover. *)
Lemma honest_columns_checked (p : stark_proof E) cols (trees : list merkle_tree) i o :
  lde_trace_merkle_roots p = map (row_commit (r + b) h W) (column_parts a cols) ->
  Forall2 (fun tree f => merkle_build (row_leaves (r + b) h W f) = Ok tree) trees (column_parts a cols) ->
  Forall2 (fun tree path => tree_path (e_node E) tree i = Some path) trees (lde_trace_merkle_proofs o) -> (i < 2 ^ (r + b))%nat ->
  lde_trace_evaluations o = map (fun j => cols j (h * fpow W i)) (seq 0 (trace_columns (a_context a))) ->
  columns_checked a p i o /\ length (lde_trace_merkle_proofs o) = length (column_parts a cols).
Proof using A HE.
  intros Hr Ht Hp Hi Ho. assert (L := forall2_length _ _ _ Hp). assert (L' := forall2_length _ _ _ Ht). split; [|congruence].
  intros n root path values Hroot Hpath Hval. rewrite Hr in Hroot.
  assert (Gen : forall ts fs n root path f, Forall2 (fun tree f => merkle_build (row_leaves (r + b) h W f) = Ok tree) ts fs ->
     nth_error (map (row_commit (r + b) h W) fs) n = Some root -> nth_error fs n = Some f ->
     (exists tree, nth_error ts n = Some tree /\ tree_path (e_node E) tree i = Some path) -> opens_to (E := E) path root i (e_leaves E (f (h * fpow W i)))).
  { clear -Hi. intros ts fs n root path f HF2. revert n. induction HF2 as [|tree f0 ts fs Hb _ IH]; intros [|n] H1 H2 (tree0 & H3 & H4); cbn in H1, H2, H3; try discriminate.
    - injection H1 as <-. injection H2 as <-. injection H3 as <-. exact (row_opening _ _ _ _ _ _ _ Hb Hi H4).
    - apply (IH n H1 H2). eauto. }
  assert (Ex : exists tree, nth_error trees n = Some tree /\ tree_path (e_node E) tree i = Some path).
  { clear -Hp Hpath. revert n Hpath. induction Hp as [|tree q ts qs Hq _ IH]; intros [|n] H; cbn in H; try discriminate; [injection H as <-; exists tree; now split|exact (IH n H)]. }
  destruct (nth_error (column_parts a cols) n) as [f|] eqn:Hf.
  2:{ rewrite (proj2 (nth_error_None (map (row_commit (r + b) h W) (column_parts a cols)) n)) in Hroot; [discriminate|]. rewrite map_length. now apply nth_error_None. }
  specialize (Gen trees _ n root path f Ht Hroot Hf Ex). replace values with (f (h * fpow W i)); [exact Gen|].
  pose proof (ad_aux _ _ _ _ A) as Hle. unfold column_parts in Hf. unfold value_parts in Hval. rewrite Ho in Hval.
  set (nm := (trace_columns (a_context a) - a_n_aux a)%nat) in *.
  replace (trace_columns (a_context a)) with (nm + a_n_aux a)%nat in Hval by (unfold nm; lia). rewrite seq_app, map_app in Hval. cbn [Nat.add] in Hval.
  assert (Lf : length (map (fun j => cols j (h * fpow W i)) (seq 0 nm)) = nm) by (now rewrite map_length, seq_length).
  destruct n as [|n]; cbn in Hf, Hval.
  - injection Hf as <-. injection Hval as <-. rewrite firstn_app, Lf, Nat.sub_diag, firstn_all2 by (rewrite Lf; lia). cbn [firstn]. now rewrite app_nil_r.
  - destruct (a_n_aux a =? 0)%nat; [destruct n; discriminate|]. destruct n as [|n]; cbn in Hf, Hval; [|destruct n; discriminate].
    injection Hf as <-. injection Hval as <-. rewrite skipn_app, Lf, Nat.sub_diag, skipn_all2 by (rewrite Lf; lia). reflexivity.
Qed.
End HonestOpenings.
