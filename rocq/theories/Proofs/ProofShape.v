(** The proofs the prover returns have the shape the serializer needs. *)
From Coq Require Import List Arith NArith Lia.
From Verif.Base Require Import Outcome Bytes Field Poly.
From Verif.Model Require Import Codec Trace Merkle Air Transcript Domain Fri Prover.
From Verif.Spec Require Import CodecSpec CliSpec.
From Verif.Proofs Require Import OutcomeFacts MerkleFacts TranscriptFacts.
Import ListNotations.

Section Shape.
Context {E : env} (HD : digest_hashes E).
Notation node := (e_node E).

Lemma pair_up_digest l : Forall digest (pair_up node l).
Proof using HD. induction l as [|a|a b l IH] using list_pair_ind2; cbn [pair_up]; constructor; [apply (dh_node _ HD)|exact IH]. Qed.
Lemma mt_root_digest k : forall l, length l = 2 ^ k -> Forall digest l -> digest (mt_root node k l).
Proof using HD.
  induction k as [|k IH]; intros l L F; cbn [mt_root].
  - destruct F; [discriminate L|assumption].
  - apply IH; [apply pair_up_length; exact L|apply pair_up_digest].
Qed.
Lemma sibling_lt pos k : pos < 2 * k -> sibling pos < 2 * k.
Proof.
  unfold sibling. intro H. destruct (Nat.even pos) eqn:Ev; [|lia]. apply Nat.even_spec in Ev. destruct Ev as (j & ->). lia.
Qed.
Lemma mt_path_digest k : forall l pos, length l = 2 ^ k -> pos < 2 ^ k -> Forall digest l -> Forall digest (mt_path node k l pos).
Proof using HD.
  induction k as [|k IH]; intros l pos L P F; cbn [mt_path]; [constructor|]. cbn [Nat.pow] in *. constructor.
  - rewrite Forall_forall in F. apply F, nth_In. rewrite L. now apply sibling_lt.
  - apply IH; [apply pair_up_length; exact L|rewrite Nat.div2_div; apply Nat.div_lt_upper_bound; lia|apply pair_up_digest].
Qed.
Lemma complete_digest l : l <> [] -> Forall digest l -> Forall digest (complete_pow2 l).
Proof.
  intros Hl F. unfold complete_pow2. apply Forall_app. split; [exact F|]. apply Forall_forall. intros x Hx. apply repeat_spec in Hx. subst x.
  rewrite Forall_forall in F. apply F. destruct (exists_last Hl) as (l' & x & ->). rewrite last_last. apply in_or_app. right. now left.
Qed.
Lemma build_leaves l t : merkle_build l = Ok t -> Forall digest l -> Forall digest (tree_leaves t).
Proof.
  intros H F. unfold merkle_build in H. destruct l as [|x l]; [discriminate|]. apply ok_inj in H. subst t. cbn [tree_leaves].
  now apply complete_digest.
Qed.
Lemma build_root l t : merkle_build l = Ok t -> Forall digest l -> digest (tree_root node t).
Proof using HD. intros H F. apply mt_root_digest; [exact (tree_depth_pow2 l t H)|exact (build_leaves l t H F)]. Qed.
Lemma build_path l t i path : merkle_build l = Ok t -> Forall digest l -> tree_path node t i = Some path -> Forall digest path.
Proof using HD.
  intros H F P. unfold tree_path in P. destruct (Nat.ltb_spec i (length (tree_leaves t))) as [Hi|]; [|discriminate]. injection P as <-.
  pose proof (tree_depth_pow2 l t H) as D. apply mt_path_digest; [exact D|lia|exact (build_leaves l t H F)].
Qed.
Definition good_tree (t : merkle_tree) : Prop := digest (tree_root node t) /\ forall i path, tree_path node t i = Some path -> Forall digest path.
Lemma good_build l t : merkle_build l = Ok t -> Forall digest l -> good_tree t.
Proof using HD. intros H F. split; [exact (build_root l t H F)|]. intros i path. exact (build_path l t i path H F). Qed.
Lemma leaves_digest (l : list (list E)) : Forall digest (map (e_leaves E) l).
Proof using HD. apply Forall_forall. intros x Hx. apply in_map_iff in Hx. destruct Hx as (y & <- & _). apply (dh_leaves _ HD). Qed.
Lemma leaf_digest (l : list E) : Forall digest (map (e_leaf E) l).
Proof using HD. apply Forall_forall. intros x Hx. apply in_map_iff in Hx. destruct Hx as (y & <- & _). apply (dh_leaf _ HD). Qed.

Lemma batch_commit_good v t root : batch_commit E v = Ok (t, root) -> good_tree t /\ root = tree_root node t.
Proof using HD.
  unfold batch_commit. intro H. apply obind_ok in H. destruct H as (tr & Ht & H). apply ok_inj in H. injection H as -> <-.
  split; [|reflexivity]. exact (good_build _ _ Ht (leaves_digest v)).
Qed.
Lemma interpolate_good tr d t polys evals tree root t' : interpolate_and_commit E tr d t = Ok (polys, evals, tree, root, t') ->
  good_tree tree /\ root = tree_root node tree.
Proof using HD.
  unfold interpolate_and_commit. intro H. do 4 (apply obind_ok in H; destruct H as (? & ? & H)). apply obind_ok in H. destruct H as ([tr' rt] & Hb & H).
  apply ok_inj in H. injection H as <- <- <- <- <-. exact (batch_commit_good _ _ _ Hb).
Qed.
Lemma round_1_good a main d t r1 t' : round_1 E a main d t = Ok (r1, t') ->
  Forall good_tree (r1_trees E a r1) /\ Forall digest (r1_roots E a r1).
Proof using HD.
  unfold round_1. intro H. apply obind_ok in H. destruct H as ([[[[polys evals] tree] root] t1] & Hi & H). apply interpolate_good in Hi.
  apply obind_ok in H. destruct H as ([rap t2] & _ & H). apply obind_ok in H. destruct H as (aux & _ & H).
  destruct (tt_is_empty aux).
  - apply obind_ok in H. destruct H as (l & _ & H). apply ok_inj in H. injection H as <- <-. cbn [r1_trees r1_roots].
    destruct Hi as [G ->]. split; repeat constructor; apply G || exact G.
  - apply obind_ok in H. destruct H as ([[[[polys' evals'] tree'] root'] t3] & Hj & H). apply interpolate_good in Hj.
    apply obind_ok in H. destruct H as (l & _ & H). apply ok_inj in H. injection H as <- <-. cbn [r1_trees r1_roots].
    destruct Hi as [G ->], Hj as [G' ->]. split; repeat constructor; (apply G || apply G').
Qed.
Lemma round_2_good a d r1 tc bc r2 : round_2 E a d r1 tc bc = Ok r2 -> good_tree (r2_tree E r2) /\ r2_root E r2 = tree_root node (r2_tree E r2).
Proof using HD.
  unfold round_2. intro H. do 2 (apply obind_ok in H; destruct H as (? & ? & H)). destruct (even_odd _) as [ev od].
  do 2 (apply obind_ok in H; destruct H as (? & ? & H)). apply obind_ok in H. destruct H as ([tr' rt] & Hb & H).
  apply ok_inj in H. subst r2. exact (batch_commit_good _ _ _ Hb).
Qed.
Lemma layer_good p o n l : fri_layer_new E p o n = Ok l -> good_tree (fl_tree l).
Proof using HD.
  unfold fri_layer_new. intro H. apply obind_ok in H. destruct H as (ev & _ & H). apply obind_ok in H. destruct H as (tr & Ht & H). apply ok_inj in H. subst l.
  exact (good_build _ _ Ht (leaf_digest ev)).
Qed.
Lemma loop_good k : forall p o n t ls p' t', fri_loop E k p o n t = Ok (ls, p', t') -> Forall (fun l => good_tree (fl_tree l)) ls.
Proof using HD.
  induction k as [|k IH]; intros p o n t ls p' t' H; cbn [fri_loop] in H.
  - apply ok_inj in H. injection H as <- _ _. constructor.
  - apply obind_ok in H. destruct H as ([z t1] & _ & H). apply obind_ok in H. destruct H as (l & Hl & H). apply obind_ok in H.
    destruct H as ([[ls' p1] t2] & Hr & H). apply ok_inj in H. injection H as <- _ _. constructor; [exact (layer_good _ _ _ _ Hl)|exact (IH _ _ _ _ _ _ _ Hr)].
Qed.
Lemma commit_good k p t o n v ls t' : fri_commit_phase E k p t o n = Ok (v, ls, t') -> ls <> [] /\ Forall (fun l => good_tree (fl_tree l)) ls.
Proof using HD.
  unfold fri_commit_phase. intro H. apply obind_ok in H. destruct H as (l & Hl & H). apply obind_ok in H. destruct H as ([[ls' p'] t1] & Hr & H).
  apply obind_ok in H. destruct H as ([z t2] & _ & H). apply ok_inj in H. injection H as _ <- _. split; [discriminate|].
  constructor; [exact (layer_good _ _ _ _ Hl)|exact (loop_good _ _ _ _ _ _ _ _ Hr)].
Qed.
Definition good_query (d : fri_decommitment E) : Prop :=
  layers_evaluations d <> [] /\ paths_wf (layers_auth_paths_sym d) /\ paths_wf (layers_auth_paths d).
Lemma decommit_good ls i d : ls <> [] -> Forall (fun l => good_tree (fl_tree l)) ls -> fri_decommit E ls i = Ok d -> good_query d.
Proof using HD.
  intros Hne F H. unfold fri_decommit in H. apply obind_ok in H. destruct H as (os & Ho & H). apply ok_inj in H. subst d.
  assert (G : Forall (fun o : list commitment * E * list commitment * E => Forall digest (fst (fst (fst o))) /\ Forall digest (snd (fst o))) os).
  { apply traverse_inv in Ho. revert F. induction Ho as [|l o ls os Hlo Ho IH]; intro F; [constructor|]. inversion F as [|? ? Gl Fl]; subst.
    constructor.
    - unfold fri_open_layer in Hlo. destruct (fl_domain_size l =? 0); [discriminate|]. apply obind_ok in Hlo. destruct Hlo as (es & _ & Hlo).
      apply obind_ok in Hlo. destruct Hlo as (ps & Hps & Hlo). apply obind_ok in Hlo. destruct Hlo as (ev & _ & Hlo).
      apply obind_ok in Hlo. destruct Hlo as (pa & Hpa & Hlo). apply ok_inj in Hlo. subst o. cbn [fst snd].
      destruct Gl as [_ Gl]. unfold unwrap in Hps, Hpa.
      destruct (tree_path node (fl_tree l) ((i + fl_domain_size l / 2) mod fl_domain_size l)) eqn:E1; [|discriminate].
      destruct (tree_path node (fl_tree l) (i mod fl_domain_size l)) eqn:E2; [|discriminate].
      apply ok_inj in Hps, Hpa. subst. split; eapply Gl; eassumption.
    - destruct ls; [apply traverse_inv in H0 || (inversion Ho; constructor)|]. apply IH; [discriminate|exact Fl]. }
  unfold good_query, paths_wf. cbn [layers_evaluations layers_auth_paths_sym layers_auth_paths]. split; [|split].
  - apply traverse_length in Ho. destruct ls; [contradiction|]. destruct os; [discriminate Ho|discriminate].
  - apply Forall_forall. intros x Hx. apply in_map_iff in Hx. destruct Hx as (o & <- & Hin). rewrite Forall_forall in G. apply (G o Hin).
  - apply Forall_forall. intros x Hx. apply in_map_iff in Hx. destruct Hx as (o & <- & Hin). rewrite Forall_forall in G. apply (G o Hin).
Qed.
Lemma query_good q n ls t ql io t' : ls <> [] -> Forall (fun l => good_tree (fl_tree l)) ls -> fri_query_phase E q n ls t = Ok (ql, io, t') -> Forall good_query ql.
Proof using HD.
  intros Hne F H. unfold fri_query_phase in H. destruct ls as [|l ls]; [contradiction|]. apply obind_ok in H. destruct H as ([iotas t1] & _ & H).
  apply obind_ok in H. destruct H as (ql' & Hq & H). apply ok_inj in H. injection H as <- _ _. apply traverse_inv in Hq.
  induction Hq as [|i d is ds Hd Hq IH]; constructor; [exact (decommit_good _ i d Hne F Hd)|exact IH].
Qed.
Definition good_opening (o : deep_openings E) : Prop := Forall digest (lde_composition_poly_proof o) /\ paths_wf (lde_trace_merkle_proofs o).
Lemma openings_good a d r1 r2 is os : Forall good_tree (r1_trees E a r1) -> good_tree (r2_tree E r2) ->
  open_deep_composition_poly E a d r1 r2 is = Ok os -> Forall good_opening os.
Proof using HD.
  intros G1 G2 H. unfold open_deep_composition_poly in H. apply traverse_inv in H. induction H as [|i o is os Ho _ IH]; constructor; [|exact IH].
  destruct (length (lde_roots_of_unity_coset d) =? 0); [discriminate|]. apply obind_ok in Ho. destruct Ho as (cp & Hcp & Ho).
  do 2 (apply obind_ok in Ho; destruct Ho as (? & _ & Ho)). apply obind_ok in Ho. destruct Ho as (tps & Htp & Ho).
  apply obind_ok in Ho. destruct Ho as (row & _ & Ho). apply ok_inj in Ho. subst o. unfold good_opening. cbn [lde_composition_poly_proof lde_trace_merkle_proofs].
  split.
  - unfold unwrap in Hcp. destruct (tree_path node (r2_tree E r2) _) eqn:E1; [|discriminate]. apply ok_inj in Hcp. subst. exact (proj2 G2 _ _ E1).
  - apply traverse_inv in Htp. unfold paths_wf. revert G1. induction Htp as [|t p ts ps Hp _ IHp]; intro G1; constructor; inversion G1 as [|? ? Gt Gs]; subst.
    + unfold unwrap in Hp. destruct (tree_path node t _) eqn:E1; [|discriminate]. apply ok_inj in Hp. subst. exact (proj2 Gt _ _ E1).
    + now apply IHp.
Qed.
Lemma round_4_good a d r1 r2 r3 z t r4 t' : Forall good_tree (r1_trees E a r1) -> good_tree (r2_tree E r2) ->
  round_4 E a d r1 r2 r3 z t = Ok (r4, t') ->
  Forall digest (r4_fri_roots E r4) /\ Forall good_opening (r4_deep_openings E r4) /\ Forall good_query (r4_query_list E r4) /\ (r4_nonce E r4 < two64)%N.
Proof using HD.
  intros G1 G2 H. unfold round_4 in H. apply obind_ok in H. destruct H as ([g t1] & _ & H). apply obind_ok in H. destruct H as ([g' t2] & _ & H).
  apply obind_ok in H. destruct H as ([gs t3] & _ & H). apply obind_ok in H. destruct H as (deep & _ & H).
  apply obind_ok in H. destruct H as ([[v ls] t4] & Hc & H). destruct (commit_good _ _ _ _ _ _ _ _ Hc) as [Hne F].
  destruct (tr_challenge t4) as [ch t5]. apply obind_ok in H. destruct H as (no & Hn & H). apply obind_ok in H. destruct H as (nn & Hu & H).
  apply obind_ok in H. destruct H as ([[ql io] t6] & Hq & H). apply obind_ok in H. destruct H as (os & Ho & H). apply ok_inj in H. injection H as <- _.
  cbn [r4_fri_roots r4_deep_openings r4_query_list r4_nonce]. split; [|split; [|split]].
  - apply Forall_forall. intros x Hx. apply in_map_iff in Hx. destruct Hx as (l & <- & Hl). rewrite Forall_forall in F. apply (F l Hl).
  - exact (openings_good _ _ _ _ _ _ G1 G2 Ho).
  - exact (query_good _ _ _ _ _ _ _ Hne F Hq).
  - destruct no as [x|]; [|discriminate]. apply ok_inj in Hu. subst x. apply generate_nonce_spec in Hn. destruct Hn as (_ & _ & Hn). unfold u64_max, two64 in *. lia.
Qed.

Theorem prove_shape fuel mk main p : prove E fuel mk main = Ok p ->
  trace_length p = a_trace_length (mk (tt_n_rows main)) /\ (nonce p < two64)%N /\ Forall digest (lde_trace_merkle_roots p) /\
  digest (composition_poly_root p) /\ Forall digest (fri_layers_merkle_roots p) /\ Forall good_query (query_list p) /\ Forall good_opening (deep_poly_openings p).
Proof using HD.
  unfold prove. intro H. cbv zeta in H. apply obind_ok in H. destruct H as (d & _ & H). apply obind_ok in H. destruct H as ([r1 t1] & H1 & H).
  apply round_1_good in H1. destruct H1 as [G1 R1]. apply obind_ok in H. destruct H as (bcs & _ & H).
  do 4 (apply obind_ok in H; destruct H as ([? ?] & _ & H)). apply obind_ok in H. destruct H as (r2 & H2 & H). apply round_2_good in H2. destruct H2 as [G2 R2].
  apply obind_ok in H. destruct H as ([z tz] & _ & H). apply obind_ok in H. destruct H as ([r4 tw] & H4 & H).
  apply (round_4_good _ _ _ _ _ _ _ _ _ G1 G2) in H4. destruct H4 as (F1 & F2 & F3 & F4). apply ok_inj in H. subst p.
  cbn [trace_length nonce lde_trace_merkle_roots composition_poly_root fri_layers_merkle_roots query_list deep_poly_openings].
  repeat (split; [first [reflexivity|assumption]|]). split; [rewrite R2; apply G2|]. repeat (split; [assumption|]). assumption.
Qed.
End Shape.
