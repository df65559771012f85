(** The prover does not panic on valid traces. *)
From Coq Require Import List Arith NArith Lia Field Bool.
From Verif.Base Require Import Outcome Field Poly.
From Verif.Model Require Import Codec Trace Merkle Air Transcript Domain Fri Evaluator Prover Verifier.
From Verif.Spec Require Import AirSpec Forgery ProvingSpec.
From Verif.Proofs Require Import OutcomeFacts FieldFacts PolyFacts FFTFacts TraceFacts MerkleFacts FriFacts
  DomainFacts TranscriptFacts ComposeFacts DeepFacts VerifierTotal Completeness.
Import ListNotations.
Local Open Scope felt_scope.

Lemma build_total l : l <> [] -> exists t, merkle_build l = Ok t.
Proof. destruct l as [|x l]; [congruence|]. intros _. cbn. eauto. Qed.

Lemma path_total node l t i : merkle_build l = Ok t -> (i < length l)%nat -> exists p, tree_path node t i = Some p.
Proof.
  intros H Hi. unfold merkle_build in H. destruct l as [|x l]; [discriminate|]. apply ok_inj in H. subst t. unfold tree_path. cbn [tree_leaves].
  destruct (Nat.ltb_spec i (length (complete_pow2 (x :: l)))) as [L|L]; [eauto|]. rewrite complete_pow2_length in L. pose proof (next_pow2_ge (length (x :: l))). lia.
Qed.

Section FriTotal.
Context {E : env} (HE : env_ok E) (HS : sampling_ok E).
Let HF : fft_ok E := e_fft_ok E HE.
Let HK : field_ok E := fft_field_ok E HF.

Lemma layer_total (p : poly E) h m : (length p <= 2 ^ m)%nat -> (1 <= m <= two_adicity E)%nat -> exists l, fri_layer_new E p h (2 ^ m) = Ok l.
Proof using HE.
  intros Hp Hm. unfold fri_layer_new, evaluate_offset_fft. rewrite next_pow2_le by exact Hp. rewrite Nat.mul_1_r.
  rewrite (proj2 (is_pow2_spec (2 ^ m))) by (now exists m). rewrite Nat.log2_pow2 by lia.
  destruct (primitive_root_some m Hm) as [w ->]. cbn [unwrap_r obind].
  destruct (build_total (map (e_leaf E) (map (fun i => peval p (h * fpow w i)) (seq 0 (2 ^ m))))) as [t ->]; [|cbn; eauto].
  pose proof (pow2_pos m). destruct (2 ^ m)%nat; [lia|]. discriminate.
Qed.

(** Every index can be opened in a layer. *)
Definition openable (l : fri_layer E) : Prop := forall i, exists o, fri_open_layer E i l = Ok o.
Lemma layer_openable (p : poly E) h m l : fri_layer_new E p h (2 ^ m) = Ok l -> (length p <= 2 ^ m)%nat -> (1 <= m)%nat -> openable l.
Proof using HE.
  intros H Hp Hm i. destruct (fri_layer_new_ok E HE p h m l H Hp Hm) as (w & _ & Hev & Hds & Ht). unfold fri_open_layer. rewrite Hds.
  pose proof (pow2_pos m). destruct (Nat.eqb_spec (2 ^ m) 0); [lia|].
  assert (Hl : length (fl_evaluation l) = (2 ^ m)%nat) by (rewrite Hev, map_length; apply seq_length).
  assert (H1 : ((i + 2 ^ m / 2) mod 2 ^ m < 2 ^ m)%nat) by (apply Nat.mod_upper_bound; lia).
  assert (H2 : (i mod 2 ^ m < 2 ^ m)%nat) by (apply Nat.mod_upper_bound; lia).
  destruct (path_total (e_node E) _ _ ((i + 2 ^ m / 2) mod 2 ^ m) Ht) as [p1 Hp1]; [rewrite map_length; lia|].
  destruct (path_total (e_node E) _ _ (i mod 2 ^ m) Ht) as [p2 Hp2]; [rewrite map_length; lia|].
  rewrite (idx_nth _ _ 0) by lia. cbn [obind]. rewrite Hp1. cbn [unwrap obind]. rewrite (idx_nth _ _ 0) by lia. cbn [obind]. rewrite Hp2. cbn. eauto.
Qed.

Lemma loop_total k : forall (p : poly E) h m (t : e_tr E), (k < m <= two_adicity E)%nat -> (length p <= 2 ^ m)%nat ->
  exists ls p' t', fri_loop E k p h (2 ^ m) t = Ok (ls, p', t') /\ Forall openable ls.
Proof using HE HS.
  induction k as [|k IH]; intros p h m t Hm Hp; cbn [fri_loop]; [eauto 6|].
  destruct (field_total HS t) as (z & t1 & ->). cbn [obind]. cbv zeta. rewrite half_pow2 by lia.
  assert (Hf : (length (fold_polynomial p z) <= 2 ^ (m - 1))%nat).
  { apply fold_length. replace (2 * 2 ^ (m - 1))%nat with (2 ^ m)%nat; [exact Hp|]. destruct m; [lia|]. cbn [Nat.pow]. now rewrite Nat.sub_succ, Nat.sub_0_r. }
  destruct (layer_total (fold_polynomial p z) (fsquare h) (m - 1) Hf) as [l Hl]; [lia|].
  pose proof (layer_openable _ _ _ _ Hl Hf ltac:(lia)) as Ho. rewrite Hl. cbn [obind].
  destruct (IH (fold_polynomial p z) (fsquare h) (m - 1)%nat (tr_append t1 (fl_root E l))) as (ls & p' & t' & -> & HL); [lia|exact Hf|].
  cbn [obind]. eexists _, _, _. split; [reflexivity|]. now constructor.
Qed.

Lemma commit_total k (p : poly E) h m (t : e_tr E) : (k <= m <= two_adicity E)%nat -> (1 <= m)%nat -> (length p <= 2 ^ m)%nat ->
  exists v ls t', fri_commit_phase E k p t h (2 ^ m) = Ok (v, ls, t') /\ Forall openable ls.
Proof using HE HS.
  intros Hk Hm Hp. unfold fri_commit_phase. destruct (layer_total p h m Hp) as [l Hl]; [lia|].
  pose proof (layer_openable _ _ _ _ Hl Hp Hm) as Ho. rewrite Hl. cbn [obind].
  destruct (loop_total (k - 1) p h m (tr_append t (fl_root E l))) as (ls & p' & t' & -> & HL); [lia|exact Hp|]. cbn [obind].
  destruct (field_total HS t') as (z & t1 & ->). cbn [obind]. eexists _, _, _. split; [reflexivity|]. now constructor.
Qed.

Lemma query_total q n ls (t : e_tr E) : (0 < n)%nat -> Forall openable ls ->
  exists ql io t', fri_query_phase E q n ls t = Ok (ql, io, t').
Proof using HS.
  intros Hn HL. unfold fri_query_phase. destruct ls as [|l ls]; [eauto|]. destruct (indices_total HS q n Hn t) as (io & t' & ->). cbn [obind].
  destruct (traverse_total (fri_decommit E (l :: ls)) io) as [ql ->]; [|cbn; eauto].
  intros i _. unfold fri_decommit. destruct (traverse_total (fri_open_layer E i) (l :: ls)) as [os ->]; [|cbn; eauto].
  intros x Hx. rewrite Forall_forall in HL. exact (HL x Hx i).
Qed.
End FriTotal.

Section ProverTotal.
Context {E : env} (HE : env_ok E) (HS : sampling_ok E).
Let HF : fft_ok E := e_fft_ok E HE.
Let HK : field_ok E := fft_field_ok E HF.
Add Field Kfield50 : (fld_th E HK).
Context {a : air E} {d : domain E} {r b k : nat} {g W : E}.
Let h : E := e_u64 E (coset_offset (a_options a)).
Context (A : admissible a r b k) (P : proving_ok a r b) (D : domain_shape d r b h g W).
Let n := (2 ^ r)%nat.
Let NN := (2 ^ (r + b))%nat.
Notation x_ := (pt h W).

Lemma lde_eval_total (p : poly E) : (length p <= n)%nat ->
  evaluate_polynomial_on_lde_domain p (d_blowup_factor d) (interpolation_domain_size d) (d_coset_offset d) = Ok (map (fun i => peval p (x_ i)) (seq 0 NN)).
Proof using A D HE P.
  intro Hp. rewrite (ds_blowup _ _ _ _ _ _ D), (ds_size _ _ _ _ _ _ D), (ds_offset _ _ _ _ _ _ D).
  destruct (eval_lde_succeeds HF p r b h (ds_r _ _ _ _ _ _ D) (pk_two_adicity _ _ _ P) Hp) as [l Hl].
  pose proof (eval_lde_ok HF p r b h W l (ds_r _ _ _ _ _ _ D) (ds_W _ _ _ _ _ _ D) Hl) as El. rewrite Hl, El. reflexivity.
Qed.

Lemma lde_evals_rect polys : polys <> [] -> exists t, tt_new_from_cols (lde_evals (a := a) (r := r) (b := b) (W := W) polys) = Ok t /\
  is_table t (map (fun i => map (fun p => peval p (x_ i)) polys) (seq 0 NN)).
Proof using A D HE.
  intro Hne. destruct polys as [|p0 polys]; [congruence|]. unfold lde_evals. cbn [map].
  match goal with |- context [tt_new_from_cols (?c0 :: ?cols)] => pose proof (new_from_cols_ok c0 cols (0 : E)) as H end.
  rewrite H.
  2:{ intros c Hc. apply in_map_iff in Hc. destruct Hc as (p & <- & _). now rewrite !map_length. }
  eexists. split; [reflexivity|].
  apply (lde_table HE D (ad_n _ _ _ _ A) (ad_blowup _ _ _ _ A) (ad_b _ _ _ _ A) (p0 :: polys)); [discriminate|]. exact (H ltac:(intros c Hc; apply in_map_iff in Hc; destruct Hc as (p & <- & _); now rewrite !map_length)).
Qed.

Lemma NN_seq : seq 0 NN <> [].
Proof using Type. pose proof (pow2_pos (r + b)). unfold NN. destruct (2 ^ (r + b))%nat; [lia|discriminate]. Qed.

(** A tree in which every point of the evaluation domain can be opened. *)
Definition full_tree (t : merkle_tree) : Prop := forall i, (i < NN)%nat -> exists p, tree_path (e_node E) t i = Some p.
Lemma built_full {X} (f : X -> commitment) (F : nat -> X) t : merkle_build (map f (map F (seq 0 NN))) = Ok t -> full_tree t.
Proof using Type. intros H i Hi. apply (path_total _ _ _ _ H). now rewrite !map_length, seq_length. Qed.

Lemma interpolate_and_commit_total (mt : trace_table E) cols t : has_columns mt n cols -> cols <> [] ->
  exists polys tree root, interpolate_and_commit E mt d t = Ok (polys, lde_evals (a := a) (r := r) (b := b) (W := W) polys, tree, root, tr_append t root) /\ full_tree tree.
Proof using A D HE P.
  intros Hc Hne. pose proof Hc as (Hnc & Hl & Ht).
  assert (Et : mt = mk_trace (concat (transpose cols n 0)) (length cols)) by (destruct mt as [tab nc]; cbn in *; subst; reflexivity).
  assert (Hps : exists ps, tt_compute_trace_polys mt = Ok ps).
  { unfold tt_compute_trace_polys. rewrite Et, transpose_cols by assumption. cbn [obind].
    destruct (traverse_total interpolate_fft cols) as [ps ->]; [|cbn; eauto]. intros c Hin.
    destruct (interpolate_offset_ok HF c 1 r g (Hl c Hin) (ds_r _ _ _ _ _ _ D) (one_neq_zero HK) (ds_g _ _ _ _ _ _ D)) as (p & Hp & _). eauto. }
  destruct Hps as [ps Hps].
  assert (Hlen : forall p, In p ps -> (length p <= n)%nat).
  { assert (Hps' := Hps). unfold tt_compute_trace_polys in Hps'. rewrite Et, transpose_cols in Hps' by assumption. cbn [obind] in Hps'. apply unwrap_r_ok in Hps'.
    apply traverse_inv in Hps'. intros p Hin. clear -Hps' Hin Hl HF HK D. induction Hps' as [|c q cs qs Hq _ IH]; [destruct Hin|].
    destruct Hin as [->|Hin]; [|apply IH; [intros; apply Hl; now right|exact Hin]].
    specialize (Hl c (or_introl eq_refl)).
    destruct (interpolate_offset_ok HF c 1 r g Hl (ds_r _ _ _ _ _ _ D) (one_neq_zero HK) (ds_g _ _ _ _ _ _ D)) as (p' & Hp' & Hpl & _).
    unfold interpolate_fft in Hq. rewrite Hq in Hp'. apply ok_inj in Hp'. subst p'. now rewrite Hl in Hpl. }
  assert (Hev : compute_lde_trace_evaluations E ps d = Ok (lde_evals (a := a) (r := r) (b := b) (W := W) ps)).
  { unfold compute_lde_trace_evaluations, lde_evals. rewrite (traverse_map _ (fun p => map (fun i => peval p (x_ i)) (seq 0 NN))); [reflexivity|].
    intros p Hp. now apply lde_eval_total, Hlen. }
  assert (Hpne : ps <> []).
  { intros ->. assert (Hps' := Hps). unfold tt_compute_trace_polys in Hps'. rewrite Et, transpose_cols in Hps' by assumption. cbn [obind] in Hps'. apply unwrap_r_ok in Hps'.
    apply traverse_length in Hps'. destruct cols; [congruence|discriminate]. }
  unfold interpolate_and_commit. rewrite Hps. cbn [obind]. rewrite Hev. cbn [obind].
  destruct (lde_evals_rect ps Hpne) as (lt & -> & Htab). cbn [obind]. rewrite (table_rows _ _ Htab). cbn [obind]. unfold batch_commit.
  destruct (build_total (map (e_leaves E) (map (fun i => map (fun p => peval p (x_ i)) ps) (seq 0 NN)))) as [tree Htree].
  { pose proof NN_seq. destruct (seq 0 NN); [congruence|discriminate]. }
  rewrite Htree. cbn [obind]. eexists _, _, _. split; [reflexivity|]. exact (built_full _ _ _ Htree).
Qed.

Lemma round_1_total mt t : valid_trace a r mt ->
  (exists r1 t', round_1 E a mt d t = Ok (r1, t') /\ Forall full_tree (r1_trees E a r1) /\ exists aux, a_build_aux a mt (r1_rap E a r1) = Ok aux) \/
  (exists root rap, (exists polys evals tree t', interpolate_and_commit E mt d t = Ok (polys, evals, tree, root, t')) /\
     (exists t', a_build_rap a (tr_append t root) = Ok (rap, t')) /\ forall aux, a_build_aux a mt rap <> Ok aux).
Proof using A D HE P.
  intros (mcols & Hne & Hmc & Hv). unfold round_1.
  destruct (interpolate_and_commit_total mt mcols t Hmc Hne) as (mp & mtree & mroot & Hic & Hft). rewrite Hic. cbn [obind].
  destruct (pk_rap _ _ _ P (tr_append t mroot)) as (rap & t1 & Hrap). rewrite Hrap. cbn [obind].
  destruct (a_build_aux a mt rap) as [aux|e|] eqn:Haux.
  2:{ right. exists mroot, rap. split; [eexists _, _, _, _; reflexivity|]. split; [now exists t1|]. intro aux. rewrite Haux. discriminate. }
  2:{ right. exists mroot, rap. split; [eexists _, _, _, _; reflexivity|]. split; [now exists t1|]. intro aux. rewrite Haux. discriminate. }
  left. cbn [obind]. destruct (Hv _ _ _ _ Hrap Haux) as (acols & Hac & Hlen & Hsat).
  destruct (interpolate_and_commit_ok HE A D mt mcols t _ _ _ _ _ Hmc Hne Hic) as (Hmi & _).
  assert (Hmp : mp <> []) by (destruct Hmi as (Hl & _); intros ->; cbn in Hl; destruct mcols; [congruence|discriminate]).
  unfold tt_is_empty. pose proof Hac as (Hnc & _). destruct (Nat.eqb_spec (tt_n_cols aux) 0) as [E0|E0].
  - destruct (lde_evals_rect mp Hmp) as (lt & -> & _). cbn [obind]. eexists _, _. split; [reflexivity|]. cbn [r1_trees r1_rap]. split; [repeat constructor; exact Hft|eauto].
  - assert (Hane : acols <> []) by (intros ->; cbn in Hnc; congruence).
    destruct (interpolate_and_commit_total aux acols t1 Hac Hane) as (ap & atree & aroot & Hic2 & Hft2). rewrite Hic2. cbn [obind].
    destruct (lde_evals_rect (mp ++ ap)) as (lt & Hlt & _); [destruct mp; [congruence|discriminate]|].
    unfold lde_evals in Hlt. rewrite map_app in Hlt. fold (lde_evals (a := a) (r := r) (b := b) (W := W) mp) in Hlt. fold (lde_evals (a := a) (r := r) (b := b) (W := W) ap) in Hlt.
    rewrite Hlt. cbn [obind]. eexists _, _. split; [reflexivity|]. cbn [r1_trees r1_rap]. split; [repeat constructor; assumption|eauto].
Qed.

(** No point of the evaluation domain is a root of unity of the trace domain: the trace domain consists of squares. *)
Lemma lde_off_trace i : fpow (x_ i) n - 1 <> 0.
Proof using A D HE P.
  intro H. apply (proj1 (sub_zero HK _ _)) in H. apply (root_of_unity_in HK g n) in H; [|apply pow2_pos|exact (ds_gprim _ _ _ _ _ _ D)].
  apply coset_in in H. destruct H as (j & _ & Hj).
  assert (Hg : g = fpow W (2 ^ (b - 1)) * fpow W (2 ^ (b - 1))).
  { rewrite <- (fpow_add HK). replace (2 ^ (b - 1) + 2 ^ (b - 1))%nat with (2 ^ b)%nat; [symmetry; exact (ds_gW _ _ _ _ _ _ D)|].
    pose proof (ad_b _ _ _ _ A). destruct b as [|b']; [lia|]. rewrite Nat.sub_succ, Nat.sub_0_r. cbn [Nat.pow]. lia. }
  apply (ad_coset a r b k A (fpow (fpow W (2 ^ (b - 1))) j) W i (ds_W _ _ _ _ _ _ D)). fold h.
  change (h * fpow W i) with (x_ i). rewrite Hj, Hg, (fpow_mul_base HK). ring.
Qed.

Lemma lde_point v : In v (lde_roots_of_unity_coset d) -> exists i, (i < NN)%nat /\ v = x_ i.
Proof using D HE. rewrite (shape_lde_coset HE D). intro H. apply coset_in in H. exact H. Qed.

Lemma position_total e l : In e l -> exists q, position e l = Some q.
Proof using Type.
  induction l as [|y l IH]; [intros []|]. intro H. cbn [position]. destruct (Nat.eqb_spec y e) as [|Hne]; [eauto|].
  destruct IH as [q ->]; [now destruct H|]. cbn. eauto.
Qed.

(** The parts of the constraint evaluation, each with its shape. *)
Lemma zinv_total bcs : exists zinv, boundary_zerofiers_inverse d bcs = Ok zinv /\ length zinv = length bcs /\ forall l, In l zinv -> length l = NN.
Proof using A D HE P.
  unfold boundary_zerofiers_inverse.
  rewrite (traverse_map _ (fun bc => map finv (map (fun v => v - fpow (trace_primitive_root d) (bc_step bc)) (lde_roots_of_unity_coset d)))).
  - eexists. split; [reflexivity|]. split; [apply map_length|]. intros l Hl. apply in_map_iff in Hl. destruct Hl as (bc & <- & _).
    rewrite !map_length. exact (shape_lde_length HE D).
  - intros bc _. apply (batch_inverse_ok HK). intros x Hx. apply in_map_iff in Hx. destruct Hx as (v & <- & Hv). destruct (lde_point v Hv) as (i & _ & ->).
    rewrite (ds_root _ _ _ _ _ _ D). apply (root_not_domain HE D (ad_n _ _ _ _ A) (ad_blowup _ _ _ _ A) (ad_b _ _ _ _ A)). exact (lde_off_trace i).
Qed.

Lemma bev_total (polys : list (poly E)) lt bcs : is_table lt (map (fun i => map (fun p => peval p (x_ i)) polys) (seq 0 NN)) ->
  tt_n_cols lt = length polys -> (forall bc, In bc bcs -> (bc_col bc < length polys)%nat) ->
  exists bev, boundary_polys_evaluations d lt bcs = Ok bev /\ length bev = length bcs /\ forall l, In l bev -> length l = NN.
Proof using A D HE P.
  intros (Hcp & Htab & HFr) Hc Hcol. unfold boundary_polys_evaluations.
  rewrite (traverse_map _ (fun bc => map (fun v => v - bc_value bc) (firstn NN (map (fun r => nth (bc_col bc) r 0) (map (fun i => map (fun p => peval p (x_ i)) polys) (seq 0 NN)))))).
  - eexists. split; [reflexivity|]. split; [apply map_length|]. intros l Hl. apply in_map_iff in Hl. destruct Hl as (bc & <- & _).
    rewrite map_length, firstn_length, !map_length, seq_length. apply Nat.min_id.
  - intros bc Hbc. unfold step_by. destruct (tt_n_cols lt) as [|c'] eqn:Ec; [exfalso; clear -Hcp; inversion Hcp|]. rewrite <- Ec in *.
    rewrite Htab, (every_concat _ _ _ 0 HFr) by (rewrite Hc; now apply Hcol). cbn [obind]. now rewrite (shape_lde_length HE D).
Qed.

Lemma boundary_at_total (zinv bev : list (list E)) nb coeffs i (dd : E) : (i < NN)%nat -> length zinv = nb -> (forall l, In l zinv -> length l = NN) ->
  length bev = nb -> (forall l, In l bev -> length l = NN) -> exists v, boundary_evaluation_at zinv bev nb coeffs i dd = Ok v.
Proof using Type.
  intros Hi Lz Hz Lb Hb. unfold boundary_evaluation_at. apply ofold_total. intros acc [q [al be]] Hin. apply in_combine_l, in_seq in Hin.
  rewrite (idx_nth zinv q []) by lia. cbn [obind]. rewrite (idx_nth _ _ 0) by (rewrite Hz; [exact Hi|apply nth_In; lia]). cbn [obind].
  rewrite (idx_nth bev q []) by lia. cbn [obind]. rewrite (idx_nth _ _ 0) by (rewrite Hb; [exact Hi|apply nth_In; lia]). cbn. eauto.
Qed.

Lemma ex_total : exists polys exv, transition_exemption_polys a = Ok polys /\ evaluate_transition_exemptions d polys = Ok exv /\
  length exv = length (filter (fun v => (0 <? v)%nat) (uniq (transition_exemptions (a_context a)))) /\ forall l, In l exv -> length l = NN.
Proof using A D HE P.
  assert (Hp : exists polys, transition_exemption_polys a = Ok polys).
  { unfold transition_exemption_polys, powers_coset. rewrite (ad_n _ _ _ _ A), tz_pos_pow2, (ds_g _ _ _ _ _ _ D). cbn. eauto. }
  destruct Hp as [polys Hp]. exists polys.
  pose proof (transition_exemption_polys_ok HE a r g polys (ad_n _ _ _ _ A) (ds_g _ _ _ _ _ _ D) (ad_ex_le _ _ _ _ A) Hp) as Ep.
  exists (map (fun p => map (fun i => peval p (x_ i)) (seq 0 NN)) polys). split; [exact Hp|]. split; [|split].
  - unfold evaluate_transition_exemptions. apply traverse_map. intros p Hin. rewrite lde_eval_total; [reflexivity|].
    rewrite Ep in Hin. apply in_map_iff in Hin. destruct Hin as (e & <- & He). apply filter_In in He. destruct He as [He _]. apply (proj1 (uniq_in _ _)) in He.
    pose proof (pk_ex_lt _ _ _ P e He). pose proof (exemption_poly_length g (2 ^ r) e). unfold n. lia.
  - now rewrite Ep, !map_length.
  - intros l Hl. apply in_map_iff in Hl. destruct Hl as (p & <- & _). now rewrite map_length, seq_length.
Qed.

Lemma dadj_total : exists dadj, degree_adjustments_lde a d = Ok dadj /\
  (forall deg, In deg (transition_degrees (a_context a)) -> (deg <= length dadj)%nat) /\ forall l, In l dadj -> length l = NN.
Proof using A D HE P.
  unfold degree_adjustments_lde. pose proof (pk_deg_ne _ _ _ P) as Hne.
  assert (Ho : list_max_o (transition_degrees (a_context a)) = Some (list_max (transition_degrees (a_context a)))) by (destruct (transition_degrees (a_context a)); [congruence|reflexivity]).
  rewrite Ho. cbn [unwrap obind]. rewrite (ad_n _ _ _ _ A).
  rewrite (traverse_map _ (fun deg => map (fun x => fpow x (a_degree_bound a - 2 ^ r * (deg - 1))) (lde_roots_of_unity_coset d))).
  - eexists. split; [reflexivity|]. split.
    + intros deg Hd. rewrite map_length, seq_length. now apply list_max_le_in.
    + intros l Hl. apply in_map_iff in Hl. destruct Hl as (e & <- & _). rewrite map_length. exact (shape_lde_length HE D).
  - intros deg Hd. apply in_seq in Hd. apply traverse_map. intros x _. rewrite usub_ok; [reflexivity|].
    destruct (pk_deg _ _ _ P _ (list_max_in _ Hne)) as [_ Hb]. eapply Nat.le_trans; [|exact Hb]. apply Nat.mul_le_mono_l. lia.
Qed.

Lemma zer_total : exists zer, zerofier_inverses a = Ok zer /\ length zer = (2 ^ b)%nat.
Proof using A D HE P.
  unfold zerofier_inverses. rewrite (ad_n _ _ _ _ A), (ad_blowup _ _ _ _ A). fold h.
  assert (Eo : match (2 ^ b)%nat with O => 8%nat | _ => trailing_zeros (2 ^ b) end = b).
  { rewrite tz_pos_pow2. pose proof (pow2_pos b). destruct (2 ^ b)%nat; [lia|reflexivity]. }
  rewrite Eo. unfold powers_coset. pose proof (ad_b _ _ _ _ A) as Hb1. pose proof (pk_two_adicity _ _ _ P) as Hta.
  destruct (primitive_root_some (K := E) b) as [w Hw]; [lia|]. rewrite Hw. cbn [unwrap_r obind].
  assert (HWn : fpow W n = w).
  { apply (primitive_root_pow HF b r w W Hb1 Hw). rewrite Nat.add_comm. exact (ds_W _ _ _ _ _ _ D). }
  rewrite (batch_inverse_ok HK).
  - eexists. split; [reflexivity|]. now rewrite !map_length, seq_length.
  - intros x Hx. rewrite map_map in Hx. apply in_map_iff in Hx. destruct Hx as (i & <- & _).
    replace (fpow w i * fpow h (2 ^ r)) with (fpow (x_ i) n); [apply lde_off_trace|].
    unfold n, h. rewrite (x_pow_n HE D (ad_n _ _ _ _ A) (ad_blowup _ _ _ _ A) (ad_b _ _ _ _ A)). fold n. rewrite HWn. fold h. ring.
Qed.

Lemma transition_acc_total exv dadj zerofier i evals tcs : (i < NN)%nat ->
  length exv = length (filter (fun v => (0 <? v)%nat) (uniq (transition_exemptions (a_context a)))) -> (forall l, In l exv -> length l = NN) ->
  (forall deg, In deg (transition_degrees (a_context a)) -> (deg <= length dadj)%nat) -> (forall l, In l dadj -> length l = NN) ->
  exists v, transition_acc a exv dadj zerofier i evals tcs = Ok v.
Proof using A P.
  intros Hi Lx Hx Hdl Hd. unfold transition_acc. apply ofold_total. intros acc [[[ev ex] deg] [al be]] Hin.
  apply in_combine_l in Hin. pose proof (in_combine_r _ _ _ _ Hin) as Hdeg. apply in_combine_l in Hin. apply in_combine_r in Hin.
  destruct (pk_deg _ _ _ P _ Hdeg) as [Hdeg1 _]. specialize (Hdl _ Hdeg). rewrite usub_ok by lia. cbn [obind].
  rewrite (idx_nth dadj _ []) by lia. cbn [obind]. rewrite (idx_nth _ _ 0) by (rewrite Hd; [exact Hi|apply nth_In; lia]). cbn [obind].
  destruct (Nat.eqb_spec ex 0) as [|Hne]; [eauto|].
  assert (Hmem : In ex (filter (fun v => (0 <? v)%nat) (uniq (transition_exemptions (a_context a))))).
  { apply filter_In. split; [now apply uniq_in|]. apply Nat.ltb_lt. lia. }
  destruct (Nat.eqb_spec (num_transition_exemptions (a_context a)) 1) as [H1|H1].
  - assert (H0 : (0 < length exv)%nat) by (rewrite Lx; destruct (filter _ _); [destruct Hmem|cbn; lia]).
    rewrite (idx_nth exv _ []) by exact H0. cbn [obind]. rewrite (idx_nth _ _ 0) by (rewrite Hx; [exact Hi|apply nth_In; exact H0]). cbn. eauto.
  - rewrite filter_uniq in Hmem, Lx. destruct (position_total _ _ Hmem) as [q Hq]. rewrite Hq. cbn [unwrap obind].
    apply position_spec in Hq. assert (Hql : (q < length exv)%nat) by (rewrite Lx; apply nth_error_Some; now rewrite Hq).
    rewrite (idx_nth exv _ []) by exact Hql. cbn [obind]. rewrite (idx_nth _ _ 0) by (rewrite Hx; [exact Hi|apply nth_In; exact Hql]). cbn. eauto.
Qed.

Lemma evaluate_constraints_total (polys cs : list (poly E)) lt tcs bco rap bcs : polys <> [] ->
  tt_new_from_cols (lde_evals (a := a) (r := r) (b := b) (W := W) polys) = Ok lt ->
  (forall x, a_transition a (shifted_frame polys (transition_offsets (a_context a)) g x) rap = Ok (map (fun c => peval c x) cs)) ->
  a_boundary a rap = Ok bcs -> (forall bc, In bc bcs -> (bc_col bc < length polys)%nat) ->
  exists evals, evaluate_constraints a lt d tcs bco rap = Ok evals.
Proof using A D HE P.
  intros Hne Hlt Hcs Hb Hcol. destruct (lde_table HE D (ad_n _ _ _ _ A) (ad_blowup _ _ _ _ A) (ad_b _ _ _ _ A) _ _ Hne Hlt) as [Htab Hcols].
  unfold evaluate_constraints. rewrite Hb. cbn [obind].
  destruct (zinv_total bcs) as (zinv & -> & Lz & Hz). cbn [obind].
  rewrite usub_ok by (rewrite (ad_n _ _ _ _ A); exact (pk_bound _ _ _ P)). cbn [obind].
  destruct (bev_total polys lt bcs Htab Hcols Hcol) as (bev & -> & Lb & Hbv). cbn [obind].
  match goal with |- context [traverse ?f ?l] => destruct (traverse_total f l) as [be Hbe] end.
  { intros [i dd] Hin. apply in_combine_l, in_seq in Hin. rewrite (shape_lde_length HE D) in Hin. now apply boundary_at_total. }
  rewrite Hbe. cbn [obind]. destruct ex_total as (xp & exv & -> & Hex & Lx & Hx). cbn [obind]. rewrite Hex. cbn [obind].
  destruct dadj_total as (dadj & -> & Hdl & Hdv). cbn [obind]. destruct zer_total as (zer & -> & Lzer). cbn [obind].
  apply traverse_total. intros [i bd] Hin. apply in_combine_l, in_seq in Hin. rewrite (shape_lde_length HE D) in Hin. fold NN in Hin.
  assert (Hi : (i < NN)%nat) by lia.
  destruct (fr_read_from_trace lt i (a_blowup a) (transition_offsets (a_context a))) as [fr|e|] eqn:Hfr.
  2,3: exfalso; rewrite (read_from_trace_ok _ _ _ _ _ Htab) in Hfr; [discriminate|]; intro H0; apply (f_equal (@length _)) in H0; rewrite map_length, seq_length in H0; cbn in H0; clear -H0 Hi; lia.
  cbn [obind]. rewrite (lde_frame HE D (ad_n _ _ _ _ A) (ad_blowup _ _ _ _ A) (ad_b _ _ _ _ A) polys lt i fr Hne Hi Htab Hcols Hfr), Hcs. cbn [obind].
  rewrite (idx_nth zer _ 0) by (apply Nat.mod_upper_bound; rewrite Lzer; pose proof (pow2_pos b); lia). cbn [obind].
  match goal with |- context [transition_acc a exv dadj ?z i ?e tcs] => destruct (transition_acc_total exv dadj z i e tcs Hi Lx Hx Hdl Hdv) as [v ->] end.
  cbn. eauto.
Qed.

Lemma round_2_total cols (polys : list (poly E)) (r1 : round1 E a) tcs bco bcs cs :
  polys <> [] -> interpolants (r := r) (g := g) cols polys -> trace_satisfies a (r1_rap E a r1) cols n ->
  r1_trace_polys E a r1 = polys -> tt_new_from_cols (lde_evals (a := a) (r := r) (b := b) (W := W) polys) = Ok (r1_lde_trace E a r1) ->
  a_boundary a (r1_rap E a r1) = Ok bcs ->
  (forall x, a_transition a (shifted_frame polys (transition_offsets (a_context a)) g x) (r1_rap E a r1) = Ok (map (fun c => peval c x) cs)) ->
  (forall j, j < length cs -> j < length (transition_degrees (a_context a)) ->
       (length (nth j cs []) <= nth j (transition_degrees (a_context a)) O * (n - 1) + 1)%nat) ->
  exists r2, round_2 E a d r1 tcs bco = Ok r2 /\ full_tree (r2_tree E r2).
Proof using A D HE P.
  intros Hne Hi Hs Hp1 Hlt Hb Hcs Hdeg. pose proof Hi as (Hl & Hlen & Hv).
  assert (Hcol : forall bc, In bc bcs -> (bc_col bc < length polys)%nat).
  { intros bc Hin. destruct (ts_boundary _ _ _ _ Hs bcs bc Hb Hin) as (_ & H2 & _). now rewrite Hl. }
  destruct (evaluate_constraints_total polys cs (r1_lde_trace E a r1) tcs bco (r1_rap E a r1) bcs Hne Hlt Hcs Hb Hcol) as [evals Hev].
  assert (Hexok : exemptions_ok (a := a) (r := r)) by (split; [exact (ad_ex_le _ _ _ _ A)|exact (ad_ex_one _ _ _ _ A)]).
  destruct (evaluate_constraints_val HE D (ad_n _ _ _ _ A) (ad_blowup _ _ _ _ A) (ad_b _ _ _ _ A) polys (r1_lde_trace E a r1) tcs bco
      (r1_rap E a r1) evals cs bcs Hne Hexok Hlt Hcs Hb Hcol Hev) as (Eev & Hnz & Hdb & Hmx & Htm).
  pose proof (comp_hyp_ok HE A D cols polys _ cs bcs tcs Hi Hs Hb Hcs Hdeg Hdb Htm) as CH.
  destruct (composition_polynomial HE D (ad_n _ _ _ _ A) (ad_blowup _ _ _ _ A) (ad_b _ _ _ _ A) polys cs bcs tcs bco CH) as (Hp & Hpl & Hpe).
  assert (Hb1 := ad_b _ _ _ _ A). assert (Hr1 := ad_r _ _ _ _ A).
  assert (HNN : (2 * 2 ^ r <= 2 ^ (r + b))%nat) by (change (2 * 2 ^ r)%nat with (2 ^ S r)%nat; apply Nat.pow_le_mono_r; lia).
  assert (Hel : length evals = (2 ^ (r + b))%nat) by (rewrite Eev, map_length, seq_length; reflexivity).
  destruct (interpolate_offset_ok HF evals h (r + b) W Hel ltac:(lia) (h_nonzero HE A D) (ds_W _ _ _ _ _ _ D)) as (hp & Hhp & _).
  destruct (interpolate_offset_unique HF evals h (r + b) W hp Hp Hel ltac:(lia) (h_nonzero HE A D) (ds_W _ _ _ _ _ _ D) Hhp) as (_ & Hle).
  { lia. }
  { intros j Hj. rewrite Hel in Hj. rewrite Eev, nth_map_seq by exact Hj. rewrite Hpe by (apply Hnz; exact Hj). reflexivity. }
  assert (Hhl : (length hp <= 2 * n)%nat) by (unfold n; lia).
  unfold round_2. rewrite Hev. cbn [obind]. rewrite (ds_offset _ _ _ _ _ _ D), Hhp. cbn [unwrap_r obind even_odd].
  rewrite <- (ds_offset _ _ _ _ _ _ D).
  rewrite lde_eval_total by (etransitivity; [apply trim_length|apply evens_length_le, Hhl]). cbn [unwrap_r obind].
  rewrite lde_eval_total by (etransitivity; [apply trim_length|apply odds_length_le, Hhl]). cbn [unwrap_r obind].
  unfold batch_commit.
  match goal with |- context [combine (map ?f (seq 0 NN)) (map ?f' (seq 0 NN))] => assert (Ec : forall l, combine (map f l) (map f' l) = map (fun i => (f i, f' i)) l) by (induction l as [|x l IH]; [reflexivity|cbn; now rewrite IH]); rewrite Ec; clear Ec end.
  rewrite map_map. cbn [fst snd].
  match goal with |- context [merkle_build ?l] => destruct (build_total l) as [tree Htree] end.
  { pose proof NN_seq. destruct (seq 0 NN); [congruence|discriminate]. }
  rewrite Htree. cbn [obind]. eexists. split; [reflexivity|]. cbn [r2_tree]. exact (built_full _ _ _ Htree).
Qed.

Lemma open_total (r1 : round1 E a) (r2 : round2 E) iotas :
  r1_trace_polys E a r1 <> [] -> tt_new_from_cols (lde_evals (a := a) (r := r) (b := b) (W := W) (r1_trace_polys E a r1)) = Ok (r1_lde_trace E a r1) ->
  r2_even_evals E r2 = map (fun i => peval (r2_even E r2) (x_ i)) (seq 0 NN) ->
  r2_odd_evals E r2 = map (fun i => peval (r2_odd E r2) (x_ i)) (seq 0 NN) ->
  full_tree (r2_tree E r2) -> Forall full_tree (r1_trees E a r1) ->
  exists os, open_deep_composition_poly E a d r1 r2 iotas = Ok os.
Proof using A D HE P.
  intros Hne Hlt Hee Hoe Hf2 Hf1. destruct (lde_table HE D (ad_n _ _ _ _ A) (ad_blowup _ _ _ _ A) (ad_b _ _ _ _ A) _ _ Hne Hlt) as [Htab _].
  unfold open_deep_composition_poly. apply traverse_total. intros i _. rewrite (shape_lde_length HE D). fold NN.
  assert (H0 : NN <> 0%nat) by (unfold NN; pose proof (pow2_pos (r + b)); lia). destruct (Nat.eqb_spec NN 0) as [|_]; [contradiction|].
  assert (Hm : (i mod NN < NN)%nat) by (now apply Nat.mod_upper_bound).
  destruct (Hf2 _ Hm) as [p ->]. cbn [unwrap obind].
  rewrite (idx_nth _ _ 0) by (now rewrite Hee, map_length, seq_length). cbn [obind].
  rewrite (idx_nth _ _ 0) by (now rewrite Hoe, map_length, seq_length). cbn [obind].
  match goal with |- context [traverse ?f (r1_trees E a r1)] => destruct (traverse_total f (r1_trees E a r1)) as [ps ->] end.
  { intros t Ht. rewrite Forall_forall in Hf1. destruct (Hf1 t Ht _ Hm) as [q ->]. cbn. eauto. }
  cbn [obind]. rewrite (table_row _ _ _ Htab) by (now rewrite map_length, seq_length). cbn. eauto.
Qed.
End ProverTotal.

Section Main.
Context {E : env} (HE : env_ok E) (HS : sampling_ok E).
Let HF : fft_ok E := e_fft_ok E HE.
Let HK : field_ok E := fft_field_ok E HF.
Add Field Kfield51 : (fld_th E HK).

Theorem prover_total (mk : nat -> air E) (mt : trace_table E) r b k fuel :
  let a := mk (tt_n_rows mt) in
  admissible a r b k -> proving_ok a r b -> boundary_computable a mt -> valid_trace a r mt -> z_found E fuel a -> nonce_found E (grinding_factor (a_options a)) ->
  (exists proof, prove E fuel mk mt = Ok proof) \/ aux_fails a mt.
Proof.
  intros a A P Hbc Hvt Hz Hno. unfold prove. fold a.
  destruct (domain_new_ok a r b (ad_n _ _ _ _ A) (ad_blowup _ _ _ _ A) (ad_r _ _ _ _ A) (pk_two_adicity _ _ _ P)) as [d Hd].
  destruct (domain_new_shape HE a d r b Hd (ad_n _ _ _ _ A) (ad_blowup _ _ _ _ A) (ad_r _ _ _ _ A)) as (g & W & D).
  set (h := e_u64 E (coset_offset (a_options a))) in *. rewrite Hd. cbn [obind].
  destruct (round_1_total HE A P D mt tr_new Hvt) as [(r1 & t1 & Hr1 & Hf1 & aux & Haux)|(root & rap & (ps & es & tree & t0 & Hi) & (t' & Hr) & Hx)].
  2:{ right. exists rap. split; [|exact Hx]. exists root, t'. split; [|exact Hr]. exists d, ps, es, tree, t0. now split. }
  left. rewrite Hr1. cbn [obind].
  destruct (round_1_ok HE A D mt _ r1 t1 Hvt Hr1) as (cols & root0 & t0 & Hpne & Hint & Hsat & Hlde & Hpl & _).
  destruct (Hbc _ _ Haux) as [bcs Hbcs]. rewrite Hbcs. cbn [obind].
  destruct (batch_total HS (length bcs) t1) as (ba & t2 & ->). cbn [obind]. destruct (batch_total HS (length bcs) t2) as (bb & t3 & ->). cbn [obind].
  destruct (batch_total HS (num_transition_constraints (a_context a)) t3) as (ta & t4 & ->). cbn [obind].
  destruct (batch_total HS (num_transition_constraints (a_context a)) t4) as (tb & t5 & ->). cbn [obind].
  destruct (ad_poly _ _ _ _ A g (ds_g _ _ _ _ _ _ D) (r1_rap E a r1) (r1_trace_polys E a r1) Hpl) as (cs & Hcs & Hdeg).
  { apply Hint. }
  destruct (round_2_total HE A P D cols (r1_trace_polys E a r1) r1 (combine ta tb) (combine ba bb) bcs cs Hpne Hint Hsat eq_refl Hlde Hbcs Hcs Hdeg) as (r2 & Hr2 & Hf2).
  rewrite Hr2. cbn [obind].
  destruct (round_2_ok HE A D cols (r1_trace_polys E a r1) r1 (combine ta tb) (combine ba bb) bcs cs r2 Hpne Hint Hsat eq_refl Hlde Hbcs Hcs Hdeg Hr2)
    as (Hel & Hol & Hee & Hoe & _).
  destruct (Hz d (tr_append t5 (r2_root E r2)) Hd) as (z & t6 & ->). cbn [obind].
  set (polys := r1_trace_polys E a r1) in *. assert (Hoff := ad_offsets _ _ _ _ A).
  assert (Er3 : round_3 E a d r1 r2 z = mk_round3 E (shifted_rows polys (seq 0 k) g z) (peval (r2_even E r2) (z * z)) (peval (r2_odd E r2) (z * z))).
  { unfold round_3. rewrite (ds_root _ _ _ _ _ _ D), Hoff. reflexivity. }
  rewrite Er3. cbn [r3_trace_ood r3_even_ood r3_odd_ood].
  match goal with |- context [round_4 E a d r1 r2 ?r3 z ?t] => assert (H4 : exists r4 t', round_4 E a d r1 r2 r3 z t = Ok (r4, t')); [generalize t; intro t7|destruct H4 as (r4 & t' & ->); cbn; eauto] end.
  unfold round_4. destruct (field_total HS t7) as (gm & t8 & ->). cbn [obind]. destruct (field_total HS t8) as (gm' & t9 & ->). cbn [obind].
  destruct (batch_total HS (length (transition_offsets (a_context a)) * trace_columns (a_context a)) t9) as (tg & t10 & Hg3). rewrite Hg3. cbn [obind].
  rewrite Nat.mul_comm in Hg3. destruct (sample_rows_flat E _ _ _ _ _ Hg3) as (m & Hm & Hmc & Hml & Hmk). rewrite Hoff, seq_length in Hmk.
  destruct (deep_poly_ok HK a polys (2 ^ r) g z k (proj1 (proj2 Hint)) (pow2_pos r) Hoff r2 _ gm gm' m
     (eq_trans Hml (eq_sym Hpl)) Hmk Hel Hol eq_refl) as (deep & Hdeep & Hdl & _).
  rewrite (ds_root _ _ _ _ _ _ D), <- Hmc. fold polys. rewrite Hdeep. cbn [obind].
  rewrite (shape_lde_length HE D), (ds_root_order _ _ _ _ _ _ D).
  assert (Hr1' := ad_r _ _ _ _ A). assert (Hta := pk_two_adicity _ _ _ P).
  destruct (commit_total HE HS r deep h (r + b) t10) as (lv & ls & t11 & Hc & HL); [lia|lia|etransitivity; [exact Hdl|apply Nat.pow_le_mono_r; lia]|].
  fold h. rewrite Hc. cbn [obind]. destruct (tr_challenge t11) as [ch t12]. destruct (Hno ch) as [nc ->]. cbn [obind unwrap].
  destruct (query_total HS (fri_number_of_queries (a_options a)) (2 ^ (r + b)) ls (tr_append t12 (Bytes.be_bytes 8 nc)) (pow2_pos _) HL) as (ql & io & t13 & ->).
  cbn [obind]. destruct (open_total HE A P D r1 r2 io Hpne Hlde Hee Hoe Hf2 Hf1) as [os ->]. cbn. eauto.
Qed.
End Main.
