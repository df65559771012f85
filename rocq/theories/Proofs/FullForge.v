(** A forged proof with all its parts: zero words for the composition polynomial and for all FRI layers; at every query
    the opened trace values, which nothing binds, are chosen to make the DEEP value zero. *)
From Coq Require Import List Arith Lia Bool NArith Field.
From Verif.Base Require Import Outcome Bytes Field Poly.
From Verif.Model Require Import Codec Trace Merkle Air Transcript Domain Fri Prover Verifier.
From Verif.Spec Require Import AirSpec VerifierSpec Forgery HashSpec LowDegree FriTree FullForgery.
From Verif.Proofs Require Import OutcomeFacts FieldFacts PolyFacts FFTFacts TraceFacts MerkleFacts DomainFacts VerifierFacts VerifierTotal HonestFacts FriComplete.
Import ListNotations.

Section FullForge.
Context {E : env} (HE : env_ok E) (HS : sampling_ok E).
Let HF : fft_ok E := e_fft_ok E HE.
Let HK : field_ok E := fft_field_ok E HF.
Add Field Kfield60 : (fld_th E HK).
Local Open Scope felt_scope.

(** ** The DEEP value as a function of one opened value *)
Lemma delta_sum {X} (col : nat) (v : E) (F : nat * X -> E) : forall (cs : list X) s x, nth_error cs col = Some x ->
  fsum (map (fun cc => (if (fst cc =? s + col)%nat then v else 0) * F cc) (combine (seq s (length cs)) cs)) = v * F ((s + col)%nat, x).
Proof using HK.
  induction col as [|col IH]; intros [|y cs] s x Hx; try discriminate; cbn [length seq combine map]; rewrite fsum_cons; cbn [fst].
  - injection Hx as <-. rewrite Nat.add_0_r, Nat.eqb_refl.
    enough (Z : fsum (map (fun cc : nat * X => (if (fst cc =? s)%nat then v else 0) * F cc) (combine (seq (S s) (length cs)) cs)) = 0) by (rewrite Z; ring).
    rewrite (map_ext_in _ (fun _ => 0)); [apply (fsum_const_zero HK)|]. intros [i z] Hi. apply in_combine_l, in_seq in Hi. cbn [fst].
    destruct (Nat.eqb_spec i s); [lia|]. ring.
  - destruct (Nat.eqb_spec s (s + S col)); [lia|]. replace (s + S col)%nat with (S s + col)%nat by lia. rewrite (IH cs (S s) x Hx). ring.
Qed.

Definition one_value (width col : nat) (v : E) : list E := map (fun j => if (j =? col)%nat then v else 0) (seq 0 width).
Lemma one_value_length width col v : length (one_value width col v) = width.
Proof using Type. unfold one_value. now rewrite map_length, seq_length. Qed.
Lemma one_value_nth width col v j : (col < width)%nat -> nth j (one_value width col v) 0 = if (j =? col)%nat then v else 0.
Proof using Type.
  intro Hc. unfold one_value. destruct (Nat.lt_ge_cases j width) as [H|H].
  - rewrite (nth_indep _ 0 ((fun j => if (j =? col)%nat then v else 0) 0%nat)) by (rewrite map_length, seq_length; exact H).
    rewrite (map_nth (fun j => if (j =? col)%nat then v else 0)), seq_nth by exact H. reflexivity.
  - rewrite nth_overflow by (rewrite map_length, seq_length; exact H). destruct (Nat.eqb_spec j col); [lia|reflexivity].
Qed.

Lemma deep_value_linear (p : stark_proof E) {a : air E} (c : challenges E a) g rows x path tp col v :
  length (c_trace_term_coeffs E a c) = fr_num_columns (trace_ood_frame_evaluations p) -> (col < fr_num_columns (trace_ood_frame_evaluations p))%nat ->
  deep_value p c g rows x (mk_deep_openings path 0 0 tp (one_value (fr_num_columns (trace_ood_frame_evaluations p)) col v)) =
  v * column_weight c g (length rows) col x + deep_value p c g rows x (mk_deep_openings path 0 0 tp []).
Proof using HE HF HK.
  intros Hl Hc. set (w := fr_num_columns (trace_ood_frame_evaluations p)) in *.
  unfold deep_value. cbn [lde_trace_evaluations lde_composition_poly_even_evaluation lde_composition_poly_odd_evaluation]. fold w.
  destruct (nth_error (c_trace_term_coeffs E a c) col) as [cs|] eqn:Ec; [|apply nth_error_None in Ec; lia].
  set (B := fun cc : nat * list E => fsum (map (fun rc : nat * E => (nth (fst cc) [] 0 - nth (fst cc) (nth (fst rc) rows []) 0) *
          finv (x - c_z E a c * fpow g (fst rc)) * snd rc) (combine (seq 0 (length rows)) (snd cc)))).
  set (F := fun cc : nat * list E => fsum (map (fun rc : nat * E => finv (x - c_z E a c * fpow g (fst rc)) * snd rc) (combine (seq 0 (length rows)) (snd cc)))).
  assert (S1 : forall cc : nat * list E, fsum (map (fun rc : nat * E => (nth (fst cc) (one_value w col v) 0 - nth (fst cc) (nth (fst rc) rows []) 0) *
          finv (x - c_z E a c * fpow g (fst rc)) * snd rc) (combine (seq 0 (length rows)) (snd cc))) = (if (fst cc =? col)%nat then v else 0) * F cc + B cc).
  { intro cc. unfold F, B. rewrite <- (fsum_scale HK), <- (fsum_add HK). f_equal. apply map_ext. intro rc. rewrite one_value_nth by exact Hc.
    replace (nth (fst cc) [] 0) with (0 : E) by (destruct (fst cc); reflexivity). ring. }
  rewrite (map_ext _ _ S1), (fsum_add HK). rewrite <- Hl at 1.
  pose proof (delta_sum col v F (c_trace_term_coeffs E a c) 0 cs Ec) as D. cbn [Nat.add] in D. rewrite D.
  unfold column_weight. rewrite (nth_error_nth _ _ [] Ec). unfold F. cbn [snd]. ring.
Qed.

(** ** Zero words *)
Definition zero_words (r : nat) : list (E -> E) := repeat (fun _ => 0) r.
Lemma zero_folds r : forall zs x, folds_at (zero_words r) zs 0 x.
Proof using HK.
  induction r as [|r IH]; intros [|zeta zs] x; cbn [zero_words repeat folds_at]; try exact I. split; [|apply (IH zs)].
  unfold fold_value. destruct r; cbn [repeat]; ring.
Qed.
Lemma zero_roots_length fs : forall m (h w : E), length (layer_roots m h w fs) = length fs.
Proof using Type. induction fs; intros; cbn [layer_roots length]; auto. Qed.
Lemma honest_paths fs : forall m (h w : E) iota k, (k < length fs)%nat ->
  length (nth k (layers_auth_paths (honest_answer m h w fs iota)) []) = (m - k)%nat /\ length (nth k (layers_auth_paths_sym (honest_answer m h w fs iota)) []) = (m - k)%nat.
Proof using Type.
  induction fs as [|f fs IH]; intros m h w iota k Hk; cbn [length] in Hk; [lia|]. cbn [honest_answer layers_auth_paths layers_auth_paths_sym].
  destruct k as [|k]; cbn [nth]; [rewrite !mt_path_length; lia|]. destruct (IH (m - 1)%nat (h * h) (w * w) iota k ltac:(lia)) as [-> ->]. lia.
Qed.

(** The leaves of the zero composition words. *)
Definition zero_leaves (m : nat) : list commitment := repeat (e_leaves E [0; 0]) (2 ^ m).
Lemma zero_opens m i : (i < 2 ^ m)%nat -> opens_to (E := E) (mt_path (e_node E) m (zero_leaves m) i) (mt_root (e_node E) m (zero_leaves m)) i (e_leaves E [0; 0]).
Proof using Type.
  intro Hi. unfold opens_to. rewrite <- (fold_path_honest (e_node E) m (zero_leaves m) i); [|apply repeat_length|exact Hi]. f_equal.
  unfold zero_leaves. symmetry. apply nth_error_nth. apply nth_error_repeat. exact Hi.
Qed.

Theorem complete_forgery fuel (mk : nat -> air E) n roots data r b root :
  let a := mk n in let rows := length (transition_offsets (a_context a)) in let width := trace_columns (a_context a) in
  statement_ok E a r b rows width root -> a_trace_length a = n -> z_found E fuel a -> nonce_found E (grinding_factor (a_options a)) ->
  hd_error roots = Some root -> length data = (rows * width)%nat ->
  exists p d c t, complete_proof a p r b /\ lde_trace_merkle_roots p = roots /\ trace_ood_frame_evaluations p = mk_frame data width /\
    domain_new a = Ok d /\ step_1 E fuel a p d tr_new = Ok (c, t) /\
    (columns_weigh c (trace_primitive_root d) rows width (lde_roots_of_unity_coset d) -> verify E fuel mk (a_options a) p = Ok true).
Proof using HE HF HK HS.
  intros a rows width HA Htl Hzf Hnf Hr Hl. set (opts := a_options a) in *.
  destruct (domain_new_ok a r b (st_n _ _ _ _ _ _ _ HA) (st_blowup _ _ _ _ _ _ _ HA) (st_r _ _ _ _ _ _ _ HA) (st_two_adicity _ _ _ _ _ _ _ HA)) as [d Hd].
  destruct (domain_new_shape HE a d r b Hd (st_n _ _ _ _ _ _ _ HA) (st_blowup _ _ _ _ _ _ _ HA) (st_r _ _ _ _ _ _ _ HA)) as (g & W & D).
  set (h := e_u64 E (coset_offset opts)) in *.
  set (fs := zero_words r). set (fri_roots := layer_roots (r + b) h W fs). set (comp_root := mt_root (e_node E) (r + b) (zero_leaves (r + b))).
  destruct (forge_total HE HS fuel a n roots comp_root data fri_roots 0 [] [] r b rows width root HA Hzf Hnf Hr Hl) as [p0 Hp0].
  destruct (forge_spec HE HS _ _ _ _ _ _ _ _ _ _ _ Hp0) as ((even & nn & Ep) & d' & c & t & Hd' & Hc & Hg & H2).
  assert (d' = d) by congruence. subst d'.
  destruct (step_1_facts HE _ _ _ _ _ _ _ Hc) as (Hzl & _ & (Hiol & Hiob) & Hz1 & Hz2). rewrite (ds_lde_order _ _ _ _ _ _ D) in Hiob.
  pose proof (step_1_columns fuel p0 tr_new c t Hc) as Hcols. fold width in Hcols.
  assert (Lfs : length fs = r) by apply repeat_length.
  assert (Hzl' : length (c_zetas E a c) = length fs) by (rewrite Hzl, Ep; apply zero_roots_length).
  set (tps := repeat (repeat ([] : commitment) (r + b)) (length roots)).
  set (frame := mk_frame data width) in *.
  destruct (list_choice (fun i row => fr_get_row frame i = Ok row) [] rows) as (rws & Lrws & Hrws).
  { intros i Hi. destruct (frame_row data rows width Hl i Hi) as (row & Hrow & _). eauto. }
  set (lde := lde_roots_of_unity_coset d) in *.
  (* the openings *)
  destruct (list_choice (fun j o => exists vals, o = mk_deep_openings (mt_path (e_node E) (r + b) (zero_leaves (r + b)) (nth j (c_iotas E a c) 0%nat)) 0 0 tps vals /\ length vals = width /\
      ((exists col, (col < width)%nat /\ column_weight c g rows col (nth (nth j (c_iotas E a c) 0%nat) lde 0) <> 0) ->
       deep_value p0 c g rws (nth (nth j (c_iotas E a c) 0%nat) lde 0) o = 0)) (mk_deep_openings [] 0 0 [] []) (fri_number_of_queries opts)) as (os & Los & Hos).
  { intros j Hj. set (x := nth (nth j (c_iotas E a c) 0%nat) lde 0). set (path := mt_path _ _ _ _).
    destruct (existsb (fun col => negb (feqb (column_weight c g rows col x) 0)) (seq 0 width)) eqn:Ex.
    - apply existsb_exists in Ex. destruct Ex as (col & Hcol & Hne). apply in_seq in Hcol. apply negb_true_iff in Hne.
      assert (Hwt : column_weight c g rows col x <> 0) by (intro Q; apply (feqb_spec E HK) in Q; congruence).
      set (rest := deep_value p0 c g rws x (mk_deep_openings path 0 0 tps [])).
      exists (mk_deep_openings path 0 0 tps (one_value width col (- rest * finv (column_weight c g rows col x)))).
      exists (one_value width col (- rest * finv (column_weight c g rows col x))). split; [reflexivity|]. split; [apply one_value_length|]. intros _.
      assert (Ew : fr_num_columns (trace_ood_frame_evaluations p0) = width) by (rewrite Ep; reflexivity).
      pose proof (deep_value_linear p0 c g rws x path tps col (- rest * finv (column_weight c g rows col x))) as L. rewrite Ew, Lrws in L.
      rewrite L by (assumption || lia). fold rest. field. exact Hwt.
    - exists (mk_deep_openings path 0 0 tps (repeat 0 width)), (repeat 0 width). split; [reflexivity|]. split; [apply repeat_length|].
      intros (col & Hcol & Hne). exfalso. apply Hne. apply (feqb_spec E HK). 
      assert (Q : forall y, In y (seq 0 width) -> negb (feqb (column_weight c g rows y x) 0) = false).
      { intros y Hy. destruct (negb _) eqn:Q; [|reflexivity]. assert (existsb (fun col => negb (feqb (column_weight c g rows col x) 0)) (seq 0 width) = true) by (apply existsb_exists; eauto). congruence. }
      apply negb_false_iff. apply Q. apply in_seq. lia. }
  set (qs := map (honest_answer (r + b) h W fs) (c_iotas E a c)).
  set (p := mk_stark_proof n roots frame comp_root even 0 fri_roots 0 qs os nn).
  assert (Hc' : step_1 E fuel a p d tr_new = Ok (c, t)) by (rewrite <- Hc, Ep; reflexivity).
  assert (H2' : step_2 E a p d c = Ok true) by (rewrite <- H2, Ep; reflexivity).
  assert (Hqs : forall q, In q qs -> exists iota, In iota (c_iotas E a c) /\ q = honest_answer (r + b) h W fs iota).
  { intros q Hq. apply in_map_iff in Hq. destruct Hq as (iota & <- & Hin). eauto. }
  assert (Hoin : forall o, In o os -> exists path vals, o = mk_deep_openings path 0 0 tps vals /\ length path = (r + b)%nat /\ length vals = width).
  { intros o Ho. apply In_nth with (d := mk_deep_openings [] 0 0 [] []) in Ho. destruct Ho as (j & Hj & <-). rewrite Los in Hj.
    destruct (Hos j Hj) as (vals & -> & Lv & _). do 2 eexists. split; [reflexivity|]. split; [apply mt_path_length|exact Lv]. }
  assert (CP : complete_proof a p r b).
  { constructor; cbn [p trace_length trace_ood_frame_evaluations fri_layers_merkle_roots query_list deep_poly_openings frame fr_row_width fr_data].
    - now rewrite Htl.
    - reflexivity.
    - exact Hl.
    - unfold fri_roots. now rewrite zero_roots_length.
    - unfold qs. rewrite map_length. exact Hiol.
    - exact Los.
    - intros q Hq. destruct (Hqs q Hq) as (iota & _ & ->). split; [rewrite <- Lfs; apply honest_shape|]. intros k Hk. apply honest_paths. lia.
    - intros o Ho. destruct (Hoin o Ho) as (path & vals & -> & L1 & L2). split; [exact L1|]. cbn [lde_trace_merkle_proofs lde_trace_evaluations]. split; [apply repeat_length|]. split; [|exact L2].
      apply Forall_forall. intros x Hx. apply repeat_spec in Hx. subst x. apply repeat_length. }
  exists p, d, c, t. split; [exact CP|]. split; [reflexivity|]. split; [reflexivity|]. split; [exact Hd|]. split; [exact Hc'|]. intro Hcw.
  rewrite (ds_root _ _ _ _ _ _ D) in Hcw. fold lde in Hcw.
  assert (HP : proof_shape E a p r b rows width).
  { pose proof (st_r _ _ _ _ _ _ _ HA) as Hr1. constructor; cbn [p lde_trace_merkle_roots trace_ood_frame_evaluations frame fr_row_width fr_data fri_layers_merkle_roots query_list deep_poly_openings]; auto.
    - intros ->. discriminate.
    - unfold fri_roots. rewrite zero_roots_length. lia.
    - intros q Hq. destruct (Hqs q Hq) as (iota & _ & ->). pose proof (honest_shape fs (r + b) h W iota) as (_ & Q & _). intro Q'. rewrite Q' in Q. cbn in Q. lia.
    - intros o Ho. destruct (Hoin o Ho) as (path & vals & -> & _ & L2). cbn [lde_trace_evaluations]. rewrite L2. apply Nat.le_refl. }
  destruct (verify_total HE HS fuel mk p r b rows width root) as [res Hres]; auto. fold a opts in Hres. change (mk (trace_length p)) with a in Hres. fold opts in Hres. rewrite Hres. f_equal.
  apply (verdict_exact HE fuel mk opts p r b res); change (mk (trace_length p)) with a; auto.
  - apply (st_n _ _ _ _ _ _ _ HA).
  - apply (st_r _ _ _ _ _ _ _ HA).
  - apply (st_blowup _ _ _ _ _ _ _ HA).
  - apply (st_ex_le _ _ _ _ _ _ _ HA).
  - exists d, c, t. split; [exact Hd|]. split; [exact Hc'|]. constructor.
    + cbn [p query_list]. unfold qs. rewrite map_length, Hiol. apply Nat.le_refl.
    + exact Hg.
    + rewrite (ds_root _ _ _ _ _ _ D). apply (step_2_exact HE D (st_n _ _ _ _ _ _ _ HA) p c true (st_ex_le _ _ _ _ _ _ _ HA)); auto.
    + intros j iota q Hj Hq. cbn [p query_list fri_layers_merkle_roots fri_last_value] in Hq |- *. unfold qs in Hq. rewrite nth_error_map, Hj in Hq. injection Hq as <-.
      assert (Hi : (iota < 2 ^ (r + b))%nat) by (apply Hiob; eapply nth_error_In; exact Hj).
      fold lde. assert (Ex : nth iota lde 0 = h * fpow W iota).
      { unfold lde. rewrite (ds_lde _ _ _ _ _ _ D). rewrite (nth_indep _ 0 ((fun i => fpow W i * h) 0%nat)) by (rewrite map_length, seq_length; exact Hi).
        rewrite (map_nth (fun i => fpow W i * h)), seq_nth by exact Hi. cbn [Nat.add]. ring. }
      rewrite Ex. apply (honest_consistent HE); [lia|exact (ds_Wprim _ _ _ _ _ _ D)|exact Hzl'|apply zero_folds].
    + intros j iota o Hj Ho. cbn [p deep_poly_openings composition_poly_root query_list trace_ood_frame_evaluations] in Ho |- *.
      assert (Hjn : (j < fri_number_of_queries opts)%nat) by (rewrite <- Los; apply nth_error_Some; congruence).
      assert (Hi : (iota < 2 ^ (r + b))%nat) by (apply Hiob; eapply nth_error_In; exact Hj).
      apply (nth_error_nth _ _ (mk_deep_openings [] 0 0 [] [])) in Ho. pose proof (nth_error_nth _ _ 0%nat Hj) as Hj'.
      destruct (Hos j Hjn) as (vals & Eo & Lv & Hdv). rewrite Ho, Hj' in Eo, Hdv. specialize (Hdv (Hcw iota (nth_error_In _ _ Hj))). 
      clear Ho. subst o. cbn [lde_composition_poly_proof lde_composition_poly_even_evaluation lde_composition_poly_odd_evaluation].
      split; [exact (zero_opens (r + b) iota Hi)|].
      exists rws, (honest_answer (r + b) h W fs iota). split; [unfold qs; rewrite nth_error_map, Hj; reflexivity|].
      rewrite Lrws. split; [exact (frame_rows data rows width (st_width _ _ _ _ _ _ _ HA) Hl)|]. split; [exact Hrws|].
      rewrite (ds_root _ _ _ _ _ _ D).
      assert (Ed : deep_value p c g rws (nth iota lde 0) (mk_deep_openings (mt_path (e_node E) (r + b) (zero_leaves (r + b)) iota) 0 0 tps vals) = 0) by (rewrite Ep in Hdv; exact Hdv).
      fold lde. rewrite Ed. pose proof (st_r _ _ _ _ _ _ _ HA). unfold fs, zero_words. destruct r as [|r']; [lia|]. cbn [repeat honest_answer layers_evaluations hd_error]. reflexivity.
Qed.
End FullForge.
