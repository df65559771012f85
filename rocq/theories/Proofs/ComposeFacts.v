(** The composition polynomial: the prover's evaluations on the LDE coset, the verifier's value at
    the out-of-domain point, and the polynomial both are values of. *)
From Coq Require Import List Arith Lia Bool NArith.
From Verif.Base Require Import Outcome Field Poly.
From Verif.Model Require Import Codec Trace Merkle Air Transcript Domain Fri Evaluator Prover Verifier.
From Verif.Spec Require Import AirSpec.
From Verif.Proofs Require Import OutcomeFacts FieldFacts PolyFacts FFTFacts TraceFacts DomainFacts.
Import ListNotations.
Local Open Scope felt_scope.

(** ** Exemption lookup *)
Lemma uniq_from_in seen l e : In e (uniq_from seen l) <-> In e l /\ ~ In e seen.
Proof.
  revert seen; induction l as [|x l IH]; intro seen; cbn [uniq_from].
  - split; [intros []|intros [[] _]].
  - destruct (existsb (Nat.eqb x) seen) eqn:Ex.
    + rewrite IH. apply existsb_exists in Ex. destruct Ex as (y & Hy & Exy). apply Nat.eqb_eq in Exy. subst y. split.
      * intros [H1 H2]. split; [now right|exact H2].
      * intros [[->|H1] H2]; [contradiction|auto].
    + cbn [In]. rewrite IH.
      assert (Hx : ~ In x seen).
      { intro Hx. apply not_true_iff_false in Ex. apply Ex. apply existsb_exists. exists x. split; [exact Hx|apply Nat.eqb_refl]. }
      split.
      * intros [->|[H1 H2]]; [split; [now left|exact Hx]|]. split; [now right|]. intro H. apply H2. now right.
      * intros [[->|H1] H2]; [now left|]. destruct (Nat.eq_dec x e) as [->|Hne]; [now left|]. right. split; [exact H1|].
        intros [->|H]; [congruence|contradiction].
Qed.

Lemma uniq_in l e : In e (uniq l) <-> In e l.
Proof. unfold uniq. rewrite uniq_from_in. cbn. tauto. Qed.

Lemma filter_uniq_from seen l : 
  filter (fun v => 0 <? v)%nat (uniq_from seen l) = uniq_from (filter (fun v => 0 <? v)%nat seen) (filter (fun v => 0 <? v)%nat l).
Proof.
  revert seen; induction l as [|x l IH]; intro seen; [reflexivity|]. cbn [uniq_from filter].
  destruct (Nat.ltb_spec 0 x) as [Hx|Hx].
  - cbn [uniq_from]. 
    assert (Ee : existsb (Nat.eqb x) (filter (fun v => 0 <? v)%nat seen) = existsb (Nat.eqb x) seen).
    { clear -Hx. induction seen as [|y s IH]; [reflexivity|]. cbn [filter existsb].
      destruct (Nat.ltb_spec 0 y); cbn [existsb]; rewrite IH; [reflexivity|].
      assert (y = 0%nat) by lia. subst. destruct (Nat.eqb_spec x 0); [lia|reflexivity]. }
    rewrite Ee. destruct (existsb (Nat.eqb x) seen); [apply IH|]. cbn [filter].
    destruct (Nat.ltb_spec 0 x); [|lia]. f_equal. rewrite IH. cbn [filter]. destruct (Nat.ltb_spec 0 x); [reflexivity|lia].
  - assert (x = 0%nat) by lia. subst x. destruct (existsb (Nat.eqb 0) seen); [apply IH|].
    cbn [filter Nat.ltb Nat.leb]. rewrite IH. reflexivity.
Qed.

Lemma filter_uniq l : filter (fun v => 0 <? v)%nat (uniq l) = uniq (filter (fun v => 0 <? v)%nat l).
Proof. unfold uniq. now rewrite filter_uniq_from. Qed.

Lemma position_spec e l q : position e l = Some q -> nth_error l q = Some e.
Proof.
  revert q; induction l as [|y l IH]; intros q H; cbn [position] in H; [discriminate|].
  destruct (Nat.eqb_spec y e) as [->|_]; [injection H as <-; reflexivity|].
  destruct (position e l) as [k|]; [|discriminate]. cbn in H. injection H as <-. cbn. now apply IH.
Qed.

Section Compose.
Context {E : env} (HE : env_ok E).
Let HF : fft_ok E := e_fft_ok E HE.
Let HK : field_ok E := fft_field_ok E HF.
Add Field Kfield9 : (fld_th E HK).
Context {a : air E} {d : domain E} {r b : nat} {g W : E}.
Let h : E := e_u64 E (coset_offset (a_options a)).
Context (D : domain_shape d r b h g W).
Let n := (2 ^ r)%nat.
Let NN := (2 ^ (r + b))%nat.
Definition pt (h W : E) (i : nat) : E := h * fpow W i.
Notation x_ := (pt h W).
Context (Hn : a_trace_length a = n) (Hb : a_blowup a = (2 ^ b)%nat) (Hb1 : 1 <= b).
Notation ctx := (a_context a).
Notation DB := (a_degree_bound a).

Lemma n_pos : 0 < n. Proof using Type. apply pow2_pos. Qed.
Lemma NN_pos : 0 < NN. Proof using Type. apply pow2_pos. Qed.

Lemma lde_nth i : i < NN -> nth_error (lde_roots_of_unity_coset d) i = Some (x_ i).
Proof using D HE Hb Hb1 Hn.
  intro Hi. rewrite (ds_lde _ _ _ _ _ _ D), nth_error_map. fold NN.
  rewrite (nth_error_nth' _ 0%nat) by (now rewrite seq_length). rewrite seq_nth by exact Hi. cbn. unfold pt. f_equal. ring.
Qed.

(** ** Tables read by the evaluator *)
Lemma dadj_val dadj k l i v : degree_adjustments_lde a d = Ok dadj -> idx dadj k = Ok l -> idx l i = Ok v ->
  i < NN /\ (n * k <= DB)%nat /\ v = fpow (x_ i) (DB - n * k).
Proof using D HE Hb Hb1 Hn.
  unfold degree_adjustments_lde. rewrite Hn. intros H Hk Hi. ok_step H. rename v0 into mx.
  assert (Hkl : k < length (seq 1 mx)). { rewrite <- (traverse_length _ _ _ H). now apply idx_lt in Hk. }
  pose proof (traverse_nth _ _ _ k 0%nat [] H Hkl) as Hk'. rewrite seq_length in Hkl. rewrite seq_nth in Hk' by exact Hkl.
  rewrite (idx_val _ _ _ _ Hk) in Hk'. cbn [Nat.add] in Hk'. replace (S k - 1)%nat with k in Hk' by lia.
  assert (Hil : i < length (lde_roots_of_unity_coset d)). { rewrite <- (traverse_length _ _ _ Hk'). now apply idx_lt in Hi. }
  pose proof (traverse_nth _ _ _ i 0 0 Hk' Hil) as Hi'. rewrite (idx_val _ _ _ _ Hi) in Hi'.
  rewrite (shape_lde_length HE D) in Hil. fold NN in Hil.
  pose proof (lde_nth i Hil) as Hx. apply nth_error_nth with (d := 0) in Hx. rewrite Hx in Hi'.
  ok_step Hi'. apply usub_inv in Hv0. destruct Hv0 as [Hle ->]. apply ok_inj in Hi'. repeat split; [exact Hil|exact Hle|now symmetry].
Qed.

Lemma x_pow_n i : fpow (x_ i) n = fpow h n * fpow (fpow W n) i.
Proof using D HE Hb Hb1 Hn. unfold pt. rewrite (fpow_mul_base HK), <- !(fpow_mul HK). f_equal. f_equal. apply Nat.mul_comm. Qed.

Lemma zer_val zer i v : zerofier_inverses a = Ok zer -> idx zer (i mod length zer) = Ok v ->
  fpow (x_ i) n - 1 <> 0 /\ v = finv (fpow (x_ i) n - 1).
Proof using D HE Hb Hb1 Hn.
  unfold zerofier_inverses. rewrite Hn, Hb. fold h. intros H Hi. ok_step H. rename v0 into vs. apply unwrap_r_ok in Hv.
  assert (Eo : match (2 ^ b)%nat with O => 8%nat | _ => trailing_zeros (2 ^ b) end = b).
  { rewrite tz_pos_pow2. pose proof (pow2_pos b). destruct (2 ^ b)%nat; [lia|reflexivity]. }
  rewrite Eo in Hv. unfold powers_coset in Hv. destruct (primitive_root b) as [w|] eqn:Hw; [|discriminate]. apply ok_inj in Hv.
  assert (Hlen : length zer = (2 ^ b)%nat).
  { apply (batch_inverse_inv HK) in H. destruct H as [-> _]. now rewrite <- Hv, !map_length, seq_length. }
  assert (HWn : fpow W n = w).
  { apply (primitive_root_pow HF b r w W Hb1 Hw). rewrite Nat.add_comm. exact (ds_W _ _ _ _ _ _ D). }
  assert (Hp : is_prim w (2 ^ b)) by (apply (primitive_root_prim HF b w Hb1 Hw)).
  rewrite Hlen in Hi. apply (batch_inverse_inv HK) in H. destruct H as [-> Hnz].
  assert (Hm : (i mod 2 ^ b < 2 ^ b)%nat) by (apply Nat.mod_upper_bound; pose proof (pow2_pos b); lia).
  assert (Hnth : nth_error (map (fun v => v - 1) vs) (i mod 2 ^ b) = Some (fpow (x_ i) n - 1)).
  { rewrite <- Hv, map_map, nth_error_map, (nth_error_nth' _ 0%nat) by (now rewrite seq_length).
    rewrite seq_nth by exact Hm. cbn [option_map Nat.add]. f_equal. rewrite x_pow_n, HWn.
    rewrite (prim_pow_mod HK) by (apply pow2_pos || exact Hp). ring. }
  apply idx_ok in Hi. rewrite nth_error_map, Hnth in Hi. cbn in Hi. injection Hi as <-. split; [|reflexivity].
  apply Hnz. eapply nth_error_In. exact Hnth.
Qed.

Lemma ex_val polys exv q l i v : evaluate_transition_exemptions d polys = Ok exv -> idx exv q = Ok l -> idx l i = Ok v ->
  v = peval (nth q polys []) (x_ i).
Proof using D HE Hb Hb1 Hn.
  unfold evaluate_transition_exemptions. intros H Hq Hi.
  assert (Hql : q < length polys). { rewrite <- (traverse_length _ _ _ H). now apply idx_lt in Hq. }
  pose proof (traverse_nth _ _ _ q [] [] H Hql) as Hq'. rewrite (idx_val _ _ _ _ Hq) in Hq'. apply unwrap_r_ok in Hq'.
  rewrite (ds_blowup _ _ _ _ _ _ D), (ds_size _ _ _ _ _ _ D), (ds_offset _ _ _ _ _ _ D) in Hq'.
  apply (eval_lde_ok HF _ _ _ _ W) in Hq'; [|exact (ds_r _ _ _ _ _ _ D)|exact (ds_W _ _ _ _ _ _ D)].
  assert (Hil : i < NN). { apply idx_lt in Hi. now rewrite Hq', map_length, seq_length in Hi. }
  rewrite Hq' in Hi. apply idx_val with (d := 0) in Hi. rewrite nth_map_seq in Hi by exact Hil. now symmetry.
Qed.

(** ** The composed value at a point *)
Definition tterm (x : E) (q : poly E * nat * nat * (E * E)) : E :=
  let '(c, e, deg, (alpha, beta)) := q in
  finv (fpow x n - 1) * (alpha * fpow x (DB - n * (deg - 1)) + beta) * peval c x * vanish (last_roots g n e) x.
Definition bterm (polys : list (poly E)) (x : E) (q : boundary_constraint E * (E * E)) : E :=
  let '(bc, (alpha, beta)) := q in
  finv (x - fpow g (bc_step bc)) * (alpha * fpow x (DB - n) + beta) * (peval (nth (bc_col bc) polys []) x - bc_value bc).
Definition tsum (cs : list (poly E)) (tcs : list (E * E)) (x : E) : E :=
  fsum (map (tterm x) (combine (combine (combine cs (transition_exemptions ctx)) (transition_degrees ctx)) tcs)).
Definition bsum (polys : list (poly E)) (bcs : list (boundary_constraint E)) (bco : list (E * E)) (x : E) : E :=
  fsum (map (bterm polys x) (combine bcs bco)).

(** Generic: a fold adding a term per element. *)
Lemma ofold_sum {A} (f : E -> A -> outcome E) (F : A -> E) l acc res :
  (forall y acc acc', In y l -> f acc y = Ok acc' -> acc' = acc + F y) ->
  ofold f l acc = Ok res -> res = acc + fsum (map F l).
Proof using D HE Hb Hb1 Hn.
  revert acc; induction l as [|y l IH]; intros acc H Hf; cbn [ofold] in Hf.
  - apply ok_inj in Hf. subst. cbn. ring.
  - ok_step Hf. apply (H y) in Hv; [|now left]. subst v. apply IH in Hf; [|intros; apply H; [now right|assumption]].
    rewrite Hf. cbn [map fsum fold_right]. fold (fsum (map F l)). ring.
Qed.

Lemma combine_map_l {A B C} (f : A -> B) (l : list A) (k : list C) :
  combine (map f l) k = map (fun p => (f (fst p), snd p)) (combine l k).
Proof using Type. revert k; induction l as [|x l IH]; intros [|y k]; cbn; try reflexivity. now rewrite IH. Qed.

(** At most one distinct nonzero exemption when the context announces one. *)
Definition exemptions_ok : Prop :=
  (forall e, In e (transition_exemptions ctx) -> e <= n) /\
  (num_transition_exemptions ctx = 1%nat ->
     forall e e', In e (transition_exemptions ctx) -> In e' (transition_exemptions ctx) -> e <> O -> e' <> O -> e = e').

Lemma transition_acc_val polys exv dadj zerofier i evals tcs res cs :
  exemptions_ok ->
  transition_exemption_polys a = Ok polys -> evaluate_transition_exemptions d polys = Ok exv ->
  degree_adjustments_lde a d = Ok dadj ->
  zerofier = finv (fpow (x_ i) n - 1) -> evals = map (fun c => peval c (x_ i)) cs ->
  transition_acc a exv dadj zerofier i evals tcs = Ok res ->
  res = tsum cs tcs (x_ i).
Proof using D HE Hb Hb1 Hn.
  intros [He He1] Hp Hx Hd Hz Hev H. unfold transition_acc in H.
  apply (transition_exemption_polys_ok HE a r g) in Hp; [|exact Hn|exact (ds_g _ _ _ _ _ _ D)|exact He]. fold n in Hp.
  rewrite Hev, !combine_map_l in H.
  set (L := combine (combine (combine cs (transition_exemptions ctx)) (transition_degrees ctx)) tcs) in *.
  assert (HL : forall c e deg ab, In (c, e, deg, ab) L -> In e (transition_exemptions ctx)).
  { intros c e deg ab Hin. unfold L in Hin. apply in_combine_l in Hin. apply in_combine_l in Hin. now apply in_combine_r in Hin. }
  assert (Hsum : res = 0 + fsum (map (tterm (x_ i)) L)).
  2:{ rewrite Hsum. unfold tsum. fold L. ring. }
  clearbody L. revert H. generalize (0 : E) as acc. induction L as [|[[[c e] deg] [al be]] L IH]; intros acc H; cbn [map ofold fst snd] in H.
  - apply ok_inj in H. subst. cbn. ring.
  - ok_step H. apply IH in H; [|intros; eapply HL; right; eassumption].
    rewrite H. cbn [map fsum fold_right]. fold (fsum (map (tterm (x_ i)) L)).
    enough (Ev : v = acc + tterm (x_ i) (c, e, deg, (al, be))) by (rewrite Ev; ring).
    clear IH H. specialize (HL c e deg (al, be) (or_introl eq_refl)).
    cbn [fst snd] in Hv. ok_step Hv. apply usub_inv in Hv0. destruct Hv0 as [Hdeg ->].
    ok_step Hv. ok_step Hv0. destruct (dadj_val _ _ _ _ _ Hd Hv1 Hv0) as (Hi & _ & Edj). 
    cbn [tterm]. rewrite Edj in Hv. 
    destruct (Nat.eqb_spec e 0) as [->|Hne].
    + apply ok_inj in Hv. rewrite <- Hv, Hz. unfold last_roots, vanish. cbn [seq map fprod fold_right]. ring.
    + assert (Hval : forall q l ex, idx exv q = Ok l -> idx l i = Ok ex ->
                nth_error (filter (fun v => 0 <? v)%nat (uniq (transition_exemptions ctx))) q = Some e ->
                ex = vanish (last_roots g n e) (x_ i)).
      { intros q l ex Hq Hli Hqe. rewrite (ex_val _ _ _ _ _ _ Hx Hq Hli), Hp.
        rewrite (nth_error_nth _ _ [] (x := exemption_poly_prover g n e)); [apply (exemption_poly_eval HE)|].
        rewrite nth_error_map, Hqe. reflexivity. }
      destruct (Nat.eqb_spec (num_transition_exemptions ctx) 1) as [H1|H1].
      * ok_step Hv. ok_step Hv2. apply ok_inj in Hv. rewrite <- Hv, Hz.
        rewrite (Hval _ _ _ Hv3 Hv2); [ring|].
        assert (Hin : In e (filter (fun v => 0 <? v)%nat (uniq (transition_exemptions ctx)))).
        { apply filter_In. split; [now apply uniq_in|]. apply Nat.ltb_lt. lia. }
        destruct (filter (fun v => 0 <? v)%nat (uniq (transition_exemptions ctx))) as [|e0 rest] eqn:Ef; [destruct Hin|].
        cbn. f_equal.
        assert (Hin0 : In e0 (filter (fun v => 0 <? v)%nat (uniq (transition_exemptions ctx)))) by (rewrite Ef; now left).
        apply filter_In in Hin0. destruct Hin0 as [Hin0 Hp0]. apply Nat.ltb_lt in Hp0.
        apply (He1 H1); auto; [|lia]. now apply (proj1 (uniq_in _ _)) in Hin0.
      * ok_step Hv. apply unwrap_ok in Hv2. ok_step Hv. ok_step Hv3. apply ok_inj in Hv. rewrite <- Hv, Hz.
        rewrite (Hval _ _ _ Hv4 Hv3); [ring|]. rewrite filter_uniq. now apply position_spec.
Qed.

(** ** Frames of the LDE table *)
Lemma lde_table (polys : list (poly E)) t : polys <> [] ->
  tt_new_from_cols (map (fun p => map (fun i => peval p (x_ i)) (seq 0 NN)) polys) = Ok t ->
  is_table t (map (fun i => map (fun p => peval p (x_ i)) polys) (seq 0 NN)) /\ tt_n_cols t = length polys.
Proof using D HE Hb Hb1 Hn.
  intros Hne H. destruct polys as [|p0 ps]; [congruence|]. cbn [map] in H.
  rewrite (new_from_cols_ok _ _ (0 : E)) in H.
  2:{ intros c Hc. apply in_map_iff in Hc. destruct Hc as (p & <- & _). now rewrite !map_length, !seq_length. }
  apply ok_inj in H. subst t.
  change (map (fun i => peval p0 (x_ i)) (seq 0 NN) :: map (fun p => map (fun i => peval p (x_ i)) (seq 0 NN)) ps)
    with (map (fun p => map (fun i => peval p (x_ i)) (seq 0 NN)) (p0 :: ps)).
  rewrite map_length, seq_length.
  assert (Et : transpose (map (fun p => map (fun i => peval p (x_ i)) (seq 0 NN)) (p0 :: ps)) NN 0 =
               map (fun i => map (fun p => peval p (x_ i)) (p0 :: ps)) (seq 0 NN)).
  { unfold transpose. apply map_ext_in. intros i Hi. apply in_seq in Hi. rewrite map_map. apply map_ext. intro p.
    rewrite nth_map_seq by lia. reflexivity. }
  rewrite <- Et. split; [|now rewrite map_length]. apply transpose_table. discriminate.
Qed.

Lemma lde_frame (polys : list (poly E)) t i fr : polys <> [] -> i < NN ->
  is_table t (map (fun i => map (fun p => peval p (x_ i)) polys) (seq 0 NN)) -> tt_n_cols t = length polys ->
  fr_read_from_trace t i (a_blowup a) (transition_offsets ctx) = Ok fr ->
  fr = shifted_frame polys (transition_offsets ctx) g (x_ i).
Proof using D HE Hb Hb1 Hn.
  intros Hne Hi Ht Hc H.
  rewrite (read_from_trace_ok _ _ _ _ _ Ht) in H.
  2:{ pose proof NN_pos. destruct NN; [lia|]. discriminate. }
  apply ok_inj in H. subst fr. unfold shifted_frame, shifted_rows. rewrite Hc. f_equal. f_equal. apply map_ext. intro o.
  rewrite map_length, seq_length, Hb.
  assert (Hm : ((i + o * 2 ^ b) mod NN < NN)%nat) by (apply Nat.mod_upper_bound; pose proof NN_pos; lia).
  rewrite nth_map_seq by exact Hm. apply map_ext. intro p. f_equal. unfold pt.
  rewrite (prim_pow_mod HK) by (apply pow2_pos || exact (ds_Wprim _ _ _ _ _ _ D)).
  rewrite (fpow_add HK), (shape_gpow HE D). ring.
Qed.

(** ** Boundary terms *)
Lemma boundary_val lde_t polys bcs zinv bev bco i adj res :
  polys <> [] ->
  is_table lde_t (map (fun i => map (fun p => peval p (x_ i)) polys) (seq 0 NN)) -> tt_n_cols lde_t = length polys ->
  (forall bc, In bc bcs -> bc_col bc < length polys) ->
  boundary_zerofiers_inverse d bcs = Ok zinv -> boundary_polys_evaluations d lde_t bcs = Ok bev ->
  adj = (DB - n)%nat ->
  boundary_evaluation_at zinv bev (length bcs) bco i (fpow (x_ i) adj) = Ok res ->
  res = bsum polys bcs bco (x_ i).
Proof using D HE Hb Hb1 Hn.
  intros Hne Ht Hc Hcol Hz Hbe Hadj H. unfold boundary_evaluation_at in H. unfold bsum.
  apply (ofold_sum _ (fun y => bterm polys (x_ i) (nth (fst y) bcs (mk_bc 0 0 0), snd y))) in H.
  - rewrite H.
    assert (Em : map (fun y => bterm polys (x_ i) (nth (fst y) bcs (mk_bc 0 0 0), snd y)) (combine (seq 0 (length bcs)) bco)
                 = map (bterm polys (x_ i)) (combine bcs bco)).
    { rewrite <- (map_map (fun y => (nth (fst y) bcs (mk_bc 0 0 0), snd y)) (bterm polys (x_ i))). f_equal.
      rewrite <- (combine_map_l (fun k => nth k bcs (mk_bc 0 0 0))). now rewrite map_nth_seq. }
    rewrite Em. ring.
  - intros [k [al be]] acc acc' Hin Hk. cbn [fst snd]. ok_step Hk. ok_step Hv. ok_step Hk. ok_step Hv1. apply ok_inj in Hk. subst acc'.
    apply in_combine_l in Hin. apply in_seq in Hin. set (bc := nth k bcs (mk_bc 0 0 0)) in *.
    assert (Hbc : In bc bcs) by (apply nth_In; lia).
    unfold boundary_zerofiers_inverse in Hz. pose proof (traverse_nth _ _ _ k (mk_bc 0 0 0) [] Hz ltac:(lia)) as Hzk.
    rewrite (idx_val _ _ _ _ Hv0) in Hzk. fold bc in Hzk. apply (batch_inverse_inv HK) in Hzk. destruct Hzk as [-> _].
    assert (Hi : i < NN). { apply idx_lt in Hv. now rewrite !map_length, (shape_lde_length HE D) in Hv. }
    assert (Hz' : v = finv (x_ i - fpow g (bc_step bc))).
    { apply idx_ok in Hv. rewrite map_map, nth_error_map, (lde_nth i Hi) in Hv. cbn in Hv. injection Hv as <-.
      now rewrite (ds_root _ _ _ _ _ _ D). }
    unfold boundary_polys_evaluations in Hbe. pose proof (traverse_nth _ _ _ k (mk_bc 0 0 0) [] Hbe ltac:(lia)) as Hbk.
    rewrite (idx_val _ _ _ _ Hv2) in Hbk. fold bc in Hbk. ok_step Hbk. apply ok_inj in Hbk. subst v2.
    unfold step_by in Hv3. destruct Ht as (Hcp & Htab & HFr).
    destruct (tt_n_cols lde_t) as [|c'] eqn:Ec; [lia|]. rewrite <- Ec in *. apply ok_inj in Hv3.
    rewrite Htab in Hv3. rewrite (every_concat _ _ _ 0 HFr) in Hv3 by (rewrite Hc; now apply Hcol). subst v0.
    assert (Hb' : v1 = peval (nth (bc_col bc) polys []) (x_ i) - bc_value bc).
    { apply idx_ok in Hv1. rewrite nth_error_map in Hv1. rewrite (shape_lde_length HE D) in Hv1. fold NN in Hv1.
      rewrite nth_error_firstn' in Hv1 by exact Hi. rewrite map_map, nth_error_map, (nth_error_nth' _ 0%nat) in Hv1 by (now rewrite seq_length).
      rewrite seq_nth in Hv1 by exact Hi. cbn in Hv1. injection Hv1 as <-. f_equal.
      rewrite (nth_indep _ 0 (peval [] (x_ i))) by (rewrite map_length; now apply Hcol).
      now rewrite (map_nth (fun p => peval p (x_ i))). }
    unfold bterm. rewrite Hz', Hb', Hadj. ring.
Qed.

(** ** The evaluator computes the composed values *)
Theorem evaluate_constraints_val polys lde_t tcs bco rap evals cs bcs :
  polys <> [] -> exemptions_ok ->
  tt_new_from_cols (map (fun p => map (fun i => peval p (x_ i)) (seq 0 NN)) polys) = Ok lde_t ->
  (forall x, a_transition a (shifted_frame polys (transition_offsets ctx) g x) rap = Ok (map (fun c => peval c x) cs)) ->
  a_boundary a rap = Ok bcs -> (forall bc, In bc bcs -> bc_col bc < length polys) ->
  evaluate_constraints a lde_t d tcs bco rap = Ok evals ->
  evals = map (fun i => tsum cs tcs (x_ i) + bsum polys bcs bco (x_ i)) (seq 0 NN) /\
  (forall i, i < NN -> fpow (x_ i) n - 1 <> 0) /\ n <= DB /\
  (exists mx, list_max_o (transition_degrees ctx) = Some mx /\ forall k, k < mx -> (n * k <= DB)%nat) /\
  (forall c e deg ab, In (c, e, deg, ab) (combine (combine (combine cs (transition_exemptions ctx)) (transition_degrees ctx)) tcs) ->
      1 <= deg /\ (n * (deg - 1) <= DB)%nat).
Proof using D HE Hb Hb1 Hn.
  intros Hne Hex Ht Hcs Hbcs Hcol H. unfold evaluate_constraints in H. rewrite Hbcs in H. cbn [obind] in H.
  ok_as H zinv Hzinv. ok_as H adj Hadj0. apply usub_inv in Hadj0. destruct Hadj0 as [Hadj Eadj]. rewrite Hn in Hadj, Eadj.
  ok_as H bev Hbev. ok_as H bnd Hbnd. ok_as H expolys Hexp. ok_as H exv Hexv. ok_as H dadj Hdadj. ok_as H zer Hzer.
  destruct (lde_table polys lde_t Hne Ht) as [Htab Hcols].
  rewrite (shape_lde_length HE D) in *. fold NN in Hbnd, H.
  assert (Elde : lde_roots_of_unity_coset d = map x_ (seq 0 NN)).
  { rewrite (shape_lde_coset HE D). reflexivity. }
  assert (Ebnd : bnd = map (fun i => bsum polys bcs bco (x_ i)) (seq 0 NN)).
  { rewrite Elde, map_map in Hbnd.
    assert (Ecs : forall (f : nat -> E) l, combine l (map f l) = map (fun i => (i, f i)) l).
    { intros f l. induction l; cbn; congruence. }
    rewrite Ecs in Hbnd.
    apply (traverse_ok_map _ (fun y => bsum polys bcs bco (x_ (fst y)))) in Hbnd; [now rewrite Hbnd, map_map|].
    intros [i dd] v Hin Hval. apply in_map_iff in Hin. destruct Hin as (i' & Ei & Hi). injection Ei as <- <-. cbn [fst].
    eapply boundary_val; eauto. }
  assert (Ecomb : combine (seq 0 NN) bnd = map (fun i => (i, bsum polys bcs bco (x_ i))) (seq 0 NN)).
  { rewrite Ebnd. generalize (seq 0 NN). intro l. induction l; cbn; congruence. }
  rewrite Ecomb in H.
  (* one row *)
  assert (Hrow : forall i v, i < NN ->
     obind (fr_read_from_trace lde_t i (a_blowup a) (transition_offsets ctx)) (fun fr =>
     obind (a_transition a fr rap) (fun evals0 =>
     obind (idx zer (i mod length zer)) (fun zerofier =>
     obind (transition_acc a exv dadj zerofier i evals0 tcs) (fun acc => Ok (acc + bsum polys bcs bco (x_ i)))))) = Ok v ->
     v = tsum cs tcs (x_ i) + bsum polys bcs bco (x_ i) /\ fpow (x_ i) n - 1 <> 0 /\
     exists evals0 zf res, evals0 = map (fun c => peval c (x_ i)) cs /\ transition_acc a exv dadj zf i evals0 tcs = Ok res).
  { intros i v Hi Hrow. ok_as Hrow fr Hfr. apply (lde_frame polys) in Hfr; auto. subst fr.
    rewrite Hcs in Hrow. cbn [obind] in Hrow. ok_as Hrow zf Hzf.
    destruct (zer_val _ _ _ Hzer Hzf) as [Hnz Ezf]. ok_as Hrow res Hres. apply ok_inj in Hrow. subst v.
    rewrite (transition_acc_val _ _ _ _ _ _ _ _ cs Hex Hexp Hexv Hdadj Ezf eq_refl Hres). split; [reflexivity|]. split; [exact Hnz|]. eauto 6. }
  split; [|split; [|split; [exact Hadj|split]]].
  - apply (traverse_ok_map _ (fun y => tsum cs tcs (x_ (fst y)) + bsum polys bcs bco (x_ (fst y)))) in H; [now rewrite H, map_map|].
    intros [i bb] v Hin Hval. apply in_map_iff in Hin. destruct Hin as (i' & Ei & Hi). injection Ei as <- <-. cbn [fst].
    apply in_seq in Hi. apply Hrow; [lia|exact Hval].
  - intros i Hi. pose proof (traverse_nth _ _ _ i (0%nat, 0) 0 H) as Hnth. rewrite map_length, seq_length in Hnth. specialize (Hnth Hi).
    rewrite (nth_indep _ (0%nat, 0) (0%nat, bsum polys bcs bco (x_ 0))) in Hnth by (now rewrite map_length, seq_length).
    rewrite (map_nth (fun i => (i, bsum polys bcs bco (x_ i)))), seq_nth in Hnth by exact Hi. cbn [Nat.add] in Hnth.
    apply Hrow in Hnth; [|exact Hi]. tauto.
  - assert (Hd0 := Hdadj). unfold degree_adjustments_lde in Hdadj. ok_as Hdadj mx Hmx. apply unwrap_ok in Hmx.
    exists mx. split; [exact Hmx|]. intros k Hk.
    pose proof (traverse_nth _ _ _ k 0%nat [] Hdadj) as Hl. rewrite seq_length in Hl. specialize (Hl Hk).
    set (l := nth k dadj []) in *.
    assert (Hll : length l = NN) by (rewrite (traverse_length _ _ _ Hl); apply (shape_lde_length HE D)).
    assert (Hkl : idx dadj k = Ok l). { apply idx_nth. rewrite (traverse_length _ _ _ Hdadj), seq_length. exact Hk. }
    assert (H0 : idx l 0 = Ok (nth 0 l 0)) by (apply idx_nth; rewrite Hll; apply NN_pos).
    apply (dadj_val _ _ _ _ _ Hd0 Hkl H0).
  - intros c e deg ab Hin.
    pose proof (traverse_nth _ _ _ 0%nat (0%nat, 0) 0 H) as Hnth. rewrite map_length, seq_length in Hnth. specialize (Hnth NN_pos).
    rewrite (nth_indep _ (0%nat, 0) (0%nat, bsum polys bcs bco (x_ 0))) in Hnth by (rewrite map_length, seq_length; apply NN_pos).
    rewrite (map_nth (fun i => (i, bsum polys bcs bco (x_ i)))), seq_nth in Hnth by apply NN_pos. cbn [Nat.add] in Hnth.
    apply Hrow in Hnth; [|apply NN_pos]. destruct Hnth as (_ & _ & evals0 & zf & res & Eev & Hacc).
    unfold transition_acc in Hacc. rewrite Eev, !combine_map_l in Hacc.
    revert Hacc Hin. generalize (0 : E) as acc. generalize (combine (combine (combine cs (transition_exemptions ctx)) (transition_degrees ctx)) tcs) as L.
    clear -D HE HF HK NN n h Hdadj Hn Hb Hb1. induction L as [|[[[c' e'] deg'] [al be]] L IH]; intros acc Hacc Hin; [destruct Hin|].
    cbn [map ofold fst snd] in Hacc. ok_step Hacc. destruct Hin as [Ey|Hin]; [|eapply IH; eassumption].
    injection Ey as -> -> -> <-. ok_step Hv. apply usub_inv in Hv0. destruct Hv0 as [Hdeg ->].
    ok_step Hv. ok_step Hv0. destruct (dadj_val _ _ _ _ _ Hdadj Hv1 Hv0) as (_ & Hle & _). auto.
Qed.

(** ** The polynomial *)
Lemma pmul_raw_len (p q : poly E) m : length q <= S m -> length (pmul_raw p q) <= (length p + m)%nat.
Proof using D HE Hb Hb1 Hn.
  intro Hq. destruct p as [|c p]; [cbn; lia|]. cbn [length]. 
  etransitivity; [apply (pmul_raw_length_le (c :: p) q (length p) m)|]; cbn [length]; lia.
Qed.

Lemma sum_poly {A} (good : E -> Prop) (F : E -> A -> E) m L :
  (forall y, In y L -> exists p : poly E, length p <= m /\ forall x, good x -> peval p x = F x y) ->
  exists p : poly E, length p <= m /\ forall x, good x -> peval p x = fsum (map (F x) L).
Proof using D HE Hb Hb1 Hn.
  induction L as [|y L IH]; intro H.
  - exists []. split; [cbn; lia|reflexivity].
  - destruct IH as (q & Hq & Eq); [intros; apply H; now right|].
    destruct (H y (or_introl eq_refl)) as (p & Hp & Ep).
    exists (padd_raw p q). split; [rewrite padd_raw_length; lia|]. intros x Hx.
    rewrite (peval_padd_raw HK), (Ep x Hx), (Eq x Hx). reflexivity.
Qed.

Definition adj_poly (k : nat) (al be : E) : poly E := padd_raw (pscale_raw al (xpow k)) [be].
Lemma adj_poly_eval k al be x : peval (adj_poly k al be) x = al * fpow x k + be.
Proof using D HE Hb Hb1 Hn. unfold adj_poly. rewrite (peval_padd_raw HK), (peval_pscale_raw HK), (peval_xpow HK). cbn [peval]. ring. Qed.
Lemma adj_poly_length k al be : length (adj_poly k al be) <= S k.
Proof using D HE Hb Hb1 Hn. unfold adj_poly. rewrite padd_raw_length, pscale_raw_length, xpow_length. cbn. lia. Qed.

Lemma transition_term_poly c e deg al be :
  e <= n -> 1 <= deg -> (n * (deg - 1) <= DB)%nat ->
  length c <= (deg * (n - 1) + 1)%nat -> (forall i, i < (n - e)%nat -> peval c (fpow g i) = 0) ->
  (DB + 1 + e <= 2 * n + deg)%nat ->
  exists p : poly E, length p <= (2 * n)%nat /\
    forall x, fpow x n - 1 <> 0 -> peval p x = tterm x (c, e, deg, (al, be)).
Proof using D HE Hb Hb1 Hn.
  intros He Hdeg Hdb Hc Hz Hbound.
  set (num := pmul_raw c (exemption_poly_prover g n e)).
  destruct (roots_divide HK (coset g 1 n) num) as (q & Hql & Hq & _).
  { apply (coset_nodup HK); [exact (ds_gprim _ _ _ _ _ _ D)|]. apply (one_neq_zero HK). }
  { intros y Hy. apply coset_in in Hy. destruct Hy as (i & Hi & ->).
    unfold num. rewrite (peval_pmul_raw HK), (exemption_poly_eval HE).
    replace (1 * fpow g i) with (fpow g i) by ring.
    destruct (Nat.lt_ge_cases i (n - e)) as [L|L].
    - rewrite (Hz i L). ring.
    - assert (Hv : vanish (last_roots g n e) (fpow g i) = 0).
      { apply (vanish_zero HK). apply (last_roots_in HE g n e i); auto. exact (ds_gprim _ _ _ _ _ _ D). }
      rewrite Hv. ring. }
  rewrite coset_length in Hql.
  exists (pmul_raw q (adj_poly (DB - n * (deg - 1)) al be)). split.
  - destruct q as [|q0 q'].
    + cbn. lia.
    + etransitivity; [apply (pmul_raw_len _ _ (DB - n * (deg - 1))), adj_poly_length|].
      rewrite Hql.
      assert (Hnum : length num <= (deg * (n - 1) + 1 + e)%nat).
      { unfold num. etransitivity; [apply (pmul_raw_len _ _ e), (exemption_poly_length g n e)|]. lia. }
      cbn [length] in Hql. pose proof n_pos.
      assert (P1 : (deg * (n - 1) + deg = deg * n)%nat) by (clear -H; clearbody n; nia).
      assert (P2 : (n * (deg - 1) + n = deg * n)%nat) by (clear -Hdeg; clearbody n; nia).
      lia.
  - intros x Hx. rewrite (peval_pmul_raw HK), adj_poly_eval. cbn [tterm].
    specialize (Hq x). rewrite (vanish_coset HK) in Hq by (apply pow2_pos || exact (ds_gprim _ _ _ _ _ _ D)).
    assert (Eq : peval q x = finv (fpow x n - 1) * (peval c x * vanish (last_roots g n e) x)).
    { rewrite <- (exemption_poly_eval HE), <- (peval_pmul_raw HK). fold num. rewrite Hq. fold n. field. exact Hx. }
    rewrite Eq. ring.
Qed.

Lemma root_not_domain x k : fpow x n - 1 <> 0 -> x - fpow g k <> 0.
Proof using D HE Hb Hb1 Hn.
  intros Hx Hk. apply Hx. apply (proj1 (sub_zero HK _ _)) in Hk. subst x.
  rewrite <- (fpow_mul HK), Nat.mul_comm, (fpow_mul HK). destruct (ds_gprim _ _ _ _ _ _ D) as [Hg _]. fold n in Hg. rewrite Hg.
  rewrite (fpow_one HK). ring.
Qed.

Lemma boundary_term_poly polys bc al be :
  Forall (fun p : poly E => length p <= n) polys -> n <= DB -> (DB <= 2 * n + 1)%nat ->
  peval (nth (bc_col bc) polys []) (fpow g (bc_step bc)) = bc_value bc ->
  exists p : poly E, length p <= (2 * n)%nat /\
    forall x, fpow x n - 1 <> 0 -> peval p x = bterm polys x (bc, (al, be)).
Proof using D HE Hb Hb1 Hn.
  intros Hlen Hdb Hdb2 Hv. set (t := nth (bc_col bc) polys []) in *.
  assert (Ht : length t <= n).
  { unfold t. destruct (Nat.lt_ge_cases (bc_col bc) (length polys)) as [L|L].
    - rewrite Forall_forall in Hlen. apply Hlen. now apply nth_In.
    - rewrite nth_overflow by exact L. cbn. lia. }
  set (num := padd_raw t [- bc_value bc]).
  assert (Hnl : length num <= n). { unfold num. rewrite padd_raw_length. pose proof n_pos. cbn. lia. }
  assert (Hev : forall x, peval num x = peval t x - bc_value bc).
  { intro x. unfold num. rewrite (peval_padd_raw HK). cbn [peval]. ring. }
  exists (pmul_raw (ruffini num (fpow g (bc_step bc))) (adj_poly (DB - n) al be)). split.
  - etransitivity; [apply (pmul_raw_len _ _ (DB - n)), adj_poly_length|]. rewrite ruffini_length. pose proof n_pos. lia.
  - intros x Hx. rewrite (peval_pmul_raw HK), adj_poly_eval. cbn [bterm]. fold t.
    pose proof (ruffini_root HK num (fpow g (bc_step bc)) x) as Hr. rewrite !Hev, Hv in Hr.
    rewrite Hr by ring. pose proof (root_not_domain x (bc_step bc) Hx). field. assumption.
Qed.

(** What the completeness theorem assumes of the constraint data. *)
Record comp_hyp (polys cs : list (poly E)) (bcs : list (boundary_constraint E)) (tcs : list (E * E)) : Prop := {
  ch_polys : Forall (fun p : poly E => length p <= n) polys;
  ch_term : forall c e deg ab, In (c, e, deg, ab) (combine (combine (combine cs (transition_exemptions ctx)) (transition_degrees ctx)) tcs) ->
     e <= n /\ length c <= (deg * (n - 1) + 1)%nat /\ (forall i, i < (n - e)%nat -> peval c (fpow g i) = 0) /\
     (DB + 1 + e <= 2 * n + deg)%nat /\ 1 <= deg /\ (n * (deg - 1) <= DB)%nat;
  ch_bound : n <= DB /\ (DB <= 2 * n + 1)%nat;
  ch_bc : forall bc, In bc bcs -> peval (nth (bc_col bc) polys []) (fpow g (bc_step bc)) = bc_value bc
}.

Theorem composition_polynomial polys cs bcs tcs bco : comp_hyp polys cs bcs tcs ->
  exists H : poly E, length H <= (2 * n)%nat /\
    forall x, fpow x n - 1 <> 0 -> peval H x = tsum cs tcs x + bsum polys bcs bco x.
Proof using D HE Hb Hb1 Hn.
  intros [Hp Ht [Hd1 Hd2] Hbc].
  destruct (sum_poly (fun x => fpow x n - 1 <> 0) tterm (2 * n)
     (combine (combine (combine cs (transition_exemptions ctx)) (transition_degrees ctx)) tcs)) as (p & Hpl & Hpe).
  { intros [[[c e] deg] [al be]] Hin. destruct (Ht _ _ _ _ Hin) as (H1 & H2 & H3 & H4 & H5 & H6).
    now apply transition_term_poly. }
  destruct (sum_poly (fun x => fpow x n - 1 <> 0) (bterm polys) (2 * n) (combine bcs bco)) as (q & Hql & Hqe).
  { intros [bc [al be]] Hin. apply boundary_term_poly; auto. apply Hbc. now apply in_combine_l in Hin. }
  exists (padd_raw p q). split; [rewrite padd_raw_length; lia|]. intros x Hx.
  rewrite (peval_padd_raw HK), (Hpe x Hx), (Hqe x Hx). reflexivity.
Qed.

(** ** The verifier's value *)
Lemma fold_left_sum {A} (F : A -> E) l acc : fold_left (fun acc y => acc + F y) l acc = acc + fsum (map F l).
Proof using D HE Hb Hb1 Hn.
  revert acc; induction l as [|y l IH]; intro acc; cbn [fold_left map fsum fold_right]; [ring|].
  rewrite IH. fold (fsum (map F l)). ring.
Qed.

Lemma shifted_rows_width (polys : list (poly E)) offs x : Forall (fun row => length row = length polys) (shifted_rows polys offs g x).
Proof using D HE Hb Hb1 Hn.
  apply Forall_forall. intros row Hr. unfold shifted_rows in Hr. apply in_map_iff in Hr. destruct Hr as (o & <- & _). apply map_length.
Qed.

Lemma shifted_row0 (polys : list (poly E)) offs x : hd_error offs = Some 0%nat ->
  fr_get_row (shifted_frame polys offs g x) 0 = Ok (map (fun p => peval p x) polys).
Proof using D HE Hb Hb1 Hn.
  intro H0. destruct offs as [|o offs]; [discriminate|]. injection H0 as ->. unfold shifted_frame.
  rewrite frame_row; [|apply shifted_rows_width|cbn; lia]. cbn [shifted_rows map nth fpow]. f_equal.
  apply map_ext. intro p. f_equal. ring.
Qed.

Lemma boundary_ood_val polys bcs bco z :
  hd_error (transition_offsets ctx) = Some 0%nat -> (forall bc, In bc bcs -> bc_col bc < length polys) ->
  fpow z n - 1 <> 0 ->
  boundary_ood E bcs (shifted_frame polys (transition_offsets ctx) g z) g z (DB - n) bco = Ok (bsum polys bcs bco z).
Proof using D HE Hb Hb1 Hn.
  intros H0 Hcol Hz. unfold boundary_ood. rewrite (shifted_row0 polys _ z H0). cbn [obind].
  rewrite (traverse_map _ (fun bc => peval (nth (bc_col bc) polys []) z - bc_value bc)).
  2:{ intros bc Hin. rewrite (idx_nth _ _ 0) by (rewrite map_length; now apply Hcol). cbn [obind]. f_equal. f_equal.
      rewrite (nth_indep _ 0 (peval [] z)) by (rewrite map_length; now apply Hcol). now rewrite (map_nth (fun p => peval p z)). }
  cbn [obind]. rewrite (batch_inverse_ok HK).
  2:{ intros y Hy. apply in_map_iff in Hy. destruct Hy as (bc & <- & _). now apply root_not_domain. }
  cbn [obind]. f_equal.
  assert (Ec : combine (combine (map (fun bc => peval (nth (bc_col bc) polys []) z - bc_value bc) bcs)
                 (map finv (map (fun bc => z - fpow g (bc_step bc)) bcs))) bco =
               map (fun y => (peval (nth (bc_col (fst y)) polys []) z - bc_value (fst y), finv (z - fpow g (bc_step (fst y))), snd y)) (combine bcs bco)).
  { clear. revert bco; induction bcs as [|bc bcs IH]; intros [|y bco]; cbn; try reflexivity. now rewrite IH. }
  rewrite Ec. unfold bsum.
  transitivity (0 + fsum (map (bterm polys z) (combine bcs bco))); [|ring].
  rewrite <- fold_left_sum. clear Ec. generalize (0 : E) as acc.
  induction (combine bcs bco) as [|[bc [al be]] l IH]; intro acc; [reflexivity|]. cbn [map fold_left fst snd].
  rewrite IH. f_equal. cbn [bterm]. ring.
Qed.

Lemma list_max_mem l mx : list_max_o l = Some mx -> In mx l.
Proof using Type.
  intro H. destruct l as [|e0 l0]; [discriminate|]. unfold list_max_o in H. injection H as <-.
  assert (G : forall l x, In (list_max (x :: l)) (x :: l)).
  { clear. induction l as [|y l IH]; intro x; [cbn; left; lia|].
    change (list_max (x :: y :: l)) with (Nat.max x (list_max (y :: l))).
    destruct (Nat.max_spec x (list_max (y :: l))) as [[_ ->]|[_ ->]]; [right; apply IH|now left]. }
  apply G.
Qed.

Lemma list_max_ge l x mx : list_max_o l = Some mx -> In x l -> x <= mx.
Proof using Type.
  intros H Hin. destruct l as [|y l]; [destruct Hin|]. unfold list_max_o in H. injection H as <-.
  pose proof (proj1 (list_max_le (y :: l) (list_max (y :: l))) (le_n _)) as HFa. rewrite Forall_forall in HFa. now apply HFa.
Qed.

Lemma transition_ood_val cs tcs z mx :
  (forall e, In e (transition_exemptions ctx) -> e <= n) -> transition_exemptions ctx <> [] ->
  list_max_o (transition_degrees ctx) = Some mx -> (forall k, k < mx -> (n * k <= DB)%nat) ->
  (forall c e deg ab, In (c, e, deg, ab) (combine (combine (combine cs (transition_exemptions ctx)) (transition_degrees ctx)) tcs) ->
     1 <= deg) ->
  fpow z n - 1 <> 0 ->
  transition_ood E a (map (fun c => peval c z) cs) z (fpow g (n - 1)) tcs = Ok (tsum cs tcs z).
Proof using D HE Hb Hb1 Hn.
  intros He Hene Hmx Hdb Hdeg Hz. unfold transition_ood. rewrite Hn.
  rewrite (proj2 (inv_o_ok HK (fpow z n - 1) _) (conj Hz eq_refl)). cbn [obind]. unfold transition_exemptions_verifier.
  assert (Hme : exists me, list_max_o (transition_exemptions ctx) = Some me) by (destruct (transition_exemptions ctx); cbn; [congruence|eauto]).
  destruct Hme as [me Hme]. rewrite Hme. cbn [unwrap obind]. rewrite Hmx. cbn [unwrap obind].
  rewrite (traverse_map _ (fun deg => fpow z (DB - n * (deg - 1)))).
  2:{ intros deg Hin. apply in_seq in Hin. rewrite usub_ok by (apply Hdb; lia). reflexivity. }
  cbn [obind].
  assert (Hmem : me <= n).
  { apply He. now apply list_max_mem. }
  set (exev := map (fun p => peval p z) _).
  assert (Hexev : forall i, i < me -> idx exev i = Ok (vanish (last_roots g n (S i)) z)).
  { intros i Hi. unfold exev. rewrite map_map. rewrite (idx_nth _ _ 0) by (now rewrite map_length, seq_length). f_equal.
    rewrite (nth_indep _ 0 ((fun index => peval (exemption_poly_verifier (fpow g (n - 1)) index) z) 0%nat)) by (now rewrite map_length, seq_length).
    rewrite (map_nth (fun index => peval (exemption_poly_verifier (fpow g (n - 1)) index) z)), seq_nth by exact Hi.
    apply (exemption_poly_verifier_eval HE); [apply pow2_pos|exact (ds_gprim _ _ _ _ _ _ D)|lia]. }
  set (dadj := map (fun deg => fpow z (DB - n * (deg - 1))) (seq 1 mx)).
  assert (Hdadj : forall k, k < mx -> idx dadj k = Ok (fpow z (DB - n * k))).
  { intros k Hk. unfold dadj. rewrite (idx_nth _ _ 0) by (now rewrite map_length, seq_length). f_equal.
    rewrite (nth_indep _ 0 ((fun deg => fpow z (DB - n * (deg - 1))) 0%nat)) by (now rewrite map_length, seq_length).
    rewrite (map_nth (fun deg => fpow z (DB - n * (deg - 1)))), seq_nth by exact Hk. do 3 f_equal. lia. }
  clearbody exev dadj. unfold tsum.
  assert (G : forall exs degs, (forall e, In e exs -> e <= me) -> (forall deg, In deg degs -> deg <= mx) -> forall cs tcs acc,
     (forall c e deg ab, In (c, e, deg, ab) (combine (combine (combine cs exs) degs) tcs) -> 1 <= deg) ->
     ofold (fun acc (x : E * nat * nat * (E * E)) =>
        let '(eval, degree, except, (alpha, beta)) := x in
        obind (match except with O => Ok 1 | S i => idx exev i end) (fun ex =>
        obind (usub degree 1) (fun k => obind (idx dadj k) (fun dj =>
        Ok (acc + finv (fpow z n - 1) * eval * (alpha * dj + beta) * ex)))))
      (combine (combine (combine (map (fun c => peval c z) cs) degs) exs) tcs) acc =
     Ok (acc + fsum (map (tterm z) (combine (combine (combine cs exs) degs) tcs)))).
  { clear -HE HF HK Hexev Hdadj n. induction exs as [|e exs IH]; intros degs Hex Hdg cs tcs acc Hdeg.
    - destruct cs as [|c cs], degs as [|dg degs]; cbn; f_equal; ring.
    - destruct cs as [|c cs]; [cbn; f_equal; ring|]. destruct degs as [|dg degs]; [cbn; f_equal; ring|].
      destruct tcs as [|[al be] tcs]; [cbn; f_equal; ring|].
      cbn [map combine ofold].
      assert (Hd1 : 1 <= dg). { apply (Hdeg c e dg (al, be)). cbn. now left. }
      assert (Hd2 : dg <= mx) by (apply Hdg; now left). assert (He2 : e <= me) by (apply Hex; now left).
      rewrite usub_ok by exact Hd1. cbn [obind]. rewrite Hdadj by lia. cbn [obind].
      assert (Eex : match e with O => Ok 1 | S i => idx exev i end = Ok (vanish (last_roots g n e) z)).
      { destruct e as [|i]; [reflexivity|]. apply Hexev. lia. }
      rewrite Eex. cbn [obind]. rewrite IH.
      + f_equal. cbn [fsum fold_right]. fold (fsum (map (tterm z) (combine (combine (combine cs exs) degs) tcs))). cbn [tterm]. ring.
      + intros; apply Hex; now right.
      + intros; apply Hdg; now right.
      + intros; eapply Hdeg; cbn; right; eassumption. }
  rewrite G.
  - f_equal. ring.
  - intros e Hin. eapply list_max_ge; eassumption.
  - intros dg Hin. eapply list_max_ge; eassumption.
  - exact Hdeg.
Qed.
End Compose.
