(** The verifier's steps against their specification. *)
From Coq Require Import List Arith Lia Bool NArith.
From Verif.Base Require Import Outcome Bytes Field Poly.
From Verif.Model Require Import Codec Trace Merkle Air Transcript Domain Fri Prover Verifier.
From Verif.Spec Require Import VerifierSpec.
From Verif.Proofs Require Import OutcomeFacts FieldFacts PolyFacts FFTFacts MerkleFacts FriFacts TraceFacts DomainFacts TranscriptFacts ComposeFacts.
Import ListNotations.
Local Open Scope felt_scope.

Lemma nth_error_combine_iff {X Y} (l : list X) (m : list Y) j x y :
  nth_error (combine l m) j = Some (x, y) <-> nth_error l j = Some x /\ nth_error m j = Some y.
Proof.
  revert m j. induction l as [|a l IH]; intros [|b m] [|j]; cbn; try (split; [discriminate|intros [? ?]; discriminate]).
  - split; [intro H; injection H as -> ->; auto|intros [H1 H2]; congruence].
  - apply IH.
Qed.

Section VerifierFacts.
Context {E : env} (HE : env_ok E).
Let HF : fft_ok E := e_fft_ok E HE.
Let HK : field_ok E := fft_field_ok E HF.
Add Field Kfield21 : (fld_th E HK).

Lemma fsum_cons (x : E) l : fsum (x :: l) = x + fsum l.
Proof using Type. reflexivity. Qed.

(** ** Step 2 *)

Lemma ofold_val {A} (f : E -> A -> outcome E) (F : A -> E) l acc res :
  (forall y acc acc', In y l -> f acc y = Ok acc' -> acc' = acc + F y) ->
  ofold f l acc = Ok res -> res = acc + fsum (map F l).
Proof using HE HF HK.
  revert acc. induction l as [|y l IH]; intros acc Hf H; cbn [ofold map] in *.
  - apply ok_inj in H. subst. unfold fsum. cbn [fold_right]. ring.
  - rewrite fsum_cons. ok_as H acc' Ha. rewrite (IH acc' (fun y0 a0 a1 Hin => Hf y0 a0 a1 (or_intror Hin)) H), (Hf _ _ _ (or_introl eq_refl) Ha). ring.
Qed.

Lemma boundary_ood_inv bcs fr (g z : E) adj coeffs res : boundary_ood E bcs fr g z adj coeffs = Ok res ->
  exists row0, (bcs <> [] -> fr_get_row fr 0 = Ok row0) /\
    res = fsum (map (fun x : boundary_constraint E * (E * E) => let '(bc, (alpha, beta)) := x in
         (nth (bc_col bc) row0 0 - bc_value bc) * finv (z - fpow g (bc_step bc)) * (alpha * fpow z adj + beta)) (combine bcs coeffs)) /\
    forall bc, In bc bcs -> z - fpow g (bc_step bc) <> 0.
Proof using HE HF HK.
  intros H. unfold boundary_ood in H. ok_as H nums Hn. ok_as H dens Hd. apply ok_inj in H.
  exists (match fr_get_row fr 0 with Ok r => r | _ => [] end).
  apply (batch_inverse_inv HK) in Hd. destruct Hd as [Hd Hnz].
  assert (Enums : nums = map (fun bc => nth (bc_col bc) (match fr_get_row fr 0 with Ok r => r | _ => [] end) 0 - bc_value bc) bcs).
  { revert Hn. apply traverse_ok_map. intros bc v _ Hv. ok_as Hv row Hr. ok_as Hv v0 Hv0. apply ok_inj in Hv. rewrite Hr, <- Hv.
    now rewrite (idx_val _ _ _ 0 Hv0). }
  split; [|split].
  - intros Hne. destruct bcs as [|bc bcs]; [congruence|]. cbn [traverse] in Hn. ok_as Hn v Hv. ok_as Hv row Hr. now rewrite Hr.
  - subst. rewrite map_map. set (row0 := match fr_get_row fr 0 with Ok r => r | _ => [] end). clearbody row0. clear Hn Hnz.
    match goal with |- fold_left ?f ?l _ = fsum ?L => enough (G : forall acc, fold_left f l acc = acc + fsum L) by (rewrite G; ring) end.
    revert coeffs. induction bcs as [|bc bcs IH]; intros [|[al be] coeffs] acc; cbn [map combine fold_left];
      try (unfold fsum; cbn [fold_right]; ring).
    rewrite IH, fsum_cons. ring.
  - intros bc Hin. apply Hnz, in_map_iff. now exists bc.
Qed.

Lemma transition_ood_inv (a : air E) evals z (g : E) n coeffs res :
  a_trace_length a = n -> is_prim g n -> (0 < n)%nat -> (forall e, In e (transition_exemptions (a_context a)) -> (e <= n)%nat) ->
  transition_ood E a evals z (fpow g (n - 1)) coeffs = Ok res ->
  res = fsum (map (fun x : E * nat * nat * (E * E) => let '(eval, degree, exempt, (alpha, beta)) := x in
         eval * finv (fpow z n - 1) * (alpha * fpow z (a_degree_bound a - n * (degree - 1)) + beta) *
         fprod (map (fun k => z - fpow g (n - k)) (seq 1 exempt)))
       (combine (combine (combine evals (transition_degrees (a_context a))) (transition_exemptions (a_context a))) coeffs)) /\
  fpow z n - 1 <> 0.
Proof using HE HF HK.
  intros Hn Hg Hpos Hle H. unfold transition_ood in H. rewrite Hn in H. ok_as H den Hden. ok_as H polys Hp. ok_as H mx Hmx. ok_as H dadj Hdadj.
  apply (inv_o_ok HK) in Hden. destruct Hden as [Hz ->]. split; [|exact Hz].
  match goal with |- res = ?R => enough (Hres : res = 0 + R) by (rewrite Hres; ring) end.
  revert H. apply ofold_val.
  intros [[[ev deg] ex] [al be]] acc acc' Hin Hacc. cbv beta iota in Hacc. ok_as Hacc exv Hex. ok_as Hacc k Hk. ok_as Hacc dj Hdj. apply ok_inj in Hacc.
  apply usub_inv in Hk. destruct Hk as [Hk ->].
  apply in_combine_l in Hin. apply in_combine_r in Hin.
  assert (Edj : dj = fpow z (a_degree_bound a - n * (deg - 1))).
  { pose proof (idx_lt _ _ _ Hdj) as Hlt. rewrite (traverse_length _ _ _ Hdadj), seq_length in Hlt.
    pose proof (traverse_nth _ _ _ (deg - 1) 0%nat (0 : E) Hdadj ltac:(now rewrite seq_length)) as Hv.
    rewrite seq_nth in Hv by exact Hlt. ok_as Hv e He. apply usub_inv in He. destruct He as [_ ->]. apply ok_inj in Hv.
    rewrite (idx_val _ _ _ 0 Hdj) in Hv. rewrite <- Hv. do 2 f_equal. f_equal. lia. }
  assert (Eex : exv = fprod (map (fun k => z - fpow g (n - k)) (seq 1 ex))).
  { destruct ex as [|i]; [apply ok_inj in Hex; now subst|].
    unfold transition_exemptions_verifier in Hp. ok_as Hp me Hme. apply ok_inj in Hp. subst polys.
    pose proof (idx_lt _ _ _ Hex) as Hlt. rewrite !map_length, seq_length in Hlt.
    rewrite map_map in Hex. pose proof (idx_val _ _ _ 0 Hex) as Hv.
    rewrite (nth_indep _ 0 ((fun index => peval (exemption_poly_verifier (fpow g (n - 1)) index) z) 0%nat)) in Hv by (now rewrite map_length, seq_length).
    rewrite (map_nth (fun index => peval (exemption_poly_verifier (fpow g (n - 1)) index) z)), seq_nth in Hv by exact Hlt.
    rewrite (exemption_poly_verifier_eval HE g n (1 + i) z Hpos Hg (Hle _ Hin)) in Hv.
    rewrite <- Hv. unfold vanish, last_roots. now rewrite map_map. }
  subst. ring.
Qed.

Section Shape.
Context {a : air E} {d : domain E} {r b : nat} {h g W : E} (D : domain_shape d r b h g W) (Hn : a_trace_length a = (2 ^ r)%nat).

Lemma last_trace_root : hd_error (rev (trace_roots_of_unity d)) = Some (fpow g (2 ^ r - 1)).
Proof using All.
  rewrite (ds_trace _ _ _ _ _ _ D). pose proof (pow2_pos r). replace (2 ^ r)%nat with (S (2 ^ r - 1)) at 1 by lia.
  rewrite seq_S, map_app, rev_app_distr. cbn [map rev app hd_error Nat.add]. f_equal. ring.
Qed.

Lemma step_2_exact (p : stark_proof E) (c : challenges E a) res :
  (forall e, In e (transition_exemptions (a_context a)) -> (e <= 2 ^ r)%nat) ->
  step_2 E a p d c = Ok res ->
  (res = true <-> exists bcs row0 evals,
      a_boundary a (c_rap E a c) = Ok bcs /\
      (bcs <> [] -> fr_get_row (trace_ood_frame_evaluations p) 0 = Ok row0) /\
      a_transition a (trace_ood_frame_evaluations p) (c_rap E a c) = Ok evals /\
      composition_poly_even_ood_evaluation p + c_z E a c * composition_poly_odd_ood_evaluation p =
      composition_value a (2 ^ r) g (c_z E a c) bcs (c_boundary_coeffs E a c) row0 evals (c_transition_coeffs E a c)).
Proof using D HE HF HK Hn.
  intros Hle H. unfold step_2 in H. ok_as H bcs Hb. ok_as H adj Hadj. ok_as H bo Hbo. ok_as H evals Hev. ok_as H lr Hlr. ok_as H tv Htv.
  rewrite last_trace_root in Hlr. cbn [unwrap] in Hlr. apply ok_inj in Hlr. subst lr. apply ok_inj in H.
  apply usub_inv in Hadj. destruct Hadj as [_ ->]. rewrite Hn in Hbo. rewrite (ds_root _ _ _ _ _ _ D) in Hbo.
  destruct (boundary_ood_inv _ _ _ _ _ _ _ Hbo) as (row0 & Hrow & Ebo & _).
  destruct (transition_ood_inv a evals _ g (2 ^ r) _ _ Hn (ds_gprim _ _ _ _ _ _ D) (pow2_pos r) Hle Htv) as [Etv _].
  assert (Hcv : composition_value a (2 ^ r) g (c_z E a c) bcs (c_boundary_coeffs E a c) row0 evals (c_transition_coeffs E a c) = bo + tv).
  { unfold composition_value. now rewrite Ebo, Etv. }
  rewrite <- H, (feqb_spec E HK). split.
  - intros Heq. exists bcs, row0, evals. rewrite Hcv. auto.
  - intros (bcs' & row0' & evals' & Hb' & Hrow' & Hev' & Heq). rewrite Hb in Hb'. apply ok_inj in Hb'. subst bcs'.
    rewrite Hev in Hev'. apply ok_inj in Hev'. subst evals'. rewrite Heq, <- Hcv.
    destruct bcs as [|bc bcs]; [reflexivity|]. specialize (Hrow ltac:(discriminate)). specialize (Hrow' ltac:(discriminate)).
    rewrite Hrow in Hrow'. apply ok_inj in Hrow'. now subst.
Qed.
End Shape.

(** ** Step 3 *)

Lemma squares_nth n (x : E) k : (k < n)%nat -> nth_error (squares E n x) k = Some (fpow x (2 ^ k)).
Proof using HE HF HK.
  revert x k. induction n as [|n IH]; intros x k Hk; [lia|]. destruct k as [|k]; cbn [squares nth_error].
  - f_equal. cbn. ring.
  - rewrite IH by lia. f_equal. unfold fsquare. rewrite <- (fpow_2 HK), <- (fpow_mul HK). f_equal.
Qed.

Lemma squares_length n (x : E) : length (squares E n x) = n.
Proof using Type. revert x. induction n; intro x; cbn; auto. Qed.

(** The loop over the layers, as a conjunction. *)
Definition vq_check (p : stark_proof E) (zetas : list E) (iota : nat) (q : fri_decommitment E) (m : nat) (two_inv : E)
  (x : nat * commitment * list commitment * E * list commitment * E * E) : Prop :=
  let '(k, root, auth_path, evaluation, auth_path_sym, evaluation_sym, xinv) := x in
  let size := (2 ^ (m - k))%nat in
  opens_to (E := E) auth_path root iota (e_leaf E evaluation) /\
  opens_to (E := E) auth_path_sym root ((iota + size / 2) mod size) (e_leaf E evaluation_sym) /\
  exists zeta, nth_error zetas k = Some zeta /\
  (evaluation + evaluation_sym) * two_inv + zeta * (evaluation - evaluation_sym) * two_inv * xinv =
      (if (k + 1 <? length (layers_evaluations q))%nat then nth (k + 1) (layers_evaluations q) 0 else fri_last_value p).

Lemma path_verify_iff path root i leaf : path_verify (e_node E) path root i leaf = true <-> opens_to (E := E) path root i leaf.
Proof using Type. unfold path_verify, opens_to. rewrite list_byte_eqb_spec. split; intro H; now symmetry. Qed.

Lemma vq_loop_exact (p : stark_proof E) zetas iota q (d : domain E) two_inv m : lde_root_order d = m ->
  forall xs s v res v' res',
  (forall j k root ap ev aps es xi, nth_error xs j = Some (k, root, ap, ev, aps, es, xi) ->
      k = (s + j)%nat /\ nth_error (layers_evaluations q) k = Some ev) ->
  (xs <> [] -> nth_error (layers_evaluations q) s = Some v) ->
  ofold (vq_step E p zetas iota q d two_inv) xs (v, res) = Ok (v', res') ->
  (res' = true <-> res = true /\ forall x, In x xs -> vq_check p zetas iota q m two_inv x).
Proof using HE HF HK.
  intros Hm. induction xs as [|x xs IH]; intros s v res v' res' Hk Hv H; cbn [ofold] in H.
  - apply ok_inj in H. injection H as -> ->. split; [intros ->; split; [reflexivity|intros ? []]|now intros []].
  - ok_as H st Hst. destruct x as [[[[[[k root] ap] ev] aps] es] xi]. destruct st as [v1 res1].
    destruct (Hk 0%nat _ _ _ _ _ _ _ eq_refl) as [Ek Hev]. rewrite Nat.add_0_r in Ek. subst k.
    specialize (Hv ltac:(discriminate)). rewrite Hv in Hev. injection Hev as <-.
    unfold vq_step in Hst. ok_as Hst depth Hdep. ok_as Hst beta Hbeta. ok_as Hst lst Hlast. ok_as Hst next Hnext. apply ok_inj in Hst.
    apply usub_inv in Hdep. destruct Hdep as [_ ->]. apply usub_inv in Hlast. destruct Hlast as [Hl1 ->]. rewrite Hm in Hst.
    assert (Enext : next = if (s + 1 <? length (layers_evaluations q))%nat then nth (s + 1) (layers_evaluations q) 0 else fri_last_value p).
    { destruct (Nat.ltb_spec s (length (layers_evaluations q) - 1)); destruct (Nat.ltb_spec (s + 1) (length (layers_evaluations q))); try lia.
      - symmetry. now apply idx_val.
      - now apply ok_inj in Hnext. }
    pose proof (f_equal fst Hst) as Ev1. pose proof (f_equal snd Hst) as Eres1. cbn [fst snd] in Ev1, Eres1. clear Hst.
    apply idx_ok in Hbeta.
    assert (Hres1 : res1 = true <-> res = true /\ vq_check p zetas iota q m two_inv (s, root, ap, v, aps, es, xi)).
    { rewrite <- Eres1, !andb_true_iff, (feqb_spec E HK), !path_verify_iff. unfold vq_check. rewrite <- Enext. split.
      - intros (((H1 & H2) & H3) & H4). split; [exact H1|]. split; [exact H3|]. split; [exact H4|]. exists beta. split; [exact Hbeta|exact H2].
      - intros (H1 & H3 & H4 & zeta & Hz & H2). rewrite Hbeta in Hz. injection Hz as <-. repeat split; assumption. }
    destruct res1 eqn:Er1.
    + destruct (proj1 Hres1 eq_refl) as [Hr0 Hc0].
      assert (Hrec : res' = true <-> true = true /\ forall x, In x xs -> vq_check p zetas iota q m two_inv x).
      { apply (IH (S s) v1 true v' res'); [| |exact H].
        - intros j k root' ap' ev' aps' es' xi' Hj. destruct (Hk (S j) _ _ _ _ _ _ _ Hj) as [-> He]. split; [lia|exact He].
        - intros Hne. destruct xs as [|[[[[[[k' root'] ap'] ev'] aps'] es'] xi'] xs]; [congruence|].
          destruct (Hk 1%nat _ _ _ _ _ _ _ eq_refl) as [Ek He]. subst k'. rewrite Nat.add_1_r in He. rewrite He. f_equal.
          unfold vq_check in Hc0. destruct Hc0 as (_ & _ & zeta & Hz & Heq). rewrite Hbeta in Hz. injection Hz as <-.
          rewrite <- Ev1. rewrite Heq. assert (Hlt : (s + 1 < length (layers_evaluations q))%nat).
          { rewrite Nat.add_1_r. apply nth_error_Some. now rewrite He. }
          destruct (Nat.ltb_spec (s + 1) (length (layers_evaluations q))); [|lia].
          rewrite Nat.add_1_r. symmetry. apply nth_error_nth with (d := 0) in He. exact He. }
      rewrite Hrec. split.
      * intros [_ Hall]. split; [exact Hr0|]. intros x [<-|Hin]; [exact Hc0|now apply Hall].
      * intros [_ Hall]. split; [reflexivity|]. intros x Hin. apply Hall. now right.
    + assert (Hf : res' = false).
      { assert (G : snd (v', res') = false).
        { revert H. apply (ofold_inv (fun st => snd st = false)); [reflexivity|].
          intros [[[[[[k' root'] ap'] ev'] aps'] es'] xi'] [v2 r2] [v3 r3] _ Hf H. cbn [snd] in *. subst r2.
          unfold vq_step in H. ok_as H x1 Hx1. ok_as H x2 Hx2. ok_as H x3 Hx3. ok_as H x4 Hx4. apply ok_inj in H.
          apply (f_equal snd) in H. cbn [snd] in H. now rewrite <- H. }
        exact G. }
      subst res'. split; [discriminate|]. intros [Hr Hall]. apply Hres1. split; [exact Hr|]. apply Hall. now left.
Qed.

Lemma verify_query_exact (p : stark_proof E) zetas iota q (d : domain E) x m res :
  lde_root_order d = m -> x <> 0 -> length zetas = length (fri_layers_merkle_roots p) ->
  verify_query E p zetas iota q d (finv x) (finv (1 + 1)) = Ok res ->
  (res = true <-> fri_query_consistent m (fri_layers_merkle_roots p) zetas (fri_last_value p) iota x q).
Proof using HE HF HK.
  intros Hm Hx Hzl H. rewrite verify_query_eq in H. ok_as H v0 Hv0. ok_as H st Hst. apply ok_inj in H. destruct st as [v' res']. cbn [snd] in H. subst res'.
  assert (Hlist : forall j k root ap ev aps es xi,
    nth_error (vq_list E 0 (fri_layers_merkle_roots p) (layers_auth_paths q) (layers_evaluations q) (layers_auth_paths_sym q) (layers_evaluations_sym q) (finv x)) j
      = Some (k, root, ap, ev, aps, es, xi) <->
    k = j /\ nth_error (fri_layers_merkle_roots p) j = Some root /\ nth_error (layers_auth_paths q) j = Some ap /\
    nth_error (layers_evaluations q) j = Some ev /\ nth_error (layers_auth_paths_sym q) j = Some aps /\
    nth_error (layers_evaluations_sym q) j = Some es /\ xi = fpow (finv x) (2 ^ j)).
  { intros j k root ap ev aps es xi. unfold vq_list. rewrite !nth_error_combine_iff. split.
    - intros ((((((H1 & H2) & H3) & H4) & H5) & H6) & H7).
      assert (Hj : (j < length (fri_layers_merkle_roots p))%nat) by (apply nth_error_Some; now rewrite H2).
      rewrite squares_nth in H7 by exact Hj. injection H7 as <-.
      apply nth_error_nth with (d := 0%nat) in H1. rewrite seq_nth in H1 by exact Hj. cbn in H1. repeat split; auto.
    - intros (-> & H2 & H3 & H4 & H5 & H6 & ->).
      assert (Hj : (j < length (fri_layers_merkle_roots p))%nat) by (apply nth_error_Some; now rewrite H2).
      rewrite squares_nth by exact Hj. repeat split; auto.
      rewrite (nth_error_nth' _ 0%nat) by now rewrite seq_length. rewrite seq_nth by exact Hj. reflexivity. }
  apply (vq_loop_exact p zetas iota q d (finv (1 + 1)) m Hm _ 0 v0 true v' res) in Hst; [destruct Hst as [G1 G2]| |].
  2:{ intros j k root ap ev aps es xi Hj. apply Hlist in Hj. destruct Hj as (-> & _ & _ & Hev & _). split; [reflexivity|exact Hev]. }
  2:{ intros _. now apply idx_ok. }
  assert (Hsc : forall k (u zeta y : E), zeta * u * finv ((1 + 1) * fpow x (2 ^ k)) = zeta * u * finv (1 + 1) * fpow (finv x) (2 ^ k)).
  { intros k u zeta y. rewrite (fpow_inv HK x _ Hx). pose proof (two_neq E HE). pose proof (fpow_nonzero HK x (2 ^ k) Hx). field. split; assumption. }
  split.
  - intros Hr. destruct (G1 Hr) as [_ Hall]. intros k root path ev psym esym zeta H1 H2 H3 H4 H5 H6.
    assert (Hin : In (k, root, path, ev, psym, esym, fpow (finv x) (2 ^ k))
       (vq_list E 0 (fri_layers_merkle_roots p) (layers_auth_paths q) (layers_evaluations q) (layers_auth_paths_sym q) (layers_evaluations_sym q) (finv x))).
    { apply (nth_error_In _ k). apply Hlist. repeat split; auto. }
    destruct (Hall _ Hin) as (O1 & O2 & z & Hz & Heq). rewrite H2 in Hz. injection Hz as <-. cbv zeta.
    split; [exact O1|]. split; [exact O2|]. rewrite (Hsc k _ zeta ev). exact Heq.
  - intros Hc. apply G2. split; [reflexivity|]. intros [[[[[[k root] ap] ev] aps] es] xi] Hin.
    apply In_nth_error in Hin. destruct Hin as [j Hj]. apply Hlist in Hj. destruct Hj as (-> & H1 & H3 & H4 & H5 & H6 & ->).
    assert (Hj : (j < length zetas)%nat) by (rewrite Hzl; apply nth_error_Some; now rewrite H1).
    destruct (nth_error zetas j) as [zeta|] eqn:Hz; [|apply nth_error_None in Hz; lia].
    destruct (Hc j root ap ev aps es zeta H1 Hz H3 H4 H5 H6) as (O1 & O2 & Heq).
    split; [exact O1|]. split; [exact O2|]. exists zeta. split; [exact Hz|]. rewrite <- (Hsc j _ zeta ev). exact Heq.
Qed.

Lemma step_3_exact (a : air E) (p : stark_proof E) (d : domain E) (c : challenges E a) m res :
  lde_root_order d = m -> length (c_zetas E a c) = length (fri_layers_merkle_roots p) ->
  step_3 E a p d c = Ok res ->
  (res = true <-> forall j iota q, nth_error (c_iotas E a c) j = Some iota -> nth_error (query_list p) j = Some q ->
      fri_query_consistent m (fri_layers_merkle_roots p) (c_zetas E a c) (fri_last_value p) iota (nth iota (lde_roots_of_unity_coset d) 0) q).
Proof using HE HF HK.
  intros Hm Hz H. unfold step_3 in H. ok_as H two_inv H2. rewrite (e_two E HE) in H2. apply (inv_o_ok HK) in H2. destruct H2 as [_ ->].
  ok_as H pts Hpts. ok_as H inv Hinv. apply (batch_inverse_inv HK) in Hinv. destruct Hinv as [-> Hnz].
  assert (Epts : pts = map (fun i => nth i (lde_roots_of_unity_coset d) 0) (c_iotas E a c)).
  { revert Hpts. apply traverse_ok_map. intros i x _ Hx. symmetry. now apply idx_val. }
  subst pts. rewrite map_map in H.
  set (lde := fun i => nth i (lde_roots_of_unity_coset d) 0) in *.
  assert (G : forall qs is acc, (forall x, In x (map lde is) -> x <> 0) ->
     ofold (fun result (x : fri_decommitment E * nat * E) => let '(q, iota, xinv) := x in
       obind (verify_query E p (c_zetas E a c) iota q d xinv (finv (1 + 1))) (fun r => Ok (result && r)))
       (combine (combine qs is) (map (fun i => finv (lde i)) is)) acc = Ok res ->
     (res = true <-> acc = true /\ forall j iota q, nth_error is j = Some iota -> nth_error qs j = Some q ->
        fri_query_consistent m (fri_layers_merkle_roots p) (c_zetas E a c) (fri_last_value p) iota (lde iota) q)).
  { clear H Hpts Hnz. induction qs as [|q qs IH]; intros is acc Hnz H.
    - cbn in H. apply ok_inj in H. subst. split; [intros ->; split; [reflexivity|]|now intros []]. intros [|j] ? ? _ Hj; discriminate.
    - destruct is as [|i is]; [cbn in H; apply ok_inj in H; subst; split; [intros ->; split; [reflexivity|]|now intros []]; intros [|j] ? ? Hj; discriminate|].
      cbn [map combine ofold] in H. ok_as H acc1 Hacc. ok_as Hacc rq Hrq. apply ok_inj in Hacc.
      apply IH in H; [|intros; apply Hnz; now right].
      apply (verify_query_exact p _ i q d (lde i) m) in Hrq; [|exact Hm|apply Hnz; now left|exact Hz].
      rewrite H, <- Hacc, andb_true_iff, Hrq. split.
      + intros [[Ha Hq] Hall]. split; [exact Ha|]. intros [|j] iota q' Hi Hq'; cbn in Hi, Hq'.
        * injection Hi as <-. injection Hq' as <-. exact Hq.
        * now apply (Hall j).
      + intros [Ha Hall]. split; [split; [exact Ha|now apply (Hall 0%nat)]|]. intros j iota q' Hi Hq'. now apply (Hall (S j)). }
  apply G in H; [|exact Hnz]. rewrite H. split; [intros [_ Hall]; exact Hall|intros Hall; split; [reflexivity|exact Hall]].
Qed.

(** ** Step 4 *)

Lemma reconstruct_deep_inv (p : stark_proof E) (a : air E) (c : challenges E a) (g x : E) rows o res :
  fr_num_rows (trace_ood_frame_evaluations p) = Ok (length rows) ->
  (forall i, (i < length rows)%nat -> fr_get_row (trace_ood_frame_evaluations p) i = Ok (nth i rows [])) ->
  reconstruct_deep E p a c (finv (x - c_z E a c * c_z E a c)) (map finv (map (fun row => x - c_z E a c * fpow g row) (seq 0 (length rows)))) o = Ok res ->
  res = deep_value p c g rows x o.
Proof using HE HF HK.
  intros Hnr Hrows H. unfold reconstruct_deep in H. rewrite Hnr in H. cbn [obind] in H. ok_as H tt0 Htt. apply ok_inj in H.
  assert (Ett : tt0 = 0 + fsum (map (fun cc : nat * list E => fsum (map (fun rc : nat * E =>
          (nth (fst cc) (lde_trace_evaluations o) 0 - nth (fst cc) (nth (fst rc) rows []) 0) *
          finv (x - c_z E a c * fpow g (fst rc)) * snd rc) (combine (seq 0 (length rows)) (snd cc))))
        (combine (seq 0 (fr_num_columns (trace_ood_frame_evaluations p))) (c_trace_term_coeffs E a c)))).
  { revert Htt. apply ofold_val. intros [col crow] acc acc' _ Hacc. ok_as Hacc inner Hin. apply ok_inj in Hacc. rewrite <- Hacc. f_equal.
    cbn [fst snd]. match goal with |- inner = ?R => enough (G : inner = 0 + R) by (rewrite G; ring) end.
    revert Hin. apply ofold_val. intros [row coeff] acc2 acc2' Hy Hi. ok_as Hi tv Htv. ok_as Hi rw Hrw. ok_as Hi ov Hov. ok_as Hi dv Hdv. apply ok_inj in Hi.
    apply in_combine_l in Hy. apply in_seq in Hy.
    rewrite Hrows in Hrw by lia. apply ok_inj in Hrw. subst rw. cbn [fst snd].
    rewrite (idx_val _ _ _ 0 Htv), (idx_val _ _ _ 0 Hov).
    assert (Edv : dv = finv (x - c_z E a c * fpow g row)).
    { rewrite map_map in Hdv. apply (idx_val _ _ _ (0 : E)) in Hdv. rewrite nth_map_seq in Hdv by lia. now rewrite <- Hdv. }
    now rewrite <- Hi, Edv. }
  unfold deep_value. cbv zeta. rewrite <- H, Ett. ring.
Qed.

Lemma step_4_exact {d : domain E} {r b : nat} {h g W : E} (D : domain_shape d r b h g W)
  (a : air E) (p : stark_proof E) (c : challenges E a) rows res :
  fr_num_rows (trace_ood_frame_evaluations p) = Ok (length rows) ->
  (forall i, (i < length rows)%nat -> fr_get_row (trace_ood_frame_evaluations p) i = Ok (nth i rows [])) ->
  step_4 E a p d c = Ok res ->
  (res = true <-> forall j iota o, nth_error (c_iotas E a c) j = Some iota -> nth_error (deep_poly_openings p) j = Some o ->
      opens_to (E := E) (lde_composition_poly_proof o) (composition_poly_root p) iota
        (e_leaves E [lde_composition_poly_even_evaluation o; lde_composition_poly_odd_evaluation o]) /\
      exists q, nth_error (query_list p) j = Some q /\
        hd_error (layers_evaluations q) = Some (deep_value p c g rows (nth iota (lde_roots_of_unity_coset d) 0) o)).
Proof using HE HF HK.
  intros Hnr Hrows H. unfold step_4 in H. rewrite (ds_root_order _ _ _ _ _ _ D), (ds_g _ _ _ _ _ _ D) in H. cbn [unwrap obind] in H.
  ok_as H dens Hdens. ok_as H dinv Hdinv. apply (batch_inverse_inv HK) in Hdinv. destruct Hdinv as [-> Hnz].
  set (lde := fun i => nth i (lde_roots_of_unity_coset d) 0) in *. set (z := c_z E a c) in *.
  assert (Edens : dens = map (fun i => lde i - z * z) (c_iotas E a c)).
  { revert Hdens. apply traverse_ok_map. intros i x _ Hx. ok_as Hx y Hy. apply ok_inj in Hx. rewrite <- Hx. unfold lde. now rewrite (idx_val _ _ _ 0 Hy). }
  rewrite Edens, map_map in H. clear Hdens Edens Hnz dens.
  set (chk := fun j iota o => opens_to (E := E) (lde_composition_poly_proof o) (composition_poly_root p) iota
        (e_leaves E [lde_composition_poly_even_evaluation o; lde_composition_poly_odd_evaluation o]) /\
      exists q, nth_error (query_list p) j = Some q /\
        hd_error (layers_evaluations q) = Some (deep_value p c g rows (lde iota) o)).
  assert (Hvo : forall i iota o result res1, verify_opening E a p d c g i iota o (finv (lde iota - z * z)) result = Ok res1 ->
     (res1 = true <-> result = true /\ chk i iota o)).
  { intros i iota o result res1 Hv. unfold verify_opening in Hv. ok_as Hv nm Hnm. ok_as Hv me Hme. ok_as Hv ae Hae.
    rewrite Hnr in Hv. cbn [obind] in Hv. ok_as Hv x Hx. ok_as Hv divs Hdivs. ok_as Hv deep Hdeep. ok_as Hv q Hq. ok_as Hv cl Hcl. apply ok_inj in Hv.
    apply (batch_inverse_inv HK) in Hdivs. destruct Hdivs as [-> _].
    assert (Ex : x = lde iota) by (unfold lde; symmetry; now apply idx_val). rewrite Ex in Hdeep.
    apply (reconstruct_deep_inv p a c g (lde iota) rows o deep Hnr Hrows) in Hdeep.
    apply idx_ok in Hq. rewrite <- Hv, !andb_true_iff, (feqb_spec E HK), path_verify_iff. unfold chk.
    assert (Ehd : hd_error (layers_evaluations q) = Some cl).
    { apply idx_ok in Hcl. destruct (layers_evaluations q); [discriminate|exact Hcl]. }
    split.
    - intros [[H1 H2] H3]. split; [exact H1|]. split; [exact H2|]. exists q. split; [exact Hq|]. now rewrite Ehd, H3, Hdeep.
    - intros (H1 & H2 & q' & Hq' & Hcl'). rewrite Hq in Hq'. injection Hq' as <-. rewrite Ehd in Hcl'. injection Hcl' as ->.
      split; [split; assumption|]. now rewrite Hdeep. }
  assert (G : forall is os s acc, 
     ofold (fun result (x : nat * (nat * deep_openings E * E)) => let '(i, (iota, o, dinv)) := x in
        verify_opening E a p d c g i iota o dinv result)
       (combine (seq s (length (combine (combine is os) (map (fun i => finv (lde i - z * z)) is)))) (combine (combine is os) (map (fun i => finv (lde i - z * z)) is))) acc = Ok res ->
     (res = true <-> acc = true /\ forall j iota o, nth_error is j = Some iota -> nth_error os j = Some o -> chk (s + j)%nat iota o)).
  { clear H. induction is as [|i is IH]; intros os s acc H.
    - cbn in H. apply ok_inj in H. subst. split; [intros ->; split; [reflexivity|]|now intros []]. intros [|j] ? ? Hj; discriminate.
    - destruct os as [|o os]; [cbn in H; apply ok_inj in H; subst; split; [intros ->; split; [reflexivity|]|now intros []]; intros [|j] ? ? _ Hj; discriminate|].
      cbn [map combine length seq ofold] in H. ok_as H acc1 Hacc. apply IH in H. apply Hvo in Hacc. rewrite H, Hacc. split.
      + intros [[Ha Hq] Hall]. split; [exact Ha|]. intros [|j] iota o' Hi Ho; cbn in Hi, Ho.
        * injection Hi as <-. injection Ho as <-. now rewrite Nat.add_0_r.
        * rewrite Nat.add_succ_r. now apply (Hall j).
      + intros [Ha Hall]. split; [split; [exact Ha|]|].
        * rewrite <- (Nat.add_0_r s). now apply (Hall 0%nat).
        * intros j iota o' Hi Ho. rewrite Nat.add_succ_comm. now apply (Hall (S j)). }
  apply G in H. rewrite H. split; [intros [_ Hall]; exact Hall|intros Hall; split; [reflexivity|exact Hall]].
Qed.

(** ** Step 1 *)

Lemma sample_zetas_length roots (t : e_tr E) zs t' : sample_zetas E roots t = Ok (zs, t') -> length zs = length roots.
Proof using Type.
  revert t zs t'. induction roots as [|x roots IH]; intros t zs t' H; cbn [sample_zetas] in H.
  - apply ok_inj in H. now injection H as <- _.
  - ok_as H y Hy. destruct y as [y t1]. ok_as H ys Hys. destruct ys as [ys t2]. apply ok_inj in H. injection H as <- _. cbn. f_equal. eauto.
Qed.

Lemma step_1_facts fuel (a : air E) (p : stark_proof E) (d : domain E) (t : e_tr E) c t' : step_1 E fuel a p d t = Ok (c, t') ->
  length (c_zetas E a c) = length (fri_layers_merkle_roots p) /\
  (exists rows, fr_num_rows (trace_ood_frame_evaluations p) = Ok (length rows) /\
     forall i, (i < length rows)%nat -> fr_get_row (trace_ood_frame_evaluations p) i = Ok (nth i rows [])) /\
  (length (c_iotas E a c) = fri_number_of_queries (a_options a) /\ forall i, In i (c_iotas E a c) -> (i < 2 ^ lde_root_order d)%nat) /\
  ~ In (c_z E a c) (lde_roots_of_unity_coset d) /\ ~ In (c_z E a c) (trace_roots_of_unity d).
Proof using HE HF HK.
  intros H. unfold step_1 in H.
  ok_as H root0 Hroot0. ok_as H rp Hrp. destruct rp as [rap t1]. ok_as H bcs Hbcs.
  ok_as H s1 Hs1. destruct s1 as [ba t2]. ok_as H s2 Hs2. destruct s2 as [bb t3]. ok_as H s3 Hs3. destruct s3 as [ta t4]. ok_as H s4 Hs4. destruct s4 as [tb t5].
  ok_as H s5 Hz. destruct s5 as [z t6]. ok_as H nr Hnr. ok_as H rows Hrows. ok_as H s6 Hg1. destruct s6 as [g1 t7]. ok_as H s7 Hg2. destruct s7 as [g2 t8].
  ok_as H s8 Httc. destruct s8 as [ttc t9]. ok_as H s9 Hzs. destruct s9 as [zs t10].
  destruct (tr_challenge _) as [ch t11]. ok_as H lz Hlz. ok_as H s10 Hio. destruct s10 as [iotas t12]. apply ok_inj in H.
  pose proof (f_equal fst H) as Hc. cbn [fst] in Hc. rewrite <- Hc. cbn [c_zetas c_iotas c_z].
  split; [now apply sample_zetas_length in Hzs|]. split.
  - exists rows. pose proof (traverse_length _ _ _ Hrows) as Hl. rewrite seq_length in Hl. rewrite Hl. split; [exact Hnr|].
    intros i Hi. pose proof (traverse_nth _ _ _ i 0%nat [] Hrows ltac:(now rewrite seq_length)) as Hr. now rewrite seq_nth in Hr.
  - split; [exact (sample_indices_spec E _ _ _ _ _ Hio)|exact (sample_z_ood_spec E HK _ _ _ _ _ _ Hz)].
Qed.

(** ** The verdict *)
Theorem verdict_exact fuel mk opts (p : stark_proof E) r b res :
  let a := mk (trace_length p) in
  a_trace_length a = (2 ^ r)%nat -> (1 <= r)%nat -> a_blowup a = (2 ^ b)%nat ->
  (forall e, In e (transition_exemptions (a_context a)) -> (e <= 2 ^ r)%nat) ->
  verify E fuel mk opts p = Ok res ->
  (res = true <-> exists d c t, domain_new a = Ok d /\ step_1 E fuel a p d tr_new = Ok (c, t) /\
      accepted a opts p c r b (trace_primitive_root d) (lde_roots_of_unity_coset d)).
Proof using HE HF HK.
  intros a Hn Hr Hb Hle H. unfold verify in H. fold a in H.
  destruct (Nat.ltb_spec (length (query_list p)) (fri_number_of_queries opts)) as [Hlt|Hge].
  { apply ok_inj in H. subst. split; [discriminate|]. intros (d & c & t & _ & _ & A). pose proof (acc_queries _ _ _ _ _ _ _ _ A). lia. }
  ok_as H d Hd. destruct (domain_new_shape HE a d r b Hd Hn Hb Hr) as (g & W & D).
  ok_as H ct Hc. destruct ct as [c t].
  destruct (step_1_facts _ _ _ _ _ _ _ Hc) as (Hzl & (rows & Hnr & Hrows) & (Hiol & Hiob) & Hzt).
  assert (Hfun : forall P : challenges E a -> domain E -> Prop,
     (exists d0 c0 t0, domain_new a = Ok d0 /\ step_1 E fuel a p d0 tr_new = Ok (c0, t0) /\ P c0 d0) <-> P c d).
  { intros P. split.
    - intros (d0 & c0 & t0 & Hd0 & Hc0 & HP). rewrite Hd in Hd0. apply ok_inj in Hd0. subst d0. rewrite Hc in Hc0. apply ok_inj in Hc0.
      apply (f_equal fst) in Hc0. cbn [fst] in Hc0. now subst c0.
    - intros HP. exists d, c, t. auto. }
  rewrite (Hfun (fun c d => accepted a opts p c r b (trace_primitive_root d) (lde_roots_of_unity_coset d))). clear Hfun.
  rewrite (ds_root _ _ _ _ _ _ D).
  destruct (N.ltb_spec (c_leading_zeros E a c) (grinding_factor (a_options a))) as [Hlz|Hlz].
  { apply ok_inj in H. subst. split; [discriminate|]. intros A. pose proof (acc_grinding _ _ _ _ _ _ _ _ A). lia. }
  ok_as H b2 H2. apply (step_2_exact D Hn p c b2 Hle) in H2.
  destruct b2; cbn [negb] in H.
  2:{ apply ok_inj in H. subst. split; [discriminate|]. intros A. apply H2. exact (acc_ood _ _ _ _ _ _ _ _ A). }
  ok_as H b3 H3. apply (step_3_exact a p d c (r + b) b3 (ds_lde_order _ _ _ _ _ _ D) Hzl) in H3.
  destruct b3; cbn [negb] in H.
  2:{ apply ok_inj in H. subst. split; [discriminate|]. intros A. apply H3. exact (acc_fri _ _ _ _ _ _ _ _ A). }
  ok_as H b4 H4. apply ok_inj in H. subst b4. apply (step_4_exact D a p c rows res Hnr Hrows) in H4.
  rewrite H4. split.
  - intros Hop. constructor; [exact Hge|exact Hlz|now apply H2|now apply H3|].
    intros j iota o Hj Ho. destruct (Hop j iota o Hj Ho) as (H5 & q & Hq & Hh). split; [exact H5|]. exists rows, q. auto.
  - intros A j iota o Hj Ho. destruct (acc_openings _ _ _ _ _ _ _ _ A j iota o Hj Ho) as (H5 & rows' & q & Hq & Hnr' & Hrows' & Hh).
    split; [exact H5|]. exists q. split; [exact Hq|].
    assert (Erows : rows' = rows).
    { rewrite Hnr in Hnr'. apply ok_inj in Hnr'. apply (nth_ext _ _ [] []); [now symmetry|]. intros i Hi.
      specialize (Hrows' i Hi). rewrite <- Hnr' in Hi. rewrite (Hrows i Hi) in Hrows'. now apply ok_inj in Hrows'. }
    now subst rows'.
Qed.
End VerifierFacts.
