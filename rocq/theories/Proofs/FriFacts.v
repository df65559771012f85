(** FRI: folding identity, layer shapes, and acceptance of honest query openings. *)
From Coq Require Import List Arith Lia Bool NArith.
From Verif.Base Require Import Outcome Bytes Field Poly.
From Verif.Model Require Import Codec Trace Merkle Air Transcript Domain Fri Prover Verifier.
From Verif.Proofs Require Import OutcomeFacts FieldFacts PolyFacts FFTFacts MerkleFacts.
Import ListNotations.
Local Open Scope felt_scope.

Lemma half_pow2 m : 1 <= m -> (2 ^ m / 2 = 2 ^ (m - 1))%nat.
Proof.
  intro H. replace (2 ^ m)%nat with (2 ^ (m - 1) * 2)%nat; [apply Nat.div_mul; lia|].
  rewrite Nat.mul_comm, <- Nat.pow_succ_r'. f_equal. lia.
Qed.

Section Fold.
Context {K : field_ops} (HK : field_ok K).
Add Field Kfield5 : (fld_th K HK).

Lemma fold_eval (p : poly K) beta y :
  peval (fold_polynomial p beta) y = peval (evens p) y + beta * peval (odds p) y.
Proof using HK.
  unfold fold_polynomial. rewrite (peval_padd HK), !(peval_trim HK). f_equal.
  transitivity (peval (pscale_raw beta (odds p)) y).
  - f_equal. apply map_ext. intro. ring.
  - apply (peval_pscale_raw HK).
Qed.

Lemma peval_opp (p : poly K) x :
  peval p (- x) = peval (evens p) (x * x) - x * peval (odds p) (x * x).
Proof using HK.
  rewrite (even_odd_eval HK p (- x)). replace (- x * - x) with (x * x) by ring. ring.
Qed.

Lemma fold_identity (p : poly K) beta x : (1 : K) + 1 <> 0 -> x <> 0 ->
  peval (fold_polynomial p beta) (x * x) =
  (peval p x + peval p (- x)) * finv (1 + 1) + beta * (peval p x - peval p (- x)) * finv (1 + 1) * finv x.
Proof using HK.
  intros H2 Hx. rewrite fold_eval, peval_opp, (even_odd_eval HK p x). field. tauto.
Qed.

Lemma fold_identity' (p : poly K) beta x : (1 : K) + 1 <> 0 -> x <> 0 ->
  peval (fold_polynomial p beta) (x * x) =
  (peval p x + peval p (- x)) * finv (1 + 1) + beta * (peval p x - peval p (- x)) * finv ((1 + 1) * x).
Proof using HK.
  intros H2 Hx. rewrite (fold_identity p beta x H2 Hx).
  replace (finv ((1 + 1) * x)) with (finv (1 + 1) * finv x); [ring|].
  apply (inv_unique HK).
  transitivity (((1 + 1) * finv (1 + 1)) * (x * finv x)); [ring|].
  rewrite (inv_r HK _ H2), (inv_r HK _ Hx). ring.
Qed.

Lemma fold_length (p : poly K) beta m : length p <= (2 * m)%nat -> length (fold_polynomial p beta) <= m.
Proof using Type.
  intro H. unfold fold_polynomial. etransitivity; [apply padd_length|].
  apply Nat.max_lub.
  - etransitivity; [apply trim_length|]. now apply evens_length_le.
  - etransitivity; [apply trim_length|]. rewrite map_length. now apply odds_length_le.
Qed.

Lemma constant_eval (p : poly K) x : length p <= 1 -> peval p x = nth 0 p 0.
Proof using HK. destruct p as [|c [|? ?]]; cbn; intro H; [reflexivity|ring|lia]. Qed.
End Fold.

Section Layers.
Context (E : env) (HE : env_ok E).
Let HF : fft_ok E := e_fft_ok E HE.
Let HK : field_ok E := fft_field_ok E HF.
Add Field Kfield6 : (fld_th E HK).

Lemma two_neq : (1 : E) + 1 <> 0.
Proof using HE. exact (fft_char E HF). Qed.

Lemma primitive_root_half m (w : E) : 1 <= m -> primitive_root m = Some w -> fpow w (2 ^ (m - 1)) = - (1).
Proof using HE.
  intros Hm Hw. pose proof (fft_adicity_pos E HF) as Hs.
  destruct (primitive_root_some (K := E) 1) as [w1 Hw1]; [lia|].
  assert (E1 : w1 = - (1)).
  { unfold primitive_root in Hw1. cbn [Nat.eqb] in Hw1. destruct (Nat.ltb_spec (two_adicity E) 1); [lia|].
    injection Hw1 as <-. exact (fft_root_half E HF). }
  rewrite <- E1. apply (primitive_root_pow HF 1 (m - 1)); [lia|exact Hw1|].
  replace (1 + (m - 1))%nat with m by lia. exact Hw.
Qed.

(** What a freshly built layer contains. *)
Lemma fri_layer_new_ok (p : poly E) h m l :
  fri_layer_new E p h (2 ^ m) = Ok l -> length p <= (2 ^ m)%nat -> 1 <= m ->
  exists w, primitive_root m = Some w /\ fl_evaluation l = map (fun i => peval p (h * fpow w i)) (seq 0 (2 ^ m)) /\
    fl_domain_size l = (2 ^ m)%nat /\ merkle_build (map (e_leaf E) (fl_evaluation l)) = Ok (fl_tree l).
Proof using HE.
  unfold fri_layer_new. intros H Hp Hm. ok_step H. apply unwrap_r_ok in Hv. ok_step H. apply ok_inj in H. subst l.
  cbn [fl_evaluation fl_domain_size fl_tree]. unfold evaluate_offset_fft in Hv.
  rewrite next_pow2_le, Nat.mul_1_r in Hv by exact Hp.
  assert (Hp2 : is_pow2 (2 ^ m) = true) by (apply is_pow2_spec; eauto). rewrite Hp2 in Hv.
  rewrite Nat.log2_pow2 in Hv by lia. destruct (primitive_root m) as [w|] eqn:Hw; [|discriminate].
  apply ok_inj in Hv. exists w. repeat split; [now symmetry|exact Hv0].
Qed.

(** The chain of layers the commit phase builds with challenges [zs], ending in [last]. *)
Fixpoint layers_rel (p : poly E) (h : E) (m : nat) (ls : list (fri_layer E)) (zs : list E) (last : poly E) : Prop :=
  match ls, zs with
  | [], [] => last = p
  | l :: ls', z :: zs' => fri_layer_new E p h (2 ^ m) = Ok l /\
      layers_rel (fold_polynomial p z) (fsquare h) (m - 1) ls' zs' last
  | _, _ => False
  end.

Lemma layers_rel_length p h m ls zs last : layers_rel p h m ls zs last -> length zs = length ls.
Proof.
  revert p h m zs; induction ls as [|l ls IH]; intros p h m [|z zs] H; cbn in *; try tauto; try reflexivity.
  destruct H as [_ H]. f_equal. eapply IH. exact H.
Qed.

Lemma fri_loop_spec r : forall p h m t layers p' t1 zl t2,
  fri_loop E r p h (2 ^ m) t = Ok (layers, p', t1) -> transcript_to_field E t1 = Ok (zl, t2) -> r < m ->
  exists z0 zs t', transcript_to_field E t = Ok (z0, t') /\
    sample_zetas E (map (fl_root E) layers) t' = Ok (zs, t2) /\
    layers_rel (fold_polynomial p z0) (fsquare h) (m - 1) layers zs (fold_polynomial p' zl) /\
    length layers = r.
Proof.
  induction r as [|r IH]; intros p h m t layers p' t1 zl t2 H Hz Hr; cbn [fri_loop] in H.
  - apply ok_inj in H. injection H as <- <- <-. exists zl, [], t2. repeat split. exact Hz.
  - ok_step H. destruct v as [zeta tt]. ok_step H. ok_step H. destruct v0 as [[ls p2] t3].
    apply ok_inj in H. injection H as <- <- <-.
    assert (Em : (2 ^ m / 2 = 2 ^ (m - 1))%nat).
    { apply half_pow2. lia. }
    rewrite Em in Hv0, Hv1.
    destruct (IH _ _ _ _ _ _ _ _ _ Hv1 Hz) as (z0 & zs & t' & Hz0 & Hzs & Hrel & Hlen); [lia|].
    exists zeta, (z0 :: zs), tt. split; [exact Hv|]. split.
    + cbn [map sample_zetas]. rewrite Hz0. cbn [obind]. rewrite Hzs. reflexivity.
    + cbn [layers_rel length]. rewrite Hlen. auto.
Qed.

Theorem fri_commit_spec L p h m t last_value layers t' :
  fri_commit_phase E L p t h (2 ^ m) = Ok (last_value, layers, t') -> L <= m -> 1 <= m ->
  exists zs last t2, sample_zetas E (map (fl_root E) layers) t = Ok (zs, t2) /\
    layers_rel p h m layers zs last /\ last_value = nth 0 last 0 /\
    t' = tr_append t2 (fe_to (e_codec E) last_value) /\ length layers = Nat.max 1 L.
Proof.
  unfold fri_commit_phase. intros H HL Hm. ok_step H. ok_step H. destruct v0 as [[ls p'] t1].
  ok_step H. destruct v0 as [zl t2]. apply ok_inj in H. injection H as <- <- <-.
  destruct (fri_loop_spec _ _ _ _ _ _ _ _ _ _ Hv0 Hv1) as (z0 & zs & t' & Hz0 & Hzs & Hrel & Hlen); [lia|].
  exists (z0 :: zs), (fold_polynomial p' zl), t2. split.
  - cbn [map sample_zetas]. rewrite Hz0. cbn [obind]. rewrite Hzs. reflexivity.
  - cbn [layers_rel length]. repeat split; auto. lia.
Qed.

(** Degree at the end of the chain. *)
Lemma layers_rel_last p h m ls zs last k :
  layers_rel p h m ls zs last -> length p <= (2 ^ (length ls + k))%nat -> length last <= (2 ^ k)%nat.
Proof.
  revert p h m zs; induction ls as [|l ls IH]; intros p h m [|z zs] H Hp; cbn [layers_rel length] in *; try tauto.
  - now subst.
  - destruct H as [_ H]. eapply IH; [exact H|]. apply fold_length.
    cbn [Nat.add Nat.pow] in Hp. lia.
Qed.

Lemma fri_open_layer_ok iota l o :
  fri_open_layer E iota l = Ok o ->
  fl_domain_size l <> 0%nat /\
  let '(psym, esym, pth, ev) := o in
  nth_error (fl_evaluation l) ((iota + fl_domain_size l / 2) mod fl_domain_size l) = Some esym /\
  tree_path (e_node E) (fl_tree l) ((iota + fl_domain_size l / 2) mod fl_domain_size l) = Some psym /\
  nth_error (fl_evaluation l) (iota mod fl_domain_size l) = Some ev /\
  tree_path (e_node E) (fl_tree l) (iota mod fl_domain_size l) = Some pth.
Proof.
  unfold fri_open_layer. intro H. destruct (Nat.eqb_spec (fl_domain_size l) 0); [discriminate|].
  ok_step H. ok_step H. ok_step H. ok_step H. apply ok_inj in H. subst o.
  repeat split; auto using idx_ok, unwrap_ok.
Qed.

(** Both Merkle openings of an honestly opened layer verify, and the opened values are those of
    the layer polynomial at [x = h w^iota] and [-x]. *)
Lemma layer_opening_ok (p : poly E) h m l iota psym esym pth ev w :
  fri_layer_new E p h (2 ^ m) = Ok l -> length p <= (2 ^ m)%nat -> 1 <= m ->
  primitive_root m = Some w ->
  fri_open_layer E iota l = Ok (psym, esym, pth, ev) ->
  ev = peval p (h * fpow w iota) /\ esym = peval p (- (h * fpow w iota)) /\
  path_verify (e_node E) psym (fl_root E l) ((iota + 2 ^ m / 2) mod 2 ^ m) (e_leaf E esym) = true /\
  path_verify (e_node E) pth (fl_root E l) iota (e_leaf E ev) = true.
Proof using HE.
  intros Hl Hp Hm Hw Ho. destruct (fri_layer_new_ok p h m l Hl Hp Hm) as (w' & Hw' & Hev & Hds & Hmb).
  rewrite Hw in Hw'. injection Hw' as <-.
  destruct (fri_open_layer_ok iota l _ Ho) as (Hnz & Hes & Hps & He & Hpt). rewrite Hds in *.
  assert (Hprim : is_prim w (2 ^ m)) by (apply (primitive_root_prim HF m w Hm Hw)).
  assert (Hlen : length (fl_evaluation l) = (2 ^ m)%nat) by (rewrite Hev, map_length, seq_length; reflexivity).
  assert (Hnth : forall j v, nth_error (fl_evaluation l) (j mod 2 ^ m) = Some v -> v = peval p (h * fpow w j)).
  { intros j v Hn. apply nth_error_nth with (d := 0) in Hn. rewrite Hev in Hn.
    rewrite nth_map_seq in Hn by (apply Nat.mod_upper_bound; lia).
    rewrite (prim_pow_mod HK) in Hn; [now symmetry| |exact Hprim]. apply pow2_pos. }
  assert (Hhalf : (2 ^ m / 2 = 2 ^ (m - 1))%nat).
  { now apply half_pow2. }
  assert (Hdepth : tree_depth (fl_tree l) = m).
  { pose proof (tree_depth_pow2 _ _ Hmb) as Hd. unfold tree_depth in *.
    unfold merkle_build in Hmb. destruct (map (e_leaf E) (fl_evaluation l)) as [|c cs] eqn:Em; [discriminate|].
    apply ok_inj in Hmb. rewrite <- Hmb. cbn [tree_leaves]. rewrite <- Em.
    rewrite (complete_pow2_id _ m) by (rewrite map_length; exact Hlen).
    rewrite map_length, Hlen. apply Nat.log2_pow2. lia. }
  split; [now apply Hnth|]. split.
  { apply Hnth in Hes. rewrite Hes. f_equal. rewrite Hhalf, (fpow_add HK), (primitive_root_half m w Hm Hw). ring. }
  assert (Hleaf : forall j v, nth_error (fl_evaluation l) j = Some v ->
            e_leaf E v = nth j (map (e_leaf E) (fl_evaluation l)) []).
  { intros j v Hn. symmetry. apply nth_error_nth. now rewrite nth_error_map, Hn. }
  split.
  - rewrite (Hleaf _ _ Hes). apply (build_path_verify (e_node E) _ _ _ _ _ Hmb Hps).
    + rewrite map_length, Hlen. apply Nat.mod_upper_bound. lia.
    + rewrite Hdepth. apply Nat.mod_mod. lia.
  - rewrite (Hleaf _ _ He). apply (build_path_verify (e_node E) _ _ _ _ _ Hmb Hpt).
    + rewrite map_length, Hlen. apply Nat.mod_upper_bound. lia.
    + now rewrite Hdepth.
Qed.

(** The verifier's loop body, named. *)
Definition vq_step (p : stark_proof E) (zetas : list E) (iota : nat) (q : fri_decommitment E) (d : domain E) (two_inv : E)
  (st : E * bool) (x : nat * commitment * list commitment * E * list commitment * E * E) : outcome (E * bool) :=
  let '(v, result) := st in
  let '(k, root, auth_path, evaluation, auth_path_sym, evaluation_sym, xinv) := x in
  obind (usub (lde_root_order d) k) (fun depth =>
  let domain_length := (2 ^ depth)%nat in
  let index_sym := ((iota + domain_length / 2) mod domain_length)%nat in
  let auth_sym := path_verify (e_node E) auth_path_sym root index_sym (e_leaf E evaluation_sym) in
  let auth_point := path_verify (e_node E) auth_path root iota (e_leaf E evaluation) in
  obind (idx zetas k) (fun beta =>
  let v := (v + evaluation_sym) * two_inv + beta * (v - evaluation_sym) * two_inv * xinv in
  obind (usub (length (layers_evaluations q)) 1) (fun last =>
  obind (if (k <? last)%nat then idx (layers_evaluations q) (k + 1)%nat else Ok (fri_last_value p)) (fun next =>
  Ok (v, result && feqb v next && auth_point && auth_sym))))).

Definition vq_list (k : nat) (roots : list commitment) (paths : list (list commitment)) (evs : list E)
  (psyms : list (list commitment)) (esyms : list E) (xinv : E) :=
  combine (combine (combine (combine (combine (combine (seq k (length roots)) roots) paths) evs) psyms) esyms)
    (squares E (length roots) xinv).

Lemma verify_query_eq p zetas iota q d xinv two_inv :
  verify_query E p zetas iota q d xinv two_inv =
  obind (idx (layers_evaluations q) 0) (fun v0 =>
  obind (ofold (vq_step p zetas iota q d two_inv)
    (vq_list 0 (fri_layers_merkle_roots p) (layers_auth_paths q) (layers_evaluations q)
             (layers_auth_paths_sym q) (layers_evaluations_sym q) xinv) (v0, true)) (fun st => Ok (snd st))).
Proof.
  unfold verify_query, vq_list. destruct (idx (layers_evaluations q) 0); cbn [obind]; try reflexivity.
  match goal with |- context [ofold ?f ?l ?b] => change f with (vq_step p zetas iota q d two_inv) end.
  destruct (ofold _ _ _) as [[v r]| |]; reflexivity.
Qed.

Definition o_psym (o : list commitment * E * list commitment * E) := fst (fst (fst o)).
Definition o_esym (o : list commitment * E * list commitment * E) := snd (fst (fst o)).
Definition o_path (o : list commitment * E * list commitment * E) := snd (fst o).
Definition o_ev (o : list commitment * E * list commitment * E) := snd o.

Lemma vq_loop_ok (pr : stark_proof E) (zetas : list E) iota q d M :
  lde_root_order d = M ->
  forall ls p h m zs last os k w v,
  layers_rel p h m ls zs last -> h <> 0 -> length p <= (2 ^ m)%nat ->
  (length last <= 1) -> m = (M - k)%nat -> (k + length ls <= M)%nat ->
  traverse (fri_open_layer E iota) ls = Ok os ->
  skipn k zetas = zs ->
  skipn k (layers_evaluations q) = map o_ev os -> length (layers_evaluations q) = (k + length ls)%nat ->
  fri_last_value pr = nth 0 last 0 ->
  primitive_root m = Some w -> v = peval p (h * fpow w iota) ->
  ls <> [] ->
  exists v', ofold (vq_step pr zetas iota q d (finv (1 + 1)))
    (vq_list k (map (fl_root E) ls) (map o_path os) (map o_ev os) (map o_psym os) (map o_esym os)
       (finv (h * fpow w iota))) (v, true) = Ok (v', true).
Proof using HE.
  intros HM. induction ls as [|l ls IH]; intros p h m zs last os k w v Hrel Hh Hlp Hlast Hm Hk Hos Hzs Hevs Hlen Hfin Hw Hv Hne;
    [congruence|].
  destruct zs as [|z zs]; [contradiction|]. cbn [layers_rel] in Hrel. destruct Hrel as [Hl Hrel].
  cbn [traverse] in Hos. apply obind_ok in Hos. destruct Hos as (o & Ho & Hos).
  apply obind_ok in Hos. destruct Hos as (os' & Hos & Heq). apply ok_inj in Heq. subst os.
  cbn [length] in Hk, Hlen. assert (Hm1 : 1 <= m) by lia.
  destruct o as [[[psym esym] pth] ev].
  destruct (layer_opening_ok p h m l iota psym esym pth ev w Hl Hlp Hm1 Hw Ho) as (Hev & Hes & Hps & Hpt).
  set (x := h * fpow w iota) in *.
  assert (Hprim : is_prim w (2 ^ m)) by (apply (primitive_root_prim HF m w Hm1 Hw)).
  assert (Hw0 : w <> 0) by (apply (prim_nonzero HK w (2 ^ m)); [apply pow2_pos|exact Hprim]).
  assert (Hx : x <> 0) by (apply (mul_nonzero HK); [exact Hh|now apply (fpow_nonzero HK)]).
  (* zetas[k] and the value of the fold *)
  assert (Hzk : idx zetas k = Ok z).
  { unfold idx. assert (E0 : nth_error (skipn k zetas) 0 = Some z) by (rewrite Hzs; reflexivity).
    rewrite <- (firstn_skipn k zetas). rewrite Hzs. rewrite nth_error_app2; rewrite firstn_length_le; try lia.
    - now rewrite Nat.sub_diag.
    - assert (length (skipn k zetas) > 0) by (rewrite Hzs; cbn; lia). rewrite skipn_length in *. lia.
    - assert (length (skipn k zetas) > 0) by (rewrite Hzs; cbn; lia). rewrite skipn_length in *. lia. }
  set (v1 := (v + esym) * finv (1 + 1) + z * (v - esym) * finv (1 + 1) * finv x).
  assert (Hv1 : v1 = peval (fold_polynomial p z) (x * x)).
  { unfold v1. rewrite (fold_identity HK p z x two_neq Hx), Hv, Hes. reflexivity. }
  assert (Hlf : length (fold_polynomial p z) <= (2 ^ (m - 1))%nat).
  { apply fold_length. replace (2 * 2 ^ (m - 1))%nat with (2 ^ m)%nat; [exact Hlp|].
    rewrite <- Nat.pow_succ_r'. f_equal. lia. }
  (* the value compared with *)
  assert (Hnext : obind (usub (length (layers_evaluations q)) 1) (fun last0 =>
      if (k <? last0)%nat then idx (layers_evaluations q) (k + 1)%nat else Ok (fri_last_value pr)) = Ok v1).
  { rewrite Hlen. rewrite usub_ok by lia. cbn [obind]. destruct ls as [|l2 ls].
    - cbn [length]. destruct (Nat.ltb_spec k (k + 1 - 1)); [lia|]. f_equal.
      destruct zs; [|contradiction]. cbn [layers_rel] in Hrel. subst last. rewrite Hfin, Hv1.
      symmetry. apply (constant_eval HK). exact Hlast.
    - cbn [length]. destruct (Nat.ltb_spec k (k + S (S (length ls)) - 1)); [|lia].
      destruct zs as [|z2 zs]; [contradiction|]. cbn [layers_rel] in Hrel. destruct Hrel as [Hl2 _].
      cbn [traverse] in Hos. apply obind_ok in Hos. destruct Hos as (o2 & Ho2 & Hos).
      apply obind_ok in Hos. destruct Hos as (os2 & _ & Heq). apply ok_inj in Heq. subst os'.
      destruct o2 as [[[psym2 esym2] pth2] ev2]. cbn [length] in Hk.
      destruct (fri_layer_new_ok _ _ _ _ Hl2 Hlf) as (w2 & Hw2 & _); [lia|].
      destruct (layer_opening_ok _ _ _ _ iota _ _ _ _ w2 Hl2 Hlf ltac:(lia) Hw2 Ho2) as (Hev2 & _).
      assert (Hidx : nth_error (layers_evaluations q) (k + 1) = Some ev2).
      { rewrite <- (firstn_skipn k (layers_evaluations q)). rewrite Hevs.
        rewrite nth_error_app2; rewrite firstn_length_le by (rewrite Hlen; cbn; lia); [|lia].
        replace (k + 1 - k)%nat with 1%nat by lia. reflexivity. }
      unfold idx. rewrite Hidx. cbn [unwrap]. f_equal. rewrite Hev2, Hv1. f_equal.
      assert (Ew : w2 = w * w).
      { assert (Hp := primitive_root_pow HF (m - 1) 1 w2 w ltac:(lia) Hw2).
        replace (m - 1 + 1)%nat with m in Hp by lia. specialize (Hp Hw). cbn in Hp. rewrite <- Hp. ring. }
      rewrite Ew. unfold x, fsquare. rewrite (fpow_mul_base HK). ring. }
  (* one step *)
  unfold vq_list. cbn [map length seq combine squares ofold].
  assert (Hstep : vq_step pr zetas iota q d (finv (1 + 1)) (v, true)
     (k, fl_root E l, o_path (psym, esym, pth, ev), o_ev (psym, esym, pth, ev), o_psym (psym, esym, pth, ev),
      o_esym (psym, esym, pth, ev), finv x) = Ok (v1, true)).
  { unfold vq_step, o_path, o_ev, o_psym, o_esym. cbn [fst snd]. rewrite HM. rewrite usub_ok by lia. cbn [obind].
    rewrite <- Hm. rewrite Hzk. cbn [obind]. fold v1.
    apply obind_ok in Hnext. destruct Hnext as (lst & Hlst & Hnext). rewrite Hlst. cbn [obind]. rewrite Hnext. cbn [obind].
    rewrite (feqb_refl HK), Hps, Hpt. reflexivity. }
  rewrite Hstep. cbn [obind].
  destruct ls as [|l2 ls].
  - cbn [map]. destruct os'; cbn; eauto.
  - destruct zs as [|z2 zs]; [contradiction|].
    destruct (primitive_root_some (K := E) (m - 1)) as [w2 Hw2].
    { pose proof (primitive_root_prim HF m w Hm1 Hw) as [_ Hle]. cbn [length] in Hk. lia. }
    assert (Ew : w2 = w * w).
    { assert (Hp := primitive_root_pow HF (m - 1) 1 w2 w ltac:(cbn [length] in Hk; lia) Hw2).
      replace (m - 1 + 1)%nat with m in Hp by lia. specialize (Hp Hw). cbn in Hp. rewrite <- Hp. ring. }
    assert (Hxx : fsquare h * fpow w2 iota = x * x).
    { rewrite Ew. unfold x, fsquare. rewrite (fpow_mul_base HK). ring. }
    specialize (IH (fold_polynomial p z) (fsquare h) (m - 1)%nat (z2 :: zs) last os' (S k) w2 v1 Hrel).
    destruct IH as [v' IH].
    + unfold fsquare. now apply (mul_nonzero HK).
    + exact Hlf.
    + exact Hlast.
    + lia.
    + cbn [length] in *. lia.
    + exact Hos.
    + change (S k) with (1 + k)%nat. rewrite <- skipn_skipn', Hzs. reflexivity.
    + change (S k) with (1 + k)%nat. rewrite <- skipn_skipn', Hevs. reflexivity.
    + cbn [length] in *. lia.
    + exact Hfin.
    + exact Hw2.
    + rewrite Hv1, Hxx. reflexivity.
    + discriminate.
    + exists v'. rewrite <- IH. unfold vq_list. rewrite Hxx.
      assert (Hsq : fsquare (finv x) = finv (x * x)).
      { unfold fsquare. apply (inv_unique HK). field. exact Hx. }
      rewrite Hsq. reflexivity.
Qed.
End Layers.
