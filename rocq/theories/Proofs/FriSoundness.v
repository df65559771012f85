(** Accepted FRI answers and the committed words. *)
From Coq Require Import List Arith NArith Bool Lia.
From Verif.Base Require Import Outcome Bytes Field Poly.
From Verif.Model Require Import Codec Trace Merkle Air Domain Verifier.
From Verif.Spec Require Import AirSpec VerifierSpec HashSpec LowDegree FriTree.
From Verif.Proofs Require Import FieldFacts PolyFacts FFTFacts OutcomeFacts MerkleFacts BindingFacts DomainFacts FriFacts VerifierFacts OodFacts LowDegreeFacts.
Import ListNotations.

Section FriSoundness.
Context {E : env} (HE : env_ok E).
Let HF : fft_ok E := e_fft_ok E HE.
Let HK : field_ok E := fft_field_ok E HF.
Add Field Kfield56 : (fld_th E HK).
Local Open Scope felt_scope.

Lemma word_leaves_length m (h w : E) f : length (word_leaves m h w f) = (2 ^ m)%nat.
Proof using Type. unfold word_leaves. now rewrite map_length, seq_length. Qed.

Lemma opening_value m (h w : E) f path i x : is_prim w (2 ^ m) -> opens_to (E := E) path (word_commit m h w f) i (e_leaf E x) ->
  ~ opening_clash m h w f path i x -> x = f (h * fpow w i).
Proof using HE.
  intros Hw Ho Hn. unfold opens_to, word_commit in Ho.
  destruct (opening_binds (e_node E) m _ path i _ (word_leaves_length m h w f) Ho) as [[_ H]|[H|H]];
    [|exfalso; apply Hn; now left|exfalso; apply Hn; right; now left].
  assert (P := pow2_pos m). assert (L : (i mod 2 ^ m < 2 ^ m)%nat) by (apply Nat.mod_upper_bound; lia).
  unfold word_leaves in H. set (F := fun i0 => e_leaf E (f (h * fpow w i0))) in H.
  rewrite (nth_indep _ [] (F 0%nat)) in H by (rewrite map_length, seq_length; exact L).
  rewrite map_nth, seq_nth in H by exact L. cbn [Nat.add] in H. unfold F in H. rewrite (prim_pow_mod HK w (2 ^ m) i P Hw) in H.
  destruct (feqb (f (h * fpow w i)) x) eqn:Q; [symmetry; now apply (feqb_spec E HK)|].
  exfalso. apply Hn. right. right. split; [|now symmetry].
  intro C. apply (feqb_spec E HK) in C. congruence.
Qed.

Lemma sym_point m (h w : E) i : is_prim w (2 ^ S m) -> h * fpow w ((i + 2 ^ S m / 2) mod 2 ^ S m) = - (h * fpow w i).
Proof using HE.
  intro Hw. rewrite (prim_pow_mod HK w (2 ^ S m) _ (pow2_pos _) Hw).
  replace (2 ^ S m / 2)%nat with (2 ^ m)%nat by (change (2 ^ S m)%nat with (2 * 2 ^ m)%nat; rewrite Nat.mul_comm, Nat.div_mul; lia).
  rewrite (fpow_add HK), (prim_half HE m w Hw). ring.
Qed.

Lemma later_consistent m root roots (zeta : E) zetas last iota x q : answer_shape (S (length roots)) q ->
  fri_query_consistent m (root :: roots) (zeta :: zetas) last iota x q ->
  fri_query_consistent (m - 1) roots zetas last iota (x * x) (later_layers q).
Proof using HE.
  destruct q as [psym esym pa ev]. intros (S1 & S2 & S3 & S4) H.
  cbn [layers_auth_paths layers_evaluations layers_auth_paths_sym layers_evaluations_sym] in *.
  destruct pa as [|pa0 pa]; [discriminate|]. destruct ev as [|ev0 ev]; [discriminate|].
  destruct psym as [|ps0 psym]; [discriminate|]. destruct esym as [|es0 esym]; [discriminate|].
  intros k root' path e ps es zeta' H1 H2 H3 H4 H5 H6.
  unfold later_layers in *. cbn [layers_auth_paths layers_evaluations layers_auth_paths_sym layers_evaluations_sym tl] in *.
  specialize (H (S k) root' path e ps es zeta' H1 H2 H3 H4 H5 H6). cbv zeta in *.
  cbn [layers_auth_paths layers_evaluations layers_auth_paths_sym layers_evaluations_sym] in H.
  replace (m - 1 - k)%nat with (m - S k)%nat by lia.
  replace (fpow (x * x) (2 ^ k)) with (fpow x (2 ^ S k)).
  2: { change (2 ^ S k)%nat with (2 * 2 ^ k)%nat. rewrite (fpow_mul HK), (fpow_2 HK). reflexivity. }
  replace (S k + 1)%nat with (S (k + 1)) in H by lia. cbn [length nth] in H. exact H.
Qed.

Lemma answers_later m (h w : E) f fs zeta zetas last iota q : answers m h w (f :: fs) (zeta :: zetas) last iota q ->
  answers (m - 1) (h * h) (w * w) fs zetas last iota (later_layers q).
Proof using HE.
  intros ((S1 & S2 & S3 & S4) & C & H). split; [|split].
  - cbn [length] in *. destruct q as [psym esym pa ev]. unfold answer_shape, later_layers in *.
    cbn [layers_auth_paths layers_evaluations layers_auth_paths_sym layers_evaluations_sym] in *.
    destruct pa, ev, psym, esym; try discriminate. cbn in *. repeat split; lia.
  - exact (proj2 (proj2 C)).
  - cbn [layer_roots] in H. assert (L : length (layer_roots (m - 1) (h * h) (w * w) fs) = length fs).
    { clear. generalize (m - 1)%nat (h * h) (w * w). induction fs as [|f fs IH]; intros; cbn [layer_roots length]; [reflexivity|]. now rewrite IH. }
    rewrite (fpow_mul_base HK). replace (h * h * (fpow w iota * fpow w iota)) with ((h * fpow w iota) * (h * fpow w iota)) by ring.
    apply (later_consistent m (word_commit m h w f) _ zeta zetas last iota _ q); [|exact H].
    rewrite L. split; [exact S1|]. split; [exact S2|]. split; [exact S3|exact S4].
Qed.

(** An accepted answer at [iota]: the words fold at the query point. *)
Theorem answers_fold fs : forall m (h w : E) zetas last iota q, (length fs <= m)%nat -> length zetas = length fs -> is_prim w (2 ^ m) ->
  answers m h w fs zetas last iota q -> folds_at fs zetas last (h * fpow w iota).
Proof using HE.
  induction fs as [|f fs IH]; intros m h w zetas last iota q Hm Hz Hw H; [exact I|].
  destruct zetas as [|zeta zetas]; [discriminate|]. cbn [length] in Hm, Hz. injection Hz as Hz.
  destruct m as [|m]; [lia|]. assert (Hsq := prim_square HE m w Hw).
  assert (H2 := answers_later _ _ _ _ _ _ _ _ _ _ H).
  replace (S m - 1)%nat with m in H2 by lia.
  specialize (IH m (h * h) (w * w) zetas last iota (later_layers q) ltac:(lia) Hz Hsq H2).
  assert (Ex : h * fpow w iota * (h * fpow w iota) = h * h * fpow (w * w) iota) by (rewrite (fpow_mul_base HK); ring).
  cbn [folds_at]. rewrite Ex. split; [|exact IH].
  destruct H as ((S1 & S2 & S3 & S4) & (C1 & C2 & C3) & H). destruct q as [psym esym pa ev].
  cbn [layers_auth_paths layers_evaluations layers_auth_paths_sym layers_evaluations_sym length] in *.
  destruct pa as [|pa0 pa]; [discriminate|]. destruct ev as [|ev0 ev]; [discriminate|].
  destruct psym as [|ps0 psym]; [discriminate|]. destruct esym as [|es0 esym]; [discriminate|].
  cbn [hd] in C1, C2. cbn [layer_roots] in H.
  specialize (H 0%nat _ pa0 ev0 ps0 es0 zeta eq_refl eq_refl eq_refl eq_refl eq_refl eq_refl). cbv zeta in H.
  replace (S m - 0)%nat with (S m) in H by lia. destruct H as (O1 & O2 & Q).
  apply (opening_value (S m) h w f pa0 iota ev0 Hw) in O1; [|exact C1].
  apply (opening_value (S m) h w f ps0 _ es0 Hw) in O2; [|exact C2]. rewrite (sym_point m h w iota Hw) in O2.
  change (2 ^ 0)%nat with 1%nat in Q. rewrite (fpow_1 HK) in Q. unfold fold_value. rewrite <- O1, <- O2, Q.
  cbn [layers_evaluations length nth Nat.add].
  destruct fs as [|f1 fs].
  - destruct ev; [|discriminate]. reflexivity.
  - destruct ev as [|ev1 ev]; [discriminate|]. cbn [length]. cbn [Nat.ltb Nat.leb].
    destruct H2 as ((T1 & T2 & T3 & T4) & (D1 & _) & H2). unfold later_layers in *.
    cbn [layers_auth_paths layers_evaluations layers_auth_paths_sym layers_evaluations_sym tl hd length] in *.
    destruct pa as [|pa1 pa]; [discriminate|]. destruct psym as [|ps1 psym]; [discriminate|]. destruct esym as [|es1 esym]; [discriminate|].
    destruct zetas as [|zeta1 zetas]; [discriminate|].
    cbn [layer_roots] in H2. cbn [hd] in D1.
    specialize (H2 0%nat _ pa1 ev1 ps1 es1 zeta1 eq_refl eq_refl eq_refl eq_refl eq_refl eq_refl). cbv zeta in H2.
    exact (opening_value m (h * h) (w * w) f1 pa1 iota ev1 Hsq (proj1 H2) D1).
Qed.

Lemma branches_full t : forall k fs zs v, rounds k t -> In (fs, zs, v) (branches (E := E) t) -> length fs = k /\ length zs = k /\
  match t with fri_last v' => v = v' | fri_round f _ _ _ _ => exists fs', fs = f :: fs' end.
Proof using Type.
  induction t as [v0|f z1 z2 t1 IH1 t2 IH2]; intros k fs zs v Hr Hi; cbn [branches] in Hi.
  - destruct Hi as [Hi|[]]. injection Hi as <- <- <-. destruct k; [auto|contradiction].
  - destruct k as [|k]; [contradiction|]. destruct Hr as (_ & R1 & R2).
    apply in_app_or in Hi. destruct Hi as [Hi|Hi]; apply in_map_iff in Hi; destruct Hi as ([[fs0 zs0] v0] & Q & Hi); injection Q as <- <- <-;
      [destruct (IH1 k _ _ _ R1 Hi) as (L1 & L2 & _)|destruct (IH2 k _ _ _ R2 Hi) as (L1 & L2 & _)];
      cbn [length]; (split; [now rewrite L1|split; [now rewrite L2|eauto]]).
Qed.
Lemma branches_some t : exists b, In b (branches (E := E) t).
Proof using Type.
  induction t as [v|f z1 z2 t1 IH1 t2 IH2]; [eexists; now left|]. destruct IH1 as [[[fs zs] v] H].
  exists (f :: fs, z1 :: zs, v). cbn [branches]. apply in_or_app. left. apply in_map_iff. exists (fs, zs, v). auto.
Qed.

Lemma all_answered_fold t : forall k m (h w : E), (k <= m)%nat -> rounds k t -> is_prim w (2 ^ m) -> all_answered m h w t ->
  folds_to_constants k (on_coset h w) (first_word t).
Proof using HE.
  induction t as [v0|f z1 z2 t1 IH1 t2 IH2]; intros k m h w Hk Hr Hw Ha.
  - destruct k; [|contradiction]. exists v0. reflexivity.
  - destruct k as [|k]; [contradiction|]. destruct Hr as (Hz & R1 & R2). destruct m as [|m]; [lia|].
    assert (Hsq := prim_square HE m w Hw).
    assert (G : forall z t, (exists pre post, branches (fri_round f z1 z2 t1 t2) = pre ++ map (fun '(fs, zs, v) => (f :: fs, z :: zs, v)) (branches t) ++ post) ->
       rounds k t -> is_fold (on_coset h w) z f (first_word t) /\ all_answered m (h * h) (w * w) t).
    { intros z t (pre & post & Hb) Rt.
      assert (Ht : forall fs zs v iota, In (fs, zs, v) (branches t) -> (iota < 2 ^ S m)%nat -> exists q, answers (S m) h w (f :: fs) (z :: zs) v iota q).
      { intros fs zs v iota Hi Hl. apply Ha; [|exact Hl]. rewrite Hb. apply in_or_app. right. apply in_or_app. left.
        apply in_map_iff. exists (fs, zs, v). auto. }
      split.
      - intros x (i & ->). destruct (branches_some t) as [[[fs zs] v] Hi].
        destruct (branches_full t k fs zs v Rt Hi) as (L1 & L2 & M).
        assert (P := pow2_pos (S m)).
        destruct (Ht fs zs v (i mod 2 ^ S m)%nat Hi) as [q Hq]; [apply Nat.mod_upper_bound; lia|].
        apply (answers_fold (f :: fs) (S m) h w) in Hq; [|cbn [length]; lia|cbn [length]; congruence|exact Hw].
        rewrite (prim_pow_mod HK w _ i P Hw) in Hq. cbn [folds_at] in Hq. destruct Hq as [Hq _]. rewrite Hq.
        destruct t as [v'|f' ? ? ? ?]; cbn [first_word].
        + subst v'. destruct fs; [reflexivity|]. destruct k; [discriminate|contradiction].
        + destruct M as [fs' ->]. reflexivity.
      - intros fs zs v iota Hi Hl. destruct (Ht fs zs v iota Hi) as [q Hq]; [cbn [Nat.pow]; lia|].
        apply answers_later in Hq. replace (S m - 1)%nat with m in Hq by lia. exists (later_layers q). exact Hq. }
    destruct (G z1 t1) as [F1 A1]; [exists []; cbn [branches app]; eauto|exact R1|].
    destruct (G z2 t2) as [F2 A2]; [cbn [branches]; eexists; exists []; rewrite app_nil_r; reflexivity|exact R2|].
    cbn [folds_to_constants first_word]. exists z1, z2, (first_word t1), (first_word t2).
    split; [exact Hz|]. split; [exact F1|]. split; [exact F2|].
    split; [apply (folds_ext k (on_coset (h * h) (w * w))); [intro x; apply (coset_squares HE)|]; apply (IH1 k m); auto; lia
           |apply (folds_ext k (on_coset (h * h) (w * w))); [intro x; apply (coset_squares HE)|]; apply (IH2 k m); auto; lia].
Qed.

Theorem fri_tree_low_degree t k m (h w : E) : (k <= m)%nat -> h <> 0 -> is_prim w (2 ^ m) -> rounds k t -> all_answered m h w t ->
  low_degree (on_coset h w) (first_word t) (2 ^ k).
Proof using HE.
  intros Hk Hh Hw Hr Ha. apply (folds_low_degree HE k m); [exact Hk|exact Hh|exact Hw|]. now apply (all_answered_fold t k m h w).
Qed.

(** ** The verifier's queries *)
Lemma lde_point {d : domain E} {r b} {h g W : E} (D : domain_shape d r b h g W) i : (i < 2 ^ (r + b))%nat -> nth i (lde_roots_of_unity_coset d) 0 = h * fpow W i.
Proof using HE.
  intro Hi. rewrite (ds_lde _ _ _ _ _ _ D). set (F := fun i0 => fpow W i0 * h).
  rewrite (nth_indep _ 0 (F 0%nat)) by (rewrite map_length, seq_length; exact Hi). rewrite map_nth, seq_nth by exact Hi. unfold F. cbn [Nat.add]. ring.
Qed.

Theorem accepted_query fuel mk opts (p : stark_proof E) r b d c t W words j iota q :
  let a := mk (trace_length p) in
  a_trace_length a = (2 ^ r)%nat -> (1 <= r)%nat -> a_blowup a = (2 ^ b)%nat ->
  (forall e, In e (transition_exemptions (a_context a)) -> (e <= 2 ^ r)%nat) ->
  verify E fuel mk opts p = Ok true -> domain_new a = Ok d -> step_1 E fuel a p d tr_new = Ok (c, t) ->
  primitive_root (r + b) = Some W -> (length words <= r + b)%nat ->
  fri_layers_merkle_roots p = layer_roots (r + b) (d_coset_offset d) W words ->
  nth_error (c_iotas E a c) j = Some iota -> nth_error (query_list p) j = Some q ->
  answer_shape (length words) q -> clash_free (r + b) (d_coset_offset d) W words iota q ->
  folds_at words (c_zetas E a c) (fri_last_value p) (nth iota (lde_roots_of_unity_coset d) 0) /\
  forall o f words', words = f :: words' -> nth_error (deep_poly_openings p) j = Some o ->
    exists rows, fr_num_rows (trace_ood_frame_evaluations p) = Ok (length rows) /\
      (forall i, (i < length rows)%nat -> fr_get_row (trace_ood_frame_evaluations p) i = Ok (nth i rows [])) /\
      f (nth iota (lde_roots_of_unity_coset d) 0) = deep_value p c (trace_primitive_root d) rows (nth iota (lde_roots_of_unity_coset d) 0) o.
Proof using HE.
  intros a Hn Hr Hb Hle Hv Hd Hc HW Hlen Hroots Hi Hq Hs Hcf.
  destruct (proj1 (verdict_exact HE fuel mk opts p r b true Hn Hr Hb Hle Hv) eq_refl) as (d' & c' & t' & Hd' & Hc' & A).
  fold a in Hd', Hc', A. rewrite Hd in Hd'. apply ok_inj in Hd'. subst d'. rewrite Hc in Hc'. apply ok_inj in Hc'.
  pose proof (f_equal fst Hc') as Ec. cbn [fst] in Ec. subst c'.
  destruct (domain_new_shape HE a d r b Hd Hn Hb Hr) as (g & W' & D).
  assert (W' = W) by (pose proof (ds_W _ _ _ _ _ _ D); congruence). subst W'.
  destruct (step_1_facts HE _ _ _ _ _ _ _ Hc) as (Hzl & _ & (_ & Hiob) & _).
  assert (Hlt : (iota < 2 ^ (r + b))%nat).
  { rewrite <- (ds_lde_order _ _ _ _ _ _ D). apply Hiob. now apply nth_error_In with j. }
  rewrite (ds_offset _ _ _ _ _ _ D) in *.
  assert (Ans : answers (r + b) (e_u64 E (coset_offset (a_options a))) W words (c_zetas E a c) (fri_last_value p) iota q).
  { split; [exact Hs|]. split; [exact Hcf|]. rewrite <- (lde_point D iota Hlt), <- Hroots. exact (acc_fri _ _ _ _ _ _ _ _ A j iota q Hi Hq). }
  assert (Hz : length (c_zetas E a c) = length words).
  { rewrite Hzl, Hroots. clear. generalize (r + b)%nat (e_u64 E (coset_offset (a_options a))) W.
    induction words as [|f fs IH]; intros; cbn [layer_roots length]; [reflexivity|]. now rewrite IH. }
  split.
  - rewrite (lde_point D iota Hlt). apply (answers_fold words (r + b) _ W _ _ iota q Hlen Hz (ds_Wprim _ _ _ _ _ _ D) Ans).
  - intros o f words' -> Ho. destruct (acc_openings _ _ _ _ _ _ _ _ A j iota o Hi Ho) as (_ & rows & q' & Hq' & Hnr & Hrows & Hh).
    rewrite Hq in Hq'. injection Hq' as <-. exists rows. split; [exact Hnr|]. split; [exact Hrows|].
    destruct Ans as ((S1 & S2 & S3 & S4) & (C1 & _ & _) & H). destruct (c_zetas E a c) as [|zeta zetas]; [discriminate|].
    cbn [layer_roots length] in *. destruct (layers_auth_paths q) as [|pa0 pa] eqn:E1; [discriminate|].
    destruct (layers_evaluations q) as [|ev0 ev] eqn:E2; [discriminate|]. destruct (layers_auth_paths_sym q) as [|ps0 ps] eqn:E3; [discriminate|].
    destruct (layers_evaluations_sym q) as [|es0 es] eqn:E4; [discriminate|]. cbn [hd hd_error] in *. injection Hh as Hh. etransitivity; [|exact Hh].
    specialize (H 0%nat (word_commit (r + b) (e_u64 E (coset_offset (a_options a))) W f) pa0 ev0 ps0 es0 zeta eq_refl eq_refl).
    rewrite E1, E2, E3, E4 in H. specialize (H eq_refl eq_refl eq_refl eq_refl). cbv zeta in H.
    rewrite (lde_point D iota Hlt). symmetry. exact (opening_value (r + b) _ W f pa0 iota ev0 (ds_Wprim _ _ _ _ _ _ D) (proj1 H) C1).
Qed.
End FriSoundness.

(** ** Counting queries *)
Fixpoint vectors (good : list nat) (q : nat) : list (list nat) :=
  match q with O => [[]] | S q' => flat_map (fun i => map (cons i) (vectors good q')) good end.
Lemma vectors_length good q : length (vectors good q) = (length good ^ q)%nat.
Proof.
  induction q as [|q IH]; [reflexivity|]. cbn [vectors Nat.pow]. rewrite <- IH.
  generalize (vectors good q). clear IH. intro l. induction good as [|i good IHg]; [reflexivity|].
  cbn [flat_map length]. rewrite app_length, map_length, IHg. reflexivity.
Qed.
Lemma vectors_in good v : (forall i, In i v -> In i good) -> In v (vectors good (length v)).
Proof.
  induction v as [|i v IH]; intro H; [now left|]. cbn [length vectors]. apply in_flat_map. exists i. split; [apply H; now left|].
  apply in_map, IH. intros j Hj. apply H. now right.
Qed.
Lemma filter_split {A} (f : A -> bool) l : (length (filter f l) + length (filter (fun x => negb (f x)) l) = length l)%nat.
Proof. induction l as [|x l IH]; [reflexivity|]. cbn [filter length]. destruct (f x); cbn [negb length]; lia. Qed.
Lemma escaping_count N q (bad : nat -> bool) l : NoDup l ->
  (forall v, In v l -> length v = q /\ forall i, In i v -> (i < N)%nat /\ bad i = false) ->
  (length l <= (N - length (filter bad (seq 0 N))) ^ q)%nat.
Proof.
  intros Hd H. pose proof (filter_split bad (seq 0 N)) as Hs. rewrite seq_length in Hs.
  replace (N - length (filter bad (seq 0 N)))%nat with (length (filter (fun x => negb (bad x)) (seq 0 N))) by lia.
  rewrite <- vectors_length. apply NoDup_incl_length; [exact Hd|]. intros v Hv. destruct (H v Hv) as [<- Hi].
  apply vectors_in. intros i Hin. destruct (Hi i Hin) as [L B]. apply filter_In. rewrite in_seq, B. split; [lia|reflexivity].
Qed.
