(** Completeness: the verifier accepts every proof the prover returns on a valid trace. *)
From Coq Require Import List Arith NArith Lia Field Bool.
From Verif.Base Require Import Outcome Field Poly.
From Verif.Model Require Import Codec Trace Merkle Air Transcript Domain Fri Evaluator Prover Verifier.
From Verif.Spec Require Import AirSpec.
From Verif.Proofs Require Import OutcomeFacts FieldFacts PolyFacts FFTFacts TraceFacts MerkleFacts FriFacts
  DomainFacts TranscriptFacts ComposeFacts DeepFacts.
Import ListNotations.
Local Open Scope felt_scope.

Section Completeness.
Context {E : env} (HE : env_ok E).
Let HF : fft_ok E := e_fft_ok E HE.
Let HK : field_ok E := fft_field_ok E HF.
Add Field Kfield11 : (fld_th E HK).
Context {a : air E} {d : domain E} {r b k : nat} {g W : E}.
Let h : E := e_u64 E (coset_offset (a_options a)).
Context (A : admissible a r b k) (D : domain_shape d r b h g W).
Let n := (2 ^ r)%nat.
Let NN := (2 ^ (r + b))%nat.
Notation x_ := (pt h W).

(** Trace polynomials of a list of columns. *)
Definition interpolants (cols : list (list E)) (polys : list (poly E)) : Prop :=
  length polys = length cols /\ Forall (fun p : poly E => length p <= n) polys /\
  forall j i, j < length cols -> i < n -> peval (nth j polys []) (fpow g i) = nth i (nth j cols []) 0.

Lemma interpolants_app c1 c2 p1 p2 : interpolants c1 p1 -> interpolants c2 p2 -> interpolants (c1 ++ c2) (p1 ++ p2).
Proof using A D HE.
  intros (L1 & F1 & V1) (L2 & F2 & V2). split; [rewrite !app_length; lia|]. split; [apply Forall_app; auto|].
  intros j i Hj Hi. destruct (Nat.lt_ge_cases j (length c1)) as [H|H].
  - rewrite !app_nth1 by lia. now apply V1.
  - rewrite !app_nth2 by lia. rewrite L1. rewrite app_length in Hj. apply V2; [lia|exact Hi].
Qed.

Definition lde_evals (polys : list (poly E)) : list (list E) := map (fun p => map (fun i => peval p (x_ i)) (seq 0 NN)) polys.

Lemma h_nonzero : h <> 0.
Proof using A D HE.
  intro H. apply (ad_coset a r b k A 0 W 0%nat (ds_W _ _ _ _ _ _ D)). fold h. rewrite H. ring.
Qed.

Lemma interpolate_and_commit_ok (mt : trace_table E) cols t polys evals tree root t' :
  has_columns mt n cols -> cols <> [] ->
  interpolate_and_commit E mt d t = Ok (polys, evals, tree, root, t') ->
  interpolants cols polys /\ evals = lde_evals polys /\ t' = tr_append t root.
Proof using A D HE.
  intros (Hc & Hl & Ht) Hne H. unfold interpolate_and_commit in H. ok_as H ps Hps. ok_as H ev Hev. ok_as H ldt Hldt.
  ok_as H rows Hrows. ok_as H tr Htr. destruct tr as [tree' root'].
  apply ok_inj in H. injection H as <- <- <- <- <-.
  unfold tt_compute_trace_polys in Hps.
  assert (Et : mt = mk_trace (concat (transpose cols n 0)) (length cols)).
  { destruct mt as [tab nc]. cbn in *. subst. reflexivity. }
  rewrite Et, transpose_cols in Hps by assumption. cbn [obind] in Hps. apply unwrap_r_ok in Hps.
  split; [|split].
  - split; [exact (traverse_length _ _ _ Hps)|].
    assert (Hnth : forall j, j < length cols -> length (nth j ps []) <= n /\
              forall i, i < n -> peval (nth j ps []) (fpow g i) = nth i (nth j cols []) 0).
    { intros j Hj. pose proof (traverse_nth _ _ _ j [] [] Hps Hj) as Hi. unfold interpolate_fft in Hi.
      assert (Hlj : length (nth j cols []) = (2 ^ r)%nat) by (apply Hl; now apply nth_In).
      destruct (interpolate_offset_ok HF (nth j cols []) 1 r g Hlj (ds_r _ _ _ _ _ _ D) (one_neq_zero HK) (ds_g _ _ _ _ _ _ D))
        as (p & Hp & Hpl & Hpe & _).
      rewrite Hi in Hp. apply ok_inj in Hp. subst p. split; [rewrite Hlj in Hpl; exact Hpl|].
      intros i Hin. rewrite <- Hpe by (rewrite Hlj; exact Hin). f_equal. ring. }
    split.
    + apply Forall_forall. intros p Hp. apply (In_nth _ _ []) in Hp. destruct Hp as (j & Hj & <-).
      apply Hnth. now rewrite <- (traverse_length _ _ _ Hps).
    + intros j i Hj Hi. now apply Hnth.
  - unfold compute_lde_trace_evaluations in Hev. apply unwrap_r_ok in Hev.
    apply (traverse_ok_map _ (fun p => map (fun i => peval p (x_ i)) (seq 0 NN))) in Hev; [exact Hev|].
    intros p l _ Hp. rewrite (ds_blowup _ _ _ _ _ _ D), (ds_size _ _ _ _ _ _ D), (ds_offset _ _ _ _ _ _ D) in Hp.
    apply (eval_lde_ok HF _ _ _ _ W) in Hp; [exact Hp|exact (ds_r _ _ _ _ _ _ D)|exact (ds_W _ _ _ _ _ _ D)].
  - reflexivity.
Qed.

(** The transition polynomials vanish where they should. *)
Lemma transition_vanish cols polys rap cs :
  interpolants cols polys -> trace_satisfies a rap cols n ->
  (forall x, a_transition a (shifted_frame polys (transition_offsets (a_context a)) g x) rap = Ok (map (fun c => peval c x) cs)) ->
  forall j e i, nth_error (transition_exemptions (a_context a)) j = Some e -> i < (n - e)%nat ->
  peval (nth j cs []) (fpow g i) = 0.
Proof using A D HE.
  intros (Hl & Hlen & Hv) [_ Hs] Hcs j e i He Hi.
  destruct (Hs i) as (evals & Hev & Hz); [lia|]. specialize (Hz j e He Hi).
  specialize (Hcs (fpow g i)).
  assert (Ef : shifted_frame polys (transition_offsets (a_context a)) g (fpow g i) =
     mk_frame (concat (map (fun o => map (fun c => nth ((i + o) mod n) c 0) cols) (transition_offsets (a_context a)))) (length cols)).
  { unfold shifted_frame, shifted_rows. rewrite Hl. f_equal. f_equal. apply map_ext. intro o.
    assert (Hm : ((i + o) mod n < n)%nat) by (apply Nat.mod_upper_bound; pose proof (pow2_pos r); unfold n; lia).
    apply (nth_ext _ _ 0 0); [now rewrite !map_length|]. intros q Hq. rewrite map_length in Hq.
    rewrite (nth_indep _ 0 (peval [] (fpow g i * fpow g o))) by (now rewrite map_length).
    rewrite (map_nth (fun p => peval p (fpow g i * fpow g o))).
    rewrite (nth_indep (map (fun c => nth ((i + o) mod n) c 0) cols) 0 (nth ((i + o) mod n) [] 0)) by (rewrite map_length; lia).
    rewrite (map_nth (fun c => nth ((i + o) mod n) c 0)). rewrite <- (Hv q _ ltac:(lia) Hm).
    rewrite <- (fpow_add HK). rewrite (prim_pow_mod HK) by (apply pow2_pos || exact (ds_gprim _ _ _ _ _ _ D)). reflexivity. }
  rewrite Ef, Hev in Hcs. apply ok_inj in Hcs. subst evals.
  destruct (Nat.lt_ge_cases j (length cs)) as [L|L].
  - rewrite (nth_indep _ 0 (peval [] (fpow g i))) in Hz by (now rewrite map_length).
    now rewrite (map_nth (fun c => peval c (fpow g i))) in Hz.
  - rewrite nth_overflow by exact L. reflexivity.
Qed.

Lemma nth_error_combine {X Y} (l : list X) (m : list Y) j x y :
  nth_error (combine l m) j = Some (x, y) -> nth_error l j = Some x /\ nth_error m j = Some y.
Proof using Type.
  revert m j; induction l as [|u l IH]; intros [|v m] [|j] H; cbn in *; try discriminate.
  - injection H as <- <-. auto.
  - now apply IH.
Qed.

Lemma comp_hyp_ok cols polys rap cs bcs tcs :
  interpolants cols polys -> trace_satisfies a rap cols n -> a_boundary a rap = Ok bcs ->
  (forall x, a_transition a (shifted_frame polys (transition_offsets (a_context a)) g x) rap = Ok (map (fun c => peval c x) cs)) ->
  (forall j, j < length cs -> j < length (transition_degrees (a_context a)) ->
       (length (nth j cs []) <= nth j (transition_degrees (a_context a)) O * (n - 1) + 1)%nat) ->
  n <= a_degree_bound a ->
  (forall c e deg ab, In (c, e, deg, ab) (combine (combine (combine cs (transition_exemptions (a_context a))) (transition_degrees (a_context a))) tcs) ->
      1 <= deg /\ (n * (deg - 1) <= a_degree_bound a)%nat) ->
  comp_hyp (a := a) (r := r) (g := g) polys cs bcs tcs.
Proof using A D HE.
  intros Hi Hs Hb Hcs Hdeg Hdb Ht. pose proof Hi as (Hl & Hlen & Hv). constructor.
  - exact Hlen.
  - intros c e deg ab Hin. destruct (Ht _ _ _ _ Hin) as [T1 T2].
    apply In_nth_error in Hin. destruct Hin as [j Hj].
    apply nth_error_combine in Hj. destruct Hj as [Hj _]. apply nth_error_combine in Hj. destruct Hj as [Hj Hjd].
    apply nth_error_combine in Hj. destruct Hj as [Hjc Hje].
    assert (Ec : nth j cs [] = c) by (now apply nth_error_nth).
    assert (Ed : nth j (transition_degrees (a_context a)) O = deg) by (now apply nth_error_nth).
    split; [|split; [|split; [|split; [|split]]]].
    + apply (ad_ex_le _ _ _ _ A). eapply nth_error_In. exact Hje.
    + rewrite <- Ec, <- Ed. apply Hdeg; apply nth_error_Some; congruence.
    + intros i Hin. rewrite <- Ec. now apply (transition_vanish cols polys rap cs Hi Hs Hcs j e).
    + exact (ad_degrees _ _ _ _ A j e deg Hje Hjd).
    + exact T1.
    + exact T2.
  - split; [exact Hdb|]. apply (ad_bound _ _ _ _ A).
  - intros bc Hin. destruct (ts_boundary _ _ _ _ Hs bcs bc Hb Hin) as (H1 & H2 & H3). rewrite <- H3. now apply Hv.
Qed.

Lemma lde_in i : In (x_ i) (lde_roots_of_unity_coset d).
Proof using A D HE.
  rewrite (shape_lde_coset HE D). apply coset_in. exists (i mod 2 ^ (r + b))%nat.
  split; [apply Nat.mod_upper_bound; pose proof (pow2_pos (r + b)); lia|]. unfold pt.
  rewrite (prim_pow_mod HK) by (apply pow2_pos || exact (ds_Wprim _ _ _ _ _ _ D)). reflexivity.
Qed.

Lemma good_point z i : ~ In z (lde_roots_of_unity_coset d) -> good g z (x_ i).
Proof using A D HE.
  intro Hz. split.
  - intros o Ho. apply (proj1 (sub_zero HK _ _)) in Ho. apply Hz, (shape_lde_unmul HE D z o). rewrite <- Ho. apply lde_in.
  - intro Ho. apply (proj1 (sub_zero HK _ _)) in Ho. apply (ad_coset a r b k A z W i (ds_W _ _ _ _ _ _ D)). now symmetry.
Qed.

Lemma off_domain z : ~ In z (trace_roots_of_unity d) -> fpow z n - 1 <> 0.
Proof using A D HE.
  intros Hz H. apply (proj1 (sub_zero HK _ _)) in H. apply Hz. rewrite (shape_trace_coset HE D).
  apply (root_of_unity_in HK); [apply pow2_pos|exact (ds_gprim _ _ _ _ _ _ D)|exact H].
Qed.

(** Round 2: the committed halves of the composition polynomial. *)
Lemma round_2_ok cols polys (r1 : round1 E a) tcs bco bcs cs r2 :
  polys <> [] -> interpolants cols polys -> trace_satisfies a (r1_rap E a r1) cols n ->
  r1_trace_polys E a r1 = polys -> tt_new_from_cols (lde_evals polys) = Ok (r1_lde_trace E a r1) ->
  a_boundary a (r1_rap E a r1) = Ok bcs ->
  (forall x, a_transition a (shifted_frame polys (transition_offsets (a_context a)) g x) (r1_rap E a r1) = Ok (map (fun c => peval c x) cs)) ->
  (forall j, j < length cs -> j < length (transition_degrees (a_context a)) ->
       (length (nth j cs []) <= nth j (transition_degrees (a_context a)) O * (n - 1) + 1)%nat) ->
  round_2 E a d r1 tcs bco = Ok r2 ->
  length (r2_even E r2) <= n /\ length (r2_odd E r2) <= n /\
  r2_even_evals E r2 = map (fun i => peval (r2_even E r2) (x_ i)) (seq 0 NN) /\
  r2_odd_evals E r2 = map (fun i => peval (r2_odd E r2) (x_ i)) (seq 0 NN) /\
  merkle_build (map (e_leaves E) (map (fun i => [peval (r2_even E r2) (x_ i); peval (r2_odd E r2) (x_ i)]) (seq 0 NN))) = Ok (r2_tree E r2) /\
  r2_root E r2 = tree_root (e_node E) (r2_tree E r2) /\
  n <= a_degree_bound a /\
  (exists mx, list_max_o (transition_degrees (a_context a)) = Some mx /\ forall k, k < mx -> (n * k <= a_degree_bound a)%nat) /\
  (forall c e deg ab, In (c, e, deg, ab) (combine (combine (combine cs (transition_exemptions (a_context a))) (transition_degrees (a_context a))) tcs) ->
      1 <= deg) /\
  (forall z, fpow z n - 1 <> 0 -> peval (r2_even E r2) (z * z) + z * peval (r2_odd E r2) (z * z) =
      tsum (a := a) (r := r) (g := g) cs tcs z + bsum (a := a) (r := r) (g := g) polys bcs bco z).
Proof using A D HE.
  intros Hne Hi Hs Hp1 Hlt Hb Hcs Hdeg H. unfold round_2 in H. ok_as H evals Hev. ok_as H hp Hhp. apply unwrap_r_ok in Hhp.
  cbn [even_odd] in H. ok_as H ee Hee. ok_as H oe Hoe. ok_as H tr Htr. destruct tr as [tree root]. apply ok_inj in H. subst r2.
  cbn [r2_even r2_odd r2_even_evals r2_odd_evals r2_tree r2_root].
  assert (Hexok : exemptions_ok (a := a) (r := r)).
  { split; [exact (ad_ex_le _ _ _ _ A)|exact (ad_ex_one _ _ _ _ A)]. }
  destruct Hi as (Hl & Hlen & Hv).
  destruct (evaluate_constraints_val HE D (ad_n _ _ _ _ A) (ad_blowup _ _ _ _ A) (ad_b _ _ _ _ A) polys (r1_lde_trace E a r1) tcs bco
      (r1_rap E a r1) evals cs bcs Hne Hexok Hlt Hcs Hb) as (Eev & Hnz & Hdb & Hmx & Htm).
  { intros bc Hin. destruct (ts_boundary _ _ _ _ Hs bcs bc Hb Hin) as (_ & H2 & _). lia. }
  { exact Hev. }
  pose proof (comp_hyp_ok cols polys _ cs bcs tcs (conj Hl (conj Hlen Hv)) Hs Hb Hcs Hdeg Hdb Htm) as CH.
  destruct (composition_polynomial HE D (ad_n _ _ _ _ A) (ad_blowup _ _ _ _ A) (ad_b _ _ _ _ A) polys cs bcs tcs bco CH)
    as (Hp & Hpl & Hpe).
  assert (Hb1 := ad_b _ _ _ _ A). assert (Hr1 := ad_r _ _ _ _ A).
  assert (HNN : (2 * 2 ^ r <= 2 ^ (r + b))%nat).
  { change (2 * 2 ^ r)%nat with (2 ^ S r)%nat. apply Nat.pow_le_mono_r; lia. }
  assert (Hel : length evals = (2 ^ (r + b))%nat) by (rewrite Eev, map_length, seq_length; reflexivity).
  rewrite (ds_offset _ _ _ _ _ _ D) in Hhp.
  destruct (interpolate_offset_unique HF evals h (r + b) W hp Hp Hel ltac:(lia) h_nonzero (ds_W _ _ _ _ _ _ D) Hhp) as (Heq & Hle).
  { lia. }
  { intros j Hj. rewrite Hel in Hj. rewrite Eev, nth_map_seq by exact Hj. rewrite Hpe by (apply Hnz; exact Hj). reflexivity. }
  assert (Hhl : length hp <= (2 * n)%nat) by (unfold n; lia).
  rewrite (ds_blowup _ _ _ _ _ _ D), (ds_size _ _ _ _ _ _ D), (ds_offset _ _ _ _ _ _ D) in Hee, Hoe.
  apply unwrap_r_ok in Hee. apply unwrap_r_ok in Hoe.
  apply (eval_lde_ok HF _ _ _ _ W) in Hee; [|exact Hr1|exact (ds_W _ _ _ _ _ _ D)].
  apply (eval_lde_ok HF _ _ _ _ W) in Hoe; [|exact Hr1|exact (ds_W _ _ _ _ _ _ D)].
  split; [etransitivity; [apply trim_length|apply evens_length_le, Hhl]|].
  split; [etransitivity; [apply trim_length|apply odds_length_le, Hhl]|].
  split; [exact Hee|]. split; [exact Hoe|].
  unfold batch_commit in Htr. ok_as Htr tree' Htree. apply ok_inj in Htr. injection Htr as <- <-.
  split; [|split; [reflexivity|split; [exact Hdb|split; [exact Hmx|split]]]].
  - rewrite <- Htree. f_equal. f_equal. rewrite Hee, Hoe.
    clear. unfold pt. fold NN. generalize (seq 0 NN) as l. induction l as [|i l IH]; [reflexivity|]. cbn [map combine fst snd]. now rewrite IH.
  - intros c e deg ab Hin. apply (Htm _ _ _ _ Hin).
  - intros z Hz. rewrite !(peval_trim HK), <- (even_odd_eval HK). rewrite Heq. now apply Hpe.
Qed.

Lemma round_1_ok mt t (r1 : round1 E a) t' : valid_trace a r mt -> round_1 E a mt d t = Ok (r1, t') ->
  exists cols root0 t1, r1_trace_polys E a r1 <> [] /\ interpolants cols (r1_trace_polys E a r1) /\
    trace_satisfies a (r1_rap E a r1) cols n /\
    tt_new_from_cols (lde_evals (r1_trace_polys E a r1)) = Ok (r1_lde_trace E a r1) /\
    length (r1_trace_polys E a r1) = trace_columns (a_context a) /\
    idx (r1_roots E a r1) 0 = Ok root0 /\ a_build_rap a (tr_append t root0) = Ok (r1_rap E a r1, t1) /\
    t' = match nth_error (r1_roots E a r1) 1 with Some x => tr_append t1 x | None => t1 end.
Proof using A D HE.
  intros (mcols & Hne & Hmc & Hv) H. unfold round_1 in H. ok_as H ic Hic. destruct ic as [[[[mp me] mtree] mroot] t0].
  destruct (interpolate_and_commit_ok mt mcols t mp me mtree mroot t0 Hmc Hne Hic) as (Hmi & Hme & ->).
  ok_as H rp Hrp. destruct rp as [rap t1]. ok_as H aux Haux.
  destruct (Hv _ _ _ _ Hrp Haux) as (acols & Hac & Hlen & Hsat).
  assert (Hmp : mp <> []).
  { destruct Hmi as (Hl & _). intro; subst mp. cbn in Hl. destruct mcols; [congruence|discriminate]. }
  unfold tt_is_empty in H. pose proof Hac as (Hnc & _). destruct (Nat.eqb_spec (tt_n_cols aux) 0) as [E0|E0].
  - ok_as H ldt Hldt. apply ok_inj in H. injection H as <- <-.
    cbn [r1_trace_polys r1_lde_trace r1_rap r1_roots].
    rewrite Hnc in E0. destruct acols as [|? ?]; [|discriminate]. rewrite app_nil_r in *.
    exists mcols, mroot, t1. subst me. split; [exact Hmp|split; [exact Hmi|split; [exact Hsat|split; [exact Hldt|split; [|split; [reflexivity|split; [exact Hrp|reflexivity]]]]]]].
    rewrite <- Hlen. apply Hmi.
  - ok_as H ic2 Hic2. destruct ic2 as [[[[ap ae] atree] aroot] t2]. ok_as H ldt Hldt. apply ok_inj in H. injection H as <- <-.
    cbn [r1_trace_polys r1_lde_trace r1_rap r1_roots].
    assert (Hane : acols <> []) by (intro; subst; cbn in Hnc; congruence).
    destruct (interpolate_and_commit_ok aux acols t1 ap ae atree aroot t2 Hac Hane Hic2) as (Hai & Hae & ->).
    pose proof (interpolants_app _ _ _ _ Hmi Hai) as Hall.
    exists (mcols ++ acols), mroot, t1. split; [|split; [exact Hall|split; [exact Hsat|split; [|split; [|split; [reflexivity|split; [exact Hrp|reflexivity]]]]]]].
    + destruct mp; [congruence|discriminate].
    + rewrite <- Hldt, Hme, Hae. unfold lde_evals. now rewrite map_app.
    + rewrite <- Hlen. apply Hall.
Qed.

(** Opening of the composition polynomial halves and of the trace at one query. *)
Lemma open_one (r1 : round1 E a) (r2 : round2 E) iotas openings :
  r1_trace_polys E a r1 <> [] ->
  tt_new_from_cols (lde_evals (r1_trace_polys E a r1)) = Ok (r1_lde_trace E a r1) ->
  r2_even_evals E r2 = map (fun i => peval (r2_even E r2) (x_ i)) (seq 0 NN) ->
  r2_odd_evals E r2 = map (fun i => peval (r2_odd E r2) (x_ i)) (seq 0 NN) ->
  merkle_build (map (e_leaves E) (map (fun i => [peval (r2_even E r2) (x_ i); peval (r2_odd E r2) (x_ i)]) (seq 0 NN))) = Ok (r2_tree E r2) ->
  r2_root E r2 = tree_root (e_node E) (r2_tree E r2) ->
  (forall i, In i iotas -> i < NN) ->
  open_deep_composition_poly E a d r1 r2 iotas = Ok openings ->
  Forall2 (fun i o => path_verify (e_node E) (lde_composition_poly_proof o) (r2_root E r2) i
              (e_leaves E [lde_composition_poly_even_evaluation o; lde_composition_poly_odd_evaluation o]) = true /\
     lde_composition_poly_even_evaluation o = peval (r2_even E r2) (x_ i) /\
     lde_composition_poly_odd_evaluation o = peval (r2_odd E r2) (x_ i) /\
     lde_trace_evaluations o = map (fun p => peval p (x_ i)) (r1_trace_polys E a r1)) iotas openings.
Proof using A D HE.
  intros Hne Hlt Hee Hoe Htree Hroot Hi H. unfold open_deep_composition_poly in H. apply traverse_inv in H.
  destruct (lde_table HE D (ad_n _ _ _ _ A) (ad_blowup _ _ _ _ A) (ad_b _ _ _ _ A) _ _ Hne Hlt) as [Htab Hcols].
  induction H as [|i o is os Ho _ IH]; constructor.
  2:{ apply IH. intros; apply Hi; now right. }
  clear IH. assert (Hii : i < NN) by (apply Hi; now left).
  rewrite (shape_lde_length HE D) in Ho. fold NN in Ho. destruct (Nat.eqb_spec NN 0); [lia|].
  rewrite (Nat.mod_small i NN Hii) in Ho. ok_as Ho cp Hcp. apply unwrap_ok in Hcp. ok_as Ho ev Hev. ok_as Ho od Hod. ok_as Ho tps Htps.
  ok_as Ho row Hrow. apply ok_inj in Ho. subst o. 
  cbn [lde_composition_poly_proof lde_composition_poly_even_evaluation lde_composition_poly_odd_evaluation lde_trace_evaluations].
  rewrite Hee in Hev. rewrite Hoe in Hod. apply (idx_val _ _ _ 0) in Hev. apply (idx_val _ _ _ 0) in Hod.
  rewrite nth_map_seq in Hev by exact Hii. rewrite nth_map_seq in Hod by exact Hii. subst ev od.
  split; [|split; [reflexivity|split; [reflexivity|]]].
  - rewrite Hroot.
    assert (Hdepth : tree_depth (r2_tree E r2) = (r + b)%nat).
    { unfold merkle_build in Htree. destruct (map (e_leaves E) _) as [|c cs] eqn:Em; [discriminate|].
      apply ok_inj in Htree. rewrite <- Htree. unfold tree_depth. cbn [tree_leaves]. rewrite <- Em.
      rewrite (complete_pow2_id _ (r + b)) by (now rewrite !map_length, seq_length).
      rewrite !map_length, seq_length. apply Nat.log2_pow2. lia. }
    pose proof (build_path_verify (e_node E) _ _ i cp i Htree Hcp) as Hb. rewrite !map_length, seq_length in Hb.
    rewrite Hdepth in Hb. specialize (Hb Hii (Nat.mod_small i NN Hii)).
    rewrite map_map in Hb. rewrite nth_map_seq in Hb by exact Hii. exact Hb.
  - rewrite (table_row _ _ i Htab) in Hrow by (now rewrite map_length, seq_length). apply ok_inj in Hrow. subst row.
    now rewrite nth_map_seq by exact Hii.
Qed.
End Completeness.

Section Main.
Context {E : env} (HE : env_ok E).
Let HF : fft_ok E := e_fft_ok E HE.
Let HK : field_ok E := fft_field_ok E HF.
Add Field Kfield12 : (fld_th E HK).

Theorem completeness (mk : nat -> air E) (mt : trace_table E) r b k fuel proof :
  let a := mk (tt_n_rows mt) in
  admissible a r b k -> tt_n_rows mt = (2 ^ r)%nat -> valid_trace a r mt ->
  prove E fuel mk mt = Ok proof ->
  verify E fuel mk (a_options a) proof = Ok true.
Proof.
  intros a A Hrows Hvt H. unfold prove in H. fold a in H.
  ok_as H d Hd. destruct (domain_new_shape HE a d r b Hd (ad_n _ _ _ _ A) (ad_blowup _ _ _ _ A) (ad_r _ _ _ _ A)) as (g & W & D).
  set (h := e_u64 E (coset_offset (a_options a))) in *.
  ok_as H rr1 Hr1. destruct rr1 as [r1 t1].
  destruct (round_1_ok HE A D mt _ r1 t1 Hvt Hr1) as (cols & root0 & t0 & Hpne & Hint & Hsat & Hlde & Hpl & Hroot0 & Hrap & Ht1).
  ok_as H bcs Hbcs.
  ok_as H s1 Hs1. destruct s1 as [ba t2]. ok_as H s2 Hs2. destruct s2 as [bb t3].
  ok_as H s3 Hs3. destruct s3 as [ta t4]. ok_as H s4 Hs4. destruct s4 as [tb t5].
  ok_as H r2 Hr2. ok_as H sz Hsz. destruct sz as [z t6].
  ok_as H rr4 Hr4. destruct rr4 as [r4 t7]. apply ok_inj in H.
  destruct (ad_poly _ _ _ _ A g (ds_g _ _ _ _ _ _ D) (r1_rap E a r1) (r1_trace_polys E a r1) Hpl) as (cs & Hcs & Hdeg).
  { apply Hint. }
  destruct (round_2_ok HE A D cols (r1_trace_polys E a r1) r1 (combine ta tb) (combine ba bb) bcs cs r2 Hpne Hint Hsat eq_refl Hlde Hbcs Hcs Hdeg Hr2)
    as (Hel & Hol & Hee & Hoe & Htree & Hroot & Hdb & (mx & Hmx & Hmxle) & Htm & Hid).
  destruct (sample_z_ood_spec E HK _ _ _ _ _ _ Hsz) as [Hzl Hzt].
  set (polys := r1_trace_polys E a r1) in *.
  assert (Hoff := ad_offsets _ _ _ _ A).
  assert (Er3 : round_3 E a d r1 r2 z = mk_round3 E (shifted_rows polys (seq 0 k) g z) (peval (r2_even E r2) (z * z)) (peval (r2_odd E r2) (z * z))).
  { unfold round_3. rewrite (ds_root _ _ _ _ _ _ D), Hoff. reflexivity. }
  rewrite Er3 in *. cbn [r3_trace_ood r3_even_ood r3_odd_ood] in *.
  (* round 4 *)
  unfold round_4 in Hr4. ok_as Hr4 g1 Hg1. destruct g1 as [gamma t8]. ok_as Hr4 g2 Hg2. destruct g2 as [gamma_p t9].
  ok_as Hr4 g3 Hg3. destruct g3 as [tg t10]. rewrite Nat.mul_comm in Hg3.
  destruct (sample_rows_flat E _ _ _ _ _ Hg3) as (m & Hm & Hmc & Hml & Hmk). rewrite Hoff, seq_length in Hm, Hmk.
  ok_as Hr4 deep Hdeep. rewrite (ds_root _ _ _ _ _ _ D) in Hdeep.
  assert (Hn0 : 0 < (2 ^ r)%nat) by apply pow2_pos.
  destruct (deep_poly_ok HK a polys (2 ^ r) g z k (proj1 (proj2 Hint)) Hn0 Hoff r2 _ gamma gamma_p m
     (eq_trans Hml (eq_sym Hpl)) Hmk Hel Hol eq_refl) as (deep' & Hdeep' & Hdl & Hdv).
  rewrite Hmc in Hdeep'. fold polys in Hdeep. rewrite Hdeep' in Hdeep. apply ok_inj in Hdeep. subst deep'.
  ok_as Hr4 fc Hfc. destruct fc as [[lv layers] t11]. rewrite (shape_lde_length HE D) in Hfc, Hr4.
  rewrite (ds_root_order _ _ _ _ _ _ D) in Hfc.
  destruct (fri_commit_spec E r deep h (r + b) t10 lv layers t11 Hfc) as (zs & last & t12 & Hzs & Hrel & Hlv & Ht11 & Hlay); [lia|pose proof (ad_r _ _ _ _ A); lia|].
  destruct (tr_challenge t11) as [ch t13] eqn:Hch.
  ok_as Hr4 no Hno. ok_as Hr4 nc Hnc. apply unwrap_ok in Hnc. subst no.
  destruct (generate_nonce_spec E ch _ nc Hno) as ((gz & Hgz & Hgle) & _).
  ok_as Hr4 qp Hqp. destruct qp as [[ql1 iotas1] t14]. ok_as Hr4 ops Hops. apply ok_inj in Hr4. injection Hr4 as <- <-.
  unfold fri_query_phase in Hqp. destruct layers as [|l0 layers'] eqn:El; [cbn [length] in Hlay; destruct (Nat.max_spec 1 r); lia|]. rewrite <- El in *.
  ok_as Hqp si Hsi. destruct si as [iotas t15]. ok_as Hqp ql Hql. apply ok_inj in Hqp. injection Hqp as <- <- <-.
  destruct (sample_indices_spec E _ _ _ _ _ Hsi) as [Hiol Hiob].
  (* the verifier *)
  subst proof. unfold verify. cbn [query_list r4_query_list trace_length r4_deep_openings r4_nonce r4_last_value r4_fri_roots].
  rewrite (traverse_length _ _ _ Hql), Hiol. rewrite Nat.ltb_irrefl.
  assert (Emk : mk (a_trace_length a) = a) by (rewrite (ad_n _ _ _ _ A), <- Hrows; reflexivity).
  rewrite Emk, Hd. cbn [obind].
  unfold step_1.
  cbn [lde_trace_merkle_roots composition_poly_root composition_poly_even_ood_evaluation composition_poly_odd_ood_evaluation
       trace_ood_frame_evaluations fri_layers_merkle_roots fri_last_value nonce].
  rewrite Hroot0. cbn [obind]. rewrite Hrap. cbn [obind]. rewrite <- Ht1. rewrite Hbcs. cbn [obind].
  rewrite Hs1. cbn [obind]. rewrite Hs2. cbn [obind]. rewrite Hs3. cbn [obind]. rewrite Hs4. cbn [obind].
  rewrite Hsz. cbn [obind].
  assert (Hw : Forall (fun row => length row = length polys) (shifted_rows polys (seq 0 k) g z)).
  { apply Forall_forall. intros row Hr. unfold shifted_rows in Hr. apply in_map_iff in Hr. destruct Hr as (q & <- & _). apply map_length. }
  assert (Hpos : 0 < length polys) by (destruct polys; [congruence|cbn; lia]).
  assert (Hsl : length (shifted_rows polys (seq 0 k) g z) = k) by (unfold shifted_rows; now rewrite map_length, seq_length).
  rewrite (frame_num_rows _ _ Hw Hpos), Hsl. cbn [obind].
  rewrite (traverse_map _ (fun i => nth i (shifted_rows polys (seq 0 k) g z) [])).
  2:{ intros i Hi. apply in_seq in Hi. apply frame_row; [exact Hw|lia]. }
  cbn [obind]. rewrite <- Hsl at 1. rewrite map_nth_seq. 
  rewrite Hg1. cbn [obind]. rewrite Hg2. cbn [obind]. rewrite Hoff, seq_length, Hm. cbn [obind].
  rewrite Hzs. cbn [obind]. rewrite <- Ht11, Hch. rewrite Hgz. cbn [obind].
  rewrite (ds_lde_order _ _ _ _ _ _ D), Hsi. cbn [obind c_leading_zeros].
  rewrite (proj2 (N.ltb_ge _ _) Hgle).

  match goal with |- context [mk_challenges E a ?z ?x1 ?x2 ?x3 ?x4 ?x5 ?x6 ?x7 ?x8 ?x9] => set (c := mk_challenges E a z x1 x2 x3 x4 x5 x6 x7 x8 x9) end.
  match goal with |- context [step_2 E a ?p d c] => set (pr := p) end.
  assert (Hzn : fpow z (2 ^ r) - 1 <> 0) by (now apply (off_domain HE A D)).
  assert (Hp := ad_n _ _ _ _ A). assert (Hbl := ad_blowup _ _ _ _ A). assert (Hb1 := ad_b _ _ _ _ A). assert (Hr0 := ad_r _ _ _ _ A).
  assert (Hfr : trace_ood_frame_evaluations pr = shifted_frame polys (seq 0 k) g z) by reflexivity.
  assert (S2 : step_2 E a pr d c = Ok true).
  { unfold step_2. cbn [c c_rap c_z c_boundary_coeffs c_transition_coeffs]. rewrite Hbcs. cbn [obind].
    rewrite usub_ok by (rewrite Hp; exact Hdb). cbn [obind]. rewrite Hp, Hfr, (ds_root _ _ _ _ _ _ D), <- Hoff.
    rewrite (boundary_ood_val HE D Hp Hbl Hb1).
    2:{ rewrite Hoff. pose proof (ad_k _ _ _ _ A). destruct k; [lia|reflexivity]. }
    2:{ intros bc Hin. destruct (ts_boundary _ _ _ _ Hsat bcs bc Hbcs Hin) as (_ & H2 & _). destruct Hint as (Hl & _). rewrite Hl. exact H2. }
    2:{ exact Hzn. }
    cbn [obind]. rewrite Hcs. cbn [obind].
    assert (Hlast : hd_error (rev (trace_roots_of_unity d)) = Some (fpow g (2 ^ r - 1))).
    { rewrite (ds_trace _ _ _ _ _ _ D). replace (2 ^ r)%nat with (S (2 ^ r - 1)) at 1 by lia.
      rewrite seq_S, map_app, rev_app_distr. cbn [map rev app hd_error Nat.add]. f_equal. ring. }
    rewrite Hlast. cbn [unwrap obind].
    rewrite (transition_ood_val HE D Hp Hbl Hb1 cs (combine ta tb) z mx).
    2: exact (ad_ex_le _ _ _ _ A). 2: exact (ad_ex_ne _ _ _ _ A). 2: exact Hmx. 2: exact Hmxle. 2: exact Htm. 2: exact Hzn.
    cbn [obind]. f_equal. apply (feqb_spec E HK). cbn [pr composition_poly_even_ood_evaluation composition_poly_odd_ood_evaluation].
    rewrite (Hid z Hzn). ring. }
  rewrite S2. cbn [obind negb].
  (* FRI *)
  assert (HW := ds_W _ _ _ _ _ _ D).
  assert (Hlde_pt : forall i, i < (2 ^ (r + b))%nat -> idx (lde_roots_of_unity_coset d) i = Ok (pt h W i)).
  { intros i Hi. unfold idx. now rewrite (lde_nth HE D Hp Hbl Hb1 i Hi). }
  assert (Hhz : h <> 0) by (exact (h_nonzero HE A D)).
  assert (HWz : W <> 0) by (exact (shape_W_nonzero HE D)).
  assert (Hx0 : forall i, pt h W i <> 0) by (intro i; apply (mul_nonzero HK); [exact Hhz|now apply (fpow_nonzero HK)]).
  assert (Hlast1 : length last <= 1).
  { change 1%nat with (2 ^ 0)%nat. eapply layers_rel_last; [exact Hrel|]. rewrite Hlay, Nat.add_0_r, Nat.max_r by lia. exact Hdl. }
  assert (Hdl2 : length deep <= (2 ^ (r + b))%nat). { etransitivity; [exact Hdl|]. apply Nat.pow_le_mono_r; lia. }
  assert (Hdec : Forall2 (fun i q => exists os, traverse (fri_open_layer E i) layers = Ok os /\
     q = mk_fri_decommitment (map (o_psym E) os) (map (o_esym E) os) (map (o_path E) os) (map (o_ev E) os)) iotas ql).
  { apply traverse_inv in Hql. clear -Hql. induction Hql as [|i q is qs Hq _ IH]; constructor; [|exact IH]. unfold fri_decommit in Hq.
    apply obind_ok in Hq. destruct Hq as (os & Hos & Hq). apply ok_inj in Hq. exists os. split; [exact Hos|now symmetry]. }
  assert (S3 : step_3 E a pr d c = Ok true).
  { unfold step_3. rewrite (e_two E HE).
    rewrite (proj2 (inv_o_ok HK (1 + 1) _) (conj (two_neq E HE) eq_refl)). cbn [obind c c_iotas].
    rewrite (traverse_map _ (pt h W)) by (intros i Hi; apply Hlde_pt; now apply Hiob). cbn [obind].
    rewrite (batch_inverse_ok HK).
    2:{ intros y Hy. apply in_map_iff in Hy. destruct Hy as (i & <- & _). apply Hx0. }
    cbn [obind pr query_list r4_query_list c_zetas].
    change (c_zetas E a c) with zs.
    assert (Hrts : fri_layers_merkle_roots pr = map (fl_root E) layers) by reflexivity.
    assert (Hlvp : fri_last_value pr = nth 0 last 0) by (exact Hlv).
    clear Hql Hiol Hsi S2 Hfr. clearbody c pr. clear Hops.
    assert (G : forall res, res = true -> ofold (fun result (x : fri_decommitment E * nat * E) => let '(q, iota, xinv) := x in
      obind (verify_query E pr zs iota q d xinv (finv (1 + 1))) (fun r => Ok (result && r)))
      (combine (combine ql iotas) (map finv (map (pt h W) iotas))) res = Ok true).
    2:{ apply G. reflexivity. }
    induction Hdec as [|i q is qs (os & Hos & ->) _ IH]; intros res ->; [reflexivity|].
    cbn [map combine ofold].
    assert (Hvq : verify_query E pr zs i (mk_fri_decommitment (map (o_psym E) os) (map (o_esym E) os) (map (o_path E) os) (map (o_ev E) os)) d
                    (finv (pt h W i)) (finv (1 + 1)) = Ok true).
    { rewrite verify_query_eq. cbn [layers_evaluations layers_auth_paths layers_auth_paths_sym layers_evaluations_sym].
      pose proof (traverse_length _ _ _ Hos) as Hosl.
      assert (Hv0 : idx (map (o_ev E) os) 0 = Ok (peval deep (pt h W i))).
      { rewrite El in Hos. cbn [traverse] in Hos. apply obind_ok in Hos. destruct Hos as (o & Ho & Hos).
        apply obind_ok in Hos. destruct Hos as (os' & _ & Heq). apply ok_inj in Heq. subst os. cbn [map idx nth_error unwrap].
        f_equal. destruct o as [[[psym esym] pth] ev]. unfold o_ev. cbn [snd].
        rewrite El in Hrel. destruct zs as [|z0 zs']; [contradiction|]. destruct Hrel as [Hl0 _].
        apply (layer_opening_ok E HE deep h (r + b) l0 i psym esym pth ev W Hl0 Hdl2 ltac:(lia) HW Ho). }
      rewrite Hv0. cbn [obind].
      destruct (vq_loop_ok E HE pr zs i (mk_fri_decommitment (map (o_psym E) os) (map (o_esym E) os) (map (o_path E) os) (map (o_ev E) os)) d (r + b)
         (ds_lde_order _ _ _ _ _ _ D) layers deep h (r + b) zs last os 0 W (peval deep (pt h W i)) Hrel Hhz Hdl2 Hlast1) as [v' Hv'].
      - lia.
      - rewrite Hlay. lia.
      - exact Hos.
      - reflexivity.
      - reflexivity.
      - cbn [layers_evaluations]. rewrite map_length, Hosl. reflexivity.
      - exact Hlvp.
      - exact HW.
      - reflexivity.
      - rewrite El. discriminate.
      - unfold pt in *. rewrite Hrts, Hv'. reflexivity. }
    rewrite Hvq. cbn [obind andb]. apply IH; [|reflexivity]. intros; apply Hiob; now right. }
  rewrite S3. cbn [obind negb].
  (* DEEP openings *)
  pose proof (open_one HE A D r1 r2 iotas ops Hpne Hlde Hee Hoe Htree Hroot Hiob Hops) as Hopen.
  assert (S4 : step_4 E a pr d c = Ok true).
  { unfold step_4. rewrite (ds_root_order _ _ _ _ _ _ D), (ds_g _ _ _ _ _ _ D). cbn [unwrap obind c c_z c_iotas].
    rewrite (traverse_map _ (fun i => pt h W i - z * z)).
    2:{ intros i Hi. rewrite Hlde_pt by (now apply Hiob). reflexivity. }
    cbn [obind].
    assert (Hgood : forall i, good g z (pt h W i)) by (intro i; exact (good_point HE A D z i Hzl)).
    rewrite (batch_inverse_ok HK).
    2:{ intros y Hy. apply in_map_iff in Hy. destruct Hy as (i & <- & _). apply (Hgood i). }
    cbn [obind]. rewrite map_map. cbn [pr deep_poly_openings r4_deep_openings].
    match goal with |- context [combine (seq 0 (length ?l)) ?l] => set (L := l) end.
    enough (G : forall L0 s, (forall j x, nth_error L0 j = Some x -> nth_error L (s + j) = Some x) ->
      ofold (fun result (x : nat * (nat * deep_openings E * E)) => let '(i, (iota, o, dinv)) := x in
        verify_opening E a pr d c g i iota o dinv result) (combine (seq s (length L0)) L0) true = Ok true).
    { apply (G L 0%nat). intros j x Hj. exact Hj. }
    induction L0 as [|[[iota o] dinv] L0 IH]; intros s HL; [reflexivity|]. cbn [length seq combine ofold].
    assert (Hx := HL 0%nat _ eq_refl). rewrite Nat.add_0_r in Hx. unfold L in Hx.
    apply nth_error_combine in Hx. destruct Hx as [Hx Hdinv]. apply nth_error_combine in Hx. destruct Hx as [Hio Hop].
    assert (Edinv : dinv = finv (pt h W iota - z * z)).
    { rewrite nth_error_map, Hio in Hdinv. cbn in Hdinv. congruence. }
    assert (Hib : iota < (2 ^ (r + b))%nat) by (apply Hiob; eapply nth_error_In; exact Hio).
    assert (Ho : path_verify (e_node E) (lde_composition_poly_proof o) (r2_root E r2) iota
              (e_leaves E [lde_composition_poly_even_evaluation o; lde_composition_poly_odd_evaluation o]) = true /\
       lde_composition_poly_even_evaluation o = peval (r2_even E r2) (pt h W iota) /\
       lde_composition_poly_odd_evaluation o = peval (r2_odd E r2) (pt h W iota) /\
       lde_trace_evaluations o = map (fun p => peval p (pt h W iota)) polys).
    { clear -Hopen Hio Hop. revert s Hio Hop. induction Hopen as [|i o' is os Ho _ IH]; intros [|s] Hio Hop; cbn in Hio, Hop; try discriminate.
      - injection Hio as <-. injection Hop as <-. exact Ho.
      - now apply IH with s. }
    destruct Ho as (Hpv & Hev & Hod & Htr).
    assert (Hq : exists q, nth_error ql s = Some q /\ idx (layers_evaluations q) 0 = Ok (peval deep (pt h W iota))).
    { assert (Hd2 : exists q os, nth_error ql s = Some q /\ traverse (fri_open_layer E iota) layers = Ok os /\
         q = mk_fri_decommitment (map (o_psym E) os) (map (o_esym E) os) (map (o_path E) os) (map (o_ev E) os)).
      { clear -Hdec Hio. revert s Hio. induction Hdec as [|i q is qs (os & Ho) _ IH]; intros [|s] Hio; cbn in Hio; try discriminate.
        - injection Hio as <-. exists q, os. split; [reflexivity|exact Ho].
        - cbn [nth_error]. now apply IH. }
      destruct Hd2 as (q & os & Hq & Hos & ->). eexists. split; [exact Hq|]. cbn [layers_evaluations].
      rewrite El in Hos. cbn [traverse] in Hos. apply obind_ok in Hos. destruct Hos as (o0 & Ho & Hos).
      apply obind_ok in Hos. destruct Hos as (os' & _ & Heq). apply ok_inj in Heq. subst os. cbn [map idx nth_error unwrap].
      f_equal. destruct o0 as [[[psym esym] pth] ev]. unfold o_ev. cbn [snd].
      rewrite El in Hrel. destruct zs as [|z0 zs']; [contradiction|]. destruct Hrel as [Hl0 _].
      apply (layer_opening_ok E HE deep h (r + b) l0 iota psym esym pth ev W Hl0 Hdl2 ltac:(lia) HW Ho). }
    destruct Hq as (q & Hq & Hq0).
    assert (Hvo : verify_opening E a pr d c g s iota o dinv true = Ok true).
    { unfold verify_opening. cbn [andb].
      rewrite usub_ok by exact (ad_aux _ _ _ _ A). cbn [obind].
      assert (Htl : length (lde_trace_evaluations o) = trace_columns (a_context a)) by (rewrite Htr, map_length; exact Hpl).
      rewrite slice_in; [|lia|rewrite Htl; lia]. cbn [obind]. rewrite slice_in; [|rewrite Htl; lia|lia]. cbn [obind].
      rewrite Hfr. unfold shifted_frame. rewrite (frame_num_rows _ _ Hw Hpos), Hsl. cbn [obind].
      rewrite Hlde_pt by exact Hib. cbn [obind c c_z]. rewrite (batch_inverse_ok HK).
      2:{ intros y Hy. apply in_map_iff in Hy. destruct Hy as (row & <- & _). apply (Hgood iota). }
      cbn [obind]. rewrite map_map, Edinv.
      rewrite (reconstruct_deep_ok HK a polys (2 ^ r) g z k (proj1 (proj2 Hint)) Hn0 Hoff pr c o (pt h W iota) m (r2_even E r2) (r2_odd E r2) Hpos (Hgood iota)
        (eq_trans Hml (eq_sym Hpl)) Hmk Hfr eq_refl eq_refl eq_refl Hev Hod Htr).
      cbn [obind]. unfold idx at 1. cbn [pr query_list r4_query_list]. rewrite Hq. cbn [unwrap obind]. rewrite Hq0. cbn [obind].
      f_equal. change (composition_poly_root pr) with (r2_root E r2). rewrite Hpv. cbn [andb].
      apply (feqb_spec E HK). rewrite (Hdv _ (Hgood iota)). cbn [c c_gamma_even c_gamma_odd]. reflexivity. }
    rewrite Hvo. cbn [obind]. apply IH. intros j x Hj. rewrite Nat.add_succ_comm. now apply HL. }
  rewrite S4. reflexivity.
Qed.
End Main.
