(** C94: what the verifier says about proofs that the prover's own code makes from tables violating the constraints. *)
From Coq Require Import List Arith Lia Bool NArith ZArith.
From Verif.Base Require Import Outcome Bytes Field Poly Zp.
From Verif.Model Require Import Codec Trace Merkle Air Transcript Domain Options Fri Evaluator Prover Verifier ExampleAirs PublicInputs CairoDecode CairoTrace CairoAir CairoRunner.
From Verif.Spec Require Import AirSpec ExampleSpec CairoSpec CairoRun CairoStatement Forgery CairoColumns ProvingSpec ProverLog OodSpec Rounds WrongTable.
From Verif.Proofs Require Import OutcomeFacts FieldFacts PolyFacts FFTFacts TraceFacts DomainFacts TranscriptFacts ComposeFacts Completeness Replay OodFacts ExampleFacts HonestRound VerifierTotal ProverTotal AuxFacts HonestRun CairoAirFacts CairoForge CairoAdmissible StarkFieldFacts MainColsFacts.
From Verif.Examples Require Import Toy Stark252 MiniRun Calm.
From Verif.Properties Require Import ExampleProperties StarkProperties OodProperties WitnessProperties CairoForgeryProperties.
Import ListNotations.
Local Open Scope felt_scope.

(** ** Counting *)
Lemma count_by_first {A B} (eqb : A -> A -> bool) (He : forall x y, eqb x y = true <-> x = y) (W : list (A * B)) (S : list A) :
  (forall x z, In (x, z) W -> In x S) ->
  (length W <= list_sum (map (fun x => length (filter (fun p => eqb (fst p) x) W)) S))%nat.
Proof.
  revert W. induction S as [|s S IH]; intros W H.
  - destruct W as [|[x z] W]; [reflexivity|]. destruct (H x z (or_introl eq_refl)).
  - cbn [map list_sum]. set (W' := filter (fun p => negb (eqb (fst p) s)) W).
    assert (L : length W = (length (filter (fun p => eqb (fst p) s) W) + length W')%nat).
    { unfold W'. clear. induction W as [|p W IH]; [reflexivity|]. cbn [filter]. destruct (eqb (fst p) s); cbn [negb length]; lia. }
    assert (H' : forall x z, In (x, z) W' -> In x S).
    { intros x z Hin. apply filter_In in Hin. destruct Hin as [Hin Hne]. destruct (H x z Hin) as [->|Hs]; [|exact Hs].
      cbn [fst] in Hne. rewrite (proj2 (He x x) eq_refl) in Hne. discriminate. }
    specialize (IH W' H'). rewrite L. change (list_sum (?a :: ?l)) with (a + list_sum l)%nat. apply Nat.add_le_mono_l.
    etransitivity; [exact IH|]. clear -He. assert (Q : forall x, (length (filter (fun p => eqb (fst p) x) W') <= length (filter (fun p => eqb (fst p) x) W))%nat).
    { intro x. unfold W'. clear. induction W as [|p W IH]; [reflexivity|]. cbn [filter].
      destruct (eqb (fst p) s) eqn:E1; cbn [negb filter]; destruct (eqb (fst p) x); cbn [length]; lia. }
    induction S as [|x S IHS]; [reflexivity|]. cbn [map]. change (list_sum (?a :: ?l)) with (a + list_sum l)%nat. specialize (Q x). lia.
Qed.
Lemma at_most_one_exceeds {A} (f : A -> nat) (B Z : nat) (S : list A) : NoDup S -> (forall x, In x S -> (f x <= Z)%nat) ->
  (forall x y, In x S -> In y S -> (B < f x)%nat -> (B < f y)%nat -> x = y) ->
  (list_sum (map f S) <= Z + B * length S)%nat.
Proof.
  intros HN HZ H1. assert (G : (list_sum (map f S) <= B * length S)%nat \/ exists x, In x S /\ (B < f x)%nat).
  { clear -S. induction S as [|x S IH]; [left; cbn; lia|]. destruct (Nat.lt_ge_cases B (f x)) as [L|L]; [right; exists x; split; [now left|exact L]|].
    destruct IH as [IH|(y & Hy & Ly)]; [left|right; exists y; split; [now right|exact Ly]]. cbn [map length]. change (list_sum (?a :: ?l)) with (a + list_sum l)%nat. lia. }
  destruct G as [G|(x & Hx & Lx)]; [lia|]. apply in_split in Hx. destruct Hx as (S1 & S2 & ->).
  assert (Q : forall T, (forall y, In y T -> In y (S1 ++ x :: S2) /\ y <> x) -> (list_sum (map f T) <= B * length T)%nat).
  { induction T as [|y T IH]; intro HT; [cbn; lia|]. cbn [map length]. change (list_sum (?a :: ?l)) with (a + list_sum l)%nat.
    destruct (HT y (or_introl eq_refl)) as [Hy Hne]. destruct (Nat.lt_ge_cases B (f y)) as [L|L].
    - destruct Hne. apply H1; [exact Hy|apply in_elt|exact L|exact Lx].
    - specialize (IH (fun y Hy => HT y (or_intror Hy))). lia. }
  apply NoDup_remove in HN. destruct HN as [_ Hnx].
  assert (Q1 : (list_sum (map f S1) <= B * length S1)%nat).
  { apply Q. intros y Hy. split; [apply in_or_app; now left|]. intros ->. apply Hnx. apply in_or_app. now left. }
  assert (Q2 : (list_sum (map f S2) <= B * length S2)%nat).
  { apply Q. intros y Hy. split; [apply in_or_app; right; now right|]. intros ->. apply Hnx. apply in_or_app. now right. }
  specialize (HZ x (in_elt _ _ _)). rewrite map_app, list_sum_app, app_length. cbn [map length]. change (list_sum (?a :: ?l)) with (a + list_sum l)%nat. lia.
Qed.

Lemma few_by_one {E : env} (HE : env_ok E) (P : E -> E -> Prop) B :
  (forall beta beta' : E, (exists zs, NoDup zs /\ (B < length zs)%nat /\ forall z, In z zs -> P beta z) ->
     (exists zs, NoDup zs /\ (B < length zs)%nat /\ forall z, In z zs -> P beta' z) -> beta = beta') -> few_pairs P B.
Proof.
  intros H1 S Z W HS HZ HW H. pose proof (feqb_spec E (fft_field_ok _ (e_fft_ok E HE))) as He.
  assert (Hz : forall x, exists zs, NoDup zs /\ length zs = length (filter (fun p : E * E => feqb (fst p) x) W) /\ forall z, In z zs -> In (x, z) W).
  { intro x. exists (map snd (filter (fun p : E * E => feqb (fst p) x) W)). split; [|split; [apply map_length|]].
    - assert (G : NoDup (filter (fun p : E * E => feqb (fst p) x) W)) by (apply NoDup_filter; exact HW).
      assert (F : forall p, In p (filter (fun p : E * E => feqb (fst p) x) W) -> fst p = x) by (intros p Hp; apply filter_In in Hp; apply He, Hp).
      revert G F. generalize (filter (fun p : E * E => feqb (fst p) x) W) as L. induction L as [|[u v] L IH]; intros G F; [constructor|].
      inversion G as [|? ? G1 G2]; subst. cbn [map snd]. constructor; [|apply IH; [exact G2|intros p Hp; apply F; now right]].
      intro Hin. apply in_map_iff in Hin. destruct Hin as ([u' v'] & Ev & Hin). cbn [snd] in Ev. subst v'. apply G1.
      pose proof (F _ (or_introl eq_refl)) as F1. pose proof (F _ (or_intror Hin)) as F2. cbn [fst] in F1, F2. subst u u'. exact Hin.
    - intros z Hin. apply in_map_iff in Hin. destruct Hin as ([u v] & Ev & Hin). cbn [snd] in Ev. subst v. apply filter_In in Hin. destruct Hin as [Hin Hf].
      cbn [fst] in Hf. apply He in Hf. now subst u. }
  etransitivity; [exact (count_by_first feqb He W S (fun x z Hin => proj1 (H x z Hin)))|].
  apply at_most_one_exceeds; [exact HS| |].
  - intros x _. destruct (Hz x) as (zs & N & L & I). rewrite <- L. apply NoDup_incl_length; [exact N|]. intros z Hin. exact (proj1 (proj2 (H x z (I z Hin)))).
  - intros x y _ _ Lx Ly. destruct (Hz x) as (zs & N & L & I). destruct (Hz y) as (zs' & N' & L' & I').
    apply H1; [exists zs; rewrite L|exists zs'; rewrite L']; (split; [assumption|]); (split; [assumption|]); intros z Hin.
    + exact (proj2 (proj2 (H x z (I z Hin)))).
    + exact (proj2 (proj2 (H y z (I' z Hin)))).
Qed.

(** ** The prover's rounds on any rectangular table *)
Section Rounds.
Context {E : env} (HE : env_ok E).
Let HF : fft_ok E := e_fft_ok E HE.
Let HK : field_ok E := fft_field_ok E HF.

Lemma own_halves_length (a : air E) r b k d r1 bco tco : admissible a r b k -> domain_new a = Ok d ->
  (length (fst (own_halves a d r1 bco tco)) <= 2 ^ (r + b - 1))%nat /\ (length (snd (own_halves a d r1 bco tco)) <= 2 ^ (r + b - 1))%nat.
Proof using HE.
  intros A Hd. destruct (domain_new_shape HE a d r b Hd (ad_n _ _ _ _ A) (ad_blowup _ _ _ _ A) (ad_r _ _ _ _ A)) as (g & W & D).
  unfold own_halves. destruct (round_2 E a d r1 tco bco) as [r2|e|] eqn:H; [|cbn; lia|cbn; lia]. unfold round_2 in H. ok_as H evals Hev. ok_as H hp Hhp. apply unwrap_r_ok in Hhp.
  cbn [even_odd] in H. ok_as H ee Hee. ok_as H oe Hoe. ok_as H tr Htr. destruct tr as [tree root]. apply ok_inj in H. subst r2. cbn [r2_even r2_odd fst snd].
  assert (Hel : length evals = (2 ^ (r + b))%nat).
  { unfold evaluate_constraints in Hev. ok_as Hev bcs Hb. ok_as Hev zinv Hz. ok_as Hev adj Ha. ok_as Hev bev Hbv. ok_as Hev be Hbe. ok_as Hev ps Hps. ok_as Hev xs Hxs.
    ok_as Hev da Hda. ok_as Hev ze Hze. apply traverse_length in Hev. apply traverse_length in Hbe. rewrite combine_length, seq_length in Hev, Hbe. rewrite map_length in Hbe.
    rewrite (shape_lde_length HE D) in *. lia. }
  rewrite (ds_offset _ _ _ _ _ _ D) in Hhp. pose proof (ad_r _ _ _ _ A) as Hr.
  destruct (interpolate_offset_ok HF evals _ (r + b) W Hel ltac:(lia) (h_nonzero HE A D) (ds_W _ _ _ _ _ _ D)) as (p & Hp & Hl & _).
  rewrite Hhp in Hp. apply ok_inj in Hp. subst p.
  assert (Hl2 : (length hp <= 2 * 2 ^ (r + b - 1))%nat).
  { etransitivity; [exact Hl|]. rewrite Hel. change (2 * 2 ^ (r + b - 1))%nat with (2 ^ S (r + b - 1))%nat. apply Nat.pow_le_mono_r; lia. }
  split; (etransitivity; [apply trim_length|]); [apply evens_length_le|apply odds_length_le]; exact Hl2.
Qed.

Lemma round_1_shape (a : air E) r b k d g W (A : admissible a r b k) (D : domain_shape d r b (e_u64 E (coset_offset (a_options a))) g W)
    (mt : trace_table E) t (r1 : round1 E a) t' : shaped_trace a r mt -> round_1 E a mt d t = Ok (r1, t') ->
  length (r1_trace_polys E a r1) = trace_columns (a_context a) /\ Forall (fun p : poly E => (length p <= 2 ^ r)%nat) (r1_trace_polys E a r1) /\
  trace_of a mt (r1_rap E a r1) (2 ^ r) (domain_columns (r1_trace_polys E a r1) g (2 ^ r)).
Proof using HE.
  intros (mcols & Hne & Hmc & Hv) H. unfold round_1 in H. ok_as H ic Hic. destruct ic as [[[[mp me] mtree] mroot] t0].
  destruct (interpolate_and_commit_ok HE A D mt mcols t mp me mtree mroot t0 Hmc Hne Hic) as (Hmi & Hme & ->).
  ok_as H rp Hrp. destruct rp as [rap t1]. ok_as H aux Haux.
  destruct (Hv _ _ _ _ Hrp Haux) as (acols & Hac & Hlen).
  unfold tt_is_empty in H. pose proof Hac as (Hnc & _). destruct (Nat.eqb_spec (tt_n_cols aux) 0) as [E0|E0].
  - ok_as H ldt Hldt. apply ok_inj in H. injection H as <- <-. cbn [r1_trace_polys r1_rap].
    rewrite Hnc in E0. destruct acols as [|? ?]; [|discriminate]. pose proof Hmi as (I1 & I2 & I3). rewrite app_nil_r in Hlen. split; [congruence|]. split; [exact I2|].
    exists aux, mcols, []. do 3 (split; [assumption|]). rewrite app_nil_r.
    apply (columns_of_interpolants HE); [exact I1|exact (proj1 (proj2 Hmc))|exact I3].
  - ok_as H ic2 Hic2. destruct ic2 as [[[[ap ae] atree] aroot] t2]. ok_as H ldt Hldt. apply ok_inj in H. injection H as <- <-. cbn [r1_trace_polys r1_rap].
    assert (Hane : acols <> []) by (intro; subst; cbn in Hnc; congruence).
    destruct (interpolate_and_commit_ok HE A D aux acols t1 ap ae atree aroot t2 Hac Hane Hic2) as (Hai & Hae & ->).
    destruct (interpolants_app HE A D _ _ _ _ Hmi Hai) as (I1 & I2 & I3). split; [congruence|]. split; [exact I2|].
    exists aux, mcols, acols. do 3 (split; [assumption|]). apply (columns_of_interpolants HE); [exact I1| |exact I3].
    intros c Hc. apply in_app_or in Hc. destruct Hc as [Hc|Hc]; [exact (proj1 (proj2 Hmc) c Hc)|exact (proj1 (proj2 Hac) c Hc)].
Qed.
End Rounds.

(** ** C94 *)

(** A proof that the prover's code makes from any rectangular table is accepted only if the out-of-domain check passes,
    at the drawn point, for the halves computed from the first round (fixed before the coefficients are drawn) and the
    coefficients (drawn before the point). *)
Theorem C94_accepted_only_where_the_check_passes :
  forall (E : env) fuel (mk : nat -> air E) opts (mt : trace_table E) r b k proof,
  let a := mk (tt_n_rows mt) in
  env_ok E -> admissible a r b k -> tt_n_rows mt = (2 ^ r)%nat -> shaped_trace a r mt ->
  prove E fuel mk mt = Ok proof -> verify E fuel mk opts proof = Ok true ->
  exists d r1 t1 (c : challenges E a) t,
    domain_new a = Ok d /\ round_1 E a mt d tr_new = Ok (r1, t1) /\ step_1 E fuel a proof d tr_new = Ok (c, t) /\
    c_rap E a c = r1_rap E a r1 /\ length (c_transition_coeffs E a c) = num_transition_constraints (a_context a) /\
    (forall bcs, a_boundary a (r1_rap E a r1) = Ok bcs -> length (c_boundary_coeffs E a c) = length bcs) /\
    length (r1_trace_polys E a r1) = trace_columns (a_context a) /\ Forall (fun p : poly E => (length p <= 2 ^ r)%nat) (r1_trace_polys E a r1) /\
    trace_of a mt (r1_rap E a r1) (2 ^ r) (domain_columns (r1_trace_polys E a r1) (trace_primitive_root d) (2 ^ r)) /\
    own_passes a d r1 (c_boundary_coeffs E a c) (c_transition_coeffs E a c) (c_z E a c).
Proof.
  intros E fuel mk opts mt r b k proof a HE A Hrows Hsh H0 Hver. rewrite prove_log_erase in H0. ok_as H0 pc Hlog. destruct pc as [proof' c]. apply ok_inj in H0. cbn [fst] in H0. subst proof'.
  destruct (replay HE fuel mk mt r b proof c (ad_n _ _ _ _ A) (ad_r _ _ _ _ A) (ad_blowup _ _ _ _ A) Hlog) as (d & t & Hd & Hstep). fold a in Hstep.
  pose proof Hlog as H. unfold prove_log in H. fold a in H, Hd. rewrite Hd in H. cbn [obind] in H.
  destruct (domain_new_shape HE a d r b Hd (ad_n _ _ _ _ A) (ad_blowup _ _ _ _ A) (ad_r _ _ _ _ A)) as (g & W & D).
  ok_as H rr1 Hr1. destruct rr1 as [r1 t1].
  destruct (round_1_shape HE a r b k d g W A D mt _ r1 t1 Hsh Hr1) as (Hw & Hpl & Htr).
  ok_as H bcs Hbcs.
  ok_as H s1 Hs1. destruct s1 as [ba t2]. ok_as H s2 Hs2. destruct s2 as [bb t3].
  ok_as H s3 Hs3. destruct s3 as [ta t4]. ok_as H s4 Hs4. destruct s4 as [tb t5].
  ok_as H r2 Hr2. ok_as H sz Hsz. destruct sz as [z t6].
  ok_as H g1 Hg1. destruct g1 as [gamma t8]. ok_as H g2 Hg2. destruct g2 as [gamma_p t9].
  ok_as H g3 Hg3. destruct g3 as [tg t10]. ok_as H deep Hdeep. ok_as H fc Hfc. destruct fc as [[[lv layers] zs] t11].
  destruct (tr_challenge t11) as [ch t13] eqn:Hch.
  ok_as H no Hno. ok_as H nc Hnc. ok_as H gz Hgz.
  ok_as H qp Hqp. destruct qp as [[ql iotas] t14]. ok_as H ops Hops.
  apply ok_inj in H. pose proof (f_equal fst H) as Hp. pose proof (f_equal snd H) as Hc. cbn [fst snd] in Hp, Hc. clear H.
  assert (Hlen : trace_length proof = tt_n_rows mt) by (rewrite <- Hp; cbn [trace_length]; rewrite (ad_n _ _ _ _ A), Hrows; reflexivity).
  exists d, r1, t1, c, t. rewrite (ds_root _ _ _ _ _ _ D). do 3 (split; [assumption|]). split; [rewrite <- Hc; reflexivity|].
  split; [rewrite <- Hc; cbn [c_transition_coeffs]; rewrite combine_length, (batch_sample_length E _ _ _ _ Hs3), (batch_sample_length E _ _ _ _ Hs4); apply Nat.min_id|].
  split; [intros bcs' Hb'; rewrite Hbcs in Hb'; apply ok_inj in Hb'; subst bcs'; rewrite <- Hc; cbn [c_boundary_coeffs]; rewrite combine_length, (batch_sample_length E _ _ _ _ Hs1), (batch_sample_length E _ _ _ _ Hs2); apply Nat.min_id|].
  do 3 (split; [assumption|]).
  unfold own_passes, own_halves. exists proof, c.
  split.
  { unfold verify in Hver. rewrite Hlen in Hver. fold a in Hver. rewrite Hd in Hver. cbn [obind] in Hver. rewrite Hstep in Hver. cbn [obind] in Hver.
    destruct (length (query_list proof) <? fri_number_of_queries opts)%nat; [discriminate|].
    destruct (c_leading_zeros E a c <? grinding_factor (a_options a))%N; [discriminate|]. ok_as Hver b2 Hb2. destruct b2; [exact Hb2|discriminate]. }
  rewrite <- Hc. cbn [c_boundary_coeffs c_transition_coeffs c_z c_rap]. rewrite Hr2, <- Hp. cbn [fst snd trace_ood_frame_evaluations composition_poly_even_ood_evaluation composition_poly_odd_ood_evaluation].
  unfold round_3. cbn [r3_trace_ood r3_even_ood r3_odd_ood]. repeat split.
Qed.
Print Assumptions C94_accepted_only_where_the_check_passes.

(** If the completed table violates a transition constraint, the check passes for few pairs of a second coefficient of
    that constraint and a point: all pairs with one coefficient at worst, and a bounded number for each other one. *)
Theorem C94_transition_violation_rarely_passes :
  forall (E : env) (a : air E) r b k d (r1 : round1 E a) bco tco j,
  env_ok E -> admissible a r b k -> proving_ok a r b -> domain_new a = Ok d ->
  length (r1_trace_polys E a r1) = trace_columns (a_context a) -> Forall (fun p : poly E => (length p <= 2 ^ r)%nat) (r1_trace_polys E a r1) ->
  (j < length (transition_degrees (a_context a)))%nat -> (j < length tco)%nat ->
  ~ constraint_holds a (r1_rap E a r1) (domain_columns (r1_trace_polys E a r1) (trace_primitive_root d) (2 ^ r)) (2 ^ r) j ->
  few_pairs (fun beta z => own_passes a d r1 bco (with_beta j beta tco) z) (ood_bound a (2 ^ r) (2 ^ r) (2 ^ (r + b - 1))).
Proof.
  intros E a r b k d r1 bco tco j HE A P Hd Hw Hpl Hj Hjt Hnot. apply (few_by_one HE).
  intros beta beta' (zs & N & L & I) (zs' & N' & L' & I').
  destruct (own_halves_length HE a r b k d r1 bco (with_beta j beta tco) A Hd) as [L1 L2]. destruct (own_halves_length HE a r b k d r1 bco (with_beta j beta' tco) A Hd) as [L3 L4].
  pose proof (pow2_pos r) as Hp.
  refine (C59_violation_leaves_one_coefficient E a r b k d (r1_rap E a r1) (r1_trace_polys E a r1) (2 ^ r) (2 ^ (r + b - 1)) j beta beta' HE A P Hd _ (ad_poly _ _ _ _ A) Hw Hpl Hj Hnot _); [lia|].
  exists bco, tco, (fst (own_halves a d r1 bco (with_beta j beta tco))), (snd (own_halves a d r1 bco (with_beta j beta tco))),
    (fst (own_halves a d r1 bco (with_beta j beta' tco))), (snd (own_halves a d r1 bco (with_beta j beta' tco))).
  do 5 (split; [assumption|]). split; [exists zs|exists zs']; auto.
Qed.
Print Assumptions C94_transition_violation_rarely_passes.

(** The same for a boundary constraint on a row of the table. *)
Theorem C94_boundary_violation_rarely_passes :
  forall (E : env) (a : air E) r b k d (r1 : round1 E a) bco tco j bcs bc,
  env_ok E -> admissible a r b k -> proving_ok a r b -> domain_new a = Ok d ->
  length (r1_trace_polys E a r1) = trace_columns (a_context a) -> Forall (fun p : poly E => (length p <= 2 ^ r)%nat) (r1_trace_polys E a r1) ->
  a_boundary a (r1_rap E a r1) = Ok bcs -> nth_error bcs j = Some bc -> (bc_step bc < 2 ^ r)%nat -> (j < length bco)%nat ->
  nth (bc_step bc) (nth (bc_col bc) (domain_columns (r1_trace_polys E a r1) (trace_primitive_root d) (2 ^ r)) []) 0 <> bc_value bc ->
  few_pairs (fun beta z => own_passes a d r1 (with_beta j beta bco) tco z) (ood_bound a (2 ^ r) (2 ^ r) (2 ^ (r + b - 1))).
Proof.
  intros E a r b k d r1 bco tco j bcs bc HE A P Hd Hw Hpl Hbc Hj Hst Hjt Hnot. apply (few_by_one HE).
  intros beta beta' (zs & N & L & I) (zs' & N' & L' & I').
  destruct (own_halves_length HE a r b k d r1 (with_beta j beta bco) tco A Hd) as [L1 L2]. destruct (own_halves_length HE a r b k d r1 (with_beta j beta' bco) tco A Hd) as [L3 L4].
  pose proof (pow2_pos r) as Hp. destruct (felt_eq_dec E HE beta beta') as [H|H]; [exact H|]. exfalso. apply Hnot.
  refine (C59_boundary_constraint_holds E a r b k d (r1_rap E a r1) (r1_trace_polys E a r1) (2 ^ r) (2 ^ (r + b - 1)) j beta beta' bcs bc HE A P Hd _ (ad_poly _ _ _ _ A) Hw Hpl Hbc Hj Hst H _); [lia|].
  exists bco, tco, (fst (own_halves a d r1 (with_beta j beta bco) tco)), (snd (own_halves a d r1 (with_beta j beta bco) tco)),
    (fst (own_halves a d r1 (with_beta j beta' bco) tco)), (snd (own_halves a d r1 (with_beta j beta' bco) tco)).
  do 5 (split; [assumption|]). split; [exists zs|exists zs']; auto.
Qed.
Print Assumptions C94_boundary_violation_rarely_passes.

(** Together: from a table whose completion violates a constraint, an accepted proof means that the drawn coefficient and
    point are among the few passing pairs, the first round and the other coefficients being as drawn. *)
Lemma with_own_beta {E : env} (l : list (E * E)) j : (j < length l)%nat -> with_beta j (snd (nth j l (0, 0))) l = l.
Proof.
  intro H. unfold with_beta. rewrite <- surjective_pairing. revert j H. induction l as [|x l IH]; intros [|j] H; cbn [length] in H; try lia; [reflexivity|].
  cbn [firstn nth app]. change (skipn (S (S j)) (x :: l)) with (skipn (S j) l). now rewrite IH by lia.
Qed.
Theorem C94_violating_table :
  forall (E : env) fuel (mk : nat -> air E) opts (mt : trace_table E) r b k proof,
  let a := mk (tt_n_rows mt) in
  env_ok E -> admissible a r b k -> proving_ok a r b -> tt_n_rows mt = (2 ^ r)%nat -> shaped_trace a r mt ->
  prove E fuel mk mt = Ok proof -> verify E fuel mk opts proof = Ok true ->
  exists d r1 t1 (c : challenges E a) t,
    domain_new a = Ok d /\ round_1 E a mt d tr_new = Ok (r1, t1) /\ step_1 E fuel a proof d tr_new = Ok (c, t) /\ c_rap E a c = r1_rap E a r1 /\
    forall cols, trace_of a mt (c_rap E a c) (2 ^ r) cols ->
    let B := ood_bound a (2 ^ r) (2 ^ r) (2 ^ (r + b - 1)) in let bco := c_boundary_coeffs E a c in let tco := c_transition_coeffs E a c in
    (forall j, (j < length (transition_degrees (a_context a)))%nat -> (j < num_transition_constraints (a_context a))%nat -> ~ constraint_holds a (c_rap E a c) cols (2 ^ r) j ->
       few_pairs (fun beta z => own_passes a d r1 bco (with_beta j beta tco) z) B /\ own_passes a d r1 bco (with_beta j (snd (nth j tco (0, 0))) tco) (c_z E a c)) /\
    (forall j bcs bc, a_boundary a (c_rap E a c) = Ok bcs -> nth_error bcs j = Some bc -> (bc_step bc < 2 ^ r)%nat ->
       nth (bc_step bc) (nth (bc_col bc) cols []) 0 <> bc_value bc ->
       few_pairs (fun beta z => own_passes a d r1 (with_beta j beta bco) tco z) B /\ own_passes a d r1 (with_beta j (snd (nth j bco (0, 0))) bco) tco (c_z E a c)).
Proof.
  intros E fuel mk opts mt r b k proof a HE A P Hrows Hsh Hp Hv.
  destruct (C94_accepted_only_where_the_check_passes E fuel mk opts mt r b k proof HE A Hrows Hsh Hp Hv) as (d & r1 & t1 & c & t & Hd & Hr1 & Hst & Hrap & Lt & Lb & Hw & Hpl & Htr & Hown).
  fold a in c, Hrap, Hd, Hr1, Hst, Lt, Lb, Hw, Hpl, Htr, Hown. exists d, r1, t1, c, t. do 4 (split; [assumption|]). rewrite Hrap. intros cols Hcols.
  assert (Ec : cols = domain_columns (r1_trace_polys E a r1) (trace_primitive_root d) (2 ^ r)).
  { destruct Hcols as (aux & mc & ac & X1 & X2 & X3 & ->). destruct Htr as (aux' & mc' & ac' & Y1 & Y2 & Y3 & ->). rewrite X1 in Y1. apply ok_inj in Y1. subst aux'.
    rewrite (table_columns_unique mt _ mc mc' X2 Y2), (table_columns_unique aux _ ac ac' X3 Y3). reflexivity. }
  intros B bco tco. subst cols. split.
  - intros j Hj Hjt Hnot. rewrite <- Lt in Hjt. split.
    + exact (C94_transition_violation_rarely_passes E a r b k d r1 bco tco j HE A P Hd Hw Hpl Hj Hjt Hnot).
    + unfold tco. rewrite with_own_beta by exact Hjt. exact Hown.
  - intros j bcs bc Hbc Hj Hs Hnot. assert (Hjt : (j < length bco)%nat) by (unfold bco; rewrite (Lb bcs Hbc); apply nth_error_Some; congruence). split.
    + exact (C94_boundary_violation_rarely_passes E a r b k d r1 bco tco j bcs bc HE A P Hd Hw Hpl Hbc Hj Hs Hjt Hnot).
    + unfold bco. rewrite with_own_beta by exact Hjt. exact Hown.
Qed.
Print Assumptions C94_violating_table.

(** ** The Cairo prover *)
Section Limbs.
Context {C : cairo_env} {p : N} (HC : cairo_ok C p).
Let HK : field_ok C := fft_field_ok _ (e_fft_ok _ (co_env _ _ HC)).
Add Field Kfield88 : (fld_th C HK).
Lemma limbs_total (x : nat -> C) v :
  x 0%nat + x 1%nat * e_u64 C (2 ^ 16) + x 2%nat * e_u64 C (2 ^ 32) + x 3%nat * e_u64 C (2 ^ 48) + x 4%nat * e_u64 C (2 ^ 64) + x 5%nat * e_u64 C (2 ^ 80)
  + x 6%nat * e_u64 C (2 ^ 96) + x 7%nat * e_u64 C (2 ^ 112) - v = 0 ->
  fsum (map (fun l => x l * e_u64 C (2 ^ (16 * N.of_nat l))) (seq 0 8)) = v.
Proof using HC.
  intro H. apply (proj1 (sub_zero HK _ _)) in H. rewrite <- H. cbn [seq map]. unfold fsum. cbn [fold_right].
  change (2 ^ (16 * N.of_nat 0))%N with 1%N. change (16 * N.of_nat 1)%N with 16%N. change (16 * N.of_nat 2)%N with 32%N.
  change (16 * N.of_nat 3)%N with 48%N. change (16 * N.of_nat 4)%N with 64%N. change (16 * N.of_nat 5)%N with 80%N.
  change (16 * N.of_nat 6)%N with 96%N. change (16 * N.of_nat 7)%N with 112%N. rewrite (co_one _ _ HC). ring.
Qed.
End Limbs.

(** A rectangular main table of the declared width is all that is asked for; the auxiliary columns always have their shape. *)
Theorem C94_cairo_tables_are_shaped :
  forall (C : cairo_env) p, cairo_ok C p -> forall (pi : public_inputs C) opts r (t : trace_table C) main,
  has_columns t (2 ^ r) main -> length main = (43 - builtin_offset pi)%nat -> shaped_trace (cairo_air pi opts (2 ^ r)) r t.
Proof.
  intros C p HC pi opts r t main Hm Lm. pose proof (offset_le pi) as Ho. exists main.
  assert (Hne : main <> []) by (intros ->; cbn [length] in Lm; lia). split; [exact Hne|]. split; [exact Hm|]. intros tr ch tr' aux _ Ha. cbn [cairo_air a_build_aux] in Ha.
  set (rows := map (fun i => map (fun c => nth i c 0) main) (seq 0 (2 ^ r))). assert (Ht : is_table t rows).
  { destruct Hm as (W & L & T). split; [lia|]. split; [exact T|]. apply Forall_forall. intros row Hr. apply in_map_iff in Hr. destruct Hr as (i & <- & _). rewrite map_length. now symmetry. }
  destruct (aux_inverse HC pi t rows ch aux Ht ltac:(rewrite (proj1 Hm); lia) Ha) as (_ & pub & _ & _ & _ & ->).
  exists (cols_of 18 (aux_rows rows pub ch)). assert (Lr : length (aux_rows rows pub ch) = (2 ^ r)%nat) by (rewrite aux_rows_length; unfold rows; rewrite map_length; apply seq_length).
  split; [rewrite <- Lr; apply table_has_columns; [apply aux_rows_table|reflexivity]|]. cbn [cairo_air a_context]. rewrite cairo_width_declared, app_length, Lm, cols_of_length. unfold cairo_width. lia.
Qed.
Print Assumptions C94_cairo_tables_are_shaped.

(** A row of the main table whose range-checked value is not the one its eight limbs stand for: the proof made from that
    table is accepted only if the coefficient of the builtin's constraint and the point are one of the few passing pairs. *)
Theorem C94_cairo_changed_range_check_value :
  forall (C : cairo_env) p, cairo_ok C p -> sampling_ok C -> forall (pi : public_inputs C) opts r b (t : trace_table C) main fuel proof i,
  usable_options C opts r b -> (r + b <= two_adicity C)%nat -> has_rc_builtin pi = true ->
  has_columns t (2 ^ r) main -> length main = 43%nat -> (i < 2 ^ r)%nat ->
  fsum (map (fun l => nth i (nth (34 + l) main []) 0 * e_u64 C (2 ^ (16 * N.of_nat l))) (seq 0 8)) <> nth i (nth 42 main []) 0 ->
  generate_cairo_proof fuel t pi opts = Ok proof -> verify_cairo_proof fuel proof pi opts = Ok true ->
  let a := cairo_air pi opts (2 ^ r) in
  exists d r1 t1 (c : challenges C a) t2,
    domain_new a = Ok d /\ round_1 C a t d tr_new = Ok (r1, t1) /\ step_1 C fuel a proof d tr_new = Ok (c, t2) /\
    let bco := c_boundary_coeffs C a c in let tco := c_transition_coeffs C a c in
    few_pairs (fun beta z => own_passes a d r1 bco (with_beta 49 beta tco) z) (Nat.max (2 ^ (r + b) + 2 ^ r + 1) (4 * 2 ^ r)) /\
    own_passes a d r1 bco (with_beta 49 (snd (nth 49 tco (0, 0))) tco) (c_z C a c).
Proof.
  intros C p HC HS pi opts r b t main fuel proof i Hu Hta Hb Hm Lm Hi Hne Hp Hv a. pose proof (co_env _ _ HC) as HE. pose proof (fft_field_ok _ (e_fft_ok _ HE)) as HK.
  assert (Ho : builtin_offset pi = 0%nat) by (unfold builtin_offset; now rewrite Hb).
  assert (Hmne : main <> []) by (intros ->; discriminate Lm). destruct (has_columns_table t _ main Hmne Hm) as [_ Hrows].
  pose proof (cairo_admissible HE pi opts r b Hu) as A.
  pose proof (C94_cairo_tables_are_shaped C p HC pi opts r t main Hm ltac:(rewrite Ho; exact Lm)) as Hsh.
  pose proof (C94_violating_table C fuel (cairo_air pi opts) opts t r b 2 proof) as G. cbv zeta in G. rewrite Hrows in G.
  destruct (G HE A (cairo_proving HS pi opts r b (ad_r _ _ _ _ A) Hta) eq_refl Hsh Hp Hv) as (d & r1 & t1 & c & t2 & Hd & Hr1 & Hst & Hrap & Hall).
  exists d, r1, t1, c, t2. do 3 (split; [assumption|]).
  assert (Htr : exists acols, trace_of a t (c_rap C a c) (2 ^ r) (main ++ acols) /\ length (main ++ acols) = trace_columns (a_context a)).
  { pose proof Hr1 as H. unfold round_1 in H. ok_as H ic Hic. destruct ic as [[[[mp me] mtree] mroot] t0]. ok_as H rp Hrp. destruct rp as [rap t3]. ok_as H aux Haux.
    assert (Er : r1_rap C a r1 = rap).
    { destruct (tt_is_empty aux); [ok_as H ldt Hldt; apply ok_inj in H; injection H as <- <-; reflexivity|].
      ok_as H ic2 Hic2. destruct ic2 as [[[[ap ae] atree] aroot] t4]. ok_as H ldt Hldt. apply ok_inj in H. injection H as <- <-. reflexivity. }
    destruct Hsh as (mc & _ & Hmc & Hx). rewrite (table_columns_unique t _ mc main Hmc Hm) in Hx. destruct (Hx _ _ _ _ Hrp Haux) as (acols & Hac & Hl).
    exists acols. split; [|exact Hl]. unfold a in Er |- *. rewrite Hrap, Er. exists aux, main, acols. auto. }
  destruct Htr as (acols & Htr & Hl). destruct (Hall _ Htr) as [Ht _].
  assert (Hj : (49 < n_constraints pi)%nat) by (unfold n_constraints; rewrite Hb; lia).
  assert (EB : ood_bound a (2 ^ r) (2 ^ r) (2 ^ (r + b - 1)) = Nat.max (2 ^ (r + b) + 2 ^ r + 1) (4 * 2 ^ r)).
  { pose proof (ad_r _ _ _ _ A) as Hr. unfold ood_bound. cbn [a cairo_air a_degree_bound]. f_equal; [|lia].
    replace (r + b)%nat with (S (r + b - 1)) at 2 by lia. rewrite Nat.pow_succ_r'. lia. }
  unfold a in EB. cbv zeta in Ht. rewrite EB in Ht. apply Ht.
  - cbn [cairo_air a_context cairo_context transition_degrees]. rewrite Hb. cbn. lia.
  - cbn [cairo_air a_context cairo_context num_transition_constraints]. rewrite Hb. cbn. lia.
  - cbn [a cairo_air a_context] in Hl. rewrite cairo_width_declared in Hl. intro Hc. apply (cairo_constraint_holds pi opts _ _ _ 49 Hl Hj) in Hc.
    specialize (Hc i ltac:(change (exempt 49) with 0%nat; lia)). rewrite builtin_constraint in Hc by exact Hb. unfold rc_builtin_value in Hc. rewrite !crow_nth in Hc.
    unfold cell in Hc. rewrite !app_nth1 in Hc by (rewrite Lm; lia). apply Hne. exact (limbs_total HC (fun l => nth i (nth (34 + l) main []) 0) _ Hc).
Qed.
Print Assumptions C94_cairo_changed_range_check_value.

(** The Fibonacci recurrence fails in both tables below. The proof made from the first is accepted (its coefficient and
    point are a passing pair); the one made from the second is not. *)
Definition lucky_table : trace_table toy := toy_table [1; 1; 3; 18]%Z.
Definition unlucky_table : trace_table toy := toy_table [1; 1; 2; 4]%Z.
Lemma toy_shaped col : length col = 4%nat -> has_columns (toy_table col) (2 ^ 2) [map f97 col] /\ shaped_trace ood_air 2 (toy_table col).
Proof.
  intro L. destruct col as [|c0 [|c1 [|c2 [|c3 [|]]]]]; try discriminate. assert (H : has_columns (toy_table [c0; c1; c2; c3]) (2 ^ 2) [map f97 [c0; c1; c2; c3]]).
  { split; [reflexivity|]. split; [intros c [<-|[]]; reflexivity|reflexivity]. }
  split; [exact H|]. eexists. split; [|split; [exact H|]]; [discriminate|]. intros t rap t' aux _ Ha. cbn in Ha. apply ok_inj in Ha. subst aux. exists []. split; [|reflexivity].
  split; [reflexivity|]. split; [intros c []|reflexivity].
Qed.
Example C94_example :
  admissible ood_air 2 1 3 /\ proving_ok ood_air 2 1 /\ tt_n_rows lucky_table = (2 ^ 2)%nat /\ shaped_trace ood_air 2 lucky_table /\
  (exists proof, prove toy 20 (fibonacci_air toy (f97 1) (f97 1) toy_opts) lucky_table = Ok proof /\ verify toy 20 (fibonacci_air toy (f97 1) (f97 1) toy_opts) toy_opts proof = Ok true) /\
  trace_of ood_air lucky_table tt (2 ^ 2) [map f97 [1; 1; 3; 18]%Z] /\ ~ constraint_holds ood_air tt [map f97 [1; 1; 3; 18]%Z] (2 ^ 2) 0 /\
  tt_n_rows unlucky_table = (2 ^ 2)%nat /\ shaped_trace ood_air 2 unlucky_table /\
  (exists proof, prove toy 20 (fibonacci_air toy (f97 1) (f97 1) toy_opts) unlucky_table = Ok proof /\ verify toy 20 (fibonacci_air toy (f97 1) (f97 1) toy_opts) toy_opts proof = Ok false) /\
  ~ constraint_holds ood_air tt [map f97 [1; 1; 2; 4]%Z] (2 ^ 2) 0.
Proof.
  assert (R : forall t v, toy_run (fibonacci_air toy (f97 1) (f97 1) toy_opts) (Ok t) = Ok v ->
    exists proof, prove toy 20 (fibonacci_air toy (f97 1) (f97 1) toy_opts) t = Ok proof /\ verify toy 20 (fibonacci_air toy (f97 1) (f97 1) toy_opts) toy_opts proof = Ok v).
  { intros t v H. unfold toy_run in H. cbn [obind] in H. ok_as H p Hp. exists p. split; [exact Hp|exact H]. }
  assert (V : forall col i evals, (i < 3)%nat -> ood_air.(a_transition) (mk_frame (concat (map (fun o => map (fun c => nth ((i + o) mod 2 ^ 2) c 0) [map f97 col])
      (transition_offsets (a_context ood_air)))) 1) tt = Ok evals -> (i < 2)%nat -> zval (nth 0 evals 0) <> 0%Z -> ~ constraint_holds ood_air tt [map f97 col] (2 ^ 2) 0).
  { intros col i evals _ Hev Hi Hz H. apply Hz. rewrite (H i 2%nat evals); [reflexivity|change (2 ^ 2 - 2)%nat with 2%nat; exact Hi|reflexivity|exact Hev]. }
  destruct C59_example as (H1 & H2 & _). do 2 (split; [assumption|]). split; [reflexivity|]. split; [apply toy_shaped; reflexivity|].
  split; [apply R; vm_compute; reflexivity|]. split.
  { exists (mk_trace (A := toy) [] 0), [map f97 [1; 1; 3; 18]%Z], []. split; [reflexivity|]. split; [apply toy_shaped; reflexivity|]. split; [|reflexivity].
    split; [reflexivity|]. split; [intros c []|reflexivity]. }
  split; [eapply (V _ 0%nat); [lia|reflexivity|lia|vm_compute; discriminate]|]. split; [reflexivity|]. split; [apply toy_shaped; reflexivity|].
  split; [apply R; vm_compute; reflexivity|]. eapply (V _ 1%nat); [lia|reflexivity|lia|vm_compute; discriminate].
Qed.

(** The smallest change of the integration test: all cells zero but one range-checked value. *)
Definition changed_main : list (list calm) := repeat (repeat (0 : calm) 8) 42 ++ [(f252 35 : calm) :: repeat 0 7].
Definition changed_pi : public_inputs calm :=
  mk_public_inputs (f252 1 : calm) (f252 8 : calm) (f252 8 : calm) (f252 77 : calm) (f252 9 : calm) (Some 32766%N) (Some 32769%N) [(RangeCheck, (27, 29)%N)] [] 2.
Example C94_cairo_example :
  cairo_ok calm (Z.to_N stark_p) /\ sampling_ok calm /\ usable_options calm default_test_options 3 2 /\ (3 + 2 <= two_adicity calm)%nat /\ has_rc_builtin changed_pi = true /\
  has_columns (table_of changed_main (2 ^ 3)) (2 ^ 3) changed_main /\ length changed_main = 43%nat /\
  fsum (map (fun l => nth 0 (nth (34 + l) changed_main []) 0 * e_u64 calm (2 ^ (16 * N.of_nat l))) (seq 0 8)) <> nth 0 (nth 42 changed_main []) 0 /\
  shaped_trace (cairo_air changed_pi default_test_options (2 ^ 3)) 3 (table_of changed_main (2 ^ 3)).
Proof.
  split; [exact calm_ok|]. split; [exact calm_sampling|]. split; [apply (default_coset_usable calm_ok); try reflexivity; lia|]. split; [cbn; lia|]. split; [reflexivity|].
  assert (L : forall c, In c changed_main -> length c = (2 ^ 3)%nat).
  { intros c Hc. unfold changed_main in Hc. apply in_app_or in Hc. destruct Hc as [Hc|[<-|[]]]; [apply repeat_spec in Hc; subst c; reflexivity|reflexivity]. }
  split; [apply table_of_columns; exact L|]. split; [reflexivity|]. split.
  - intro H. apply (f_equal (fun x : calm => zval (x : zp stark_p))) in H. vm_compute in H. discriminate H.
  - eapply (C94_cairo_tables_are_shaped calm _ calm_ok); [apply table_of_columns; exact L|reflexivity].
Qed.
