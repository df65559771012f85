(** C72, C73: the proofs of honest provers are accepted runs, so the premises of the soundness theorems are met. *)
From Coq Require Import List Arith Lia Bool NArith ZArith.
From Verif.Base Require Import Outcome Bytes Field Poly Zp.
From Verif.Model Require Import Codec PublicInputs Trace Merkle Air Transcript Domain Options Fri Prover Verifier ExampleAirs CairoDecode CairoTrace CairoAir CairoRunner.
From Verif.Spec Require Import AirSpec CairoSpec CairoColumns ExampleSpec ProvingSpec Forgery VerifierSpec HashSpec LowDegree FriTree OodSpec StarkTree Proximity Rounds Openings CairoRun.
From Verif.Proofs Require Import OutcomeFacts FieldFacts PolyFacts FFTFacts TraceFacts DomainFacts ExampleFacts PolyAir CpuFacts CairoAirFacts CairoAdmissible
  Completeness OodFacts LowDegreeFacts FriComplete RoundFacts RoundSoundness HonestRun HonestRepairs HonestRound.
From Verif.Examples Require Import Toy Stark252 MiniRun RunExamples Calm.
From Verif.Properties Require Import CairoMemoryProperties CairoForgeryProperties ProverTotalProperties StarkSoundnessProperties RoundProperties.
Import ListNotations.
Local Open Scope felt_scope.

Lemma honest_run :
  forall (E : env) fuel (mk : nat -> air E) (mt : trace_table E) r b k e proof (zs : list E), env_ok E -> perfect_hash (e_leaf E) (e_node E) ->
  let a := mk (tt_n_rows mt) in
  admissible a r b k -> tt_n_rows mt = (2 ^ r)%nat -> valid_trace a r mt -> (3 * e + 2 ^ r <= 2 ^ (r + b))%nat ->
  NoDup zs -> (stark_bound a (2 ^ r) < length zs)%nat -> (forall z, In z zs -> fpow z (2 ^ r) <> 1) ->
  prove E fuel mk mt = Ok proof ->
  exists d c w rows polys h1 h2 words,
    accepted_run fuel mk (a_options a) proof r b k e d c w rows (fun j => peval (nth j polys [])) (peval h1) (peval h2) words /\
    trace_length proof = (2 ^ r)%nat /\ length polys = trace_columns (a_context a) /\ Forall (fun q : poly E => (length q <= 2 ^ r)%nat) polys /\
    trace_satisfies (mk (trace_length proof)) (c_rap E _ c) (domain_columns polys (trace_primitive_root d) (2 ^ r)) (2 ^ r) /\
    trace_of (mk (trace_length proof)) mt (c_rap E _ c) (2 ^ r) (domain_columns polys (trace_primitive_root d) (2 ^ r)) /\
    composition_poly_root proof = row_commit (r + b) (d_coset_offset d) w (fun x => [peval h1 x; peval h2 x]) /\
    ((forall rap aux, a_build_aux a mt rap = Ok aux -> tt_n_cols aux = a_n_aux a) ->
     lde_trace_merkle_roots proof = map (row_commit (r + b) (d_coset_offset d) w) (column_parts (mk (trace_length proof)) (fun j => peval (nth j polys []))) /\
     forall j iota o, nth_error (c_iotas E _ c) j = Some iota -> nth_error (deep_poly_openings proof) j = Some o ->
       columns_checked (mk (trace_length proof)) proof iota o /\
       length (lde_trace_evaluations o) = trace_columns (a_context (mk (trace_length proof))) /\
       length (lde_trace_merkle_proofs o) = length (column_parts (mk (trace_length proof)) (fun j => peval (nth j polys [])))).
Proof.
  intros E fuel mk mt r b k e proof zs HE HH a A Hn Hvt He Z1 Z2 Z3 Hp. pose proof (fft_field_ok _ (e_fft_ok E HE)) as HK.
  pose proof (completeness HE mk mt r b k fuel proof A Hn Hvt Hp) as Hv. fold a in Hv.
  destruct (honest_parts HE fuel mk mt r b k proof A Hn Hvt Hp)
    as (d & g & w & c & t & polys & h1 & h2 & deep & Hd & D & Ht & Hc & Pl & Pf & Hs & Htr & _ & L1 & L2 & Hpass & Hz & Hfr & V1 & V2 & Ld & Lz & Hroots & Hcr & Hck & Htruth).
  fold a in c, Hd, D, Hc, Pl, Hs, Htr, Hpass, Hz, Hfr, V1, V2, Lz, Hroots, Hck, Htruth.
  pose proof (ds_W _ _ _ _ _ _ D) as Hw. pose proof (ds_root _ _ _ _ _ _ D) as Hg. pose proof (ds_offset _ _ _ _ _ _ D) as Ho.
  set (rows := shifted_rows polys (seq 0 k) g (c_z E a c)) in *. set (words := layer_words deep (c_zetas E a c)) in *.
  assert (Lw : length words = r) by (unfold words; rewrite layer_words_length; exact Lz).
  assert (Lr : length rows = k) by (unfold rows, shifted_rows; now rewrite map_length, seq_length).
  assert (T : truthful proof c (r + b) (d_coset_offset d) w (fun j => peval (nth j polys [])) (peval h1) (peval h2) words).
  { intros j iota Hj. destruct (Htruth j iota Hj) as (q & o & Hq & Hop & Sq & O1 & O2 & O3). exists q, o. rewrite Lw.
    split; [exact Hq|]. split; [exact Hop|]. split; [exact Sq|]. split; [apply (clash_free_always HH)|]. split; [|split; assumption].
    intros i Hi. rewrite O1. change (0 : E) with (peval (K := E) [] (d_coset_offset d * fpow w iota)) at 1. rewrite <- Pl in Hi.
    exact (map_nth (fun p => peval p (d_coset_offset d * fpow w iota)) polys [] i). }
  assert (U : unexceptional a d r b e w proof c rows (fun j => peval (nth j polys [])) (peval h1) (peval h2) words).
  { apply (C72_honest_run_unexceptional E a r b k d w e proof c rows polys h1 h2 words HE A Hd Hw He Pl).
    - eapply Forall_impl; [|exact Pf]. cbn. intros. lia.
    - lia.
    - lia.
    - rewrite Hg. exact Hs.
    - exists zs. split; [exact Z1|]. split; [exact Z2|]. intros z Hzs. apply Hpass. intro Z. apply (Z3 z Hzs). exact (proj1 (sub_zero HK _ _) Z).
    - exact Hz.
    - intros col row Hcol Hrow. rewrite Lr in Hrow. rewrite Hg. unfold rows, shifted_rows.
      set (at_row := fun o => map (fun p => peval p (c_z E a c * fpow g o)) polys).
      rewrite (nth_indep _ [] (at_row 0%nat)) by (rewrite map_length, seq_length; exact Hrow). rewrite (map_nth at_row), seq_nth by exact Hrow.
      unfold at_row. cbn [Nat.add]. rewrite <- Pl in Hcol. rewrite (nth_indep _ 0 (peval (K := E) [] (c_z E a c * fpow g row))) by (rewrite map_length; exact Hcol).
      exact (map_nth (fun p => peval p (c_z E a c * fpow g row)) polys [] col).
    - exact V1.
    - exact V2.
    - intros i f Hf. rewrite Lw. unfold words in Hf. rewrite <- Lz. apply (layer_words_low _ deep); [rewrite Lz; exact Ld|exact Hf]. }
  assert (W : Forall (fun row => length row = trace_columns (a_context a)) rows).
  { apply Forall_forall. intros row Hrow. unfold rows, shifted_rows in Hrow. apply in_map_iff in Hrow. destruct Hrow as (q & <- & _). rewrite <- Pl. apply map_length. }
  enough (G : exists c' : challenges E (mk (trace_length proof)),
    domain_new (mk (trace_length proof)) = Ok d /\ (exists t, step_1 E fuel (mk (trace_length proof)) proof d tr_new = Ok (c', t)) /\
    trace_ood_frame_evaluations proof = mk_frame (concat rows) (trace_columns (a_context (mk (trace_length proof)))) /\
    Forall (fun row => length row = trace_columns (a_context (mk (trace_length proof)))) rows /\
    truthful proof c' (r + b) (d_coset_offset d) w (fun j => peval (nth j polys [])) (peval h1) (peval h2) words /\
    unexceptional (mk (trace_length proof)) d r b e w proof c' rows (fun j => peval (nth j polys [])) (peval h1) (peval h2) words /\
    trace_satisfies (mk (trace_length proof)) (c_rap E _ c') (domain_columns polys (trace_primitive_root d) (2 ^ r)) (2 ^ r) /\
    trace_of (mk (trace_length proof)) mt (c_rap E _ c') (2 ^ r) (domain_columns polys (trace_primitive_root d) (2 ^ r)) /\
    ((forall rap aux, a_build_aux a mt rap = Ok aux -> tt_n_cols aux = a_n_aux a) ->
     lde_trace_merkle_roots proof = map (row_commit (r + b) (d_coset_offset d) w) (column_parts (mk (trace_length proof)) (fun j => peval (nth j polys []))) /\
     forall j iota o, nth_error (c_iotas E _ c') j = Some iota -> nth_error (deep_poly_openings proof) j = Some o ->
       columns_checked (mk (trace_length proof)) proof iota o /\
       length (lde_trace_evaluations o) = trace_columns (a_context (mk (trace_length proof))) /\
       length (lde_trace_merkle_proofs o) = length (column_parts (mk (trace_length proof)) (fun j => peval (nth j polys []))))).
  { destruct G as (c' & G1 & G2 & G3 & G4 & G5 & G6 & G7). exists d, c', w, rows, polys, h1, h2, words. split; [|split; [exact Ht|split; [exact Pl|split; [exact Pf|]]]].
    - constructor; assumption.
    - destruct G7 as (G7 & G8 & G9). split; [exact G7|]. split; [exact G8|]. split; [exact Hcr|exact G9]. }
  rewrite (eq_trans Ht (eq_sym Hn)). exists c. split; [exact Hd|]. split; [exists t; exact Hc|]. split; [exact Hfr|]. split; [exact W|]. split; [exact T|]. split; [exact U|].
  rewrite Hg. split; [exact Hs|]. split; [exact Htr|]. intro Hna. destruct (Hck Hna) as [C1 C2]. split; [exact C1|].
  intros j iota o Hj Hoj. destruct (C2 j iota o Hj Hoj) as [C3 C4]. split; [exact C3|]. split; [|exact C4].
  destruct (Htruth j iota Hj) as (q & o' & _ & Ho' & _ & O1 & _). rewrite Hoj in Ho'. injection Ho' as <-. rewrite O1, map_length. exact Pl.
Qed.
(** Whatever the prover returns for a valid trace is an accepted run in the sense of C72, without exceptional challenges, whose
    columns are polynomials that satisfy the constraints. *)
Theorem C72_honest_proof_is_a_run :
  forall (E : env) fuel (mk : nat -> air E) (mt : trace_table E) r b k e proof (zs : list E), env_ok E -> perfect_hash (e_leaf E) (e_node E) ->
  let a := mk (tt_n_rows mt) in
  admissible a r b k -> tt_n_rows mt = (2 ^ r)%nat -> valid_trace a r mt -> (3 * e + 2 ^ r <= 2 ^ (r + b))%nat ->
  NoDup zs -> (stark_bound a (2 ^ r) < length zs)%nat -> (forall z, In z zs -> fpow z (2 ^ r) <> 1) ->
  prove E fuel mk mt = Ok proof ->
  exists d c w rows polys h1 h2 words,
    accepted_run fuel mk (a_options a) proof r b k e d c w rows (fun j => peval (nth j polys [])) (peval h1) (peval h2) words /\
    trace_length proof = (2 ^ r)%nat /\ length polys = trace_columns (a_context a) /\ Forall (fun q : poly E => (length q <= 2 ^ r)%nat) polys /\
    trace_satisfies (mk (trace_length proof)) (c_rap E _ c) (domain_columns polys (trace_primitive_root d) (2 ^ r)) (2 ^ r) /\
    trace_of (mk (trace_length proof)) mt (c_rap E _ c) (2 ^ r) (domain_columns polys (trace_primitive_root d) (2 ^ r)).
Proof.
  intros E fuel mk mt r b k e proof zs HE HH a A Hn Hvt He Z1 Z2 Z3 Hp.
  destruct (honest_run E fuel mk mt r b k e proof zs HE HH A Hn Hvt He Z1 Z2 Z3 Hp) as (d & c & w & rows & polys & h1 & h2 & words & R & H1 & H2 & H3 & H4 & H5 & _).
  exists d, c, w, rows, polys, h1, h2, words. split; [exact R|]. split; [exact H1|]. split; [exact H2|]. split; [exact H3|]. split; [exact H4|exact H5].
Qed.
Print Assumptions C72_honest_proof_is_a_run.

(** ** The Cairo air *)

(** The trace of a provable run meets the conditions of C58, which the air does not impose. *)
Theorem C58_honest_trace_meets_conditions :
  forall (C : cairo_env) p (m : @cairo_memory C) raw size rc out, cairo_ok C p -> provable_run m raw size rc out ->
  exists t pi r main, generate_prover_args raw m size rc out = Ok (t, pi) /\ tt_n_rows t = (2 ^ r)%nat /\ has_columns t (2 ^ r) main /\
  (exists lo hi, range_check_min pi = Some lo /\ range_check_max pi = Some hi /\ (lo < 2 ^ 16)%N /\ (hi < 2 ^ 16)%N) /\
  (1 <= num_steps pi <= 2 ^ r)%nat /\ (34 <= length main)%nat /\ (forall i, (i + 1 < num_steps pi)%nat -> cell main i FRAME_SELECTOR = 1) /\
  forall ch aux acols, cairo_build_aux pi t ch = Ok aux -> has_columns aux (2 ^ r) acols -> first_row_equation pi ch (main ++ acols).
Proof.
  intros C p m raw size rc out HC HP. destruct (honest_full HC m raw size rc out HP) as (t & pi & r & Hg & Hn & _ & _ & _ & Hv).
  destruct (Hv default_test_options) as (main & _ & Hm & _). exists t, pi, r, main. split; [exact Hg|]. split; [exact Hn|]. split; [exact Hm|].
  exact (honest_repairs HC m raw size rc out HP t pi (2 ^ r) main Hg Hn Hm).
Qed.
Print Assumptions C58_honest_trace_meets_conditions.

(** The proof of a provable run meets all premises of [C73_cairo_run], but for the challenges excluded there. *)
Theorem C73_honest_cairo_run :
  forall (C : cairo_env) p (m : @cairo_memory C) raw size rc out t pi opts r b e fuel proof (zs : list C), cairo_ok C p -> perfect_hash (e_leaf C) (e_node C) ->
  provable_run m raw size rc out -> generate_prover_args raw m size rc out = Ok (t, pi) -> tt_n_rows t = (2 ^ r)%nat ->
  usable_options C opts r b -> (3 * e + 2 ^ r <= 2 ^ (r + b))%nat ->
  NoDup zs -> (stark_bound (cairo_air pi opts (2 ^ r)) (2 ^ r) < length zs)%nat -> (forall z, In z zs -> fpow z (2 ^ r) <> 1) ->
  generate_cairo_proof fuel t pi opts = Ok proof ->
  exists d c w rows polys h1 h2 words lo hi,
    let cols := fun j => peval (nth j polys []) in
    let base := domain_columns polys (trace_primitive_root d) (2 ^ r) in
    let pts := points (d_coset_offset d) w (2 ^ (r + b)) in
    trace_length proof = (2 ^ r)%nat /\
    accepted_run fuel (cairo_air pi opts) opts proof r b 2 e d c w rows cols (peval h1) (peval h2) words /\
    length base = trace_columns (a_context (cairo_air pi opts (2 ^ r))) /\
    range_check_min pi = Some lo /\ range_check_max pi = Some hi /\ (lo < 2 ^ 16)%N /\ (hi < 2 ^ 16)%N /\ (1 <= num_steps pi <= 2 ^ r)%nat /\
    (forall i, (i + 1 < num_steps pi)%nat -> cell base i FRAME_SELECTOR = 1) /\
    (forall j q, (j < length polys)%nat -> near_poly pts e (2 ^ r + 1) (cols j) q ->
       nth j base [] = map (fun i => peval q (fpow (trace_primitive_root d) i)) (seq 0 (2 ^ r))) /\
    (forall polys', length polys' = length polys -> near_polys pts e (2 ^ r + 1) cols polys' ->
       first_row_equation pi (c_rap C (cairo_air pi opts (trace_length proof)) c) (domain_columns polys' (trace_primitive_root d) (2 ^ r))).
Proof.
  intros C p m raw size rc out t pi opts r b e fuel proof zs HC HH HP Hg Hn Hu He Z1 Z2 Z3 Hproof. pose proof (co_env _ _ HC) as HE.
  destruct (honest_full HC m raw size rc out HP) as (t' & pi' & r' & Hg' & Hn' & _ & _ & _ & Hv). rewrite Hg in Hg'. apply ok_inj in Hg'. injection Hg' as <- <-.
  rewrite Hn in Hn'. apply Nat.pow_inj_r in Hn'; [|lia]. subst r'.
  pose proof (cairo_admissible HE pi opts r b Hu) as A.
  assert (Hrun := C72_honest_proof_is_a_run C fuel (cairo_air pi opts) t r b 2 e proof zs HE HH). cbv zeta in Hrun. rewrite Hn in Hrun.
  destruct (Hrun A eq_refl (Hv opts) He Z1 Z2 Z3 Hproof) as (d & c & w & rows & polys & h1 & h2 & words & R & Ht & Lp & Fp & Hs & (aux & mcols & acols & Ha & Hmc & Hac & Ecols)).
  destruct (honest_repairs HC m raw size rc out HP t pi (2 ^ r) mcols Hg Hn Hmc) as ((lo & hi & B1 & B2 & B3 & B4) & Hst & H34 & Hsel & Hfirst).
  exists d, c, w, rows, polys, h1, h2, words, lo, hi. cbv zeta.
  split; [exact Ht|]. split; [exact R|]. split; [unfold domain_columns; rewrite map_length; exact Lp|]. do 4 (split; [assumption|]). split; [exact Hst|].
  destruct (domain_new_shape HE (cairo_air pi opts (2 ^ r)) d r b) as (g & W & D).
  { rewrite <- Ht. exact (ar_domain _ _ _ _ _ _ _ _ _ _ _ _ _ _ _ _ R). }
  { exact (ad_n _ _ _ _ A). } { exact (ad_blowup _ _ _ _ A). } { exact (ad_r _ _ _ _ A). }
  assert (W = w) as -> by (pose proof (ds_W _ _ _ _ _ _ D) as E; rewrite (ar_root _ _ _ _ _ _ _ _ _ _ _ _ _ _ _ _ R) in E; now injection E).
  assert (Nd : NoDup (points (d_coset_offset d) w (2 ^ (r + b)))) by (rewrite (ds_offset _ _ _ _ _ _ D); exact (pts_nodup HE A D)).
  assert (Rm : (2 * e + (2 ^ r + 1) <= length (points (d_coset_offset d) w (2 ^ (r + b))))%nat) by (rewrite (ds_offset _ _ _ _ _ _ D); exact (room A e He)).
  assert (Near : near_polys (points (d_coset_offset d) w (2 ^ (r + b))) e (2 ^ r + 1) (fun j => peval (nth j polys [])) polys).
  { intros j Hj. split; [rewrite Forall_forall in Fp; exact (Nat.le_trans _ _ _ (Fp (nth j polys []) (nth_In _ _ Hj)) (Nat.le_add_r _ 1))|].
    exists (points (d_coset_offset d) w (2 ^ (r + b))). split; [|reflexivity]. split; [exact Nd|]. split; [intros x Hx; exact Hx|]. apply Nat.le_add_r. }
  split; [|split].
  - intros i Hi. rewrite Ecols. unfold cell. rewrite app_nth1; [exact (Hsel i Hi)|]. exact H34.
  - intros j q Hj Hq. unfold domain_columns.
    rewrite (nth_indep _ [] (map (fun i => peval (K := C) [] (fpow (trace_primitive_root d) i)) (seq 0 (2 ^ r)))) by (rewrite map_length; exact Hj).
    rewrite (map_nth (fun p => map (fun i => peval p (fpow (trace_primitive_root d) i)) (seq 0 (2 ^ r)))). apply map_ext. intro i.
    apply (near_unique HE _ e (2 ^ r + 1) _ _ q Nd Rm (Near j Hj) Hq).
  - intros polys' Hl Hp.
    assert (Ed : domain_columns polys' (trace_primitive_root d) (2 ^ r) = mcols ++ acols).
    { rewrite <- Ecols. apply nth_ext with (d := []) (d' := []); [unfold domain_columns; rewrite !map_length; exact Hl|].
      intros j Hj. unfold domain_columns in Hj. rewrite map_length in Hj. unfold domain_columns.
      assert (At : forall l : list (poly C), (j < length l)%nat -> nth j (map (fun q => map (fun i => peval q (fpow (trace_primitive_root d) i)) (seq 0 (2 ^ r))) l) [] =
        map (fun i => peval (nth j l []) (fpow (trace_primitive_root d) i)) (seq 0 (2 ^ r))).
      { intros l Hlj. rewrite (nth_indep _ [] (map (fun i => peval (K := C) [] (fpow (trace_primitive_root d) i)) (seq 0 (2 ^ r)))) by (rewrite map_length; exact Hlj).
        exact (map_nth (fun p => map (fun i => peval p (fpow (trace_primitive_root d) i)) (seq 0 (2 ^ r))) l [] j). }
      rewrite (At polys' Hj), (At polys (eq_ind _ (fun l => (j < l)%nat) Hj _ Hl)). apply map_ext. intro i.
      apply (near_polys_unique HE _ e (2 ^ r + 1) _ _ _ Nd Rm Hl Hp). intros k Hk. exact (Near k Hk). }
    rewrite Ed. exact (Hfirst _ aux acols Ha Hac).
Qed.
Print Assumptions C73_honest_cairo_run.

(** Non-vacuity: the three-step run, in an environment with hash functions without coincidences. *)
Definition run_memory : @cairo_memory plain252 := mini_memory.
Definition run_state (s : cpu_state stark) : cpu_state plain252 := mk_state (s_pc s : plain252) (s_ap s : plain252) (s_fp s : plain252).
Lemma run_executes t s : executes mini_memory t s -> executes run_memory t (run_state s).
Proof.
  intros (w & dst & op0 & op1 & res & H & Hd & Ho). exists w, (dst : plain252), (op0 : plain252), (op1 : plain252), (res : plain252). split; [|split; assumption].
  destruct H. constructor; assumption.
Qed.
Lemma run_provable : provable_run run_memory mini_regs 5 None None.
Proof.
  destruct mini_provable as [(H1 & H2 & H3) ? ? ? ? ? ?]. constructor; try assumption; try discriminate.
  split; [exact H1|]. split; [exact H2|]. intros i t Ht. destruct (H3 i t Ht) as (s' & He & Hn). exists (run_state s'). split; [exact (run_executes t s' He)|].
  intros t' Ht'. rewrite (Hn t' Ht'). reflexivity.
Qed.
Definition fives : cairo_challenges plain252 := CairoAir.mk_challenges (f252 5 : plain252) (f252 5 : plain252) (f252 5 : plain252).
Definition run_points_8 : list plain252 := map (fun i => f252 (Z.of_nat i) : plain252) (seq 2 50).
Lemma run_computed : match generate_prover_args (C := plain252) mini_regs run_memory 5 None None with
  | Ok (t, pi) => is_ok (cairo_build_aux pi t fives) && Nat.eqb (tt_n_rows t) 8 && Nat.ltb (stark_bound (cairo_air pi default_test_options 8) 8) 50
  | _ => false end = true.
Proof. vm_compute. reflexivity. Qed.
Lemma run_draws (t : e_tr plain252) : transcript_to_field plain252 t = Ok (f252 5 : plain252, t).
Proof.
  destruct t. unfold transcript_to_field. cbn [tr_challenge plain252 ce_env plain252_env e_tr calm_transcript].
  change (randomness_to_field plain252 (repeat Byte.x00 31 ++ [Byte.x05])) with (Ok (f252 5 : plain252)). reflexivity.
Qed.
Lemma run_nonce_found : nonce_found plain252 (grinding_factor default_test_options).
Proof. exact calm_nonce_found. Qed.
Lemma run_z_found (pi : public_inputs plain252) : z_found plain252 1 (cairo_air pi default_test_options 8).
Proof.
  intros d t Hd. exists (f252 5 : plain252), t. destruct t.
  assert (Hl : match domain_new (cairo_air pi default_test_options 8) with
      Ok d => existsb (Z.eqb 5) (map (fun x : plain252 => zval (x : zp stark_p)) (lde_roots_of_unity_coset d)) || existsb (Z.eqb 5) (map (fun x : plain252 => zval (x : zp stark_p)) (trace_roots_of_unity d))
      | _ => true end = false) by (vm_compute; reflexivity).
  rewrite Hd in Hl. apply orb_false_iff in Hl. destruct Hl as [H1 H2]. cbn [sample_z_ood]. rewrite run_draws. cbn [obind].
  assert (G : forall l, existsb (fun x : plain252 => feqb x (f252 5 : plain252)) l = existsb (Z.eqb 5) (map (fun x : plain252 => zval (x : zp stark_p)) l)).
  { induction l as [|x l IH]; [reflexivity|]. cbn [existsb map]. rewrite IH. f_equal. apply Z.eqb_sym. }
  rewrite !G, H1, H2. reflexivity.
Qed.
Lemma run_powers z : In z run_points_8 -> fpow z (2 ^ 3) <> 1.
Proof.
  assert (H : forallb (fun z : plain252 => negb (feqb (fpow z (2 ^ 3)) 1)) run_points_8 = true) by (vm_compute; reflexivity).
  rewrite forallb_forall in H. intros Hz E. specialize (H z Hz). rewrite E in H.
  rewrite (feqb_refl (fft_field_ok _ (e_fft_ok _ (co_env _ _ plain252_ok)))) in H. discriminate H.
Qed.
Lemma run_points_distinct : NoDup run_points_8.
Proof.
  apply (NoDup_map_inv (fun x : plain252 => zval (x : zp stark_p))). assert (E : map (fun x : plain252 => zval (x : zp stark_p)) run_points_8 = map Z.of_nat (seq 2 50)) by (vm_compute; reflexivity).
  rewrite E. apply FinFun.Injective_map_NoDup; [intros x y; apply Nat2Z.inj|apply seq_NoDup].
Qed.
Example C73_cairo_example :
  exists t pi proof, generate_prover_args (C := plain252) mini_regs run_memory 5 None None = Ok (t, pi) /\ tt_n_rows t = (2 ^ 3)%nat /\
    usable_options plain252 default_test_options 3 2 /\ (3 * 8 + 2 ^ 3 <= 2 ^ (3 + 2))%nat /\ NoDup run_points_8 /\
    (stark_bound (cairo_air pi default_test_options (2 ^ 3)) (2 ^ 3) < length run_points_8)%nat /\ (forall z, In z run_points_8 -> fpow z (2 ^ 3) <> 1) /\
    generate_cairo_proof 1 t pi default_test_options = Ok proof /\ verify_cairo_proof 1 proof pi default_test_options = Ok true.
Proof.
  destruct (honest_full plain252_ok run_memory mini_regs 5 None None run_provable) as (t & pi & r & Hg & Hn & Hr & _ & Hb & Hv).
  pose proof run_computed as H. rewrite Hg in H. apply andb_true_iff in H. destruct H as [H H3]. apply andb_true_iff in H. destruct H as [H1 H2].
  apply Nat.eqb_eq in H2. apply Nat.ltb_lt in H3. rewrite H2 in Hn. assert (r = 3%nat) as -> by (apply (Nat.pow_inj_r 2); [lia|symmetry; exact Hn]).
  assert (P : exists proof, generate_cairo_proof 1 t pi default_test_options = Ok proof /\ verify_cairo_proof 1 proof pi default_test_options = Ok true).
  { destruct (C55_proof_or_bad_challenges plain252 (cairo_air pi default_test_options) t 3 2 2 1 (co_env _ _ plain252_ok) plain252_sampling H2
      (cairo_admissible (co_env _ _ plain252_ok) pi default_test_options 3 2 run_usable)) as [P|(ch & (root & t' & _ & Hch) & Hx)].
    - apply (cairo_proving plain252_sampling); cbn; lia.
    - exact Hb.
    - exact (Hv default_test_options).
    - exact (run_z_found pi).
    - exact run_nonce_found.
    - exact P.
    - exfalso. cbn [cairo_air a_build_rap] in Hch. unfold cairo_build_rap in Hch. rewrite !run_draws in Hch. cbn [obind] in Hch. rewrite run_draws in Hch. cbn [obind] in Hch.
      rewrite run_draws in Hch. cbn [obind] in Hch. apply ok_inj in Hch. injection Hch as <- _.
      change (forall aux, cairo_build_aux pi t fives <> Ok aux) in Hx. destruct (cairo_build_aux pi t fives) as [aux| |]; [exact (Hx aux eq_refl)|discriminate H1..]. }
  destruct P as (proof & P1 & P2). exists t, pi, proof. split; [exact Hg|]. split; [exact H2|]. split; [exact run_usable|]. split; [cbn; lia|]. split; [exact run_points_distinct|].
  split; [exact H3|]. split; [exact run_powers|]. split; [exact P1|exact P2].
Qed.
