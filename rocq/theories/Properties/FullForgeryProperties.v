(** C65: proofs with all their parts for false statements: what missing authentication of the trace rows costs. *)
From Coq Require Import List Arith NArith ZArith Bool Lia Field_theory Ring_theory.
From Verif.Base Require Import Outcome Bytes Field Poly Zp.
From Verif.Model Require Import Codec PublicInputs Trace Air Transcript Domain Options Prover Verifier CairoDecode CairoTrace CairoAir CairoRunner.
From Verif.Spec Require Import CairoSpec AirSpec ExampleSpec CairoColumns CairoRun Forgery ProvingSpec CairoStatement VerifierSpec FriTree FullForgery.
From Verif.Proofs Require Import FieldFacts OutcomeFacts FFTFacts TraceFacts ExampleFacts DomainFacts CairoAirFacts CairoAdmissible VerifierTotal StarkFieldFacts VerifierFacts FullForge.
From Verif.Examples Require Import Toy Stark252 MiniRun Calm.
From Verif.Properties Require Import ExampleProperties VerifierProperties CairoHonestProperties ProverTotalProperties CairoForgeryProperties.
Import ListNotations.
Local Open Scope felt_scope.

(** FINDING. For every statement, every list of trace commitments and every out-of-domain frame there is a proof with
    all FRI layers, all answers and all openings, every part of full size, which the verifier accepts, provided that at
    each query point drawn some column has a non-zero factor in the DEEP value. *)
Theorem C65_complete_forgery :
  forall (E : env) fuel (mk : nat -> air E) n roots data r b root, env_ok E -> sampling_ok E ->
  let a := mk n in let rows := length (transition_offsets (a_context a)) in let width := trace_columns (a_context a) in
  statement_ok E a r b rows width root -> a_trace_length a = n -> z_found E fuel a -> nonce_found E (grinding_factor (a_options a)) ->
  hd_error roots = Some root -> length data = (rows * width)%nat ->
  exists p d c t, complete_proof a p r b /\ lde_trace_merkle_roots p = roots /\ trace_ood_frame_evaluations p = mk_frame data width /\
    domain_new a = Ok d /\ step_1 E fuel a p d tr_new = Ok (c, t) /\
    (columns_weigh c (trace_primitive_root d) rows width (lde_roots_of_unity_coset d) -> verify E fuel mk (a_options a) p = Ok true).
Proof. intros E fuel mk n roots data r b root HE HS. exact (complete_forgery HE HS fuel mk n roots data r b root). Qed.
Print Assumptions C65_complete_forgery.

(** ** Cairo statements *)

(** The challenges for which the product over the public memory vanishes, so that the boundary constraints cannot be computed. *)
Definition public_pole {C : cairo_env} (pi : public_inputs C) (ch : cairo_challenges C) : Prop :=
  exists a v, In (a, v) (public_memory pi) /\ z_memory ch = a + alpha_memory ch * v.

Lemma product_nonzero {C : cairo_env} (HK : field_ok C) (ch : cairo_challenges C) l : forall x : C,
  ~ (exists a v, In (a, v) l /\ z_memory ch = a + alpha_memory ch * v) -> x <> 0 ->
  fold_left (fun product av => product * (z_memory ch - (fst av + alpha_memory ch * snd av))) l x <> 0.
Proof.
  induction l as [|[a v] l IH]; intros x Hl Hx; [exact Hx|]. cbn [fold_left fst snd]. apply IH.
  - intros (a' & v' & Hin & He). apply Hl. exists a', v'. split; [now right|exact He].
  - intro E0. apply (mul_zero HK) in E0. destruct E0 as [E0|E0]; [now apply Hx|]. apply Hl. exists a, v. split; [now left|].
    exact (proj1 (sub_zero HK _ _) E0).
Qed.

(** Every Cairo statement with usable options, at least one step and range-check bounds meets the premises of C35, C49
    and C65 for every commitment whose challenges are no pole. *)
Lemma cairo_statement_ok {C : cairo_env} p (HC : cairo_ok C p) (HS : sampling_ok C) (pi : public_inputs C) opts r b root lo hi :
  usable_options C opts r b -> (r + b <= two_adicity C)%nat -> (1 <= num_steps pi)%nat ->
  range_check_min pi = Some lo -> range_check_max pi = Some hi ->
  (forall ch t, cairo_build_rap (tr_append tr_new root) = Ok (ch, t) -> ~ public_pole pi ch) ->
  statement_ok C (cairo_air pi opts (2 ^ r)) r b 2 (trace_columns (cairo_context pi opts)) root.
Proof.
  intros Hu Ht Hsteps Hmin Hmax Hpole. pose proof (co_env _ _ HC) as HE. pose proof (fft_field_ok _ (e_fft_ok _ HE)) as HK.
  destruct (cairo_admissible HE pi opts r b Hu) as [A1 A2 A3 A4 A5 A6 A7 A8 A9 A10 A11 A12 A13 A14].
  destruct (cairo_proving HS pi opts r b (proj1 Hu) Ht) as [P1 P2 P3 P4 P5 P6]. pose proof (pow2_ge2 r A2) as H2.
  assert (Hw : trace_columns (cairo_context pi opts) = (52 + if has_rc_builtin pi then 9 else 0)%nat) by (cbn [cairo_context trace_columns]; destruct (has_rc_builtin pi); reflexivity).
  constructor; try assumption.
  - rewrite Hw. lia.
  - apply P6.
  - intros ch t Hr. cbn [cairo_air a_build_rap a_boundary] in *. specialize (Hpole ch t Hr). unfold cairo_boundary. rewrite Hmin, Hmax.
    unfold usub. destruct (Nat.ltb_spec (num_steps pi) 1); [lia|]. destruct (Nat.ltb_spec (2 ^ r) 1); [lia|]. cbn [obind].
    unfold inv_o. destruct (feqb (fold_left _ _ _) 0) eqn:Ef.
    { exfalso. apply (feqb_spec C HK) in Ef. exact (product_nonzero HK ch _ 1 Hpole (one_neq_zero HK) Ef). }
    cbn [obind unwrap]. eexists. split; [reflexivity|]. split; [intros _; lia|]. rewrite Hw. unfold builtin_offset. intros bc Hbc.
    destruct (has_rc_builtin pi); repeat (destruct Hbc as [<-|Hbc]; [cbv; lia|]); destruct Hbc.
  - intros ch data Hl. cbn [cairo_air a_transition]. unfold cairo_transition.
    destruct (frame_row data 2 _ Hl 0 ltac:(lia)) as (curr & -> & Hc). destruct (frame_row data 2 _ Hl 1 ltac:(lia)) as (next & -> & _). cbn [obind].
    match goal with |- context [(?x <=? ?y)%nat] => destruct (Nat.leb_spec x y) as [Hle|_] end; [|eauto].
    exfalso. rewrite Hc, Hw in Hle. revert Hle. unfold builtin_offset. destruct (has_rc_builtin pi); cbv; lia.
Qed.

(** C35 for Cairo: no statement needs a trace, an opening or a FRI layer. *)
Theorem C35_cairo_statements :
  forall (C : cairo_env) p (pi : public_inputs C) opts r b fuel roots root comp_root data (last v : C) lo hi, cairo_ok C p -> sampling_ok C ->
  usable_options C opts r b -> (r + b <= two_adicity C)%nat -> (1 <= num_steps pi)%nat ->
  range_check_min pi = Some lo -> range_check_max pi = Some hi ->
  (forall ch t, cairo_build_rap (tr_append tr_new root) = Ok (ch, t) -> ~ public_pole pi ch) ->
  z_found C fuel (cairo_air pi opts (2 ^ r)) -> nonce_found C (grinding_factor opts) ->
  hd_error roots = Some root -> length data = (2 * trace_columns (cairo_context pi opts))%nat ->
  exists even nn, verify_cairo_proof fuel
    (mk_stark_proof (2 ^ r) roots (mk_frame data (trace_columns (cairo_context pi opts))) comp_root even 0 [] last
       (repeat (mk_fri_decommitment [] [] [] [v]) (fri_number_of_queries opts)) [] nn) pi opts = Ok true.
Proof.
  intros C p pi opts r b fuel roots root comp_root data last v lo hi HC HS Hu Ht Hs Hmin Hmax Hp Hz Hn Hr Hl.
  exact (C35_universal_forgery C fuel (cairo_air pi opts) (2 ^ r) roots comp_root data last v r b 2 _ root (co_env _ _ HC) HS
    (cairo_statement_ok p HC HS pi opts r b root lo hi Hu Ht Hs Hmin Hmax Hp) Hz Hn Hr Hl).
Qed.
Print Assumptions C35_cairo_statements.

(** C49 for Cairo: the verifier returns on every well-shaped proof. *)
Theorem C49_cairo_well_shaped_proofs_never_panic :
  forall (C : cairo_env) p (pi : public_inputs C) opts r b fuel (q : stark_proof C) root lo hi, cairo_ok C p -> sampling_ok C ->
  usable_options C opts r b -> (r + b <= two_adicity C)%nat -> (1 <= num_steps pi)%nat ->
  range_check_min pi = Some lo -> range_check_max pi = Some hi ->
  (forall ch t, cairo_build_rap (tr_append tr_new root) = Ok (ch, t) -> ~ public_pole pi ch) ->
  z_found C fuel (cairo_air pi opts (2 ^ r)) -> hd_error (lde_trace_merkle_roots q) = Some root -> trace_length q = (2 ^ r)%nat ->
  proof_shape C (cairo_air pi opts (2 ^ r)) q r b 2 (trace_columns (cairo_context pi opts)) ->
  exists v, verify_cairo_proof fuel q pi opts = Ok v.
Proof.
  intros C p pi opts r b fuel q root lo hi HC HS Hu Ht Hs Hmin Hmax Hp Hz Hr Htl HP.
  pose proof (cairo_statement_ok p HC HS pi opts r b root lo hi Hu Ht Hs Hmin Hmax Hp) as HA.
  refine (C49_well_shaped_proofs_never_panic C fuel (cairo_air pi opts) q r b 2 (trace_columns (cairo_context pi opts)) root (co_env _ _ HC) HS _ _ Hr _);
    rewrite Htl; assumption.
Qed.
Print Assumptions C49_cairo_well_shaped_proofs_never_panic.

(** C65 for Cairo. *)
Theorem C65_cairo_statements :
  forall (C : cairo_env) p (pi : public_inputs C) opts r b fuel roots root data lo hi, cairo_ok C p -> sampling_ok C ->
  usable_options C opts r b -> (r + b <= two_adicity C)%nat -> (1 <= num_steps pi)%nat ->
  range_check_min pi = Some lo -> range_check_max pi = Some hi ->
  (forall ch t, cairo_build_rap (tr_append tr_new root) = Ok (ch, t) -> ~ public_pole pi ch) ->
  z_found C fuel (cairo_air pi opts (2 ^ r)) -> nonce_found C (grinding_factor opts) ->
  hd_error roots = Some root -> length data = (2 * trace_columns (cairo_context pi opts))%nat ->
  let a := cairo_air pi opts (2 ^ r) in let width := trace_columns (cairo_context pi opts) in
  exists q d c t, complete_proof a q r b /\ lde_trace_merkle_roots q = roots /\ trace_ood_frame_evaluations q = mk_frame data width /\
    domain_new a = Ok d /\ step_1 C fuel a q d tr_new = Ok (c, t) /\
    (columns_weigh c (trace_primitive_root d) 2 width (lde_roots_of_unity_coset d) -> verify_cairo_proof fuel q pi opts = Ok true).
Proof.
  intros C p pi opts r b fuel roots root data lo hi HC HS Hu Ht Hs Hmin Hmax Hp Hz Hn Hr Hl a width.
  exact (C65_complete_forgery C fuel (cairo_air pi opts) (2 ^ r) roots data r b root (co_env _ _ HC) HS
    (cairo_statement_ok p HC HS pi opts r b root lo hi Hu Ht Hs Hmin Hmax Hp) eq_refl Hz Hn Hr Hl).
Qed.
Print Assumptions C65_cairo_statements.

(** ** A false statement *)

(** The challenges when the transcript always answers the same element. *)
Section Steady.
Context {E : env} (x0 : E) (Hx : forall t t' x, transcript_to_field E t = Ok (x, t') -> x = x0).
Lemma steady_batch n : forall t xs t', batch_sample_challenges E n t = Ok (xs, t') -> xs = repeat x0 n.
Proof using Hx.
  induction n as [|n IH]; intros t xs t' H; cbn [batch_sample_challenges] in H; [apply ok_inj in H; now injection H as <- _|].
  ok_as H s1 H1. destruct s1 as [x t1]. ok_as H s2 H2. destruct s2 as [ys t2]. apply ok_inj in H. injection H as <- _.
  cbn [repeat]. f_equal; [exact (Hx _ _ _ H1)|exact (IH _ _ _ H2)].
Qed.
Lemma steady_rows m n : forall t xs t', sample_rows E m n t = Ok (xs, t') -> xs = repeat (repeat x0 n) m.
Proof using Hx.
  induction m as [|m IH]; intros t xs t' H; cbn [sample_rows] in H; [apply ok_inj in H; now injection H as <- _|].
  ok_as H s1 H1. destruct s1 as [x t1]. ok_as H s2 H2. destruct s2 as [ys t2]. apply ok_inj in H. injection H as <- _.
  cbn [repeat]. f_equal; [exact (steady_batch _ _ _ _ H1)|exact (IH _ _ _ H2)].
Qed.
Lemma steady_z fuel lde tr : forall t z t', sample_z_ood E fuel lde tr t = Ok (z, t') -> z = x0.
Proof using Hx.
  induction fuel as [|fuel IH]; intros t z t' H; [discriminate|]. cbn [sample_z_ood] in H. ok_as H s1 H1. destruct s1 as [x t1].
  destruct (_ && _); [|exact (IH _ _ _ H)]. apply ok_inj in H. injection H as <- _. exact (Hx _ _ _ H1).
Qed.
Lemma steady_step_1 fuel (a : air E) p d t c t' : step_1 E fuel a p d t = Ok (c, t') ->
  c_z E a c = x0 /\ c_trace_term_coeffs E a c = repeat (repeat x0 (length (transition_offsets (a_context a)))) (trace_columns (a_context a)).
Proof using Hx.
  intro H. unfold step_1 in H.
  ok_as H root0 Hroot0. ok_as H rp Hrp. destruct rp as [rap t1]. ok_as H bcs Hbcs.
  ok_as H s1 Hs1. destruct s1 as [ba t2]. ok_as H s2 Hs2. destruct s2 as [bb t3]. ok_as H s3 Hs3. destruct s3 as [ta t4]. ok_as H s4 Hs4. destruct s4 as [tb t5].
  ok_as H s5 Hz. destruct s5 as [z t6]. ok_as H nr Hnr. ok_as H rws Hrows. ok_as H s6 Hg1. destruct s6 as [g1 t7]. ok_as H s7 Hg2. destruct s7 as [g2 t8].
  ok_as H s8 Httc. destruct s8 as [ttc t9]. ok_as H s9 Hzs. destruct s9 as [zs t10].
  destruct (tr_challenge _) as [ch t11]. ok_as H lz Hlz. ok_as H s10 Hio. destruct s10 as [iotas t12]. apply ok_inj in H.
  pose proof (f_equal fst H) as Hc. cbn [fst] in Hc. rewrite <- Hc. cbn [c_z c_trace_term_coeffs].
  split; [exact (steady_z _ _ _ _ _ _ Hz)|exact (steady_rows _ _ _ _ _ Httc)].
Qed.
End Steady.

(** The weight of a column with two rows and equal coefficients. *)
Section Weight.
Context {E : env} (HE : env_ok E).
Let HK : field_ok E := fft_field_ok E (e_fft_ok E HE).
Add Field Kfield61 : (fld_th E HK).
Lemma two_rows_weigh (z g k x : E) : k <> 0 -> x - z <> 0 -> x - z * g <> 0 -> x + x - z * (1 + g) <> 0 ->
  fsum [finv (x - z * fpow g 0) * k; finv (x - z * fpow g 1) * k] <> 0.
Proof using HE HK.
  intros Hk H0 H1 H2. rewrite !fsum_cons. cbn [fsum fold_right fpow]. intro H.
  assert (E1 : finv (x - z * 1) = finv (x - z)) by (f_equal; ring).
  assert (E2 : finv (x - z * (g * 1)) = finv (x - z * g)) by (f_equal; ring).
  rewrite E1, E2 in H.
  assert (G : k * (x + x - z * (1 + g)) = (finv (x - z) * k + (finv (x - z * g) * k + 0)) * ((x - z) * (x - z * g))) by (field; split; assumption).
  rewrite H in G. assert (G' : k * (x + x - z * (1 + g)) = 0) by (rewrite G; ring). apply (mul_zero HK) in G'. tauto.
Qed.
End Weight.

Lemma calm_field (t t' : e_tr calm) x : transcript_to_field calm t = Ok (x, t') -> x = (f252 5 : calm).
Proof.
  destruct t. unfold transcript_to_field. cbn [tr_challenge calm ce_env calm_env e_tr calm_transcript].
  change (randomness_to_field calm (repeat Byte.x00 31 ++ [Byte.x05])) with (Ok (f252 5 : calm)). cbn [obind]. intro H. apply ok_inj in H. now injection H as <- _.
Qed.

Lemma calm_rap (t : e_tr calm) ch t' : cairo_build_rap (C := calm) t = Ok (ch, t') -> z_memory ch = (f252 5 : calm) /\ alpha_memory ch = (f252 5 : calm).
Proof.
  intro H. unfold cairo_build_rap in H. ok_as H s1 H1. destruct s1 as [x t1]. ok_as H s2 H2. destruct s2 as [y t2]. ok_as H s3 H3. destruct s3 as [w t3].
  apply ok_inj in H. injection H as <- _. cbn [z_memory alpha_memory]. split; [exact (calm_field _ _ _ H2)|exact (calm_field _ _ _ H1)].
Qed.
Definition calm_point_ok (g x : calm) : bool :=
  negb (feqb (x - f252 5) 0) && negb (feqb (x - f252 5 * g) 0) && negb (feqb (x + x - f252 5 * (1 + g)) 0).
Lemma calm_points d : domain_new (cairo_air far_pi default_test_options 8) = Ok d -> forallb (calm_point_ok (trace_primitive_root d)) (0 :: lde_roots_of_unity_coset d) = true.
Proof.
  intro Hd. assert (H : match domain_new (cairo_air far_pi default_test_options 8) with Ok d => forallb (calm_point_ok (trace_primitive_root d)) (0 :: lde_roots_of_unity_coset d) | _ => false end = true) by (vm_compute; reflexivity).
  rewrite Hd in H. exact H.
Qed.
Lemma calm_env_ok : env_ok calm. Proof. exact (co_env _ _ calm_ok). Qed.
Lemma calm_weigh d x : domain_new (cairo_air far_pi default_test_options 8) = Ok d -> In x (0 :: lde_roots_of_unity_coset d) ->
  fsum [finv (x - f252 5 * fpow (trace_primitive_root d) 0) * (f252 5 : calm); finv (x - f252 5 * fpow (trace_primitive_root d) 1) * (f252 5 : calm)] <> 0.
Proof.
  intros Hd Hx. pose proof (calm_points d Hd) as H. rewrite forallb_forall in H. specialize (H x Hx). unfold calm_point_ok in H.
  apply andb_true_iff in H. destruct H as [H H3]. apply andb_true_iff in H. destruct H as [H1 H2]. apply negb_true_iff in H1, H2, H3.
  pose proof (fft_field_ok _ (e_fft_ok _ calm_env_ok)) as HK. apply (feqb_false HK) in H1, H2, H3.
  apply (two_rows_weigh calm_env_ok); try assumption. intro E0. apply (f_equal (fun y : calm => zval (y : zp stark_p))) in E0. vm_compute in E0. discriminate E0.
Qed.

(** The statement of C56 that no run meets: a complete proof of it, with any trace commitment whatsoever and any frame. *)
Theorem C65_false_statement_refuted :
  (forall m raw, ~ run_for far_pi m raw) /\
  forall root data, length data = 104%nat -> exists q,
    complete_proof (cairo_air far_pi default_test_options 8) q 3 2 /\ lde_trace_merkle_roots q = [root; root] /\
    trace_ood_frame_evaluations q = mk_frame data 52 /\ verify_cairo_proof 1 q far_pi default_test_options = Ok true.
Proof.
  split; [exact far_false|]. intros root data Hl.
  destruct (C65_cairo_statements calm _ far_pi default_test_options 3 2 1 [root; root] root data 32766 32769 calm_ok calm_sampling) as (q & d & c & t & Hq & Hr & Hf & Hd & Hc & Hv).
  - apply (default_coset_usable calm_ok); try reflexivity; lia.
  - cbn. lia.
  - cbn. lia.
  - reflexivity.
  - reflexivity.
  - intros ch t Hch (a & v & Hin & Hp). destruct (calm_rap _ _ _ Hch) as [Ez Ea]. rewrite Ez, Ea in Hp.
    destruct Hin as [Hin|[Hin|[]]]; injection Hin as <- <-; apply (f_equal (fun y : calm => zval (y : zp stark_p))) in Hp; vm_compute in Hp; discriminate Hp.
  - exact (calm_z_found far_pi).
  - exact calm_nonce_found.
  - reflexivity.
  - exact Hl.
  - exists q. split; [exact Hq|]. split; [exact Hr|]. split; [exact Hf|]. apply Hv. clear Hv.
    intros iota _. exists 0%nat. split; [cbv; lia|]. destruct (steady_step_1 _ calm_field _ _ _ _ _ _ _ Hc) as [Ez Et].
    unfold column_weight. rewrite Ez, Et. cbn [cairo_air a_context cairo_context transition_offsets trace_columns length Nat.add far_pi has_rc_builtin memory_segments repeat nth seq combine map fst snd].
    apply (calm_weigh d _ Hd). destruct (nth_in_or_default iota (lde_roots_of_unity_coset d) 0) as [H|H]; [now right|left; now symmetry].
Qed.
Print Assumptions C65_false_statement_refuted.

(** Instances: any commitment and an all-zero frame. *)
Example C65_example : exists q, complete_proof (cairo_air far_pi default_test_options 8) q 3 2 /\ lde_trace_merkle_roots q = [[Byte.x07]; [Byte.x07]] /\
  verify_cairo_proof 1 q far_pi default_test_options = Ok true.
Proof.
  destruct C65_false_statement_refuted as [_ H]. destruct (H [Byte.x07] (repeat (0 : calm) 104) ltac:(apply repeat_length)) as (q & H1 & H2 & _ & H3). eauto.
Qed.
