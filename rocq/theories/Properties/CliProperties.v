(** C54: the command line. *)
From Coq Require Import List Arith NArith ZArith Bool Lia Permutation.
From Verif.Base Require Import Outcome Bytes Field Poly Zp.
From Verif.Model Require Import Codec PublicInputs Trace Air Options Prover Verifier CairoDecode CairoTrace CairoAir CairoRunner Cli.
From Verif.Spec Require Import CodecSpec CliSpec CairoSpec AirSpec ExampleSpec CairoRun.
From Verif.Proofs Require Import BytesFacts OutcomeFacts FFTFacts Completeness CairoAdmissible PublicInputsFacts RunnerFacts HonestRun StarkFieldFacts CliFacts.
From Verif.Properties Require Import CairoHonestProperties.
From Verif.Examples Require Import Toy Stark252 MiniRun RunExamples.
Import ListNotations.
Local Open Scope felt_scope.

(** The answer of the verifier does not depend on the order in which the two hash maps of the public inputs are traversed. *)
Theorem C54_map_order_is_irrelevant :
  forall (C : cairo_env) p fuel proof (pi pi' : public_inputs C) opts, cairo_ok C p -> same_up_to_order pi pi' ->
  verify_cairo_proof fuel proof pi' opts = verify_cairo_proof fuel proof pi opts.
Proof. intros C p fuel proof pi pi' opts HC. exact (verify_order HC fuel proof pi pi' opts). Qed.
Print Assumptions C54_map_order_is_irrelevant.

(** The machine the command runs on: lengths and addresses are 64-bit. *)
Record fits_usize {C : cairo_env} (m : @cairo_memory C) raw size (rc : option (N * N)) : Prop := {
  fu_steps : (N.of_nat (length (raw : list registers_state)) < two64)%N;
  fu_segment : forall lo hi, rc = Some (lo, hi) -> (lo < two64 /\ hi < two64)%N;
  fu_rows : forall t pi, generate_prover_args raw m size rc None = Ok (t, pi) -> (N.of_nat (tt_n_rows t) < two64)%N
}.

Lemma insert_length {K V} eqk (k : K) (v : V) l : (length (map_insert eqk k v l) <= S (length l))%nat.
Proof. induction l as [|[k' v'] l IH]; cbn [map_insert length]; [lia|]. destruct (eqk k k'); cbn [length]; lia. Qed.
Lemma entries_length {K V} eqk (l : list (K * V)) : (length (of_entries eqk l) <= length l)%nat.
Proof.
  unfold of_entries. assert (G : forall acc, (length (fold_left (fun m e => map_insert eqk (fst e) (snd e) m) l acc) <= length acc + length l)%nat).
  { induction l as [|e l IH]; intro acc; cbn [fold_left length]; [lia|]. specialize (IH (map_insert eqk (fst e) (snd e) acc)).
    pose proof (insert_length eqk (fst e) (snd e) acc). lia. }
  exact (G []).
Qed.
Lemma public_memory_length {C : cairo_env} raw (m : @cairo_memory C) size rc t pi : generate_prover_args raw m size rc None = Ok (t, pi) ->
  (N.of_nat (length (public_memory pi)) <= size)%N.
Proof.
  intro H. unfold generate_prover_args in H. apply obind_ok in H. destruct H as (pi0 & H0 & H). apply from_regs_ok in H0. destruct H0 as (_ & _ & E0).
  assert (E : public_memory pi = public_memory pi0).
  { unfold build_main_trace in H. do 2 (apply obind_ok in H; destruct H as (? & _ & H)). apply obind_ok in H. destruct H as ([[? ?] ?] & _ & H).
    do 5 (apply obind_ok in H; destruct H as (? & _ & H)). apply ok_inj in H. injection H as _ <-. reflexivity. }
  rewrite E, E0. cbn [public_memory]. rewrite segments_out.
  match goal with |- context [of_entries ?e ?l] => pose proof (entries_length e l) as L end. rewrite map_length in L. unfold public_list in L. rewrite app_length, nrange_length in L.
  cbn [length] in L. change (nrange 1 (size + 1) ++ []) with (public_list size None) in L. clear -L. lia.
Qed.

(** A file written by [prove] for a provable run is accepted by [verify], whatever iteration orders the two processes use. *)
Theorem C54_prove_then_verify :
  forall (C : cairo_env) w (m : @cairo_memory C) raw size rc (order order' : public_inputs C -> public_inputs C) fuel file,
  cairo_ok C (Z.to_N stark_p) -> two_adicity C = 192%nat -> digest_hashes C -> codec_ok (e_codec C) w ->
  provable_run m raw size rc None -> fits_usize m raw size rc ->
  (forall pi, same_up_to_order pi (order pi)) -> (forall pi, same_up_to_order pi (order' pi)) ->
  cli_prove order fuel raw m size rc = Ok file -> (N.of_nat (length file) < two64)%N ->
  cli_verify (C := C) order' fuel file = Ok true.
Proof.
  intros C w m raw size rc order order' fuel file HC HT HD HW HP HF Ho Ho' H Hlen. pose proof (co_env _ _ HC) as HE.
  destruct (honest_satisfies HC m raw size rc None HP) as (t & pi & r & Hg & Hn & Hr & Hv).
  unfold cli_prove, cli_generate_proof in H. rewrite Hg in H. cbn [obind] in H. apply obind_ok in H. destruct H as ([proof pi'] & H & Hw).
  apply obind_ok in H. destruct H as (proof' & Hp & H). apply ok_inj in H. injection H as -> <-.
  pose proof (fu_rows _ _ _ _ HF t pi Hg) as H64. rewrite Hn in H64.
  assert (Hr64 : (r < 64)%nat).
  { destruct (Nat.lt_ge_cases r 64) as [L|L]; [exact L|]. exfalso. rewrite Nat2N.inj_pow in H64. change (N.of_nat 2) with 2%N in H64.
    assert (Q : (2 ^ 64 <= 2 ^ N.of_nat r)%N) by (apply N.pow_le_mono_r; [discriminate|lia]). change (2 ^ 64)%N with two64 in Q. lia. }
  assert (Hu : usable_options C default_test_options r 2) by (apply (default_coset_usable HC); try assumption; try reflexivity; lia).
  assert (HA := cairo_admissible HE pi default_test_options r 2 Hu).
  assert (Hver : verify_cairo_proof fuel proof pi default_test_options = Ok true).
  { pose proof (completeness HE (cairo_air pi default_test_options) t r 2 2 fuel proof) as K. cbv zeta in K. rewrite Hn in K. exact (K HA eq_refl (Hv _) Hp). }
  assert (Hs : stark_wf (e_codec C) proof).
  { apply (honest_stark_wf HC HD fuel pi default_test_options t r 2); try assumption; [exact (Hv _)|].
    intros bs Hbs. unfold file_write in Hw. rewrite Hbs in Hw. cbn [obind] in Hw. apply ok_inj in Hw. subst file. rewrite !app_length in Hlen. lia. }
  assert (Hpi : pub_wf pi).
  { apply (public_inputs_wf HC raw m size rc None t pi Hg (fu_steps _ _ _ _ HF)); [|exact (fu_segment _ _ _ _ HF)|discriminate].
    pose proof (public_memory_length _ _ _ _ _ _ Hg). pose proof (pr_size _ _ _ _ _ HP) as Q. change (2 ^ 64)%N with two64 in Q. lia. }
  unfold cli_verify. rewrite (file_round feqb (e_codec C) (feqb_spec C (fft_field_ok _ (e_fft_ok _ HE))) w HW proof (order pi) file Hs (pub_wf_order _ _ (Ho pi) Hpi) Hw).
  cbn [obind]. rewrite (verify_order HC fuel proof (order pi) (order' (order pi)) default_test_options (Ho' _)).
  rewrite (verify_order HC fuel proof pi (order pi) default_test_options (Ho _)). exact Hver.
Qed.
Print Assumptions C54_prove_then_verify.

(** The combined command accepts as well. *)
Theorem C54_prove_and_verify :
  forall (C : cairo_env) (m : @cairo_memory C) raw size rc fuel b,
  cairo_ok C (Z.to_N stark_p) -> two_adicity C = 192%nat -> provable_run m raw size rc None -> fits_usize m raw size rc ->
  cli_prove_and_verify fuel raw m size rc = Ok b -> b = true.
Proof.
  intros C m raw size rc fuel b HC HT HP HF H. destruct (C53_default_options C m raw size rc None HC HT HP) as (t & pi & Hg & K).
  unfold cli_prove_and_verify, cli_generate_proof in H. rewrite Hg in H. cbn [obind] in H. apply obind_ok in H. destruct H as ([proof pi'] & H & Hv).
  apply obind_ok in H. destruct H as (proof' & Hp & H). apply ok_inj in H. injection H as -> <-.
  rewrite (K) with (fuel := fuel) in Hv; [apply ok_inj in Hv; now symmetry| |exact Hp].
  pose proof (fu_rows _ _ _ _ HF t pi Hg) as H64. destruct (Nat.lt_ge_cases (Nat.log2 (tt_n_rows t)) 190) as [L|L]; [exact L|]. exfalso.
  destruct (Nat.eq_dec (tt_n_rows t) 0) as [Z|Z]; [rewrite Z in L; cbn in L; lia|].
  pose proof (proj1 (Nat.log2_spec (tt_n_rows t) ltac:(lia))) as Q.
  assert (Q' : (2 ^ 64 <= N.of_nat (tt_n_rows t))%N).
  { apply N.le_trans with (2 ^ N.of_nat (Nat.log2 (tt_n_rows t)))%N; [apply N.pow_le_mono_r; [discriminate|lia]|].
    change 2%N with (N.of_nat 2). rewrite <- Nat2N.inj_pow. lia. }
  change (2 ^ 64)%N with two64 in Q'. lia.
Qed.
Print Assumptions C54_prove_and_verify.

(** Non-vacuity: the premises hold of the example run, in the Stark field with 32-byte hashes. *)
Lemma stark_digests : digest_hashes stark.
Proof. constructor; intros; apply length_be_bytes. Qed.
Lemma stark_codec_ok : codec_ok (e_codec stark) 32.
Proof.
  constructor; [intro x; apply length_be_bytes| |lia|reflexivity]. intro x. cbn [e_codec stark ce_env stark_env fe_from fe_to stark_codec].
  pose proof (zval_bound stark_p x) as B. rewrite be_val_be_bytes.
  - f_equal. apply zp_eq. cbn. rewrite Z2N.id by lia. apply zval_mod. exact lt_1_stark.
  - apply N2Z.inj_lt. rewrite Z2N.id by lia. eapply Z.lt_trans; [apply B|]. reflexivity.
Qed.
Lemma mini_fits : fits_usize (C := stark) mini_memory mini_regs 5 None.
Proof.
  constructor; [reflexivity|discriminate|]. intros t pi H.
  assert (E : match generate_prover_args (C := stark) mini_regs mini_memory 5 None None with Ok (t, _) => tt_n_rows t | _ => 0%nat end = 8%nat) by (vm_compute; reflexivity).
  rewrite H in E. rewrite E. reflexivity.
Qed.
Example C54_example order order' fuel file : (forall pi, same_up_to_order pi (order pi)) -> (forall pi, same_up_to_order pi (order' pi)) ->
  cli_prove (C := stark) order fuel mini_regs mini_memory 5 None = Ok file -> (N.of_nat (length file) < two64)%N -> cli_verify (C := stark) order' fuel file = Ok true.
Proof. exact (C54_prove_then_verify stark 32 mini_memory mini_regs 5 None order order' fuel file stark_ok eq_refl stark_digests stark_codec_ok mini_provable mini_fits). Qed.
