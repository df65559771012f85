(** C100: what the benchmarks of the verifier load and time. *)
From Coq Require Import List Arith NArith ZArith Bool Lia Permutation.
From Verif.Base Require Import Outcome Bytes Field Poly Zp.
From Verif.Model Require Import Codec PublicInputs Trace Air Options Prover Verifier CairoDecode CairoTrace CairoAir CairoRunner Cli Bench.
From Verif.Spec Require Import CodecSpec CliSpec CairoSpec AirSpec ExampleSpec CairoRun ProofSize.
From Verif.Proofs Require Import BytesFacts OutcomeFacts FFTFacts CairoAdmissible PublicInputsFacts RunnerFacts HonestRun StarkFieldFacts CliFacts LevelFacts.
From Verif.Properties Require Import CairoHonestProperties CliProperties.
From Verif.Examples Require Import Toy Stark252 MiniRun RunExamples.
Import ListNotations.

(** The loader of the benchmarks reads what the command reads, and panics where the command prints an error. *)
Theorem C100_loader :
  forall (C : cairo_env) bs, bench_load (C := C) bs = match file_read feqb (e_codec C) bs with Ok x => Ok x | _ => Panic end.
Proof.
  intros C bs. unfold bench_load, file_read, slice_to at 1, slice_from at 1. destruct (Nat.ltb_spec (length bs) 8) as [L|L].
  - destruct (N.ltb_spec (N.of_nat (length bs)) 8) as [L'|L']; [reflexivity|lia].
  - unfold slice_to at 2, slice_from at 2. destruct (N.ltb_spec (N.of_nat (length bs)) 8) as [L'|L']; [lia|]. cbn [obind].
    remember (be_val (firstn (N.to_nat 8) bs)) as n eqn:En. remember (skipn (N.to_nat 8) bs) as r eqn:Er. clear. unfold slice_to, slice_from.
    destruct (N.of_nat (length r) <? n)%N; [reflexivity|]. cbn [obind].
    destruct (stark_deserialize (e_codec C) (firstn (N.to_nat n) r)) as [p| |]; try reflexivity. cbn [unwrap_r obind].
    destruct (pub_deserialize feqb (e_codec C) (skipn (N.to_nat n) r)); reflexivity.
Qed.
Print Assumptions C100_loader.

(** FINDING. The timed call refuses every file with fewer than 80 answers, whatever the rest of the file and the hash functions: the
    counts are compared before anything else. *)
Theorem C100_few_answers :
  forall (C : cairo_env) order fuel bs (p : stark_proof C) pi, file_read feqb (e_codec C) bs = Ok (p, pi) -> (length (query_list p) < 80)%nat ->
  bench_timed (C := C) order fuel bs = Ok false.
Proof.
  intros C order fuel bs p pi Hf Hq. unfold bench_timed. rewrite C100_loader, Hf. cbn [obind]. unfold verify_cairo_proof, verify.
  change (fri_number_of_queries bench_options) with 80%nat. now rewrite (proj2 (Nat.ltb_lt _ _) Hq).
Qed.
Print Assumptions C100_few_answers.

(** FINDING. Every file that the command writes for a provable run is such a file: the command accepts it, and what the benchmarks time
    on it is the refusal. *)
Theorem C100_files_of_the_command :
  forall (C : cairo_env) w (m : @cairo_memory C) raw size rc (order order' : public_inputs C -> public_inputs C) fuel file,
  cairo_ok C (Z.to_N stark_p) -> two_adicity C = 192%nat -> digest_hashes C -> codec_ok (e_codec C) w ->
  provable_run m raw size rc None -> fits_usize m raw size rc ->
  (forall pi, same_up_to_order pi (order pi)) -> (forall pi, same_up_to_order pi (order' pi)) ->
  cli_prove order fuel raw m size rc = Ok file -> (N.of_nat (length file) < two64)%N ->
  cli_verify (C := C) order' fuel file = Ok true /\ bench_timed (C := C) order' fuel file = Ok false.
Proof.
  intros C w m raw size rc order order' fuel file HC HT HD HW HP HF Ho Ho' H Hlen.
  split; [exact (C54_prove_then_verify C w m raw size rc order order' fuel file HC HT HD HW HP HF Ho Ho' H Hlen)|]. pose proof (co_env _ _ HC) as HE.
  destruct (honest_satisfies HC m raw size rc None HP) as (t & pi & r & Hg & Hn & Hr & Hv).
  unfold cli_prove, cli_generate_proof in H. rewrite Hg in H. cbn [obind] in H. apply obind_ok in H. destruct H as ([proof pi'] & H & Hw).
  apply obind_ok in H. destruct H as (proof' & Hp & H). apply ok_inj in H. injection H as -> <-.
  pose proof (fu_rows _ _ _ _ HF t pi Hg) as H64. rewrite Hn in H64.
  assert (Hr64 : (r < 64)%nat).
  { destruct (Nat.lt_ge_cases r 64) as [L|L]; [exact L|]. exfalso. rewrite Nat2N.inj_pow in H64. change (N.of_nat 2) with 2%N in H64.
    assert (Q : (2 ^ 64 <= 2 ^ N.of_nat r)%N) by (apply N.pow_le_mono_r; [discriminate|lia]). change (2 ^ 64)%N with two64 in Q. lia. }
  assert (Hu : usable_options C default_test_options r 2) by (apply (default_coset_usable HC); try assumption; try reflexivity; lia).
  assert (HA := cairo_admissible HE pi default_test_options r 2 Hu).
  assert (Hs : stark_wf (e_codec C) proof).
  { apply (honest_stark_wf HC HD fuel pi default_test_options t r 2); try assumption; [exact (Hv _)|].
    intros bs Hbs. unfold file_write in Hw. rewrite Hbs in Hw. cbn [obind] in Hw. apply ok_inj in Hw. subst file. rewrite !app_length in Hlen. lia. }
  assert (Hpi : pub_wf pi).
  { apply (public_inputs_wf HC raw m size rc None t pi Hg (fu_steps _ _ _ _ HF)); [|exact (fu_segment _ _ _ _ HF)|discriminate].
    pose proof (public_memory_length _ _ _ _ _ _ Hg). pose proof (pr_size _ _ _ _ _ HP) as Q. change (2 ^ 64)%N with two64 in Q. lia. }
  apply (C100_few_answers C order' fuel file proof (order pi)).
  - exact (file_round feqb (e_codec C) (feqb_spec C (fft_field_ok _ (e_fft_ok _ HE))) w HW proof (order pi) file Hs (pub_wf_order _ _ (Ho pi) Hpi) Hw).
  - pose proof (prove_count fuel (cairo_air pi default_test_options) t proof Hp) as Q. change (fri_number_of_queries _) with 3%nat in Q. lia.
Qed.
Print Assumptions C100_files_of_the_command.

(** The three-step run: every file that the command writes for it. *)
Example C100_example order order' fuel file : (forall pi, same_up_to_order pi (order pi)) -> (forall pi, same_up_to_order pi (order' pi)) ->
  cli_prove (C := stark) order fuel mini_regs mini_memory 5 None = Ok file -> (N.of_nat (length file) < two64)%N ->
  cli_verify (C := stark) order' fuel file = Ok true /\ bench_timed (C := stark) order' fuel file = Ok false.
Proof. exact (C100_files_of_the_command stark 32 mini_memory mini_regs 5 None order order' fuel file stark_ok eq_refl stark_digests stark_codec_ok mini_provable mini_fits). Qed.
(** The length fields of benches/proofs/fibonacci_500.proof, fibonacci_1000.proof and fibonacci_70000.proof are 35984, 39424 and 64096:
    the sizes, by C81, of proofs with three answers for tables of 2^12, 2^13 and 2^19 rows of 52 columns. With the 80 answers that the
    benchmark asks for, the first would be 857112. *)
Example C100_sizes :
  map (fun r => N.of_nat (proof_size (mk_parameters 32 2 52 2 r 2 3))) [12; 13; 19]%nat = [35984; 39424; 64096]%N /\
  N.of_nat (proof_size (mk_parameters 32 2 52 2 12 2 80)) = 857112%N.
Proof. vm_compute. split; reflexivity. Qed.
