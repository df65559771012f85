(** C81: how long a proof is. *)
From Coq Require Import List Arith NArith ZArith Lia Bool.
From Verif.Base Require Import Outcome Bytes Field Poly Zp.
From Verif.Model Require Import Codec PublicInputs Trace Air Merkle Transcript Domain Options Prover Verifier ExampleAirs CairoDecode CairoTrace CairoAir CairoRunner.
From Verif.Spec Require Import CodecSpec CliSpec AirSpec CairoSpec CairoRun ExampleSpec FriTree FullForgery ProofSize.
From Verif.Proofs Require Import OutcomeFacts CairoAirFacts RunnerFacts HonestRun CairoAdmissible ExampleFacts StarkFieldFacts ProofShape SizeFacts SizeBytes.
From Verif.Properties Require Import ExampleProperties StarkProperties LowDegreeProperties OpeningProperties RoundProperties CliProperties.
From Verif.Examples Require Import Toy Stark252 MiniRun RunExamples.
Import ListNotations.

(** Whatever the prover returns for a valid trace has all its parts: as many FRI layers as the trace length has bits, an answer and an
    opening per query, and paths of full length.  The encoding succeeds and its length is a function of the size of the table, the options
    and the width of field elements alone. *)
Theorem C81_size_of_an_honest_proof :
  forall (E : env) fuel (mk : nat -> air E) (mt : trace_table E) r b k w proof, env_ok E -> codec_ok (e_codec E) w -> digest_hashes E ->
  let a := mk (tt_n_rows mt) in
  admissible a r b k -> tt_n_rows mt = 2 ^ r -> valid_trace a r mt ->
  (forall rap aux, a_build_aux a mt rap = Ok aux -> tt_n_cols aux = a_n_aux a) ->
  prove E fuel mk mt = Ok proof ->
  complete_proof a proof r b /\
  exists bs, stark_serialize (e_codec E) proof = Ok bs /\
    length bs = proof_size (mk_parameters w k (trace_columns (a_context a)) (if a_n_aux a =? 0 then 1 else 2) r b (fri_number_of_queries (a_options a))).
Proof.
  intros E fuel mk mt r b k w proof HE HW HD a A Hn Hv Hna Hp.
  destruct (honest_complete HE fuel mk mt r b k proof A Hn Hv Hna Hp) as [Hc Hr]. fold a in Hc, Hr. split; [exact Hc|].
  destruct (prove_shape HD _ _ _ _ Hp) as (_ & _ & S3 & S4 & S5 & S6 & S7).
  destruct (complete_size w HW a proof r b Hc (ad_r _ _ _ _ A) S3 S4 S5) as (bs & H1 & H2).
  - apply (Forall_impl _ (P := good_query)); [|exact S6]. intros q (_ & Q1 & Q2). now split.
  - exact S7.
  - exists bs. split; [exact H1|]. rewrite H2, Hr, (ad_offsets _ _ _ _ A), seq_length. reflexivity.
Qed.
Print Assumptions C81_size_of_an_honest_proof.

(** Doubling the number of rows adds a root, and for every query a value and paths on both sides and one hash for every tree: the size
    grows with the square of the logarithm of the trace length. *)
Theorem C81_doubling_the_rows :
  forall w rows columns roots r b q,
  proof_size (mk_parameters w rows columns roots (S r) b q) =
  proof_size (mk_parameters w rows columns roots r b q) + 32 + q * (2 * w + 16 + 64 * (b + r + 1) + 32 * (1 + roots)).
Proof. intros. unfold proof_size, answer_size, opening_size. cbn [ps_w ps_rows ps_columns ps_roots ps_r ps_b ps_queries]. nia. Qed.
Print Assumptions C81_doubling_the_rows.

(** The proof of a Cairo run has 52 columns, or 61 if there is a range-check segment, in two trees, and two rows in its frame.  Its size
    depends on the run only through the number of rows of its trace and on whether the builtin is used. *)
Theorem C81_size_of_a_cairo_proof :
  forall (C : cairo_env) p w (m : @cairo_memory C) raw size rc out, cairo_ok C p -> codec_ok (e_codec C) w -> digest_hashes C -> provable_run m raw size rc out ->
  exists t pi r, generate_prover_args raw m size rc out = Ok (t, pi) /\ tt_n_rows t = 2 ^ r /\
  forall opts b fuel proof, usable_options C opts r b -> generate_cairo_proof fuel t pi opts = Ok proof ->
  exists bs, stark_serialize (e_codec C) proof = Ok bs /\
    length bs = proof_size (mk_parameters w 2 (match rc with Some _ => 61 | None => 52 end) 2 r b (fri_number_of_queries opts)).
Proof.
  intros C p w m raw size rc out HC HW HD HP. destruct (HonestRun.honest_satisfies HC m raw size rc out HP) as (t & pi & r & Hg & Hn & Hr & Hv).
  exists t, pi, r. split; [exact Hg|]. split; [exact Hn|]. intros opts b fuel proof Hu Hp.
  assert (Hseg : memory_segments pi = create_memory_segment_map rc out).
  { unfold generate_prover_args in Hg. apply obind_ok in Hg. destruct Hg as (pi0 & H0 & H). apply from_regs_ok in H0. destruct H0 as (_ & _ & ->).
    unfold build_main_trace in H. apply obind_ok in H. destruct H as (t0 & _ & H). apply obind_ok in H. destruct H as (ac & _ & H).
    apply obind_ok in H. destruct H as ([[holes lo] hi] & Hh & H). do 5 (apply obind_ok in H; destruct H as (? & _ & H)).
    apply ok_inj in H. injection H as _ Ep. subst pi. reflexivity. }
  assert (Hw : trace_columns (cairo_context pi opts) = match rc with Some _ => 61 | None => 52 end).
  { rewrite cairo_width_declared. unfold cairo_width, builtin_offset, has_rc_builtin. rewrite Hseg. pose proof (pr_out _ _ _ _ _ HP) as Ho.
    destruct rc as [[? ?]|], out as [[lo hi]|]; try reflexivity. destruct (Ho lo hi eq_refl) as [Hx _]. now contradiction Hx. }
  pose proof (C81_size_of_an_honest_proof C fuel (cairo_air pi opts) t r b 2 w proof (co_env _ _ HC) HW HD) as K. cbv zeta in K. rewrite Hn in K.
  destruct (K (cairo_admissible (co_env _ _ HC) pi opts r b Hu) eq_refl (Hv opts) (C74_cairo_announces_columns C pi opts (2 ^ r) t) Hp) as (_ & bs & H1 & H2).
  exists bs. split; [exact H1|]. rewrite H2. cbn [cairo_air a_context a_n_aux]. rewrite Hw. reflexivity.
Qed.
Print Assumptions C81_size_of_a_cairo_proof.

(** The three-step run in the Stark field: eight rows, blowup four, three queries, 32-byte field elements. *)
Example C81_example fuel t pi proof : generate_prover_args (C := stark) mini_regs mini_memory 5 None None = Ok (t, pi) ->
  generate_cairo_proof fuel t pi default_test_options = Ok proof ->
  exists bs, stark_serialize (e_codec stark) proof = Ok bs /\
    N.of_nat (length bs) = 13664%N.
Proof.
  intros Hg Hp. destruct (C81_size_of_a_cairo_proof stark _ 32 mini_memory mini_regs 5 None None stark_ok stark_codec_ok stark_digests mini_provable) as (t' & pi' & r & Hg' & Hn & K).
  rewrite Hg in Hg'. apply ok_inj in Hg'. injection Hg' as <- <-.
  assert (Er : 2 ^ r = 8).
  { rewrite <- Hn. assert (E : match generate_prover_args (C := stark) mini_regs mini_memory 5 None None with Ok (t, _) => tt_n_rows t | _ => 0 end = 8) by (vm_compute; reflexivity).
    rewrite Hg in E. exact E. }
  assert (r = 3) by (apply (Nat.pow_inj_r 2); [lia|rewrite Er; reflexivity]). subst r.
  destruct (K default_test_options 2 fuel proof) as (bs & H1 & H2); [|exact Hp|].
  - apply (default_coset_usable stark_ok); try reflexivity; lia.
  - exists bs. split; [exact H1|]. rewrite H2. vm_compute. reflexivity.
Qed.
(** The proof of four Fibonacci numbers in the field with 97 elements has all its parts. *)
Example C81_complete_example : complete_proof (query_air 4) honest_proof 2 1.
Proof.
  assert (A : admissible (query_air 4) 2 1 3) by exact (fibonacci_admissible toy_ok (f97 1) (f97 1) toy_opts 2 1 toy_usable).
  apply (honest_complete toy_ok 20 query_air (toy_table [1; 1; 2; 3]%Z) 2 1 3 honest_proof A); [reflexivity| | |exact honest_proof_ok].
  - apply (fibonacci_valid toy_ok (f97 1) (f97 1) toy_opts 2); [lia|]. vm_compute. reflexivity.
  - intros rap aux H. vm_compute in H. apply ok_inj in H. subst aux. reflexivity.
Qed.
