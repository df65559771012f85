(** C69, C70: the command as a whole, and the addresses of the range-check segment. *)
From Coq.Strings Require Import String.
From Coq Require Import List Arith NArith ZArith Bool Lia Permutation.
From Verif.Base Require Import Outcome Bytes Field Poly Zp.
From Verif.Model Require Import Codec PublicInputs Trace Air Options Prover Verifier CairoDecode CairoTrace CairoAir CairoRunner Cli Main.
From Verif.Spec Require Import CodecSpec CliSpec CairoSpec AirSpec ExampleSpec CairoRun MainSpec.
From Verif.Proofs Require Import BytesFacts OutcomeFacts FFTFacts Completeness CairoAdmissible PublicInputsFacts RunnerFacts HonestRun StarkFieldFacts CliFacts.
From Verif.Properties Require Import CairoHonestProperties CliProperties.
From Verif.Examples Require Import Toy Stark252 MiniRun RunExamples.
Import ListNotations.
Local Open Scope string_scope.
Local Open Scope list_scope.

(** ** C69 *)

Lemma starts_with_spec n : forall s, starts_with n s = true <-> exists b, s = (n ++ b)%string.
Proof.
  induction n as [|a n IH]; intro s; cbn.
  - split; [intros _; now exists s|reflexivity].
  - destruct s as [|b s]; [split; [discriminate|intros (x & H); discriminate]|].
    rewrite andb_true_iff, Ascii.eqb_eq, IH. split.
    + intros (-> & x & ->). now exists x.
    + intros (x & H). injection H as -> ->. split; [reflexivity|now exists x].
Qed.
Lemma str_contains_spec n : forall s, str_contains n s = true <-> exists a b, s = (a ++ n ++ b)%string.
Proof.
  induction s as [|c s IH]; cbn [str_contains]; rewrite orb_true_iff, starts_with_spec.
  - split.
    + intros [(b & H)|H]; [exists "", b; exact H|discriminate].
    + intros (a & b & H). left. destruct a; [now exists b|discriminate].
  - rewrite IH. split.
    + intros [(b & H)|(a & b & H)]; [exists "", b; exact H|]. exists (String c a), b. cbn. now rewrite H.
    + intros (a & b & H). destruct a as [|c' a]; [left; now exists b|]. injection H as -> H. right. now exists a, b.
Qed.

(** The version of Cairo is decided by whether ".casm" occurs anywhere in the path. *)
Theorem C69_version_of_a_path :
  forall path, version_of path = V1 <-> exists a b, path = (a ++ ".casm" ++ b)%string.
Proof.
  intro path. rewrite <- str_contains_spec. unfold version_of. destruct (str_contains ".casm" path); split; intro H; try reflexivity; discriminate.
Qed.
Print Assumptions C69_version_of_a_path.

(** FINDING. Expected: the extension of the file decides. A Cairo 0 program below a directory with ".casm" in its name is run as Cairo 1. *)
Theorem C69_extension_decides_the_version_refuted :
  exists dir, forall file, version_of (dir ++ "/" ++ file ++ ".json")%string = V1.
Proof.
  exists "programs.casm". intro file. apply C69_version_of_a_path. exists "programs", ("/" ++ file ++ ".json")%string. reflexivity.
Qed.
Print Assumptions C69_extension_decides_the_version_refuted.

(** [verify] changes no file and reports success exactly if the file decodes to a proof and public inputs that the verifier accepts. *)
Theorem C69_success_is_acceptance :
  forall (C : cairo_env) p vm (order order' : public_inputs C -> public_inputs C) fuel w w' program path rest out,
  cairo_ok C p -> (forall pi, same_up_to_order pi (order' pi)) ->
  main vm order order' fuel w (program :: "verify" :: path :: rest) = Ok (w', out) ->
  w' = w /\
  (In MSucceeded out <-> exists bs proof pi, f_read w path = Some bs /\ file_read feqb (e_codec C) bs = Ok (proof, pi) /\
     verify_cairo_proof fuel proof pi default_test_options = Ok true) /\
  (In MFailed out <-> exists bs proof pi, f_read w path = Some bs /\ file_read feqb (e_codec C) bs = Ok (proof, pi) /\
     verify_cairo_proof fuel proof pi default_test_options = Ok false).
Proof.
  intros C p vm order order' fuel w w' program path rest out HC Ho H. cbn in H.
  destruct (f_read w path) as [bs|] eqn:Ef.
  2:{ apply ok_inj in H. injection H as <- <-. split; [reflexivity|].
      split; (split; [intros [H|[]]; discriminate|intros (bs & _ & _ & H & _); discriminate]). }
  destruct (file_read feqb (e_codec C) bs) as [[proof pi]|e|] eqn:Er; [|apply ok_inj in H; injection H as <- <-; split; [reflexivity|];
    split; (split; [intros [H|[]]; discriminate|intros (bs' & proof & pi & H & K & _); injection H as <-; congruence])|discriminate].
  unfold verify_proof in H. rewrite (C54_map_order_is_irrelevant C p fuel proof pi (order' pi) default_test_options HC (Ho pi)) in H.
  destruct (verify_cairo_proof fuel proof pi default_test_options) as [b|e|] eqn:Ev; [|discriminate|discriminate].
  cbn in H. apply ok_inj in H. injection H as <- <-. split; [reflexivity|]. destruct b; split; split.
  1, 7: intros _; exists bs, proof, pi; repeat split; assumption.
  all: try (now intros _; cbn; auto).
  all: try (cbn; intros [H|[H|[]]]; discriminate).
  all: intros (bs' & q & pi' & H1 & H2 & H3); injection H1 as <-; rewrite Er in H2; injection H2 as <- <-; rewrite Ev in H3; discriminate.
Qed.
Print Assumptions C69_success_is_acceptance.

(** FINDING. Expected: the exit status tells whether verification succeeded. The status is that of a normal exit for every file that
    does not make the command panic: missing, undecodable, rejected or accepted. *)
Theorem C69_exit_status_tells_the_verdict_refuted :
  forall (C : cairo_env) p vm (order order' : public_inputs C -> public_inputs C) fuel w program path rest,
  cairo_ok C p -> (forall pi, same_up_to_order pi (order' pi)) ->
  let status := exit_status (main vm order order' fuel w (program :: "verify" :: path :: rest)) in
  (f_read w path = None -> status = 0%N) /\
  (forall bs e, f_read w path = Some bs -> file_read feqb (e_codec C) bs = Err e -> status = 0%N) /\
  (forall bs proof pi (b : bool), f_read w path = Some bs -> file_read feqb (e_codec C) bs = Ok (proof, pi) ->
     verify_cairo_proof fuel proof pi default_test_options = Ok b -> status = 0%N).
Proof.
  intros C p vm order order' fuel w program path rest HC Ho status. unfold status. cbn. split; [intros ->; reflexivity|]. split.
  - intros bs e -> ->. reflexivity.
  - intros bs proof pi b -> -> H. cbn. unfold verify_proof. rewrite (C54_map_order_is_irrelevant C p fuel proof pi (order' pi) default_test_options HC (Ho pi)), H. reflexivity.
Qed.
Print Assumptions C69_exit_status_tells_the_verdict_refuted.

(** Only [prove] writes, only to its output path, only a proof file of what it proved, and it says so. *)
Theorem C69_only_the_output_is_written :
  forall (C : cairo_env) vm (order order' : public_inputs C -> public_inputs C) fuel w args w' out,
  main vm order order' fuel w args = Ok (w', out) ->
  (w' = w /\ forall q, ~ In (MWritten q) out) \/
  exists program input output rest content t pi proof bs, args = program :: "prove" :: input :: output :: rest /\ last out MUsage = MWritten output /\
    f_read w input = Some content /\ prover_args_of vm content (version_of input) None = Ok (t, pi) /\
    generate_cairo_proof fuel t pi default_test_options = Ok proof /\ file_write (e_codec C) proof (order pi) = Ok bs /\
    f_read w' output = Some bs /\ forall q, q <> output -> f_read w' q = f_read w q.
Proof.
  intros C vm order order' fuel w args w' out H.
  assert (G : forall path o r, generate_proof (C := C) vm fuel w path = Ok (o, r) -> forall q, ~ In (MWritten q) o).
  { intros path o r K q. unfold generate_proof in K. destruct (f_read w path); [|apply ok_inj in K; injection K as <- <-; destruct (version_of path); cbn; intros [I|[I|[]]]; discriminate].
    destruct (prover_args_of (C := C) vm l (version_of path) None) as [[t pi]|e|]; [|apply ok_inj in K; injection K as <- <-; destruct (version_of path); cbn; intros [I|[I|[]]]; discriminate|discriminate].
    destruct (generate_cairo_proof fuel t pi default_test_options); [| |discriminate]; apply ok_inj in K; injection K as <- <-; destruct (version_of path); cbn; intuition discriminate. }
  assert (P : forall path o proof pi, generate_proof (C := C) vm fuel w path = Ok (o, Some (proof, pi)) ->
    exists content t, f_read w path = Some content /\ prover_args_of vm content (version_of path) None = Ok (t, pi) /\ generate_cairo_proof fuel t pi default_test_options = Ok proof).
  { intros path o proof pi K. unfold generate_proof in K. destruct (f_read w path) as [content|]; [|discriminate].
    destruct (prover_args_of (C := C) vm content (version_of path) None) as [[t pi']|e|] eqn:Ea; [|discriminate|discriminate].
    destruct (generate_cairo_proof fuel t pi' default_test_options) as [q|e|] eqn:Ep; [|discriminate|discriminate].
    apply ok_inj in K. injection K as _ <- <-. exists content, t. auto. }
  assert (V : forall proof pi o b, verify_proof (C := C) fuel proof pi = Ok (o, b) -> forall q, ~ In (MWritten q) o).
  { intros proof pi o b K q. unfold verify_proof in K. apply obind_ok in K. destruct K as (b' & _ & K). apply ok_inj in K. injection K as <- <-. destruct b'; cbn; intuition discriminate. }
  unfold main in H. destruct args as [|program [|command args]]; try (apply ok_inj in H; injection H as <- <-; left; split; [reflexivity|cbn; intuition discriminate]).
  destruct (String.eqb_spec command "prove") as [->|_]; [|destruct (String.eqb_spec command "verify") as [->|_]; [|destruct (String.eqb_spec command "prove_and_verify") as [->|_]]].
  - unfold main_prove in H. destruct args as [|input [|output rest]]; try (apply ok_inj in H; injection H as <- <-; left; split; [reflexivity|cbn; intuition discriminate]).
    apply obind_ok in H. destruct H as ([o r] & Hg & H). destruct r as [[proof pi]|].
    2:{ apply ok_inj in H. injection H as <- <-. left. split; [reflexivity|]. eapply G; eassumption. }
    apply obind_ok in H. destruct H as (bs & Hb & H). unfold f_write in H. destruct (f_writable w output).
    + apply ok_inj in H. injection H as <- <-. right. destruct (P _ _ _ _ Hg) as (content & t & Hc & Ha & Hp). exists program, input, output, rest, content, t, pi, proof, bs.
      split; [reflexivity|]. split; [apply last_last|]. split; [exact Hc|]. split; [exact Ha|]. split; [exact Hp|]. split; [exact Hb|]. cbn. rewrite String.eqb_refl. split; [reflexivity|]. intros q Hq. destruct (String.eqb_spec q output); [congruence|reflexivity].
    + apply ok_inj in H. injection H as <- <-. left. split; [reflexivity|]. intros q K. apply in_app_iff in K. destruct K as [K|[K|[]]]; [eapply G; eassumption|discriminate].
  - unfold main_verify in H. left. destruct args as [|path rest]; [apply ok_inj in H; injection H as <- <-; split; [reflexivity|cbn; intuition discriminate]|].
    destruct (f_read w path); [|apply ok_inj in H; injection H as <- <-; split; [reflexivity|cbn; intuition discriminate]].
    destruct (file_read feqb (e_codec C) l) as [[proof pi]|e|]; [|apply ok_inj in H; injection H as <- <-; split; [reflexivity|cbn; intuition discriminate]|discriminate].
    apply obind_ok in H. destruct H as ([o b] & Hv & H). apply ok_inj in H. injection H as <- <-. split; [reflexivity|]. eapply V; eassumption.
  - unfold main_prove_and_verify in H. left. destruct args as [|path rest]; [apply ok_inj in H; injection H as <- <-; split; [reflexivity|cbn; intuition discriminate]|].
    apply obind_ok in H. destruct H as ([o r] & Hg & H). destruct r as [[proof pi]|].
    2:{ apply ok_inj in H. injection H as <- <-. split; [reflexivity|]. eapply G; eassumption. }
    apply obind_ok in H. destruct H as ([o' b] & Hv & H). apply ok_inj in H. injection H as <- <-. split; [reflexivity|].
    intros q K. apply in_app_iff in K. destruct K as [K|K]; [eapply G; eassumption|eapply V; eassumption].
  - apply ok_inj in H. injection H as <- <-. left. split; [reflexivity|cbn; intuition discriminate].
Qed.
Print Assumptions C69_only_the_output_is_written.

(** What the code loads from a run of the VM. *)
Lemma run_program_loads (C : cairo_env) vm layout content version v :
  vm version (layout_as_str layout) content = Ok v -> word_sized v ->
  exists m, run_program (C := C) vm layout content version = Ok (v_trace v, m, v_data_len v, range_check_range v) /\ mem_from_bytes_le (write_encoded_memory (v_memory v)) = Ok m.
Proof.
  intros Hv [H1 H2 H3]. destruct (memory_roundtrip (C := C) (v_memory v) H3 H2) as (m & Hm & Hg). exists m. split; [|exact Hm].
  unfold run_program. rewrite Hv. cbn [obind]. rewrite Hm. cbn [unwrap_r obind]. rewrite (trace_roundtrip _ H1). reflexivity.
Qed.

(** What [prove] wrote, [verify] reports as successful: for programs whose run is provable, whatever the VM is. *)
Theorem C69_prove_then_verify :
  forall (C : cairo_env) width vm (order order' : public_inputs C -> public_inputs C) fuel w w' program input output rest out content v,
  cairo_ok C (Z.to_N stark_p) -> two_adicity C = 192%nat -> digest_hashes C -> codec_ok (e_codec C) width ->
  (forall pi, same_up_to_order pi (order pi)) -> (forall pi, same_up_to_order pi (order' pi)) ->
  f_read w input = Some content -> vm (version_of input) (match version_of input with V0 => "small" | V1 => "plain" end) content = Ok v -> word_sized v ->
  (forall m, mem_from_bytes_le (C := C) (write_encoded_memory (v_memory v)) = Ok m -> provable_run m (v_trace v) (v_data_len v) (range_check_range v) None /\
     fits_usize m (v_trace v) (v_data_len v) (range_check_range v)) ->
  main vm order order' fuel w (program :: "prove" :: input :: output :: rest) = Ok (w', out) -> In (MWritten output) out ->
  (forall bs, f_read w' output = Some bs -> (N.of_nat (length bs) < two64)%N) ->
  forall program' rest', main vm order order' fuel w' (program' :: "verify" :: output :: rest') = Ok (w', [MVerifying; MSucceeded]).
Proof.
  intros C width vm order order' fuel w w' program input output rest out content v HC HT HD HW Ho Ho' Hc Hv Hs HP H Hin Hlen program' rest'.
  cbn in H. unfold generate_proof, prover_args_of in H. rewrite Hc in H.
  destruct (run_program_loads C vm (match version_of input with V0 => Small | V1 => Plain end) content (version_of input) v) as (m & Hr & Hm).
  { destruct (version_of input); exact Hv. } { exact Hs. }
  rewrite Hr in H. cbn [obind] in H. destruct (HP m Hm) as [Hp Hf].
  destruct (generate_prover_args (v_trace v) m (v_data_len v) (range_check_range v) None) as [[t pi]|e|] eqn:Eg; cbn [obind] in H.
  3:{ discriminate. }
  2:{ apply ok_inj in H. injection H as <- <-. destruct (version_of input); cbn in Hin; intuition discriminate. }
  destruct (generate_cairo_proof fuel t pi default_test_options) as [proof|e|] eqn:Ep; cbn [obind] in H.
  3:{ discriminate. }
  2:{ apply ok_inj in H. injection H as <- <-. destruct (version_of input); cbn in Hin; intuition discriminate. }
  destruct (file_write (e_codec C) proof (order pi)) as [bs|e|] eqn:Ew; cbn [obind] in H; [|discriminate|discriminate].
  unfold f_write in H. destruct (f_writable w output).
  2:{ apply ok_inj in H. injection H as <- <-. destruct (version_of input); cbn in Hin; intuition discriminate. }
  apply ok_inj in H. injection H as <- _.
  assert (Hb : (N.of_nat (length bs) < two64)%N) by (apply Hlen; cbn; now rewrite String.eqb_refl).
  pose proof (C54_prove_then_verify C width m (v_trace v) (v_data_len v) (range_check_range v) order order' fuel bs HC HT HD HW Hp Hf Ho Ho') as K.
  unfold cli_prove, cli_generate_proof in K. rewrite Eg in K. cbn [obind] in K. rewrite Ep in K. cbn [obind] in K. specialize (K Ew Hb).
  cbn. rewrite String.eqb_refl. unfold cli_verify in K. destruct (file_read feqb (e_codec C) bs) as [[q pi']|e|]; cbn [obind] in K; [|discriminate|discriminate].
  unfold verify_proof. rewrite K. reflexivity.
Qed.
Print Assumptions C69_prove_then_verify.

(** The combined command never reports a failure for such programs. *)
Theorem C69_prove_and_verify :
  forall (C : cairo_env) vm (order order' : public_inputs C -> public_inputs C) fuel w w' program input rest out content v,
  cairo_ok C (Z.to_N stark_p) -> two_adicity C = 192%nat ->
  f_read w input = Some content -> vm (version_of input) (match version_of input with V0 => "small" | V1 => "plain" end) content = Ok v -> word_sized v ->
  (forall m, mem_from_bytes_le (C := C) (write_encoded_memory (v_memory v)) = Ok m -> provable_run m (v_trace v) (v_data_len v) (range_check_range v) None /\
     fits_usize m (v_trace v) (v_data_len v) (range_check_range v)) ->
  main vm order order' fuel w (program :: "prove_and_verify" :: input :: rest) = Ok (w', out) ->
  w' = w /\ ~ In MFailed out /\ (In MVerifying out -> In MSucceeded out).
Proof.
  intros C vm order order' fuel w w' program input rest out content v HC HT Hc Hv Hs HP H.
  cbn in H. unfold generate_proof, prover_args_of in H. rewrite Hc in H.
  destruct (run_program_loads C vm (match version_of input with V0 => Small | V1 => Plain end) content (version_of input) v) as (m & Hr & Hm).
  { destruct (version_of input); exact Hv. } { exact Hs. }
  rewrite Hr in H. cbn [obind] in H. destruct (HP m Hm) as [Hp Hf].
  pose proof (C54_prove_and_verify C m (v_trace v) (v_data_len v) (range_check_range v) fuel) as K. unfold cli_prove_and_verify, cli_generate_proof in K.
  destruct (generate_prover_args (v_trace v) m (v_data_len v) (range_check_range v) None) as [[t pi]|e|] eqn:Eg; cbn [obind] in H, K.
  3:{ discriminate. }
  2:{ apply ok_inj in H. injection H as <- <-. split; [reflexivity|]. destruct (version_of input); cbn; intuition discriminate. }
  destruct (generate_cairo_proof fuel t pi default_test_options) as [proof|e|] eqn:Ep; cbn [obind] in H, K.
  3:{ discriminate. }
  2:{ apply ok_inj in H. injection H as <- <-. split; [reflexivity|]. destruct (version_of input); cbn; intuition discriminate. }
  unfold verify_proof in H. destruct (verify_cairo_proof fuel proof pi default_test_options) as [b|e|]; cbn [obind] in H; [|discriminate|discriminate].
  rewrite (K b HC HT Hp Hf eq_refl) in H. apply ok_inj in H. injection H as <- <-. split; [reflexivity|]. destruct (version_of input); cbn; intuition discriminate.
Qed.
Print Assumptions C69_prove_and_verify.

(** ** C70 *)

Lemma segment_base (f : nat -> option nat) (segments : list (list (option N))) : forall k acc i,
  (forall j s, nth_error segments j = Some s -> f (k + j)%nat = Some (length s)) -> (i <= length segments)%nat ->
  fold_left (fun acc i => acc + match f i with Some s => s | None => 0 end)%nat (seq k i) acc = (acc + length (concat (firstn i segments)))%nat.
Proof.
  induction segments as [|s segments IH]; intros k acc i Hf Hi.
  - destruct i; [cbn; lia|cbn in Hi; lia].
  - destruct i as [|i]; [cbn; lia|]. cbn [seq fold_left firstn concat]. rewrite app_length.
    pose proof (Hf 0%nat s eq_refl) as H0. rewrite Nat.add_0_r in H0. rewrite H0, IH.
    + lia.
    + intros j t Ht. rewrite <- (Hf (S j) t Ht). f_equal. lia.
    + cbn in Hi. lia.
Qed.

(** The public range-check segment is the part of the builtin's segment before the stop pointer: address [lo + j] of the loaded memory
    is its cell [j], for exactly the [j] below the stop offset; and it lies behind the program, which is segment 0. *)
Theorem C70_range_check_segment :
  forall (C : cairo_env) segments v index stop seg (m : @cairo_memory C), laid_out segments v -> holds_cells v m ->
  v_range_check v = Some (index, Some stop) -> nth_error segments index = Some seg -> (stop <= length seg)%nat ->
  exists lo hi, range_check_range v = Some (lo, hi) /\ (hi = lo + N.of_nat stop)%N /\
  (forall a, (lo <= a < hi)%N -> mem_get m a = match nth_error seg (N.to_nat (a - lo)) with Some (Some x) => Some (e_u64 C x) | _ => None end) /\
  (forall program others, segments = program :: others -> (0 < index)%nat -> (N.of_nat (length program) < lo)%N).
Proof.
  intros C segments v index stop seg m [Hm Hz] Hc Hv Hs Hle. unfold range_check_range. rewrite Hv.
  assert (Hi : (index < length segments)%nat) by (apply nth_error_Some; congruence).
  rewrite (segment_base (v_segment_size v) segments 0 1 index Hz) by lia.
  set (base := (1 + length (concat (firstn index segments)))%nat). exists (N.of_nat base), (N.of_nat (base + stop)). split; [reflexivity|]. split; [lia|].
  destruct (nth_error_split segments index Hs) as (before & after & E & Lb).
  assert (Ef : firstn index segments = before).
  { rewrite E, <- Lb, firstn_app, Nat.sub_diag, firstn_all, firstn_O. apply app_nil_r. }
  split.
  - intros a Ha. rewrite Hc, Hm. replace (N.to_nat a) with (S (length (concat before) + N.to_nat (a - N.of_nat base))).
    2:{ unfold base in *. rewrite Ef in *. lia. }
    cbn [nth_error]. rewrite E, concat_app. cbn [concat]. rewrite nth_error_app2 by lia.
    replace (length (concat before) + N.to_nat (a - N.of_nat base) - length (concat before))%nat with (N.to_nat (a - N.of_nat base)) by lia.
    rewrite nth_error_app1; [reflexivity|]. unfold base in *. lia.
  - intros program others -> H0. unfold base. destruct index as [|i]; [lia|]. cbn [firstn concat]. rewrite app_length. lia.
Qed.
Print Assumptions C70_range_check_segment.

(** FINDING. A builtin whose stop pointer the VM has not recorded gets an empty segment, whatever cells it wrote. *)
Theorem C70_unrecorded_stop_pointer_refuted :
  forall v index, v_range_check v = Some (index, None) -> exists lo, range_check_range v = Some (lo, lo).
Proof. intros v index H. unfold range_check_range. rewrite H, Nat.add_0_r. eauto. Qed.
Print Assumptions C70_unrecorded_stop_pointer_refuted.

(** The segment reaches the public inputs: the prover's statement declares exactly this range. *)
Theorem C70_segment_is_public :
  forall (C : cairo_env) vm content version t (pi : public_inputs C) v,
  vm version (match version with V0 => "small" | V1 => "plain" end) content = Ok v -> word_sized v ->
  prover_args_of vm content version None = Ok (t, pi) ->
  memory_segments pi = match range_check_range v with Some r => [(RangeCheck, r)] | None => [] end.
Proof.
  intros C vm content version t pi v Hv Hs H. unfold prover_args_of in H.
  destruct (run_program_loads C vm (match version with V0 => Small | V1 => Plain end) content version v) as (m & Hr & Hm).
  { destruct version; exact Hv. } { exact Hs. }
  rewrite Hr in H. cbn [obind] in H. unfold generate_prover_args in H. apply obind_ok in H. destruct H as (pi0 & Hp & H).
  apply from_regs_ok in Hp. destruct Hp as (_ & _ & ->). unfold build_main_trace in H.
  apply obind_ok in H. destruct H as (t1 & _ & H). apply obind_ok in H. destruct H as (ac & _ & H). apply obind_ok in H. destruct H as ([[holes lo] hi] & _ & H).
  apply obind_ok in H. destruct H as (t2 & _ & H). apply obind_ok in H. destruct H as (mh & _ & H). apply obind_ok in H. destruct H as (t3 & _ & H).
  apply obind_ok in H. destruct H as (t4 & _ & H). apply obind_ok in H. destruct H as (t5 & _ & H). apply ok_inj in H. injection H as _ <-.
  unfold create_memory_segment_map. destruct (range_check_range v); reflexivity.
Qed.
Print Assumptions C70_segment_is_public.

(** Non-vacuity: a VM that answers the example run for every program, with a program segment of five cells, an execution segment of
    three, and then a range-check segment of four cells two of which are below the stop pointer. *)
Definition example_segments : list (list (option N)) :=
  [[Some 0x480680017fff8000; Some 3; Some 0x400680017fff7fff; Some 3; Some 0x208b7fff7fff7ffe]; [Some 8; Some 9; Some 3]; [Some 11; Some 12; None; Some 13]]%N.
Definition example_run (rc : option (nat * option nat)) (segments : list (list (option N))) : vm_run :=
  mk_vm_run mini_regs (None :: concat segments) 5 (fun i => option_map (@length _) (nth_error segments i)) rc.
Definition example_files : files := mk_files (fun q => if String.eqb q "fibonacci.json" then Some [] else None) (fun _ => true).

Lemma example_word_sized rc segments : Forall (Forall (fun x => match x with Some x => (x <? 2 ^ 256)%N = true | None => True end)) segments ->
  (length (concat segments) < 100)%nat -> word_sized (example_run rc segments).
Proof.
  intros H Hl. constructor; cbn [example_run v_trace v_memory].
  - repeat constructor.
  - intros x [K|K]; [discriminate|]. apply in_concat in K. destruct K as (s & Hs & Hx). rewrite Forall_forall in H. specialize (H s Hs).
    rewrite Forall_forall in H. specialize (H _ Hx). now apply N.ltb_lt.
  - cbn [length]. assert (2 ^ 64 = 18446744073709551616)%N as -> by reflexivity. lia.
Qed.

Example C69_example order order' fuel w' out : (forall pi, same_up_to_order pi (order pi)) -> (forall pi, same_up_to_order pi (order' pi)) ->
  let vm := fun _ _ _ => Ok (example_run None (firstn 2 example_segments)) in
  main (C := stark) vm order order' fuel example_files ["prover"; "prove"; "fibonacci.json"; "proof"] = Ok (w', out) -> In (MWritten "proof") out ->
  (forall bs, f_read w' "proof" = Some bs -> (N.of_nat (length bs) < two64)%N) ->
  main (C := stark) vm order order' fuel w' ["prover"; "verify"; "proof"] = Ok (w', [MVerifying; MSucceeded]).
Proof.
  intros Ho Ho' vm H Hin Hlen.
  refine (C69_prove_then_verify stark 32 vm order order' fuel example_files w' "prover" "fibonacci.json" "proof" [] out [] (example_run None (firstn 2 example_segments))
    stark_ok eq_refl stark_digests stark_codec_ok Ho Ho' eq_refl eq_refl _ _ H Hin Hlen "prover" []).
  - apply example_word_sized; [repeat constructor|cbn; lia].
  - intros m Hm. assert (E : mem_from_bytes_le (C := stark) (write_encoded_memory (v_memory (example_run None (firstn 2 example_segments)))) = Ok mini_memory)
      by (vm_compute; reflexivity).
    rewrite E in Hm. apply ok_inj in Hm. subst m. split; [exact mini_provable|exact mini_fits].
Qed.

(** A file with a proof without answers is rejected, and one of seven bytes is not read: two lines, and the same exit status. *)
Definition unanswered_proof : stark_proof stark :=
  mk_stark_proof 4 [] (mk_frame [] 1) (repeat Byte.x00 32) fzero fzero [] fzero [] [] 7%N.
Example C69_rejected order order' fuel : exists file, let w := mk_files (fun _ => Some file) (fun _ => true) in
  main (C := stark) (fun _ _ _ => Panic) order order' fuel w ["prover"; "verify"; "proof"] = Ok (w, [MVerifying; MFailed]).
Proof.
  destruct (file_write (e_codec stark) unanswered_proof mini_pi) as [file|e|] eqn:E; [|vm_compute in E; discriminate|vm_compute in E; discriminate].
  exists file. assert (R : file_read feqb (e_codec stark) file = Ok (unanswered_proof, mini_pi)) by (vm_compute in E; apply ok_inj in E; subst file; vm_compute; reflexivity).
  cbn [main String.eqb Ascii.eqb Bool.eqb main_verify f_read]. rewrite R. reflexivity.
Qed.
Example C69_unreadable order order' fuel : let w := mk_files (fun _ => Some (repeat Byte.x00 7)) (fun _ => true) in
  main (C := stark) (fun _ _ _ => Panic) order order' fuel w ["prover"; "verify"; "proof"] = Ok (w, [MErrorReading "proof"]).
Proof. reflexivity. Qed.

Example C70_example (m : @cairo_memory stark) : let v := example_run (Some (2, Some 2)%nat) example_segments in holds_cells v m ->
  range_check_range v = Some (9, 11)%N /\ mem_get m 9 = Some (e_u64 stark 11) /\ mem_get m 10 = Some (e_u64 stark 12).
Proof.
  intros v Hm. assert (HL : laid_out example_segments v).
  { constructor; [reflexivity|]. intros i s Hs. cbn [v example_run v_segment_size]. now rewrite Hs. }
  destruct (C70_range_check_segment stark example_segments v 2 2 [Some 11; Some 12; None; Some 13]%N m HL Hm eq_refl eq_refl) as (lo & hi & Hr & _ & Hg & _); [cbn; lia|].
  assert (E : range_check_range v = Some (9, 11)%N) by reflexivity. rewrite E in Hr. injection Hr as <- <-. split; [reflexivity|].
  split; [exact (Hg 9%N ltac:(lia))|exact (Hg 10%N ltac:(lia))].
Qed.
