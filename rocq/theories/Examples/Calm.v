(** The Cairo prime field with a transcript whose challenge is always the number 5 and a grinding hash that is always
    zero: an environment where sampling facts hold for every state; and the run of [MiniRun] in it. *)
From Coq Require Import List NArith ZArith Bool Lia.
From Verif.Base Require Import Outcome Bytes Field Poly Zp.
From Verif.Model Require Import Codec PublicInputs Trace Air Transcript Domain Options CairoDecode CairoTrace CairoAir CairoRunner.
From Verif.Spec Require Import CairoSpec AirSpec CairoColumns CairoRun Forgery.
From Verif.Proofs Require Import VerifierTotal.
From Verif.Examples Require Import Toy Stark252 MiniRun RunExamples.
Import ListNotations.

Definition calm_transcript : transcript_ops := {|
  tr_state := unit;
  tr_new := tt;
  tr_append := fun s _ => s;
  tr_challenge := fun s => (repeat Byte.x00 31 ++ [Byte.x05], s)
|}.
Definition calm_env : env := {|
  e_K := FFT252; e_codec := stark_codec; e_bits := 252; e_u64 := e_u64 stark; e_tr := calm_transcript;
  e_leaf := e_leaf stark; e_leaves := e_leaves stark; e_node := e_node stark; e_keccak := fun _ => repeat Byte.x00 32
|}.
Definition calm : cairo_env := mk_cairo_env calm_env (fun x : F252 => Z.to_N (zval x)).
Lemma calm_ok : cairo_ok calm (Z.to_N stark_p).
Proof.
  destruct stark_ok as [[H0 H0'] H1 H2 H3 H4 H5 H6 H7 H8]. constructor; try assumption. constructor; assumption.
Qed.
Lemma calm_sampling : sampling_ok calm.
Proof.
  constructor.
  - intros []. reflexivity.
  - cbn. lia.
  - intros bs _ _. cbn. eauto.
  - intros bs. cbn. lia.
Qed.
Lemma calm_nonce_found : nonce_found calm (grinding_factor default_test_options).
Proof.
  intros ch. destruct (generate_nonce_total calm_sampling ch (grinding_factor default_test_options)) as [o Ho]. rewrite Ho.
  destruct o as [nn|]; [eauto|]. exfalso. destruct (generate_nonce_none calm_sampling ch _ Ho 0%N ltac:(reflexivity)) as (z & Hz & Hlt).
  assert (E : grind_zeros calm ch 0 = Ok 64%N) by (vm_compute; reflexivity). rewrite E in Hz. injection Hz as <-. discriminate Hlt.
Qed.

Definition calm_memory : @cairo_memory calm := mini_memory.
Lemma calm_z_found (pi : public_inputs calm) : z_found calm 1 (cairo_air pi default_test_options 8).
Proof.
  intros d t Hd. exists (f252 5 : calm), t. destruct t.
  assert (Hl : match domain_new (cairo_air pi default_test_options 8) with
      Ok d => existsb (Z.eqb 5) (map (fun x : calm => zval (x : zp stark_p)) (lde_roots_of_unity_coset d)) || existsb (Z.eqb 5) (map (fun x : calm => zval (x : zp stark_p)) (trace_roots_of_unity d))
      | _ => true end = false) by (vm_compute; reflexivity).
  rewrite Hd in Hl. apply orb_false_iff in Hl. destruct Hl as [H1 H2]. cbn [sample_z_ood].
  assert (Hf : transcript_to_field calm (tt : e_tr calm) = Ok (f252 5 : calm, tt : e_tr calm)).
  { unfold transcript_to_field. cbn [tr_challenge calm ce_env calm_env e_tr calm_transcript].
    change (randomness_to_field calm (repeat Byte.x00 31 ++ [Byte.x05])) with (Ok (f252 5 : calm)). reflexivity. }
  rewrite Hf. cbn [obind].
  assert (G : forall l, existsb (fun x : calm => feqb x (f252 5 : calm)) l = existsb (Z.eqb 5) (map (fun x : calm => zval (x : zp stark_p)) l)).
  { induction l as [|x l IH]; [reflexivity|]. cbn [existsb map]. rewrite IH. f_equal. apply Z.eqb_sym. }
  rewrite !G, H1, H2. reflexivity.
Qed.

(** The run stays a run: nothing in its definition mentions the transcript. *)
Definition calm_state (s : cpu_state stark) : cpu_state calm := mk_state (s_pc s : calm) (s_ap s : calm) (s_fp s : calm).
Lemma calm_executes t s : executes mini_memory t s -> executes calm_memory t (calm_state s).
Proof.
  intros (w & dst & op0 & op1 & res & H & Hd & Ho). exists w, (dst : calm), (op0 : calm), (op1 : calm), (res : calm). split; [|split; assumption].
  destruct H. constructor; assumption.
Qed.
Lemma calm_provable : provable_run calm_memory mini_regs 5 None None.
Proof.
  destruct mini_provable as [(H1 & H2 & H3) ? ? ? ? ? ?]. constructor; try assumption; try discriminate.
  split; [exact H1|]. split; [exact H2|]. intros i t Ht. destruct (H3 i t Ht) as (s' & He & Hn). exists (calm_state s'). split; [exact (calm_executes t s' He)|].
  intros t' Ht'. rewrite (Hn t' Ht'). reflexivity.
Qed.
Lemma calm_rows t pi : generate_prover_args (C := calm) mini_regs calm_memory 5 None None = Ok (t, pi) -> tt_n_rows t = 8%nat.
Proof.
  intro H. assert (E : match generate_prover_args (C := calm) mini_regs calm_memory 5 None None with Ok (t, _) => tt_n_rows t | _ => 0%nat end = 8%nat) by (vm_compute; reflexivity).
  rewrite H in E. exact E.
Qed.
