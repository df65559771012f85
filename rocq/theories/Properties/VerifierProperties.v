(** C34, C35, C36, C49, C50: what the verifier checks and what it does not. *)
From Coq Require Import List Arith Lia Bool NArith ZArith.
From Verif.Base Require Import Outcome Bytes Field Poly Zp.
From Verif.Model Require Import Codec Trace Merkle Air Transcript Domain Fri Prover Verifier ExampleAirs.
From Verif.Spec Require Import AirSpec ExampleSpec VerifierSpec Forgery.
From Verif.Proofs Require Import OutcomeFacts FieldFacts PolyFacts FFTFacts TraceFacts DomainFacts TranscriptFacts FriFacts
  VerifierFacts VerifierTotal StatementFacts ExampleFacts.
From Verif.Examples Require Import Toy.
From Verif.Properties Require Import ExampleProperties StarkProperties.
Import ListNotations.
Local Open Scope felt_scope.

(** ** C34 *)

(** Whenever the verifier returns, it returns [true] exactly when [accepted] (Spec/VerifierSpec.v) holds of the
    challenges derived from the proof: enough decommitments, enough grinding, the out-of-domain identity, and for
    all queries that are present the FRI folding chain, the composition openings and the DEEP value. *)
Theorem C34_verdict_exact :
  forall (E : env) fuel (mk : nat -> air E) opts (p : stark_proof E) r b verdict, env_ok E ->
    let a := mk (trace_length p) in
    a_trace_length a = (2 ^ r)%nat -> (1 <= r)%nat -> a_blowup a = (2 ^ b)%nat ->
    (forall e, In e (transition_exemptions (a_context a)) -> (e <= 2 ^ r)%nat) ->
    verify E fuel mk opts p = Ok verdict ->
    (verdict = true <-> exists d c t, domain_new a = Ok d /\ step_1 E fuel a p d tr_new = Ok (c, t) /\
        accepted a opts p c r b (trace_primitive_root d) (lde_roots_of_unity_coset d)).
Proof. intros E fuel mk opts p r b v HE. exact (verdict_exact HE fuel mk opts p r b v). Qed.
Print Assumptions C34_verdict_exact.

(** Both verdicts occur: an honest proof, and the same proof with another last FRI value. *)
Definition with_last (v : Z) (p : stark_proof toy) : stark_proof toy :=
  mk_stark_proof (trace_length p) (lde_trace_merkle_roots p) (trace_ood_frame_evaluations p) (composition_poly_root p)
    (composition_poly_even_ood_evaluation p) (composition_poly_odd_ood_evaluation p) (fri_layers_merkle_roots p)
    (f97 v) (query_list p) (deep_poly_openings p) (nonce p).
Definition fib_toy := fibonacci_air toy (f97 1) (f97 1) toy_opts.
Example C34_example :
  obind (prove toy 20 fib_toy (toy_table [1; 1; 2; 3]%Z)) (fun p => verify toy 20 fib_toy toy_opts p) = Ok true /\
  obind (prove toy 20 fib_toy (toy_table [1; 1; 2; 3]%Z)) (fun p => verify toy 20 fib_toy toy_opts (with_last 50 p)) = Ok false.
Proof. split; vm_compute; reflexivity. Qed.

(** ** C35 *)

(** FINDING. For every statement (whether or not it has a satisfying trace), every choice of trace and composition
    commitments, frame values and last FRI value, there are an even part and a nonce which make the verifier accept
    a proof without FRI layers and without openings. [statement_ok], [sampling_ok], [z_found] and [nonce_found]
    (Spec/Forgery.v) only say that the AIR's and the external functions do not panic and that the two searches end. *)
Theorem C35_universal_forgery :
  forall (E : env) fuel (mk : nat -> air E) n roots comp_root data (last v : E) r b rows width root, env_ok E -> sampling_ok E ->
    let a := mk n in let opts := a_options a in
    statement_ok E a r b rows width root -> z_found E fuel a -> nonce_found E (grinding_factor opts) ->
    hd_error roots = Some root -> length data = (rows * width)%nat ->
    exists even nn, verify E fuel mk opts
      (mk_stark_proof n roots (mk_frame data width) comp_root even 0 [] last
         (repeat (mk_fri_decommitment [] [] [] [v]) (fri_number_of_queries opts)) [] nn) = Ok true.
Proof. intros E fuel mk n roots comp_root data last v r b rows width root HE HS. exact (forgery HE HS fuel mk n roots comp_root data last v r b rows width root). Qed.
Print Assumptions C35_universal_forgery.

(** The program [forge] finds it: whenever it returns a proof of this kind and the verifier returns, it accepts. *)
Theorem C35_forger_succeeds :
  forall (E : env) fuel (mk : nat -> air E) n roots comp_root fr (last v : E) r b p verdict, env_ok E -> sampling_ok E ->
    let a := mk n in let opts := a_options a in
    a_trace_length a = (2 ^ r)%nat -> (1 <= r)%nat -> a_blowup a = (2 ^ b)%nat ->
    (forall e, In e (transition_exemptions (a_context a)) -> (e <= 2 ^ r)%nat) ->
    forge E fuel a n roots comp_root fr [] last (repeat (mk_fri_decommitment [] [] [] [v]) (fri_number_of_queries opts)) [] = Ok p ->
    verify E fuel mk opts p = Ok verdict -> verdict = true.
Proof.
  intros E fuel mk n roots comp_root fr last v r b p verdict HE HS a opts Hn Hr Hb He Hf Hv.
  destruct (forge_spec HE HS _ _ _ _ _ _ _ _ _ _ _ Hf) as ((even & nn & Ep) & d & c & t & Hd & Hc & Hg & H2).
  assert (Htl : trace_length p = n) by (rewrite Ep; reflexivity).
  apply (verdict_exact HE fuel mk opts p r b verdict); rewrite ?Htl; fold a; auto.
  exists d, c, t. split; [exact Hd|]. split; [exact Hc|].
  destruct (domain_new_shape HE a d r b Hd Hn Hb Hr) as (g & W & D). constructor.
  - rewrite Ep. cbn [query_list]. rewrite repeat_length. auto.
  - exact Hg.
  - rewrite (ds_root _ _ _ _ _ _ D). apply (step_2_exact HE D Hn p c true He); auto.
  - rewrite Ep. intros j iota q _ _ k root path ev psym esym zeta Hk. cbn [fri_layers_merkle_roots] in Hk. destruct k; discriminate.
  - rewrite Ep. intros j iota o _ Hj. cbn [deep_poly_openings] in Hj. destruct j; discriminate.
Qed.
Print Assumptions C35_forger_succeeds.

(** The hypotheses hold: Fibonacci over 97 with a constant transcript. *)
Definition still_fib (n : nat) : air still := fibonacci_air still (f97 1) (f97 1) (mk_options 2 2 5 0) n.
Lemma still_sampling : sampling_ok still.
Proof.
  constructor.
  - intros []. reflexivity.
  - cbn. lia.
  - intros bs _ _. cbn. eauto.
  - intros bs. cbn [e_keccak still toy]. rewrite app_length. cbn. lia.
Qed.
Lemma still_statement root : statement_ok still (still_fib 4) 2 1 3 1 root.
Proof.
  constructor; try reflexivity; try (cbn; lia); try discriminate.
  - exact (proj2 (proj2 (proj2 toy_usable))).
  - eexists tt, _. reflexivity.
  - intros [] t _. eexists. split; [reflexivity|]. split; [intros; lia|]. intros bc [<-|[<-|[]]]; cbn; lia.
  - intros [] data Hl. destruct data as [|x [|y [|z [|]]]]; try discriminate. eexists. reflexivity.
Qed.
Lemma still_z_found : z_found still 1 (still_fib 4).
Proof.
  intros d t Hd. exists (f97 3), t. destruct t. 
  assert (Hl : map (@zval 97) (lde_roots_of_unity_coset d) = [5; 29; 13; 56; 92; 68; 84; 41]%Z /\ map (@zval 97) (trace_roots_of_unity d) = [1; 22; 96; 75]%Z).
  { assert (Hc : match domain_new (still_fib 4) with Ok d => (map (@zval 97) (lde_roots_of_unity_coset d), map (@zval 97) (trace_roots_of_unity d)) | _ => ([], []) end =
       ([5; 29; 13; 56; 92; 68; 84; 41]%Z, [1; 22; 96; 75]%Z)) by (vm_compute; reflexivity).
    rewrite Hd in Hc. split; [exact (f_equal fst Hc)|exact (f_equal snd Hc)]. }
  destruct Hl as [H1 H2]. cbn [sample_z_ood].
  assert (Hf : transcript_to_field still (tt : e_tr still) = Ok (f97 3, tt : e_tr still)).
  { unfold transcript_to_field. cbn [tr_challenge still e_tr still_transcript]. 
    change (randomness_to_field still (repeat Byte.x00 31 ++ [Byte.x03])) with (Ok (f97 3)). reflexivity. }
  rewrite Hf. cbn [obind].
  assert (G : forall l, existsb (fun x : still => feqb x (f97 3)) l = existsb (Z.eqb 3) (map (@zval 97) l)).
  { induction l as [|x l IH]; [reflexivity|]. cbn [existsb map]. rewrite IH. f_equal.
    change (feqb x (f97 3)) with (Z.eqb (zval x) 3). apply Z.eqb_sym. }
  rewrite !G, H1, H2. reflexivity.
Qed.
Lemma still_nonce_found : nonce_found still 0.
Proof.
  intros ch. destruct (generate_nonce_total still_sampling ch 0) as [o Ho]. rewrite Ho.
  destruct o as [nn|]; [eauto|]. exfalso. destruct (generate_nonce_none still_sampling ch 0 Ho 0%N ltac:(reflexivity)) as (z & _ & Hz). lia.
Qed.
Example C35_hypotheses_hold : exists even nn, verify still 1 still_fib (a_options (still_fib 4))
  (mk_stark_proof 4 [[Byte.x07]] (mk_frame (map f97 [10; 20; 30]%Z) 1) [] even 0 [] (f97 8)
     (repeat (mk_fri_decommitment [] [] [] [f97 9]) 2) [] nn) = Ok true.
Proof.
  exact (C35_universal_forgery still 1 still_fib 4 [[Byte.x07]] [] (map f97 [10; 20; 30]%Z) (f97 8) (f97 9) 2 1 3 1 [Byte.x07]
    still_ok still_sampling (still_statement _) still_z_found still_nonce_found eq_refl eq_refl).
Qed.

(** A false statement, accepted: two boundary constraints which no trace meets. *)
Definition absurd_air (n : nat) : air toy :=
  with_constraints (fib_toy n) (a_transition (fib_toy n)) (fun _ => Ok [mk_bc 0%nat 0%nat (f97 1); mk_bc 0%nat 0%nat (f97 2)]).
Theorem C35_soundness_refuted :
  (forall rap cols, ~ trace_satisfies (absurd_air 4) rap cols 4) /\
  exists p, verify toy 20 absurd_air toy_opts p = Ok true.
Proof.
  split.
  - intros rap cols H.
    destruct (ts_boundary _ _ _ _ H _ (mk_bc 0%nat 0%nat (f97 1)) eq_refl (or_introl eq_refl)) as (_ & _ & H1).
    destruct (ts_boundary _ _ _ _ H _ (mk_bc 0%nat 0%nat (f97 2)) eq_refl (or_intror (or_introl eq_refl))) as (_ & _ & H2).
    cbn [bc_step bc_col bc_value] in H1, H2. rewrite H1 in H2. apply (f_equal (@zval 97)) in H2. vm_compute in H2. discriminate.
  - destruct (forge toy 20 (absurd_air 4) 4 [[]] [] (mk_frame (map f97 [10; 20; 30]%Z) 1) [] (f97 8)
       (repeat (mk_fri_decommitment [] [] [] [f97 9]) 2) []) as [p|e|] eqn:Ef.
    + exists p. assert (Hok : match forge toy 20 (absurd_air 4) 4 [[]] [] (mk_frame (map f97 [10; 20; 30]%Z) 1) [] (f97 8)
         (repeat (mk_fri_decommitment [] [] [] [f97 9]) 2) [] with Ok p => verify toy 20 absurd_air toy_opts p | _ => Panic end = Ok true) by (vm_compute; reflexivity).
      rewrite Ef in Hok. exact Hok.
    + exfalso. apply (f_equal is_ok) in Ef. vm_compute in Ef. discriminate.
    + exfalso. apply (f_equal is_ok) in Ef. vm_compute in Ef. discriminate.
Qed.
Print Assumptions C35_soundness_refuted.

(** ** C36 *)

(** FINDING. Replacing the authentication paths of the trace rows by arbitrary ones changes nothing: neither the
    verdict nor whether the verifier panics. *)
Theorem C36_trace_paths_ignored :
  forall (E : env) fuel (mk : nat -> air E) opts (p : stark_proof E) os,
    Forall2 (fun o o' => exists paths, o' = with_trace_paths paths o) (deep_poly_openings p) os ->
    verify E fuel mk opts (with_openings os p) = verify E fuel mk opts p.
Proof. intros E fuel mk opts p os H. exact (verify_paths fuel mk opts p os H). Qed.
Print Assumptions C36_trace_paths_ignored.

(** In particular an accepted proof stays accepted when all of them are dropped. *)
Example C36_example :
  obind (prove toy 20 fib_toy (toy_table [1; 1; 2; 3]%Z)) (fun p =>
    verify toy 20 fib_toy toy_opts (with_openings (map (with_trace_paths []) (deep_poly_openings p)) p)) = Ok true.
Proof. vm_compute. reflexivity. Qed.

(** ** C49 *)

(** On well-shaped proofs the verifier returns, when the boundary constraints can be computed for the challenges which
    follow the proof's first trace commitment ([statement_ok … root]). *)
Theorem C49_well_shaped_proofs_never_panic :
  forall (E : env) fuel (mk : nat -> air E) (p : stark_proof E) r b rows width root, env_ok E -> sampling_ok E ->
    let a := mk (trace_length p) in
    statement_ok E a r b rows width root -> z_found E fuel a -> hd_error (lde_trace_merkle_roots p) = Some root -> proof_shape E a p r b rows width ->
    exists v, verify E fuel mk (a_options a) p = Ok v.
Proof. intros E fuel mk p r b rows width root HE HS. exact (verify_total HE HS fuel mk p r b rows width root). Qed.
Print Assumptions C49_well_shaped_proofs_never_panic.

(** FINDING: it panics on a proof without trace commitment. *)
Theorem C49_no_trace_commitment_panics :
  forall (E : env) fuel (mk : nat -> air E) opts (p : stark_proof E) d,
    lde_trace_merkle_roots p = [] -> (fri_number_of_queries opts <= length (query_list p))%nat ->
    domain_new (mk (trace_length p)) = Ok d -> verify E fuel mk opts p = Panic.
Proof.
  intros E fuel mk opts p d Hr Hq Hd. unfold verify. apply Nat.ltb_ge in Hq. rewrite Hq, Hd. cbn [obind].
  unfold step_1. rewrite Hr. reflexivity.
Qed.
Print Assumptions C49_no_trace_commitment_panics.

(** FINDING: it panics when the claimed trace length (a field of the proof) is zero or divisible by too high a power
    of two: there is no root of unity of that order. Nothing else of the proof matters. *)
Theorem C49_bad_trace_length_panics :
  forall (E : env) fuel (mk : nat -> air E) opts (p : stark_proof E) k m,
    a_trace_length (mk (trace_length p)) = (2 ^ k * m)%nat -> (two_adicity E < k)%nat -> (two_adicity E < 64)%nat ->
    (fri_number_of_queries opts <= length (query_list p))%nat -> verify E fuel mk opts p = Panic.
Proof.
  intros E fuel mk opts p k m Hn Hk Ha Hq. unfold verify. apply Nat.ltb_ge in Hq. rewrite Hq.
  enough (H : domain_new (mk (trace_length p)) = Panic) by now rewrite H.
  unfold domain_new. rewrite Hn. assert (Ht : (two_adicity E < trailing_zeros (2 ^ k * m))%nat).
  { destruct m as [|m]; [rewrite Nat.mul_0_r; exact Ha|]. eapply Nat.lt_le_trans; [exact Hk|]. apply tz_mul_pow2. lia. }
  unfold primitive_root. destruct (Nat.eqb_spec (trailing_zeros (2 ^ k * m)) 0); [lia|].
  apply Nat.ltb_lt in Ht. now rewrite Ht.
Qed.
Print Assumptions C49_bad_trace_length_panics.

(** FINDING: it panics on empty decommitments: for every statement there is such a proof. *)
Theorem C49_empty_decommitment_panics :
  forall (E : env) fuel (mk : nat -> air E) n roots comp_root data (last : E) r b rows width root, env_ok E -> sampling_ok E ->
    let a := mk n in let opts := a_options a in
    statement_ok E a r b rows width root -> z_found E fuel a -> nonce_found E (grinding_factor opts) ->
    hd_error roots = Some root -> length data = (rows * width)%nat -> (1 <= fri_number_of_queries opts)%nat ->
    exists even nn, verify E fuel mk opts
      (mk_stark_proof n roots (mk_frame data width) comp_root even 0 [] last
         (repeat (mk_fri_decommitment [] [] [] []) (fri_number_of_queries opts)) [] nn) = Panic.
Proof.
  intros E fuel mk n roots comp_root data last r b rows width root HE HS a opts HA Hz Hnf Hr Hl Hq.
  exact (empty_decommitment_panics HE HS fuel mk n roots comp_root data last r b rows width root HA Hz Hnf Hr Hl Hq).
Qed.
Print Assumptions C49_empty_decommitment_panics.

(** FINDING: with overflow checks (the debug profile; the release profile computes a wrong domain size instead), it
    panics on proofs with more FRI layers than the evaluation domain has halvings. *)
Theorem C49_too_many_layers_panics :
  forall (E : env) fuel (mk : nat -> air E) n roots comp_root data (last v : E) r b rows width root, env_ok E -> sampling_ok E ->
    let a := mk n in let opts := a_options a in let m := (r + b + 2)%nat in
    statement_ok E a r b rows width root -> z_found E fuel a -> nonce_found E (grinding_factor opts) ->
    hd_error roots = Some root -> length data = (rows * width)%nat -> (1 <= fri_number_of_queries opts)%nat ->
    exists even nn, verify E fuel mk opts
      (mk_stark_proof n roots (mk_frame data width) comp_root even 0 (repeat [] m) last
         (repeat (mk_fri_decommitment (repeat [] m) (repeat v m) (repeat [] m) (repeat v m)) (fri_number_of_queries opts)) [] nn) = Panic.
Proof.
  intros E fuel mk n roots comp_root data last v r b rows width root HE HS a opts m HA Hz Hnf Hr Hl Hq.
  exact (too_many_layers_panics HE HS fuel mk n roots comp_root data last v r b rows width root HA Hz Hnf Hr Hl Hq).
Qed.
Print Assumptions C49_too_many_layers_panics.

Example C49_example :
  verify toy 20 fib_toy toy_opts (mk_stark_proof 4 [] (mk_frame [] 1) [] 0 0 [] 0 (repeat (mk_fri_decommitment [] [] [] []) 2) [] 0) = Panic /\
  verify toy 20 fib_toy toy_opts (mk_stark_proof 64 [[]] (mk_frame [] 1) [] 0 0 [] 0 (repeat (mk_fri_decommitment [] [] [] []) 2) [] 0) = Panic.
Proof. split; vm_compute; reflexivity. Qed.

(** ** C50 *)

(** FINDING. Two statements which differ only in their constraints (the same number of boundary constraints) get the
    same challenges on every proof: the public inputs are not part of the transcript. *)
Theorem C50_challenges_ignore_the_statement :
  forall (E : env) fuel (a : air E) tr bd (p : stark_proof E) d t,
    (forall rap, match a_boundary a rap, bd rap with
                 | Ok bcs, Ok bcs' => length bcs = length bcs' | Err e, Err e' => e = e' | Panic, Panic => True | _, _ => False end) ->
    obind (step_1 E fuel (with_constraints a tr bd) p d t) (fun x => Ok (all_challenges (fst x), snd x)) =
    obind (step_1 E fuel a p d t) (fun x => Ok (all_challenges (fst x), snd x)).
Proof.
  intros E fuel a tr bd p d t H. rewrite (step_1_move fuel a tr bd p d t H).
  destruct (step_1 E fuel a p d t) as [[c t']|e|]; reflexivity.
Qed.
Print Assumptions C50_challenges_ignore_the_statement.

(** FINDING. Hence a proof can be re-used: it is accepted for every statement with the same transition constraints
    whose boundary values satisfy one linear equation, the coefficients of which are known from the proof. *)
Theorem C50_statement_switching :
  forall (E : env) fuel (mk mk' : nat -> air E) opts (p : stark_proof E) bd d c t, env_ok E ->
    let a := mk (trace_length p) in
    mk' (trace_length p) = with_constraints a (a_transition a) bd ->
    (forall rap, match a_boundary a rap, bd rap with
                 | Ok bcs, Ok bcs' => length bcs = length bcs' | Err e, Err e' => e = e' | Panic, Panic => True | _, _ => False end) ->
    domain_new a = Ok d -> step_1 E fuel a p d tr_new = Ok (c, t) ->
    (forall bcs, a_boundary a (c_rap E a c) = Ok bcs -> exists bcs', bd (c_rap E a c) = Ok bcs' /\ same_cells bcs bcs' /\
        boundary_shift (trace_primitive_root d) (c_z E a c) (a_degree_bound a - a_trace_length a) bcs bcs' (c_boundary_coeffs E a c) = 0) ->
    verify E fuel mk opts p = Ok true -> verify E fuel mk' opts p = Ok true.
Proof.
  intros E fuel mk mk' opts p bd d c t HE a Hmk Hlen Hd Hc Hsh H.
  exact (switch HE fuel mk mk' opts p (a_transition a) bd d c t Hmk Hd Hc (fun _ => eq_refl) Hlen Hsh H).
Qed.
Print Assumptions C50_statement_switching.

(** A proof of one Fibonacci run accepted for another: the honest proof for (1, 1) also convinces the verifier of a
    sequence starting with (1 + 41, 1 + v). *)
Definition switched (v : Z) : outcome bool :=
  obind (prove toy 20 fib_toy (toy_table [1; 1; 2; 3]%Z)) (fun p => verify toy 20 (fibonacci_air toy (f97 42) (f97 (1 + v)) toy_opts) toy_opts p).
Example C50_example : switched 6 = Ok true /\ switched 7 = Ok false.
Proof. split; vm_compute; reflexivity. Qed.
