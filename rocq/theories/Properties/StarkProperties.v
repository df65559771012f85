(** C28, C31, C32, C33: the prover and the verifier together. *)
From Coq Require Import List Arith Lia Bool NArith ZArith.
From Verif.Base Require Import Outcome Bytes Field Poly Zp.
From Verif.Model Require Import Codec Trace Merkle Air Transcript Domain Fri Prover Verifier ExampleAirs.
From Verif.Spec Require Import AirSpec ExampleSpec ProverLog.
From Verif.Proofs Require Import OutcomeFacts FieldFacts PolyFacts FFTFacts TraceFacts DomainFacts TranscriptFacts
  ComposeFacts DeepFacts Completeness Replay ExampleFacts.
From Verif.Examples Require Import Toy.
From Verif.Properties Require Import ExampleProperties.
Import ListNotations.
Local Open Scope felt_scope.

(** ** C28 *)

(** [prove_log] (Spec/ProverLog.v) is the prover that also reports the challenges it used. *)
Theorem C28_log_is_the_prover :
  forall (E : env) fuel mk mt, prove E fuel mk mt = obind (prove_log E fuel mk mt) (fun x => Ok (fst x)).
Proof. intros. apply prove_log_erase. Qed.
Print Assumptions C28_log_is_the_prover.

(** On the prover's proof the verifier's first step derives exactly the challenges the prover used: RAP
    challenges, coefficients, [z], DEEP coefficients, FRI challenges, indices, and the zeros of the nonce.
    Nothing is assumed about the trace or the constraints. *)
Theorem C28_verifier_replays_the_prover :
  forall (E : env) fuel mk mt r b proof c, env_ok E ->
    let a := mk (tt_n_rows mt) in
    a_trace_length a = (2 ^ r)%nat -> (1 <= r)%nat -> a_blowup a = (2 ^ b)%nat ->
    prove_log E fuel mk mt = Ok (proof, c) ->
    exists d t, domain_new a = Ok d /\ step_1 E fuel a proof d tr_new = Ok (c, t).
Proof. intros E fuel mk mt r b proof c HE a Hn Hr Hb H. exact (replay HE fuel mk mt r b proof c Hn Hr Hb H). Qed.
Print Assumptions C28_verifier_replays_the_prover.

(** Non-vacuity: the toy prover returns a proof (even for a column that is no Fibonacci sequence). *)
Definition toy_table (col : list Z) : trace_table toy := mk_trace (map f97 col : list toy) 1.
Example C28_example :
  is_ok (prove_log toy 20 (fibonacci_air toy (f97 1) (f97 1) toy_opts) (toy_table [1; 1; 2; 3]%Z)) = true.
Proof. vm_compute. reflexivity. Qed.

(** ** C31 *)

(** For every valid trace, and at every out-of-domain point (outside the trace domain) with any
    coefficients, the verifier's second step accepts the prover's out-of-domain values: the composition
    value recomputed from the frame equals H1(z^2) + z H2(z^2). *)
Theorem C31_out_of_domain_check_accepts :
  forall (E : env) (a : air E) r b k mt d t r1 t1 bcs tcs bco r2 z (p : stark_proof E) (c : challenges E a),
    env_ok E -> admissible a r b k -> valid_trace a r mt -> domain_new a = Ok d ->
    round_1 E a mt d t = Ok (r1, t1) -> a_boundary a (r1_rap E a r1) = Ok bcs ->
    round_2 E a d r1 tcs bco = Ok r2 -> fpow z (2 ^ r) <> 1 ->
    let r3 := round_3 E a d r1 r2 z in
    trace_ood_frame_evaluations p = mk_frame (concat (r3_trace_ood E r3)) (length (r1_trace_polys E a r1)) ->
    composition_poly_even_ood_evaluation p = peval (r2_even E r2) (z * z) ->
    composition_poly_odd_ood_evaluation p = peval (r2_odd E r2) (z * z) ->
    c_z E a c = z -> c_rap E a c = r1_rap E a r1 -> c_boundary_coeffs E a c = bco -> c_transition_coeffs E a c = tcs ->
    step_2 E a p d c = Ok true.
Proof.
  intros E a r b k mt d t r1 t1 bcs tcs bco r2 z p c HE A Hvt Hd Hr1 Hbcs Hr2 Hz r3 Hfr Hev Hod Hcz Hcr Hcb Hct.
  pose (HK := fft_field_ok _ (e_fft_ok E HE)).
  destruct (domain_new_shape HE a d r b Hd (ad_n _ _ _ _ A) (ad_blowup _ _ _ _ A) (ad_r _ _ _ _ A)) as (g & W & D).
  destruct (round_1_ok HE A D mt _ r1 t1 Hvt Hr1) as (cols & root0 & t0 & Hpne & Hint & Hsat & Hlde & Hpl & Hroot0 & Hrap & Ht1).
  destruct (ad_poly _ _ _ _ A g (ds_g _ _ _ _ _ _ D) (r1_rap E a r1) (r1_trace_polys E a r1) Hpl) as (cs & Hcs & Hdeg); [apply Hint|].
  destruct (round_2_ok HE A D cols (r1_trace_polys E a r1) r1 tcs bco bcs cs r2 Hpne Hint Hsat eq_refl Hlde Hbcs Hcs Hdeg Hr2)
    as (Hel & Hol & Hee & Hoe & Htree & Hroot & Hdb & (mx & Hmx & Hmxle) & Htm & Hid).
  assert (Hp := ad_n _ _ _ _ A). assert (Hbl := ad_blowup _ _ _ _ A). assert (Hb1 := ad_b _ _ _ _ A).
  assert (Hoff := ad_offsets _ _ _ _ A).
  assert (Hzn : fpow z (2 ^ r) - 1 <> 0) by (intro H0; now apply (proj1 (sub_zero HK _ _)) in H0).
  assert (Hfr' : trace_ood_frame_evaluations p = shifted_frame (r1_trace_polys E a r1) (transition_offsets (a_context a)) g z).
  { rewrite Hfr. unfold r3, round_3. cbn [r3_trace_ood]. now rewrite (ds_root _ _ _ _ _ _ D). }
  unfold step_2. rewrite Hcr, Hcz, Hcb, Hct, Hbcs. cbn [obind].
  rewrite usub_ok by (rewrite Hp; exact Hdb). cbn [obind]. rewrite Hp, Hfr', (ds_root _ _ _ _ _ _ D).
  rewrite (boundary_ood_val HE D Hp Hbl Hb1).
  2:{ rewrite Hoff. pose proof (ad_k _ _ _ _ A). destruct k; [lia|reflexivity]. }
  2:{ intros bc Hin. destruct (ts_boundary _ _ _ _ Hsat bcs bc Hbcs Hin) as (_ & H2 & _). destruct Hint as (Hl & _). rewrite Hl. exact H2. }
  2:{ exact Hzn. }
  cbn [obind]. rewrite Hcs. cbn [obind].
  assert (Hlast : hd_error (rev (trace_roots_of_unity d)) = Some (fpow g (2 ^ r - 1))).
  { rewrite (shape_trace_coset HE D). unfold coset. replace (2 ^ r)%nat with (S (2 ^ r - 1)) at 1 by (pose proof (pow2_pos r); lia).
    rewrite seq_S, map_app, rev_app_distr. cbn [map rev app hd_error Nat.add]. f_equal. apply (Ring_theory.Rmul_1_l (Field_theory.F_R (fld_th E HK))). }
  rewrite Hlast. cbn [unwrap obind].
  rewrite (transition_ood_val HE D Hp Hbl Hb1 cs tcs z mx).
  2: exact (ad_ex_le _ _ _ _ A). 2: exact (ad_ex_ne _ _ _ _ A). 2: exact Hmx. 2: exact Hmxle. 2: exact Htm. 2: exact Hzn.
  cbn [obind]. f_equal. apply (feqb_spec E HK). rewrite Hev, Hod, (Hid z Hzn).
  apply (Ring_theory.Radd_comm (Field_theory.F_R (fld_th E HK))).
Qed.
Print Assumptions C31_out_of_domain_check_accepts.

(** Non-vacuity: the toy Fibonacci AIR and table are admissible and valid, and rounds 1 and 2 run on them. *)
Example C31_example :
  let a := fibonacci_air toy (f97 1) (f97 1) toy_opts 4 in
  admissible a 2 1 3 /\ valid_trace a 2 (toy_table [1; 1; 2; 3]%Z) /\
  is_ok (obind (domain_new a) (fun d => obind (round_1 toy a (toy_table [1; 1; 2; 3]%Z) d tr_new) (fun x =>
           round_2 toy a d (fst x) [(f97 3, f97 4)] [(f97 5, f97 6); (f97 7, f97 8)]))) = true.
Proof.
  intro a. split; [exact (fibonacci_admissible toy_ok (f97 1) (f97 1) toy_opts 2 1 toy_usable)|]. split; [|vm_compute; reflexivity].
  apply (fibonacci_valid toy_ok (f97 1) (f97 1) toy_opts 2); [lia|].
  cbn -[f97 fadd]. unfold toy_table. cbn [map]. repeat f_equal; apply zp_eq; vm_compute; reflexivity.
Qed.

(** ** C32 *)

(** With frame offsets [0, 1, .., k-1], the value the verifier reconstructs at a query point [x] from an
    opening with the honest values is the value of the prover's DEEP polynomial. *)
Theorem C32_deep_reconstruction :
  forall (E : env) (a : air E) (polys : list (poly E)) n (g z : E) k r2 r3 gamma gamma_p (m : list (list E))
         (p : stark_proof E) (c : challenges E a) (o : deep_openings E) x,
    env_ok E -> Forall (fun p : poly E => (length p <= n)%nat) polys -> (0 < n)%nat -> polys <> [] ->
    transition_offsets (a_context a) = seq 0 k ->
    length m = length polys -> Forall (fun row => length row = k) m ->
    (length (r2_even E r2) <= n)%nat -> (length (r2_odd E r2) <= n)%nat ->
    r3 = mk_round3 E (shifted_rows polys (seq 0 k) g z) (peval (r2_even E r2) (z * z)) (peval (r2_odd E r2) (z * z)) ->
    trace_ood_frame_evaluations p = mk_frame (concat (r3_trace_ood E r3)) (length polys) ->
    composition_poly_even_ood_evaluation p = r3_even_ood E r3 -> composition_poly_odd_ood_evaluation p = r3_odd_ood E r3 ->
    c_trace_term_coeffs E a c = m -> c_gamma_even E a c = gamma -> c_gamma_odd E a c = gamma_p ->
    lde_composition_poly_even_evaluation o = peval (r2_even E r2) x ->
    lde_composition_poly_odd_evaluation o = peval (r2_odd E r2) x ->
    lde_trace_evaluations o = map (fun q => peval q x) polys ->
    (forall i, x <> z * fpow g i) -> x <> z * z ->
    exists P, compute_deep_composition_poly E a polys r2 r3 z g gamma gamma_p (concat m) = Ok P /\
      reconstruct_deep E p a c (finv (x - z * z)) (map (fun row => finv (x - z * fpow g row)) (seq 0 k)) o = Ok (peval P x).
Proof.
  intros E a polys n g z k r2 r3 gamma gamma_p m p c o x HE Hpl Hn Hne Hoff Hm Hmk He Ho Hr3 Hfr Hev Hod Hcm Hce Hco Hoe Hoo Hot Hx1 Hx2.
  pose (HK := fft_field_ok _ (e_fft_ok E HE)).
  assert (Hgood : good g z x).
  { split; [intros i|]; intro H0; apply (proj1 (sub_zero HK _ _)) in H0; [exact (Hx1 i H0)|exact (Hx2 H0)]. }
  destruct (deep_poly_ok HK a polys n g z k Hpl Hn Hoff r2 r3 gamma gamma_p m Hm Hmk He Ho Hr3) as (P & HP & _ & Hv).
  exists P. split; [exact HP|].
  assert (Hpos : (0 < length polys)%nat) by (destruct polys; [congruence|cbn; lia]).
  rewrite (reconstruct_deep_ok HK a polys n g z k Hpl Hn Hoff p c o x m (r2_even E r2) (r2_odd E r2)); auto.
  - rewrite (Hv x Hgood), Hce, Hco. reflexivity.
  - rewrite Hfr, Hr3. reflexivity.
  - now rewrite Hev, Hr3.
  - now rewrite Hod, Hr3.
Qed.
Print Assumptions C32_deep_reconstruction.

Example C32_example : let x := f97 5 : toy in let z := f97 2 : toy in let g := f97 22 : toy in
  (forall i, x <> z * fpow g i) /\ x <> z * z.
Proof.
  cbv zeta. split.
  - intros i H. pose proof (f_equal (fun y : toy => fpow y 4) H) as H4. cbv beta in H4.
    pose (HK := fft_field_ok _ (e_fft_ok toy toy_ok)).
    rewrite (fpow_mul_base HK), (fpow_comm HK) in H4.
    assert (H1 : fpow (f97 22 : toy) 4 = 1) by (apply zp_eq; vm_compute; reflexivity).
    rewrite H1, (fpow_one HK) in H4. apply (f_equal (@zval 97)) in H4. vm_compute in H4. discriminate.
  - intro H. apply (f_equal (@zval 97)) in H. vm_compute in H. discriminate.
Qed.

(** An AIR whose frame skips a row: x_{i+2} = x_i on every row, offsets [0, 2]. *)
Definition gap_air (opts : proof_options) (n : nat) : air toy := {|
  a_rap := unit;
  a_context := (mk_context opts 1 [1] [0; 2] [0] 1 0)%nat;
  a_trace_length := n;
  a_build_aux := fun _ _ => Ok (tt_empty toy);
  a_build_rap := fun t => Ok (tt, t);
  a_n_aux := 0%nat;
  a_degree_bound := n;
  a_transition := fun fr _ => obind (fr_get_row fr 0) (fun r0 => obind (fr_get_row fr 1) (fun r1 =>
    obind (idx r0 0) (fun x => obind (idx r1 0) (fun y => Ok [y - x]))));
  a_boundary := fun _ => Ok [mk_bc 0%nat 0%nat (f97 1)]
|}.

(** FINDING: for offsets other than [0, 1, 2, ..], accepted by the API, the verifier divides by
    [x - z g^row] where the prover divided by [x - z g^offset], and honest proofs are rejected. *)
Theorem C32_other_offsets_refuted :
  exists (mk : nat -> air toy) mt, env_ok toy /\ tt_n_rows mt = 4%nat /\
    transition_offsets (a_context (mk 4%nat)) = [0; 2]%nat /\ valid_trace (mk 4%nat) 2 mt /\
    obind (prove toy 20 mk mt) (fun p => verify toy 20 mk (a_options (mk 4%nat)) p) = Ok false.
Proof.
  exists (gap_air toy_opts), (toy_table [1; 2; 1; 2]%Z). split; [exact toy_ok|]. split; [reflexivity|]. split; [reflexivity|]. split.
  - apply (valid_no_aux (E := toy) _ 2 _ [map f97 [1; 2; 1; 2]%Z]); try reflexivity; [discriminate|..].
    + split; [reflexivity|]. split; [intros c [<-|[]]; reflexivity|reflexivity].
    + intros []. split.
      * intros bcs bc H Hin. apply ok_inj in H. subst bcs. destruct Hin as [<-|[]]. cbn. repeat split; lia.
      * intros i Hi. change (2 ^ 2)%nat with 4%nat in *. eexists. split; [reflexivity|]. intros j e Hj _.
        assert (Hj0 : j = 0%nat) by (destruct j as [|[|j]]; [reflexivity|discriminate..]). subst j.
        do 4 (destruct i as [|i]; [apply zp_eq; vm_compute; reflexivity|]). lia.
  - vm_compute. reflexivity.
Qed.
Print Assumptions C32_other_offsets_refuted.

(** ** C33 *)

(** Completeness: for every environment (field, hash functions, transcript), AIR, trace and parameters,
    if the parameters are admissible and the trace valid, a proof the prover returns is accepted. *)
Theorem C33_completeness :
  forall (E : env) (mk : nat -> air E) (mt : trace_table E) r b k fuel proof, env_ok E ->
    let a := mk (tt_n_rows mt) in
    admissible a r b k -> tt_n_rows mt = (2 ^ r)%nat -> valid_trace a r mt ->
    prove E fuel mk mt = Ok proof ->
    verify E fuel mk (a_options a) proof = Ok true.
Proof. intros E mk mt r b k fuel proof HE. exact (completeness HE mk mt r b k fuel proof). Qed.
Print Assumptions C33_completeness.

Example C33_example : is_ok (prove toy 20 (fibonacci_air toy (f97 1) (f97 1) toy_opts) (toy_table [1; 1; 2; 3]%Z)) = true /\
  obind (prove toy 20 (fibonacci_air toy (f97 1) (f97 1) toy_opts) (toy_table [1; 1; 2; 3]%Z))
        (verify toy 20 (fibonacci_air toy (f97 1) (f97 1) toy_opts) toy_opts) = Ok true.
Proof. split; vm_compute; reflexivity. Qed.

(** The hypothesis that the coset contains no square is needed. FINDING: with a square coset offset the
    verifier panics on an honest proof when z^2 happens to be a queried point. *)
Theorem C33_square_coset_refuted :
  exists (mk : nat -> air toy) mt, env_ok toy /\ tt_n_rows mt = 4%nat /\
    valid_trace (mk 4%nat) 2 mt /\
    is_ok (prove toy 20 mk mt) = true /\
    obind (prove toy 20 mk mt) (fun p => verify toy 20 mk (a_options (mk 4%nat)) p) = Panic.
Proof.
  exists (fibonacci_air toy (f97 11) (f97 1) (mk_options 2 2 4 1)), (toy_table [11; 1; 12; 13]%Z).
  split; [exact toy_ok|]. split; [reflexivity|]. split.
  - apply (fibonacci_valid toy_ok (f97 11) (f97 1) (mk_options 2 2 4 1) 2); [lia|].
    cbn -[f97 fadd]. unfold toy_table. cbn [map]. repeat f_equal; apply zp_eq; vm_compute; reflexivity.
  - split; vm_compute; reflexivity.
Qed.
Print Assumptions C33_square_coset_refuted.
