(** C55: the prover does not panic on valid traces, and what it returns is accepted. *)
From Coq Require Import List Arith Lia Bool NArith ZArith.
From Verif.Base Require Import Outcome Field Poly Zp.
From Verif.Model Require Import Codec Trace Air Domain Transcript Options PublicInputs ExampleAirs Prover Verifier CairoDecode CairoTrace CairoAir CairoRunner Cli.
From Verif.Spec Require Import AirSpec ExampleSpec Forgery ProvingSpec CairoSpec CairoRun.
From Verif.Proofs Require Import OutcomeFacts FieldFacts FFTFacts TraceFacts ExampleFacts Completeness CairoAirFacts CairoAdmissible VerifierTotal HonestRun ProverTotal StarkFieldFacts.
From Verif.Examples Require Import Toy Stark252 MiniRun Calm.
From Verif.Properties Require Import ExampleProperties VerifierProperties CairoHonestProperties.
Import ListNotations.
Local Open Scope felt_scope.

(** A proof is produced and accepted, or the auxiliary table cannot be built for the challenges drawn. *)
Theorem C55_proof_or_bad_challenges :
  forall (E : env) (mk : nat -> air E) (mt : trace_table E) r b k fuel, env_ok E -> sampling_ok E -> tt_n_rows mt = (2 ^ r)%nat ->
  let a := mk (2 ^ r)%nat in
  admissible a r b k -> proving_ok a r b -> boundary_computable a mt -> valid_trace a r mt ->
  z_found E fuel a -> nonce_found E (grinding_factor (a_options a)) ->
  (exists proof, prove E fuel mk mt = Ok proof /\ verify E fuel mk (a_options a) proof = Ok true) \/ aux_fails a mt.
Proof.
  intros E mk mt r b k fuel HE HS Hn a HA HP Hb Hv Hz Hno.
  pose proof (prover_total HE HS mk mt r b k fuel) as T. cbv zeta in T. rewrite Hn in T.
  destruct (T HA HP Hb Hv Hz Hno) as [(proof & Hp)|Hx]; [left|right; exact Hx].
  exists proof. split; [exact Hp|].
  pose proof (completeness HE mk mt r b k fuel proof) as K. cbv zeta in K. rewrite Hn in K. exact (K HA eq_refl Hv Hp).
Qed.
Print Assumptions C55_proof_or_bad_challenges.

(** What the four examples without auxiliary columns share. *)
Lemma without_aux (E : env) (mk : nat -> air E) (mt : trace_table E) r b k fuel : env_ok E -> sampling_ok E -> tt_n_rows mt = (2 ^ r)%nat ->
  let a := mk (2 ^ r)%nat in admissible a r b k -> proving_ok a r b -> valid_trace a r mt ->
  (forall main rap, exists aux, a_build_aux a main rap = Ok aux) -> (forall rap, exists bcs, a_boundary a rap = Ok bcs) ->
  z_found E fuel a -> nonce_found E (grinding_factor (a_options a)) ->
  exists proof, prove E fuel mk mt = Ok proof /\ verify E fuel mk (a_options a) proof = Ok true.
Proof.
  intros HE HS Hn a HA HP Hv Hx Hb Hz Hno.
  destruct (C55_proof_or_bad_challenges E mk mt r b k fuel HE HS Hn HA HP (fun rap _ _ => Hb rap) Hv Hz Hno) as [H|(rap & _ & H)]; [exact H|].
  destruct (Hx mt rap) as [aux Haux]. now destruct (H aux).
Qed.
Lemma pow2_mono r : (2 <= r)%nat -> (4 <= 2 ^ r)%nat.
Proof. intro H. change 4%nat with (2 ^ 2)%nat. apply Nat.pow_le_mono_r; lia. Qed.

Theorem C55_fibonacci :
  forall (E : env) (a0 a1 : E) opts r b fuel, env_ok E -> sampling_ok E -> usable_options E opts r b -> (2 <= r)%nat -> (r + b <= two_adicity E)%nat ->
  z_found E fuel (fibonacci_air E a0 a1 opts (2 ^ r)) -> nonce_found E (grinding_factor opts) ->
  exists mt proof, fibonacci_trace E a0 a1 (2 ^ r) = Ok mt /\ prove E fuel (fibonacci_air E a0 a1 opts) mt = Ok proof /\
    verify E fuel (fibonacci_air E a0 a1 opts) opts proof = Ok true.
Proof.
  intros E a0 a1 opts r b fuel HE HS Hu Hr Ht Hz Hno. pose proof (pow2_mono r Hr) as H4.
  destruct (fibonacci_trace_ok HE a0 a1 (2 ^ r) ltac:(lia)) as (mt & Hmt & _). exists mt.
  destruct (fibonacci_valid HE a0 a1 opts r mt ltac:(lia) Hmt) as [Hn Hv].
  destruct (without_aux E (fibonacci_air E a0 a1 opts) mt r b 3 fuel HE HS Hn (fibonacci_admissible HE a0 a1 opts r b Hu)) as (proof & H); eauto.
  - constructor; cbn; try easy.
    + intros e [<-|[]]. lia.
    + intros deg [<-|[]]. lia.
    + eauto.
  - cbn. eauto.
  - cbn. eauto.
Qed.
Print Assumptions C55_fibonacci.

Theorem C55_fibonacci_2_columns :
  forall (E : env) (a0 a1 : E) opts r b fuel, env_ok E -> sampling_ok E -> usable_options E opts r b -> (r + b <= two_adicity E)%nat ->
  z_found E fuel (fibonacci_2_cols_air E a0 a1 opts (2 ^ r)) -> nonce_found E (grinding_factor opts) ->
  exists mt proof, fibonacci_trace_2_columns E a0 a1 (2 ^ r) = Ok mt /\ prove E fuel (fibonacci_2_cols_air E a0 a1 opts) mt = Ok proof /\
    verify E fuel (fibonacci_2_cols_air E a0 a1 opts) opts proof = Ok true.
Proof.
  intros E a0 a1 opts r b fuel HE HS Hu Ht Hz Hno. pose proof (pow2_ge2 r (proj1 Hu)) as H4.
  destruct (fibonacci2_trace_ok HE a0 a1 (2 ^ r) ltac:(lia)) as (mt & Hmt & _). exists mt.
  destruct (fibonacci2_valid HE a0 a1 opts r mt (proj1 Hu) Hmt) as [Hn Hv].
  destruct (without_aux E (fibonacci_2_cols_air E a0 a1 opts) mt r b 2 fuel HE HS Hn (fibonacci2_admissible HE a0 a1 opts r b Hu)) as (proof & H); eauto.
  - constructor; cbn; try easy.
    + intros e [<-|[<-|[]]]; lia.
    + intros deg [<-|[<-|[]]]; lia.
    + eauto.
  - cbn. eauto.
  - cbn. eauto.
Qed.
Print Assumptions C55_fibonacci_2_columns.

Theorem C55_quadratic :
  forall (E : env) (a0 : E) opts r b fuel, env_ok E -> sampling_ok E -> usable_options E opts r b -> (r + b <= two_adicity E)%nat ->
  z_found E fuel (quadratic_air E a0 opts (2 ^ r)) -> nonce_found E (grinding_factor opts) ->
  exists mt proof, quadratic_trace E a0 (2 ^ r) = Ok mt /\ prove E fuel (quadratic_air E a0 opts) mt = Ok proof /\
    verify E fuel (quadratic_air E a0 opts) opts proof = Ok true.
Proof.
  intros E a0 opts r b fuel HE HS Hu Ht Hz Hno. pose proof (pow2_ge2 r (proj1 Hu)) as H4.
  destruct (quadratic_trace_ok HE a0 (2 ^ r) ltac:(lia)) as (mt & Hmt & _). exists mt.
  destruct (quadratic_valid HE a0 opts r mt (proj1 Hu) Hmt) as [Hn Hv].
  destruct (without_aux E (quadratic_air E a0 opts) mt r b 2 fuel HE HS Hn (quadratic_admissible HE a0 opts r b Hu)) as (proof & H); eauto.
  - constructor; cbn; try easy.
    + intros e [<-|[]]; lia.
    + intros deg [<-|[]]; lia.
    + lia.
    + eauto.
  - cbn. eauto.
  - cbn. eauto.
Qed.
Print Assumptions C55_quadratic.

Theorem C55_dummy :
  forall (E : env) opts r b fuel, env_ok E -> sampling_ok E -> usable_options E opts r b -> (2 <= r)%nat -> (r + b <= two_adicity E)%nat ->
  z_found E fuel (dummy_air E opts (2 ^ r)) -> nonce_found E (grinding_factor opts) ->
  exists mt proof, dummy_trace E (2 ^ r) = Ok mt /\ prove E fuel (dummy_air E opts) mt = Ok proof /\
    verify E fuel (dummy_air E opts) opts proof = Ok true.
Proof.
  intros E opts r b fuel HE HS Hu Hr Ht Hz Hno. pose proof (pow2_mono r Hr) as H4.
  destruct (dummy_trace_ok HE (2 ^ r) ltac:(lia)) as (mt & Hmt & _). exists mt.
  destruct (dummy_valid HE opts r mt (proj1 Hu) Hmt) as [Hn Hv].
  destruct (without_aux E (dummy_air E opts) mt r b 3 fuel HE HS Hn (dummy_admissible HE opts r b Hu)) as (proof & H); eauto.
  - constructor; cbn; try easy.
    + intros e [<-|[<-|[]]]; lia.
    + intros deg [<-|[<-|[]]]; lia.
    + eauto.
  - cbn. eauto.
  - cbn. eauto.
Qed.
Print Assumptions C55_dummy.

(** The RAP example draws one challenge; the auxiliary column divides by its sum with each cell of the second column. *)
Lemma rap_aux_total (E : env) (HE : env_ok E) (mt : trace_table E) (gamma : E) n A B : (0 < n)%nat -> has_columns mt n [A; B] ->
  (forall i, (i + 1 < n)%nat -> nth i B 0 + gamma <> 0) -> exists aux, fibonacci_rap_aux E mt gamma = Ok aux.
Proof.
  pose proof (fft_field_ok _ (e_fft_ok _ HE)) as HK.
  intros Hn Hc Hg. destruct (has_columns_table mt n [A; B] ltac:(easy) Hc) as [Hcols Hrows].
  destruct Hc as (_ & Hl & _). assert (LA := Hl A ltac:(now left)). assert (LB := Hl B ltac:(right; now left)).
  unfold fibonacci_rap_aux. rewrite Hcols, Hrows. cbn [obind idx nth_error unwrap].
  match goal with |- context [ofold ?f _ _] => assert (L : forall m s acc, length acc = s -> (s + m <= n)%nat -> exists Z, ofold f (seq s m) acc = Ok Z /\ length Z = (s + m)%nat) end.
  { induction m as [|m IH]; intros s acc Hs Hm; cbn [seq ofold]; [exists acc; split; [reflexivity|lia]|]. destruct s as [|s].
    - cbn [obind]. destruct (IH 1%nat (acc ++ [1])) as (Z & H1 & H2); [rewrite app_length, Hs; reflexivity|lia|]. exists Z. split; [exact H1|lia].
    - cbn [Nat.sub]. rewrite Nat.sub_0_r. rewrite (idx_nth acc s 0) by lia. cbn [obind]. rewrite (idx_nth A s 0), (idx_nth B s 0) by lia. cbn [obind].
      unfold div_o, inv_o. destruct (feqb (nth s B 0 + gamma) 0) eqn:Ez; [apply (feqb_spec E HK) in Ez; now destruct (Hg s ltac:(lia))|]. cbn [obind].
      destruct (IH (S (S s)) (acc ++ [nth s acc 0 * ((nth s A 0 + gamma) * finv (nth s B 0 + gamma))])) as (Z & H1 & H2); [rewrite app_length, Hs; cbn; lia|lia|].
      exists Z. split; [exact H1|lia]. }
  destruct (L n 0%nat [] eq_refl ltac:(lia)) as (Z & -> & HZ). cbn [obind].
  apply (new_from_cols_total (0 : E) [Z] n ltac:(easy)). intros c [<-|[]]. exact HZ.
Qed.
Theorem C55_fibonacci_rap :
  forall (E : env) steps opts r b fuel, env_ok E -> sampling_ok E -> usable_options E opts r b -> (3 <= steps)%nat -> next_pow2 (steps + 1) = (2 ^ r)%nat ->
  (r + b <= two_adicity E)%nat -> z_found E fuel (fibonacci_rap_air E steps opts (2 ^ r)) -> nonce_found E (grinding_factor opts) ->
  exists mt A B, fibonacci_rap_trace E 1 1 steps = Ok mt /\ has_columns mt (2 ^ r) [A; B] /\
  ((exists proof, prove E fuel (fibonacci_rap_air E steps opts) mt = Ok proof /\ verify E fuel (fibonacci_rap_air E steps opts) opts proof = Ok true) \/
   exists gamma x, first_challenges (fibonacci_rap_air E steps opts (2 ^ r)) mt gamma /\ In x B /\ x + gamma = 0).
Proof.
  intros E steps opts r b fuel HE HS Hu Hs Hnp Ht Hz Hno. pose proof (fft_field_ok _ (e_fft_ok _ HE)) as HK. pose proof (pow2_ge2 r (proj1 Hu)) as H2.
  destruct (rap_trace_ok HE 1 1 steps ltac:(lia)) as (mt & A & B & Hmt & Hc & _). rewrite Hnp in Hc. exists mt, A, B. split; [exact Hmt|]. split; [exact Hc|].
  destruct (rap_valid HE opts steps r mt ltac:(lia) Hnp Hmt) as [Hn Hv].
  assert (Hle : (steps < 2 ^ r)%nat).
  { rewrite <- Hnp. unfold next_pow2. pose proof (Nat.log2_up_spec (steps + 1) ltac:(lia)). lia. }
  destruct (C55_proof_or_bad_challenges E (fibonacci_rap_air E steps opts) mt r b 3 fuel HE HS Hn (rap_admissible HE opts steps r b Hu ltac:(lia)))
    as [H|(gamma & H1 & H3)]; try assumption.
  - constructor; cbn [fibonacci_rap_air a_context a_degree_bound a_build_rap a_boundary transition_exemptions transition_degrees]; try easy.
    + intros e [<-|[<-|[]]]; lia.
    + intros deg [<-|[<-|[]]]; lia.
    + intro t. destruct (field_total HS t) as (z & t' & H). eauto.
  - intros gamma aux _. cbn. eauto.
  - left. exact H.
  - right. cbn [a_build_aux fibonacci_rap_air a_rap] in H3, gamma. exists gamma.
    assert (G : (forall i, (i + 1 < 2 ^ r)%nat -> nth i B 0 + gamma <> 0) \/ exists x, In x B /\ x + gamma = 0).
    { assert (D : (forall x, In x B -> x + gamma <> 0) \/ exists x, In x B /\ x + gamma = 0).
      { clear - HK. induction B as [|x l [IH|(e & P1 & P2)]]; [left; intros e []| |right; exists e; split; [now right|exact P2]].
        destruct (feqb (x + gamma) 0) eqn:Ex; [right; exists x; split; [now left|now apply (feqb_spec E HK)]|].
        left. intros e [<-|He]; [now apply (feqb_false HK)|now apply IH]. }
      destruct D as [D|D]; [left|right; exact D]. intros i Hi. apply D, nth_In. destruct Hc as (_ & Hl & _). rewrite (Hl B ltac:(right; now left)). lia. }
    destruct G as [G|(x & P1 & P2)].
    + destruct (rap_aux_total E HE mt gamma (2 ^ r) A B ltac:(lia) Hc G) as [aux Haux]. now destruct (H3 aux).
    + exists x. split; [exact H1|]. split; [exact P1|]. exact P2.
Qed.
Print Assumptions C55_fibonacci_rap.

(** Cairo: a provable run yields a table, and from it an accepted proof, unless one of the three challenges drawn after
    the commitment to that table is among the finitely many values that the auxiliary columns divide by. *)
Theorem C55_cairo :
  forall (C : cairo_env) p (m : @cairo_memory C) raw size rc out, cairo_ok C p -> sampling_ok C -> provable_run m raw size rc out ->
  exists t pi r, generate_prover_args raw m size rc out = Ok (t, pi) /\ tt_n_rows t = (2 ^ r)%nat /\
  forall opts b fuel, usable_options C opts r b -> (r + b <= two_adicity C)%nat ->
    z_found C fuel (cairo_air pi opts (2 ^ r)) -> nonce_found C (grinding_factor opts) ->
    (exists proof, generate_cairo_proof fuel t pi opts = Ok proof /\ verify_cairo_proof fuel proof pi opts = Ok true) \/
    exists ch, first_challenges (cairo_air pi opts (2 ^ r)) t ch /\ unlucky pi t ch.
Proof.
  intros C p m raw size rc out HC HS HP. pose proof (co_env _ _ HC) as HE.
  destruct (honest_full HC m raw size rc out HP) as (t & pi & r & Hg & Hn & Hr & Hx & Hb & Hv).
  exists t, pi, r. split; [exact Hg|]. split; [exact Hn|]. intros opts b fuel Hu Ht Hz Hno. pose proof (pow2_ge2 r Hr) as H2.
  destruct (C55_proof_or_bad_challenges C (cairo_air pi opts) t r b 2 fuel HE HS Hn (cairo_admissible HE pi opts r b Hu)) as [H|(ch & H1 & H3)]; auto.
  - constructor; cbn [cairo_air a_context a_degree_bound a_build_rap]; try easy.
    + intros e He. apply In_nth_error in He. destruct He as (j & Hj). apply exemption_inv in Hj. destruct Hj as [_ ->]. unfold exempt. destruct (existsb _ _); lia.
    + intros deg Hd. assert (G : (1 <= deg <= 3)%nat).
      { revert deg Hd. apply Forall_forall. cbn [cairo_context transition_degrees]. destruct (has_rc_builtin pi); cbn; repeat constructor. }
      destruct deg as [|[|[|[|deg]]]]; lia.
    + lia.
    + intro tr. unfold cairo_build_rap. destruct (field_total HS tr) as (x & t1 & ->). cbn [obind]. destruct (field_total HS t1) as (y & t2 & ->). cbn [obind].
      destruct (field_total HS t2) as (z & t3 & ->). cbn [obind]. eauto.
  - right. exists ch. split; [exact H1|]. destruct (Hx ch) as [(aux & Haux)|Q]; [now destruct (H3 aux)|exact Q].
Qed.
Print Assumptions C55_cairo.

(** With the options the command line uses, [run prove-and-verify] prints that the proof was verified. *)
Theorem C55_prove_and_verify :
  forall (C : cairo_env) (m : @cairo_memory C) raw size rc, cairo_ok C (Z.to_N stark_p) -> two_adicity C = 192%nat -> sampling_ok C ->
  provable_run m raw size rc None ->
  exists t pi r, generate_prover_args raw m size rc None = Ok (t, pi) /\ tt_n_rows t = (2 ^ r)%nat /\
  forall fuel, (r < 190)%nat -> z_found C fuel (cairo_air pi default_test_options (2 ^ r)) -> nonce_found C (grinding_factor default_test_options) ->
    cli_prove_and_verify fuel raw m size rc = Ok true \/
    exists ch, first_challenges (cairo_air pi default_test_options (2 ^ r)) t ch /\ unlucky pi t ch.
Proof.
  intros C m raw size rc HC HT HS HP. destruct (C55_cairo C _ m raw size rc None HC HS HP) as (t & pi & r & Hg & Hn & K).
  destruct (honest_satisfies HC m raw size rc None HP) as (t' & pi' & r' & Hg' & Hn' & Hr & _).
  rewrite Hg in Hg'. apply ok_inj in Hg'. injection Hg' as <- <-. rewrite Hn in Hn'. apply Nat.pow_inj_r in Hn'; [|lia]. subst r'.
  exists t, pi, r. split; [exact Hg|]. split; [exact Hn|]. intros fuel Hlt Hz Hno.
  destruct (K default_test_options 2%nat fuel) as [(proof & H1 & H2)|H]; auto.
  - apply (default_coset_usable HC); try assumption; try reflexivity; lia.
  - rewrite HT. lia.
  - left. unfold cli_prove_and_verify, cli_generate_proof. rewrite Hg. cbn [obind]. rewrite H1. cbn [obind]. exact H2.
Qed.
Print Assumptions C55_prove_and_verify.

(** Non-vacuity: all premises hold for Fibonacci over 97 with a constant transcript, and for the three-step Cairo run. *)
Lemma still_usable : usable_options still (mk_options 2 2 5 0) 2 1.
Proof. destruct toy_usable as (H1 & H2 & H3 & H4). repeat split; try lia. exact H4. Qed.
Example C55_fibonacci_example : exists mt proof, fibonacci_trace still (f97 1) (f97 1) 4 = Ok mt /\ prove still 1 still_fib mt = Ok proof /\
  verify still 1 still_fib (mk_options 2 2 5 0) proof = Ok true.
Proof. exact (C55_fibonacci still (f97 1) (f97 1) (mk_options 2 2 5 0) 2 1 1 still_ok still_sampling still_usable ltac:(lia) ltac:(cbn; lia) still_z_found still_nonce_found). Qed.
Example C55_cairo_example : exists t pi, generate_prover_args (C := calm) mini_regs calm_memory 5 None None = Ok (t, pi) /\
  (cli_prove_and_verify (C := calm) 1 mini_regs calm_memory 5 None = Ok true \/
   exists ch, first_challenges (cairo_air pi default_test_options 8) t ch /\ unlucky pi t ch).
Proof.
  destruct (C55_prove_and_verify calm calm_memory mini_regs 5 None calm_ok eq_refl calm_sampling calm_provable) as (t & pi & r & Hg & Hn & K).
  rewrite (calm_rows t pi Hg) in Hn. assert (r = 3%nat) as -> by (apply (Nat.pow_inj_r 2); [lia|symmetry; exact Hn]).
  exists t, pi. split; [exact Hg|]. exact (K 1%nat ltac:(lia) (calm_z_found pi) calm_nonce_found).
Qed.
