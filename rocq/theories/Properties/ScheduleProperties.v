(** C76: the Fiat-Shamir schedule. *)
From Coq Require Import List Arith Lia Bool NArith ZArith.
From Verif.Base Require Import Outcome Bytes Field Poly Zp.
From Verif.Model Require Import Codec Trace Merkle Air Transcript Domain Fri Prover Verifier ExampleAirs CairoDecode CairoTrace CairoAir.
From Verif.Spec Require Import CodecSpec ProverLog Forgery Schedule.
From Verif.Proofs Require Import OutcomeFacts BytesFacts FieldFacts TraceFacts TranscriptFacts Replay ScheduleFacts.
From Verif.Examples Require Import Toy.
From Verif.Properties Require Import ExampleProperties StarkProperties VerifierProperties.
Import ListNotations.

(** ** The schedule *)

(** Whatever the proof and the statement: when the verifier derives challenges at all, they are those of the schedule of
    Spec/Schedule.v: the transcript is made of the messages of the proof in the order given there, every challenge is made of the digest
    squeezed at its place, and no digest is used twice or skipped. *)
Theorem C76_verifier_follows_the_schedule :
  forall (E : env) fuel (a : air E) k pick (p : stark_proof E) d c t', env_ok E -> sampling_ok E -> draws a k pick ->
    step_1 E fuel a p d tr_new = Ok (c, t') -> follows a k pick p d c t'.
Proof. intros E fuel a k pick p d c t' HE HS HD H. exact (step_1_follows HS (fft_field_ok _ (e_fft_ok E HE)) fuel a k pick p d c t' HD H). Qed.
Print Assumptions C76_verifier_follows_the_schedule.

(** The challenges the prover used are those of the schedule of the proof it returns. *)
Theorem C76_prover_follows_the_schedule :
  forall (E : env) fuel mk mt r b k pick proof c, env_ok E -> sampling_ok E ->
    let a := mk (tt_n_rows mt) in
    a_trace_length a = (2 ^ r)%nat -> (1 <= r)%nat -> a_blowup a = (2 ^ b)%nat -> draws a k pick ->
    prove_log E fuel mk mt = Ok (proof, c) ->
    exists d t', domain_new a = Ok d /\ follows a k pick proof d c t'.
Proof.
  intros E fuel mk mt r b k pick proof c HE HS a Hn Hr Hb HD H. destruct (replay HE fuel mk mt r b proof c Hn Hr Hb H) as (d & t & Hd & H1).
  exists d, t. split; [exact Hd|]. exact (C76_verifier_follows_the_schedule E fuel a k pick proof d c t HE HS HD H1).
Qed.
Print Assumptions C76_prover_follows_the_schedule.

(** The AIRs of the repository: none, one and three challenges. *)
Theorem C76_airs_draw :
  (forall (E : env) a0 a1 opts n, draws (fibonacci_air E a0 a1 opts n) 0 (fun _ => tt)) /\
  (forall (E : env) a0 a1 opts n, draws (fibonacci_2_cols_air E a0 a1 opts n) 0 (fun _ => tt)) /\
  (forall (E : env) a0 opts n, draws (quadratic_air E a0 opts n) 0 (fun _ => tt)) /\
  (forall (E : env) opts n, draws (dummy_air E opts n) 0 (fun _ => tt)) /\
  (forall (E : env) steps opts n, sampling_ok E -> draws (fibonacci_rap_air E steps opts n) 1 (fun xs => hd fzero xs)) /\
  (forall (C : cairo_env) pi opts n, sampling_ok C ->
     draws (cairo_air pi opts n) 3 (fun xs => CairoAir.mk_challenges (nth 0 xs (fzero : C)) (nth 1 xs (fzero : C)) (nth 2 xs (fzero : C)))).
Proof.
  assert (N : forall (E : env) (a : air E) (u : a_rap a), (forall t, a_build_rap a t = Ok (u, t)) -> draws a 0 (fun _ => u)).
  { intros E a u H t rap t' Hb. rewrite H in Hb. apply ok_inj in Hb. injection Hb as <- <-. split; [reflexivity|]. exists []. split; [constructor|reflexivity]. }
  split; [|split; [|split; [|split; [|split]]]].
  - intros E a0 a1 opts n. exact (N E (fibonacci_air E a0 a1 opts n) tt (fun _ => eq_refl)).
  - intros E a0 a1 opts n. exact (N E (fibonacci_2_cols_air E a0 a1 opts n) tt (fun _ => eq_refl)).
  - intros E a0 opts n. exact (N E (quadratic_air E a0 opts n) tt (fun _ => eq_refl)).
  - intros E opts n. exact (N E (dummy_air E opts n) tt (fun _ => eq_refl)).
  - intros E steps opts n HS t rap t' Hb. cbn [a_build_rap fibonacci_rap_air] in Hb. destruct (field_draw HS t rap t' Hb) as [H1 H2].
    subst t'. split; [reflexivity|]. exists [rap]. cbn. split; [now constructor|reflexivity].
  - intros C pi opts n HS t rap t' Hb. cbn [a_build_rap cairo_air] in Hb. unfold cairo_build_rap in Hb.
    ok_step Hb. destruct v as [x t1]. ok_step Hb. destruct v as [y t2]. ok_step Hb. destruct v as [z t3]. apply ok_inj in Hb. injection Hb as <- <-.
    destruct (field_draw HS _ _ _ Hv) as [-> H1]. destruct (field_draw HS _ _ _ Hv0) as [-> H2]. destruct (field_draw HS _ _ _ Hv1) as [-> H3].
    split; [reflexivity|]. exists [x; y; z]. cbn. split; [now repeat constructor|reflexivity].
Qed.
Print Assumptions C76_airs_draw.

(** ** What the digests bind *)

(** The transcript of lambdaworks-crypto over a hash function of 32 bytes. Two proofs with equally many FRI layers: if the
    digests at the end of round [j] are equal, when equally many were squeezed before, then the proofs agree on everything absorbed so far --
    or two different strings hashed in the two runs have the same hash. So whoever can find no collision has fixed both trace roots when the
    coefficients are drawn ([j = 2]), the composition root at the out-of-domain point ([j = 3]), the out-of-domain values at the DEEP
    coefficients ([j = 4]), every FRI root at its folding challenge, the last value at grinding and the nonce at the positions. *)
Theorem C76_digests_bind_the_messages :
  forall (E : env) hash w L (p p' : stark_proof E) k nb nt tries terms q j,
    (forall x, length (hash x) = 32%nat) -> codec_ok (e_codec E) w -> (0 < L)%nat -> sized L p -> sized L p' ->
    let layers := length (fri_layers_merkle_roots p) in
    layers = length (fri_layers_merkle_roots p') -> (0 < nb + nt)%nat -> (0 < tries)%nat ->
    (1 <= j <= 6 + layers)%nat -> (j = 1%nat -> k <> 0%nat) -> (j = (6 + layers)%nat -> q <> 0%nat) ->
    let rs := firstn j (rounds p k nb nt tries terms q) in
    let rs' := firstn j (rounds p' k nb nt tries terms q) in
    last (digests (events rs) (tr_new : sponge hash)) [] = last (digests (events rs') (tr_new : sponge hash)) [] ->
    agree_upto j p p' \/ collide hash (hashed hash (events rs) []) (hashed hash (events rs') []).
Proof. intros E hash w L p p' k nb nt tries terms q j Hh HC HL Hs Hs' layers. exact (schedule_binds hash w L p p' k nb nt tries terms q j Hh HC HL Hs Hs'). Qed.
Print Assumptions C76_digests_bind_the_messages.

(** The other way round, the messages are all that the challenges depend on. *)
Theorem C76_only_the_messages :
  forall (E : env) fuel (a : air E) (p p' : stark_proof E) d (t : e_tr E),
    fr_row_width (trace_ood_frame_evaluations p) <> 0%nat -> fr_row_width (trace_ood_frame_evaluations p') <> 0%nat ->
    length (fri_layers_merkle_roots p) = length (fri_layers_merkle_roots p') ->
    agree_upto (6 + length (fri_layers_merkle_roots p)) p p' ->
    step_1 E fuel a p d t = step_1 E fuel a p' d t.
Proof.
  intros E fuel a p p' d t W W' Hl (_ & H2 & H3 & H4 & H5 & H6 & H7). destruct (H4 ltac:(lia)) as (Q1 & Q2 & Q3).
  rewrite firstn_all2 in H5 by lia. rewrite firstn_all2 in H5 by lia.
  apply step_1_messages; try assumption; [apply H2|apply H3|apply H6|apply H7]; lia.
Qed.
Print Assumptions C76_only_the_messages.

(** ** What is left out *)

(** The same proof with its out-of-domain cells cut into rows of another width. *)
Definition reshaped {E : env} (p : stark_proof E) (w : nat) : stark_proof E :=
  mk_stark_proof (trace_length p) (lde_trace_merkle_roots p) (mk_frame (fr_data (trace_ood_frame_evaluations p)) w)
    (composition_poly_root p) (composition_poly_even_ood_evaluation p) (composition_poly_odd_ood_evaluation p)
    (fri_layers_merkle_roots p) (fri_last_value p) (query_list p) (deep_poly_openings p) (nonce p).

(** FINDING. The width of the rows of the out-of-domain frame is read from the proof but not absorbed: neither is it part of what the
    challenges depend on, nor do cells behind the last whole row, Merkle roots behind the second or the claimed trace length. *)
Theorem C76_frame_width_not_absorbed :
  forall (E : env) fuel (a : air E) (p : stark_proof E) d (t : e_tr E) w rows rows',
    let cells := length (fr_data (trace_ood_frame_evaluations p)) in
    (0 < cells)%nat -> cells = (rows * fr_row_width (trace_ood_frame_evaluations p))%nat -> cells = (rows' * w)%nat ->
    step_1 E fuel a (reshaped p w) d t = step_1 E fuel a p d t.
Proof.
  intros E fuel a p d t w rows rows' cells H0 H1 H2.
  assert (W : forall (f : frame E) r, length (fr_data f) = cells -> cells = (r * fr_row_width f)%nat -> fr_row_width f <> 0%nat /\ whole_rows f = fr_data f).
  { intros f r Hf Hr. assert (Hw : fr_row_width f <> 0%nat) by (intro Q; rewrite Q, Nat.mul_0_r in Hr; lia). split; [exact Hw|].
    unfold whole_rows. rewrite Hf, Hr, Nat.div_mul by exact Hw. rewrite <- Hr, <- Hf. apply firstn_all. }
  destruct (W (trace_ood_frame_evaluations p) rows eq_refl H1) as [W1 R1]. destruct (W (trace_ood_frame_evaluations (reshaped p w)) rows' eq_refl H2) as [W2 R2].
  apply step_1_messages; try reflexivity; auto. now rewrite R1, R2.
Qed.
Print Assumptions C76_frame_width_not_absorbed.

(** The same proof with more roots, and with another claimed length. *)
Definition padded {E : env} (p : stark_proof E) (extra : list commitment) (n : nat) : stark_proof E :=
  mk_stark_proof n (lde_trace_merkle_roots p ++ extra) (trace_ood_frame_evaluations p)
    (composition_poly_root p) (composition_poly_even_ood_evaluation p) (composition_poly_odd_ood_evaluation p)
    (fri_layers_merkle_roots p) (fri_last_value p) (query_list p) (deep_poly_openings p) (nonce p).
Theorem C76_surplus_not_absorbed :
  forall (E : env) fuel (a : air E) (p : stark_proof E) d (t : e_tr E) extra n,
    (2 <= length (lde_trace_merkle_roots p))%nat -> fr_row_width (trace_ood_frame_evaluations p) <> 0%nat ->
    step_1 E fuel a (padded p extra n) d t = step_1 E fuel a p d t.
Proof.
  intros E fuel a p d t extra n H2 W. apply step_1_messages; try reflexivity; auto.
  cbn [padded lde_trace_merkle_roots]. rewrite firstn_app. replace (2 - _)%nat with 0%nat by lia. now rewrite firstn_O, app_nil_r.
Qed.
Print Assumptions C76_surplus_not_absorbed.

(** Expected: proofs with the same challenges have the same verdict unless their openings or decommitments differ. Refuted. *)
Theorem C76_same_challenges_same_verdict_refuted :
  exists (p p' : stark_proof toy) d c t,
    let a := fib_toy 4%nat in
    domain_new a = Ok d /\ step_1 toy 20 a p d tr_new = Ok (c, t) /\ step_1 toy 20 a p' d tr_new = Ok (c, t) /\
    query_list p = query_list p' /\ deep_poly_openings p = deep_poly_openings p' /\
    verify toy 20 fib_toy toy_opts p = Ok true /\ verify toy 20 fib_toy toy_opts p' <> Ok true.
Proof.
  destruct (prove toy 20 fib_toy (toy_table [1; 1; 2; 3]%Z)) as [p|e|] eqn:Hp; [|vm_compute in Hp; discriminate|vm_compute in Hp; discriminate].
  destruct (domain_new (fib_toy 4%nat)) as [d|e|] eqn:Hd; [|vm_compute in Hd; discriminate|vm_compute in Hd; discriminate].
  assert (L : fr_row_width (trace_ood_frame_evaluations p) = 1%nat /\ length (fr_data (trace_ood_frame_evaluations p)) = 3%nat /\ trace_length p = 4%nat).
  { assert (K : obind (prove toy 20 fib_toy (toy_table [1; 1; 2; 3]%Z)) (fun p => Ok (fr_row_width (trace_ood_frame_evaluations p), length (fr_data (trace_ood_frame_evaluations p)), trace_length p)) = Ok (1, 3, 4)%nat) by (vm_compute; reflexivity).
    rewrite Hp in K. cbn [obind] in K. injection K as K1 K2 K3. auto. }
  destruct L as (L1 & L2 & L3).
  assert (V : obind (prove toy 20 fib_toy (toy_table [1; 1; 2; 3]%Z)) (fun p => verify toy 20 fib_toy toy_opts p) = Ok true) by (vm_compute; reflexivity).
  assert (V' : obind (prove toy 20 fib_toy (toy_table [1; 1; 2; 3]%Z)) (fun p => verify toy 20 fib_toy toy_opts (reshaped p 3)) = Panic) by (vm_compute; reflexivity).
  rewrite Hp in V, V'. cbn [obind] in V, V'.
  assert (S1 : is_ok (obind (prove toy 20 fib_toy (toy_table [1; 1; 2; 3]%Z)) (fun p => obind (domain_new (fib_toy 4%nat)) (fun d => step_1 toy 20 (fib_toy 4%nat) p d tr_new))) = true) by (vm_compute; reflexivity).
  rewrite Hp, Hd in S1. cbn [obind] in S1. destruct (step_1 toy 20 (fib_toy 4%nat) p d tr_new) as [[c t]|e|] eqn:H1; [|discriminate|discriminate].
  exists p, (reshaped p 3), d, c, t. cbv zeta. split; [exact Hd|]. split; [exact H1|]. split.
  - rewrite (C76_frame_width_not_absorbed toy 20 (fib_toy 4%nat) p d tr_new 3 3 1); [exact H1|rewrite L2; lia|now rewrite L1, L2|now rewrite L2].
  - split; [reflexivity|]. split; [reflexivity|]. split; [exact V|]. rewrite V'. discriminate.
Qed.
Print Assumptions C76_same_challenges_same_verdict_refuted.

(** ** What the digests are turned into *)

(** Among the heads of digests, every position has the same number of preimages: one for every [q] below [2^(64-b)]. *)
Theorem C76_positions_are_uniform :
  forall b i, (b <= 64)%nat -> (i < 2 ^ b)%nat ->
    (forall dg, (8 <= length dg)%nat -> index_of (2 ^ b) dg i ->
       exists q, (q < 2 ^ (64 - N.of_nat b))%N /\ be_val (firstn 8 dg) = (N.of_nat i + 2 ^ N.of_nat b * q)%N) /\
    (forall q, (q < 2 ^ (64 - N.of_nat b))%N ->
       exists head, length head = 8%nat /\ be_val head = (N.of_nat i + 2 ^ N.of_nat b * q)%N /\
         (forall head', length head' = 8%nat -> be_val head' = be_val head -> head' = head) /\ forall tail, index_of (2 ^ b) (head ++ tail) i).
Proof.
  intros b i Hb Hi. assert (P : N.of_nat (2 ^ b) = (2 ^ N.of_nat b)%N) by now rewrite Nat2N.inj_pow.
  assert (Hi' : (N.of_nat i < 2 ^ N.of_nat b)%N) by lia.
  assert (S : (2 ^ 64 = 2 ^ N.of_nat b * 2 ^ (64 - N.of_nat b))%N) by (rewrite <- N.pow_add_r; f_equal; lia).
  assert (Hp : (2 ^ N.of_nat b <> 0)%N) by (apply N.pow_nonzero; lia).
  split.
  - intros dg Hl Hx. unfold index_of in Hx. rewrite P in Hx. exists (be_val (firstn 8 dg) / 2 ^ N.of_nat b)%N. split.
    + apply N.div_lt_upper_bound; [exact Hp|]. rewrite <- S. pose proof (be_val_lt (firstn 8 dg)) as B. rewrite firstn_length_le in B by exact Hl. exact B.
    + rewrite Hx, N.add_comm. apply N.div_mod. exact Hp.
  - intros q Hq. exists (be_bytes 8 (N.of_nat i + 2 ^ N.of_nat b * q)). split; [apply length_be_bytes|].
    assert (Hv : be_val (be_bytes 8 (N.of_nat i + 2 ^ N.of_nat b * q)) = (N.of_nat i + 2 ^ N.of_nat b * q)%N).
    { apply be_val_be_bytes. change (256 ^ N.of_nat 8)%N with (2 ^ 64)%N. rewrite S. nia. }
    split; [exact Hv|]. split.
    + intros head' Hl' Hv'. apply be_val_inj; [now rewrite length_be_bytes|exact Hv'].
    + intro tail. unfold index_of. rewrite firstn_app, length_be_bytes, Nat.sub_diag, firstn_O, app_nil_r, firstn_all2 by now rewrite length_be_bytes.
      rewrite Hv, P, (N.mul_comm _ q), N.mod_add by exact Hp. now rewrite N.mod_small.
Qed.
Print Assumptions C76_positions_are_uniform.

(** Likewise for field elements: every number below [2^(bits-1)] has one digest for every [q] below [2^(257-bits)]; numbers from
    there to the modulus are never drawn. *)
Theorem C76_field_values_are_uniform :
  forall (E : env) v, sampling_ok E -> (v < 2 ^ N.of_nat (e_bits E - 1))%N ->
    forall q, (q < 2 ^ N.of_nat (257 - e_bits E))%N ->
      exists dg x, length dg = 32%nat /\ be_val dg = (v + 2 ^ N.of_nat (e_bits E - 1) * q)%N /\
        (forall dg', length dg' = 32%nat -> be_val dg' = be_val dg -> dg' = dg) /\ fe_from (e_codec E) (be_bytes 32 v) = Some x /\ felt_of dg x.
Proof.
  intros E v HS Hv q Hq. destruct (so_bits E HS) as [B1 B2].
  assert (S : (2 ^ 256 = 2 ^ N.of_nat (e_bits E - 1) * 2 ^ N.of_nat (257 - e_bits E))%N) by (rewrite <- N.pow_add_r; f_equal; lia).
  assert (Hp : (2 ^ N.of_nat (e_bits E - 1) <> 0)%N) by (apply N.pow_nonzero; lia).
  assert (Hp' : (2 ^ N.of_nat (257 - e_bits E) <> 0)%N) by (apply N.pow_nonzero; lia).
  assert (V : be_val (be_bytes 32 (v + 2 ^ N.of_nat (e_bits E - 1) * q)) = (v + 2 ^ N.of_nat (e_bits E - 1) * q)%N).
  { apply be_val_be_bytes. change (256 ^ N.of_nat 32)%N with (2 ^ 256)%N. rewrite S. nia. }
  assert (V' : be_val (be_bytes 32 v) = v).
  { apply be_val_be_bytes. change (256 ^ N.of_nat 32)%N with (2 ^ 256)%N. rewrite S. nia. }
  destruct (so_decode E HS (be_bytes 32 v)) as [x Hx]; [apply length_be_bytes|now rewrite V'|].
  exists (be_bytes 32 (v + 2 ^ N.of_nat (e_bits E - 1) * q)), x. split; [apply length_be_bytes|]. split; [exact V|]. split; [|split; [exact Hx|]].
  - intros dg' Hl Hd. apply be_val_inj; [now rewrite length_be_bytes|exact Hd].
  - exists (be_bytes 32 v). split; [now rewrite !length_be_bytes|]. split; [|exact Hx].
    rewrite V, V', (N.mul_comm _ q), N.mod_add by exact Hp. now rewrite N.mod_small.
Qed.
Print Assumptions C76_field_values_are_uniform.

Theorem C76_field_values_are_below_the_top_bit :
  forall (E : env) dg (x : E), length dg = 32%nat -> felt_of dg x ->
    exists v q, (v < 2 ^ N.of_nat (e_bits E - 1))%N /\ be_val dg = (v + 2 ^ N.of_nat (e_bits E - 1) * q)%N /\ fe_from (e_codec E) (be_bytes 32 v) = Some x.
Proof.
  intros E dg x Hl (m & Hm & Hv & Hf). rewrite Hl in Hm.
  assert (Hp : (2 ^ N.of_nat (e_bits E - 1) <> 0)%N) by (apply N.pow_nonzero; lia).
  exists (be_val m), (be_val dg / 2 ^ N.of_nat (e_bits E - 1))%N. split; [rewrite Hv; now apply N.mod_lt|]. split.
  - rewrite Hv, N.add_comm. now apply N.div_mod.
  - rewrite <- Hm, be_bytes_be_val. exact Hf.
Qed.
Print Assumptions C76_field_values_are_below_the_top_bit.

(** Positions are drawn with replacement: with more queries than points some point is asked twice. *)
Theorem C76_positions_repeat :
  forall (E : env) (a : air E) k pick (p : stark_proof E) d c t', follows a k pick p d c t' ->
    (2 ^ lde_root_order d < fri_number_of_queries (a_options a))%nat -> ~ NoDup (c_iotas E a c).
Proof.
  intros E a k pick p d c t' (bcs & zs & _ & _ & dr & dc & dz & dd & df & dg & dq & xs & ba & bb & ta & tb & _ & _ & _ & _ & _ & _ & _ & HI & HL) Hq ND.
  assert (I : incl (c_iotas E a c) (seq 0 (2 ^ lde_root_order d))).
  { clear HL ND. induction HI as [|x y l l' Hxy _ IH]; [intros ? []|]. intros z [<-|Hz]; [|now apply IH]. apply in_seq.
    unfold index_of in Hxy. assert (N.of_nat (2 ^ lde_root_order d) <> 0)%N by (pose proof (Nat.pow_nonzero 2 (lde_root_order d)); lia).
    pose proof (N.mod_lt (be_val (firstn 8 x)) _ H). lia. }
  pose proof (NoDup_incl_length ND I) as Q. rewrite seq_length, HL in Q. lia.
Qed.
Print Assumptions C76_positions_repeat.

(** ** Non-vacuity *)
Lemma toy_sampling : sampling_ok toy.
Proof.
  constructor.
  - intro t. cbn [toy e_tr toy_transcript tr_challenge fst]. now rewrite !app_length, !length_be_bytes, repeat_length.
  - cbn. lia.
  - intros bs _ _. cbn. eauto.
  - intro bs. cbn [toy e_keccak]. rewrite app_length, length_be_bytes. lia.
Qed.

(** The honest toy proof follows the schedule. *)
Example C76_example_schedule :
  exists proof c d t', prove_log toy 20 fib_toy (toy_table [1; 1; 2; 3]%Z) = Ok (proof, c) /\
    follows (fib_toy 4%nat) 0 (fun _ => tt) proof d c t' /\ length (c_iotas toy _ c) = fri_number_of_queries toy_opts.
Proof.
  pose proof C28_example as Hok. change (fibonacci_air toy (f97 1) (f97 1) toy_opts) with fib_toy in Hok.
  destruct (prove_log toy 20 fib_toy (toy_table [1; 1; 2; 3]%Z)) as [[proof c]|e|] eqn:Hp; [clear Hok|discriminate Hok|discriminate Hok].
  destruct (C76_prover_follows_the_schedule toy 20 fib_toy (toy_table [1; 1; 2; 3]%Z) 2 1 0 (fun _ => tt) proof c toy_ok toy_sampling eq_refl ltac:(lia) eq_refl
    (proj1 C76_airs_draw toy _ _ _ _) Hp) as (d & t' & _ & F).
  exists proof, c, d, t'. split; [reflexivity|]. split; [exact F|].
  destruct F as (bcs & zs & _ & _ & dr & dc & dz & dd & df & dg & dq & xs & ba & bb & ta & tb & _ & _ & _ & _ & _ & _ & _ & _ & HL). exact HL.
Qed.

(** Two different accepted or refused proofs meet all premises of the binding theorem up to the last round. *)
Definition toy_hash (bs : list byte) : list byte := be_bytes 32 (mix bs).
Lemma toy_codec_ok : codec_ok (e_codec toy) 8.
Proof.
  constructor; [intro x; apply length_be_bytes| |lia|reflexivity].
  intro x. cbn [toy e_codec toy_codec fe_to fe_from]. pose proof (zval_bound 97 x) as R.
  rewrite be_val_be_bytes. 2:{ change (256 ^ N.of_nat 8)%N with (Z.to_N (2 ^ 64)). apply Z2N.inj_lt; lia. }
  rewrite Z2N.id by lia. f_equal. apply zp_eq. cbn. apply Z.mod_small. lia.
Qed.

Example C76_example_binding :
  exists p p' : stark_proof toy, p <> p' /\ sized 4 p /\ sized 4 p' /\ length (fri_layers_merkle_roots p) = length (fri_layers_merkle_roots p') /\
    let j := (6 + length (fri_layers_merkle_roots p))%nat in
    let rs := firstn j (rounds p 0 2 1 1 3 3) in
    let rs' := firstn j (rounds p' 0 2 1 1 3 3) in
    last (digests (events rs) (tr_new : sponge toy_hash)) [] = last (digests (events rs') (tr_new : sponge toy_hash)) [] /\ agree_upto j p p'.
Proof.
  destruct (prove toy 20 fib_toy (toy_table [1; 1; 2; 3]%Z)) as [p|e|] eqn:Hp; [|vm_compute in Hp; discriminate|vm_compute in Hp; discriminate].
  assert (K : obind (prove toy 20 fib_toy (toy_table [1; 1; 2; 3]%Z)) (fun p => Ok (fr_row_width (trace_ood_frame_evaluations p), length (fr_data (trace_ood_frame_evaluations p)),
    map (@length byte) (lde_trace_merkle_roots p), length (composition_poly_root p), forallb (fun r => length r =? 4)%nat (fri_layers_merkle_roots p), (nonce p <? 2 ^ 64)%N)) = Ok (1%nat, 3%nat, [4%nat], 4%nat, true, true)) by (vm_compute; reflexivity).
  rewrite Hp in K. clear Hp. cbn [obind] in K. injection K as K1 K2 K3 K4 K5 K6.
  change (fr_row_width (trace_ood_frame_evaluations p) = 1%nat) in K1. change (length (fr_data (trace_ood_frame_evaluations p)) = 3%nat) in K2.
  assert (S : sized 4 p).
  { assert (K3' : map (@length byte) (lde_trace_merkle_roots p) = [4%nat]) by exact K3. clear K3. revert K3'. destruct (lde_trace_merkle_roots p) as [|r [|]] eqn:Er; intro K3; cbn in K3; [discriminate K3| |discriminate K3]. injection K3 as K3. unfold sized. rewrite Er.
    split; [discriminate|]. split; [now repeat constructor|]. split; [exact K4|]. split; [|now apply N.ltb_lt].
    apply Forall_forall. intros x Hx. rewrite forallb_forall in K5. now apply Nat.eqb_eq, K5. }
  assert (W : whole_rows (trace_ood_frame_evaluations (reshaped p 3)) = whole_rows (trace_ood_frame_evaluations p)).
  { unfold whole_rows. cbn [reshaped trace_ood_frame_evaluations fr_data fr_row_width]. now rewrite K1, K2. }
  exists p, (reshaped p 3). split; [|split; [exact S|split; [exact S|split; [reflexivity|]]]].
  - intro Q. apply (f_equal (fun x => fr_row_width (trace_ood_frame_evaluations x))) in Q. change (fr_row_width (trace_ood_frame_evaluations p) = 3%nat) in Q. rewrite K1 in Q. discriminate Q.
  - cbv zeta. split; [|repeat split; intros; now rewrite ?W].
    replace (rounds (reshaped p 3) 0 2 1 1 3 3) with (rounds p 0 2 1 1 3 3); [reflexivity|]. unfold rounds. rewrite W. reflexivity.
Qed.
