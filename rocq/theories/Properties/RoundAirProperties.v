(** C73: one accepted run of the two airs, read off the words behind its commitments. *)
From Coq Require Import List Arith Lia Bool NArith ZArith.
From Verif.Base Require Import Outcome Bytes Field Poly Zp.
From Verif.Model Require Import Codec PublicInputs Trace Merkle Air Transcript Domain Options Fri Prover Verifier ExampleAirs CairoDecode CairoTrace CairoAir.
From Verif.Spec Require Import AirSpec CairoSpec CairoColumns ExampleSpec ProvingSpec Forgery VerifierSpec HashSpec LowDegree FriTree OodSpec StarkTree Proximity Rounds.
From Verif.Proofs Require Import OutcomeFacts FieldFacts PolyFacts FFTFacts TraceFacts DomainFacts ExampleFacts PolyAir CpuFacts CairoAirFacts CairoAdmissible
  VerifierTotal OodFacts LowDegreeFacts.
From Verif.Examples Require Import Toy.
From Verif.Properties Require Import ExampleProperties OodProperties CairoMemoryProperties CairoSoundnessProperties CairoForgeryProperties LowDegreeProperties
  StarkSoundnessProperties RoundProperties.
Import ListNotations.
Local Open Scope felt_scope.

(** The Fibonacci air: the committed column is, but for [e] values, a polynomial whose values on the trace domain are the
    Fibonacci numbers, or all queries were lucky. *)
Theorem C73_fibonacci_run :
  forall (E : env) fuel (a0 a1 : E) opts vopts (p : stark_proof E) r b e d c w rows cols even odd words,
  env_ok E -> usable_options E opts r b -> (2 <= r)%nat -> (r + b <= two_adicity E)%nat -> trace_length p = (2 ^ r)%nat ->
  (3 * e + 2 ^ r <= 2 ^ (r + b))%nat ->
  accepted_run fuel (fibonacci_air E a0 a1 opts) vopts p r b 3 e d c w rows cols even odd words ->
  (exists q : poly E, near_poly (points (d_coset_offset d) w (2 ^ (r + b))) e (2 ^ r + 1) (cols 0%nat) q /\
     map (fun i => peval q (fpow (trace_primitive_root d) i)) (seq 0 (2 ^ r)) = fibs a0 a1 (2 ^ r)) \/
  lucky_run d r b e w p c rows cols even odd words.
Proof.
  intros E fuel a0 a1 opts vopts p r b e d c w rows cols even odd words HE Hu Hr Ht Hn He R. pose proof (fft_field_ok _ (e_fft_ok E HE)) as HK.
  assert (H4 : (4 <= 2 ^ r)%nat) by (change 4%nat with (2 ^ 2)%nat; apply Nat.pow_le_mono_r; lia).
  destruct (C72_accepted_run_satisfies E fuel (fibonacci_air E a0 a1 opts) vopts p r b 3 d c w e rows cols even odd words HE) as [(polys & Hl & Hp & Hs)|L]; [| | | | |exact He|exact R| |right; exact L].
  - rewrite Hn. exact (fibonacci_admissible HE a0 a1 opts r b Hu).
  - rewrite Hn. exact (fibonacci_proving E a0 a1 opts r b Hr Ht).
  - intros g _. apply (transition_polynomial_exprs HK _ _ _ (fun _ => [Sub (Sub (Cell 2 0) (Cell 1 0)) (Cell 0 0)])); [lia| |].
    + intros rap polys x Hp. cbn [a_transition fibonacci_air a_context transition_offsets].
      rewrite !shifted_frame_row by (cbn; lia). cbn [obind]. cbn in Hp. rewrite !shifted_row_cell by lia. reflexivity.
    + intros rap [|j] H1 H2; cbn in *; lia.
  - cbn. lia.
  - cbn. intros rap bcs bc Hb Hin. apply ok_inj in Hb. subst bcs. destruct Hin as [<-|[<-|[]]]; cbn; lia.
  - left. cbn in Hl. destruct polys as [|q [|? ?]]; try discriminate. exists q. split; [exact (Hp 0%nat ltac:(cbn; lia))|].
    apply (fibonacci_characterised HE a0 a1 opts (2 ^ r)); [lia|now rewrite map_length, seq_length|].
    revert Hs. generalize (c_rap E _ c). rewrite Hn. intros [] Hs. exact Hs.
Qed.
Print Assumptions C73_fibonacci_run.

(** The Cairo air. The words of the columns before the permutation arguments are fixed before the challenges of the second
    phase; [base] is the trace that they stand for, whatever is decoded from them. But for few challenges, an accepted proof
    whose frame and first row are sound describes a run, or all queries were lucky. *)
Theorem C73_cairo_run :
  forall (C : cairo_env) p, cairo_ok C p -> sampling_ok C -> forall (pi : public_inputs C) opts r b e d w lo hi (fixed : nat -> C -> C) (base : list (list C)),
  let a := cairo_air pi opts (2 ^ r) in
  usable_options C opts r b -> (r + b <= two_adicity C)%nat -> domain_new a = Ok d -> primitive_root (r + b) = Some w ->
  (3 * e + 2 ^ r <= 2 ^ (r + b))%nat ->
  let pts := points (d_coset_offset d) w (2 ^ (r + b)) in
  let limit := (PERMUTATION_ARGUMENT_COL_0 - builtin_offset pi)%nat in
  length base = trace_columns (a_context a) -> (N.of_nat (4 * 2 ^ r) < 2 ^ 64)%N ->
  range_check_min pi = Some lo -> range_check_max pi = Some hi -> (lo < 2 ^ 16)%N -> (hi < 2 ^ 16)%N -> (1 <= num_steps pi <= 2 ^ r)%nat ->
  (forall i, (i + 1 < num_steps pi)%nat -> cell base i FRAME_SELECTOR = 1) ->
  (forall j q, (j < limit)%nat -> near_poly pts e (2 ^ r + 1) (fixed j) q ->
     nth j base [] = map (fun i => peval q (fpow (trace_primitive_root d) i)) (seq 0 (2 ^ r))) ->
  let m := (4 * 2 ^ r + length (public_memory pi))%nat in
  exists bad_alpha bad_zrc, (length bad_alpha <= (2 * m) * (2 * m))%nat /\ (length bad_zrc <= 3 * 2 ^ r)%nat /\
  forall alpha, ~ In alpha bad_alpha -> exists bad_z, (length bad_z <= 2 * m)%nat /\
  forall z zrc, ~ In z bad_z -> ~ In zrc bad_zrc ->
  forall fuel vopts proof c rows cols even odd words, trace_length proof = (2 ^ r)%nat ->
    accepted_run fuel (cairo_air pi opts) vopts proof r b 2 e d c w rows cols even odd words ->
    c_rap C _ c = CairoAir.mk_challenges alpha z zrc ->
    (forall j x, (j < limit)%nat -> In x pts -> cols j x = fixed j x) ->
    (forall polys, length polys = trace_columns (a_context a) -> near_polys pts e (2 ^ r + 1) cols polys ->
       first_row_equation pi (CairoAir.mk_challenges alpha z zrc) (domain_columns polys (trace_primitive_root d) (2 ^ r))) ->
    describes_run pi base (2 ^ r) \/ lucky_run d r b e w proof c rows cols even odd words.
Proof.
  intros C p HC HS pi opts r b e d w lo hi fixed base a Hu Ht Hd Hw He pts limit Hbw Hn64 Hlo Hhi Hlo16 Hhi16 Hst Hsel Hbase m.
  pose proof (co_env _ _ HC) as HE. destruct Hu as (Hr & Hb1 & Hu'). assert (Hu : usable_options C opts r b) by (split; [exact Hr|split; [exact Hb1|exact Hu']]).
  pose proof (pow2_ge2 r Hr) as H2.
  destruct (C58_repaired_air_is_sound C p HC pi opts (2 ^ r) lo hi base Hbw ltac:(lia) Hn64 Hlo Hhi Hlo16 Hhi16 Hst Hsel) as (ba & bz & L1 & L2 & H).
  exists ba, bz. split; [exact L1|]. split; [exact L2|]. intros alpha Ha. destruct (H alpha Ha) as (bzz & L3 & H'). exists bzz. split; [exact L3|].
  intros z zrc Hz Hzrc fuel vopts proof c rows cols even odd words Hn R Hrap Hfix Hfirst.
  destruct (C72_accepted_run_satisfies C fuel (cairo_air pi opts) vopts proof r b 2 d c w e rows cols even odd words HE) as [(polys & Hl & Hp & Hs)|L]; [| | | | |exact He|exact R| |right; exact L].
  - rewrite Hn. exact (cairo_admissible HE pi opts r b Hu).
  - rewrite Hn. exact (cairo_proving HS pi opts r b Hr Ht).
  - intros g _. rewrite Hn. apply (cairo_polynomial HE). lia.
  - split; [apply cairo_exemptions_le|]. cbn [cairo_air a_context]. rewrite degrees_length. apply Nat.eq_le_incl. unfold n_constraints. reflexivity.
  - intros rap bcs bc. rewrite Hn. exact (cairo_boundary_in pi opts (2 ^ r) _ bcs bc Hst).
  - left. rewrite Hrap in Hs. rewrite Hn in Hs.
    assert (Hl' : length polys = trace_columns (a_context a)) by exact Hl.
    apply (H' z zrc (domain_columns polys (trace_primitive_root d) (2 ^ r)) Hz Hzrc); [|exact Hs|exact (Hfirst polys Hl' Hp)].
    split; [unfold domain_columns; rewrite map_length, Hl'; now symmetry|]. intros j Hj.
    assert (Hjl : (j < length polys)%nat).
    { rewrite Hl'. cbn [a cairo_air a_context]. rewrite cairo_width_declared. fold limit in Hj.
      unfold limit, PERMUTATION_ARGUMENT_COL_0, cairo_width, builtin_offset, BUILTIN_OFFSET in *. destruct (has_rc_builtin pi); lia. }
    rewrite (Hbase j (nth j polys []) Hj).
    + unfold domain_columns. rewrite (nth_indep _ [] (map (fun i => peval [] (fpow (trace_primitive_root d) i)) (seq 0 (2 ^ r)))) by (now rewrite map_length).
      exact (map_nth (fun p => map (fun i => peval p (fpow (trace_primitive_root d) i)) (seq 0 (2 ^ r))) polys [] j).
    + destruct (Hp j Hjl) as (Lq & A & BA & EA). split; [exact Lq|]. exists A. split; [exact BA|]. intros x Hx.
      rewrite <- (EA x Hx). symmetry. apply (Hfix j x Hj). exact (proj1 (proj2 BA) x Hx).
Qed.
Print Assumptions C73_cairo_run.

(** The honest proof of [RoundProperties] is such a run. *)
Example C73_fibonacci_example :
  usable_options toy toy_opts 2 1 /\ (2 + 1 <= two_adicity toy)%nat /\ trace_length honest_proof = (2 ^ 2)%nat /\ (3 * 1 + 2 ^ 2 <= 2 ^ (2 + 1))%nat /\
  accepted_run 20 (fibonacci_air toy (f97 1) (f97 1) toy_opts) toy_opts honest_proof 2 1 3 1 ood_domain honest_challenges honest_w honest_rows
    (fun j => peval (nth j ood_polys [])) (peval (fst honest_halves)) (peval (snd honest_halves)) query_words.
Proof.
  split; [exact toy_usable|]. split; [cbn; lia|]. split; [exact honest_proof_length|]. split; [cbn; lia|]. exact (proj2 (proj2 (proj2 C72_example))).
Qed.
