(** C77: the error for the two airs. *)
From Coq Require Import List Arith Lia Bool NArith ZArith.
From Verif.Base Require Import Outcome Bytes Field Poly Zp.
From Verif.Model Require Import Codec PublicInputs Trace Merkle Air Transcript Domain Options Fri Prover Verifier ExampleAirs CairoDecode CairoTrace CairoAir.
From Verif.Spec Require Import AirSpec CairoSpec CairoColumns ExampleSpec ProvingSpec Forgery VerifierSpec HashSpec LowDegree FriTree OodSpec StarkTree Proximity Rounds Game.
From Verif.Proofs Require Import OutcomeFacts FieldFacts PolyFacts FFTFacts MultisetFacts TraceFacts DomainFacts ExampleFacts PolyAir CpuFacts CairoAirFacts CairoAdmissible
  VerifierTotal OodFacts LowDegreeFacts RoundFacts RoundSoundness CountFacts TapeFacts.
From Verif.Examples Require Import Toy Stark252 MiniRun Calm.
From Verif.Properties Require Import ExampleProperties StarkProperties OodProperties CairoMemoryProperties CairoSoundnessProperties CairoForgeryProperties LowDegreeProperties
  StarkSoundnessProperties RoundProperties GameProperties.
Import ListNotations.
Local Open Scope felt_scope.

Lemma fibonacci_playable {E : env} (HE : env_ok E) (a0 a1 : E) opts r b e d w : usable_options E opts r b -> (2 <= r)%nat -> (r + b <= two_adicity E)%nat ->
  domain_new (fibonacci_air E a0 a1 opts (2 ^ r)) = Ok d -> primitive_root (r + b) = Some w -> (3 * e + 2 ^ r <= 2 ^ (r + b))%nat ->
  playable (fibonacci_air E a0 a1 opts (2 ^ r)) 2 r b e d w.
Proof.
  intros Hu Hr Ht Hd Hw He. pose proof (fft_field_ok _ (e_fft_ok E HE)) as HK.
  assert (H4 : (4 <= 2 ^ r)%nat) by (change 4%nat with (2 ^ 2)%nat; apply Nat.pow_le_mono_r; lia).
  constructor; try assumption.
  - exact (fibonacci_admissible HE a0 a1 opts r b Hu).
  - exact (fibonacci_proving E a0 a1 opts r b Hr Ht).
  - intros g _. apply (transition_polynomial_exprs HK _ _ _ (fun _ => [Sub (Sub (Cell 2 0) (Cell 1 0)) (Cell 0 0)])); [lia| |].
    + intros rap polys x Hp. cbn [a_transition fibonacci_air a_context transition_offsets].
      rewrite !shifted_frame_row by (cbn; lia). cbn [obind]. cbn in Hp. rewrite !shifted_row_cell by lia. reflexivity.
    + intros rap [|j] H1 H2; cbn in *; lia.
  - cbn. lia.
  - cbn. intros rap bcs Hb. apply ok_inj in Hb. subst bcs. split; [reflexivity|]. intros bc Hin. destruct Hin as [<-|[<-|[]]]; cbn; lia.
Qed.

(** The Fibonacci air. A prover whose committed column is not, but for [e] values, the Fibonacci sequence from [a0] and [a1] on the trace
    domain, wins with this fraction of all challenges: [error_weight] of the [size] elements that every challenge is drawn from, plus the
    chance that [q] positions miss [e + 1] of [2^(r+b)]. *)
Theorem C77_fibonacci_error :
  forall (E : env) (a0 a1 : E) opts r b e d w s samples size q W, let a := fibonacci_air E a0 a1 opts (2 ^ r) in
  env_ok E -> usable_options E opts r b -> (2 <= r)%nat -> (r + b <= two_adicity E)%nat -> domain_new a = Ok d -> primitive_root (r + b) = Some w ->
  (3 * e + 2 ^ r <= 2 ^ (r + b))%nat -> well_formed a s -> fair a 0 2 r d size samples -> winning a 0 2 r (fun _ => tt) s d w b q samples W ->
  (forall f : poly E, near_poly (points (d_coset_offset d) w (2 ^ (r + b))) e (2 ^ r + 1) (s_columns s [] 0%nat) f ->
     map (fun i => peval f (fpow (trace_primitive_root d) i)) (seq 0 (2 ^ r)) <> fibs a0 a1 (2 ^ r)) ->
  (size * length W <= error_weight a 2 r e * (volume samples * (2 ^ (r + b)) ^ q) + size * (volume samples * (2 ^ (r + b) - e - 1) ^ q))%nat.
Proof.
  intros E a0 a1 opts r b e d w s samples size q W a HE Hu Hr Ht Hd Hw He Hs Hfa HW Hno.
  apply (C77_winning_runs_are_few E a 0 2 r b (fun _ => tt) d w e s samples size 0 q W HE); try assumption.
  - now apply fibonacci_playable.
  - intros X _ HX. destruct X as [|xs X]; [cbn; lia|]. exfalso. destruct (HX xs (or_introl eq_refl)) as (H1 & polys & Hl & Hp & Hsat).
    cbn [firstn product In] in H1. destruct H1 as [<-|[]]. cbn in Hl. destruct polys as [|f [|? ?]]; try discriminate Hl.
    apply (Hno f); [exact (Hp 0%nat ltac:(cbn; lia))|].
    assert (H4 : (4 <= 2 ^ r)%nat) by (change 4%nat with (2 ^ 2)%nat; apply Nat.pow_le_mono_r; lia).
    apply (fibonacci_characterised HE a0 a1 opts (2 ^ r)); [lia|now rewrite map_length, seq_length|]. exact Hsat.
Qed.
Print Assumptions C77_fibonacci_error.

(** The same numbers, spelt out. *)
Theorem C77_fibonacci_weight :
  forall (E : env) (a0 a1 : E) opts r e, (error_weight (fibonacci_air E a0 a1 opts (2 ^ r)) 2 r e <= 3 * 2 ^ r + 6 * e + r + 11)%nat.
Proof.
  intros E a0 a1 opts r e. pose proof (C77_error_weight E (fibonacci_air E a0 a1 opts (2 ^ r)) 2 r e) as H. cbn in H.
  etransitivity; [exact H|]. lia.
Qed.
Print Assumptions C77_fibonacci_weight.

Lemma cairo_playable {C : cairo_env} (HE : env_ok C) (HS : sampling_ok C) (pi : public_inputs C) opts r b e d w : usable_options C opts r b -> (r + b <= two_adicity C)%nat ->
  domain_new (cairo_air pi opts (2 ^ r)) = Ok d -> primitive_root (r + b) = Some w -> (3 * e + 2 ^ r <= 2 ^ (r + b))%nat -> (1 <= num_steps pi <= 2 ^ r)%nat ->
  playable (cairo_air pi opts (2 ^ r)) 8 r b e d w.
Proof.
  intros Hu Ht Hd Hw He Hst. destruct Hu as (Hr & Hb1 & Hu'). assert (Hu : usable_options C opts r b) by (split; [exact Hr|split; [exact Hb1|exact Hu']]).
  pose proof (pow2_ge2 r Hr) as H2. constructor; try assumption.
  - exact (cairo_admissible HE pi opts r b Hu).
  - exact (cairo_proving HS pi opts r b Hr Ht).
  - intros g _. apply (cairo_polynomial HE). lia.
  - split; [apply cairo_exemptions_le|]. cbn [cairo_air a_context]. rewrite degrees_length. apply Nat.eq_le_incl. unfold n_constraints. reflexivity.
  - intros rap bcs Hb. split; [|intros bc; exact (cairo_boundary_in pi opts (2 ^ r) _ bcs bc Hst Hb)].
    cbn [cairo_air a_boundary] in Hb. unfold cairo_boundary in Hb. do 5 (ok_step Hb). apply ok_inj in Hb. subst bcs. reflexivity.
Qed.

(** Few challenges of the randomized AIR complete columns that do not describe a run to a solution. *)
Lemma cairo_rap_few (C : cairo_env) p (HC : cairo_ok C p) (pi : public_inputs C) opts r b e d w lo hi (fixed : nat -> C -> C) (base : list (list C)) samples size X :
  let a := cairo_air pi opts (2 ^ r) in
  usable_options C opts r b ->
  let pts := points (d_coset_offset d) w (2 ^ (r + b)) in
  let limit := (PERMUTATION_ARGUMENT_COL_0 - builtin_offset pi)%nat in
  let pick := fun xs => CairoAir.mk_challenges (nth 0 xs (fzero : C)) (nth 1 xs (fzero : C)) (nth 2 xs (fzero : C)) in
  length base = trace_columns (a_context a) -> (N.of_nat (4 * 2 ^ r) < 2 ^ 64)%N ->
  range_check_min pi = Some lo -> range_check_max pi = Some hi -> (lo < 2 ^ 16)%N -> (hi < 2 ^ 16)%N -> (1 <= num_steps pi <= 2 ^ r)%nat ->
  (forall i, (i + 1 < num_steps pi)%nat -> cell base i FRAME_SELECTOR = 1) ->
  (forall j f, (j < limit)%nat -> near_poly pts e (2 ^ r + 1) (fixed j) f ->
     nth j base [] = map (fun i => peval f (fpow (trace_primitive_root d) i)) (seq 0 (2 ^ r))) ->
  fair a 3 8 r d size samples -> ~ describes_run pi base (2 ^ r) -> NoDup X ->
  (forall xs, In xs X -> In xs (product (firstn 3 samples)) /\ exists columns polys, (forall j x, (j < limit)%nat -> In x pts -> columns j x = fixed j x) /\
     length polys = trace_columns (a_context a) /\ near_polys pts e (2 ^ r + 1) columns polys /\
     trace_satisfies a (pick xs) (domain_columns polys (trace_primitive_root d) (2 ^ r)) (2 ^ r) /\
     first_row_equation pi (pick xs) (domain_columns polys (trace_primitive_root d) (2 ^ r))) ->
  let m := (4 * 2 ^ r + length (public_memory pi))%nat in
  (size * length X <= (2 * m * (2 * m) + 2 * m + 3 * 2 ^ r) * volume (firstn 3 samples))%nat.
Proof.
  intros a Hu pts limit pick Hbw Hn64 Hlo Hhi Hlo16 Hhi16 Hst Hsel Hbase Hfa Hno HX HXs m.
  pose proof (co_env _ _ HC) as HE. pose proof (feq_dec (fft_field_ok C (e_fft_ok C HE))) as dec. pose proof (pow2_ge2 r (proj1 Hu)) as H2.
  destruct (C58_repaired_air_is_sound C p HC pi opts (2 ^ r) lo hi base Hbw ltac:(lia) Hn64 Hlo Hhi Hlo16 Hhi16 Hst Hsel) as (ba & bz & L1 & L2 & H). fold m in L1.
  pose proof (fa_length _ _ _ _ _ _ _ Hfa) as Fl.
  assert (L3 : length (firstn 3 samples) = 3%nat) by (rewrite firstn_length, Fl; unfold tape_length, at_folding, at_terms, at_point; lia).
  set (good := fun alpha bzz => forall z zrc cols, ~ In z bzz -> ~ In zrc bz -> same_but_products pi base cols ->
    trace_satisfies (cairo_air pi opts (2 ^ r)) (CairoAir.mk_challenges alpha z zrc) cols (2 ^ r) ->
    first_row_equation pi (CairoAir.mk_challenges alpha z zrc) cols -> describes_run pi base (2 ^ r)).
  set (exc := fun i (t : list C) => match i with
    | 0 => In (nth 0 t 0) ba
    | 1 => ~ In (nth 0 t 0) ba /\ forall bzz, good (nth 0 t 0) bzz -> In (nth 1 t 0) bzz
    | _ => In (nth 2 t 0) bz end).
  set (bnd := fun i => match i with 0 => 2 * m * (2 * m) | 1 => 2 * m | _ => 3 * 2 ^ r end%nat).
  assert (Fin : forall l n, (length l <= n)%nat -> few (K := C) n (fun x => In x l)) by (intros l n Hl u Hu' Hi; etransitivity; [apply NoDup_incl_length; [exact Hu'|exact Hi]|exact Hl]).
  pose proof (exceptional_fraction dec (firstn 3 samples) exc bnd size) as Q. rewrite L3 in Q. cbn [seq map bnd] in Q.
  replace (2 * m * (2 * m) + 2 * m + 3 * 2 ^ r)%nat with (list_sum [2 * m * (2 * m); 2 * m; 3 * 2 ^ r])%nat by (cbn [list_sum fold_right]; lia). apply Q.
  - intros i t Hp Hi. pose proof (product_width _ _ Hp) as Lt. rewrite L3 in Lt. destruct i as [|[|[|i]]]; [| | |lia]; unfold exc.
    + eapply few_mono; [exact (Fin ba _ L1)|]. intros x Hx. now rewrite set_nth_at in Hx by lia.
    + destruct (in_dec dec (nth 0 t 0) ba) as [I|I].
      * eapply few_mono; [exact (Fin [] _ (Nat.le_0_l _))|]. intros x [Hx _]. exfalso. apply Hx. now rewrite set_nth_off by lia.
      * destruct (H _ I) as (bzz & L4 & Hg). eapply few_mono; [exact (Fin bzz _ L4)|]. intros x [_ Hx]. rewrite set_nth_at, set_nth_off in Hx by lia. apply Hx. exact Hg.
    + eapply few_mono; [exact (Fin bz _ L2)|]. intros x Hx. now rewrite set_nth_at in Hx by lia.
  - intros l Hl. apply (fa_size _ _ _ _ _ _ _ Hfa l). rewrite <- (firstn_skipn 3 samples). apply in_or_app. now left.
  - exact HX.
  - intros t Hi. now apply HXs.
  - intros t Hi. destruct (HXs t Hi) as (Hp & columns & polys & Hfix & Hl & Hn & Hsat & Hfirst).
    destruct (in_dec dec (nth 0 t 0) ba) as [I0|I0]; [exists 0%nat; split; [lia|exact I0]|].
    destruct (in_dec dec (nth 2 t 0) bz) as [I2|I2]; [exists 2%nat; split; [lia|exact I2]|].
    exists 1%nat. split; [lia|]. split; [exact I0|]. intros bzz Hg. destruct (in_dec dec (nth 1 t 0) bzz) as [I1|I1]; [exact I1|exfalso]. apply Hno.
    apply (Hg (nth 1 t 0) (nth 2 t 0) (domain_columns polys (trace_primitive_root d) (2 ^ r)) I1 I2); [|exact Hsat|exact Hfirst].
    split; [unfold domain_columns; rewrite map_length, Hl; now symmetry|]. intros j Hj.
    assert (Hjl : (j < length polys)%nat).
    { rewrite Hl. cbn [a cairo_air a_context]. rewrite cairo_width_declared. fold limit in Hj.
      unfold limit, PERMUTATION_ARGUMENT_COL_0, cairo_width, builtin_offset, BUILTIN_OFFSET in *. destruct (has_rc_builtin pi); lia. }
    rewrite (Hbase j (nth j polys []) Hj).
    + unfold domain_columns. rewrite (nth_indep _ [] (map (fun i => peval [] (fpow (trace_primitive_root d) i)) (seq 0 (2 ^ r)))) by (now rewrite map_length).
      exact (map_nth (fun p => map (fun i => peval p (fpow (trace_primitive_root d) i)) (seq 0 (2 ^ r))) polys [] j).
    + destruct (Hn j Hjl) as (Lq & A & BA & EA). split; [exact Lq|]. exists A. split; [exact BA|]. intros x Hx.
      rewrite <- (EA x Hx). symmetry. apply (Hfix j x Hj). exact (proj1 (proj2 BA) x Hx).
Qed.

(** The Cairo air. The columns before the permutation arguments are words [fixed] that do not depend on any challenge, and [base] is the
    trace that they stand for, whatever is decoded from them. If that trace does not describe a run of the program, then the prover, if it
    keeps the equation of the first row of the memory argument (which the air forgets, C57), wins with this fraction of all challenges. *)
Theorem C77_cairo_error :
  forall (C : cairo_env) p, cairo_ok C p -> sampling_ok C ->
  forall (pi : public_inputs C) opts r b e d w lo hi (fixed : nat -> C -> C) (base : list (list C)) s samples size q W,
  let a := cairo_air pi opts (2 ^ r) in
  usable_options C opts r b -> (r + b <= two_adicity C)%nat -> domain_new a = Ok d -> primitive_root (r + b) = Some w ->
  (3 * e + 2 ^ r <= 2 ^ (r + b))%nat ->
  let pts := points (d_coset_offset d) w (2 ^ (r + b)) in
  let limit := (PERMUTATION_ARGUMENT_COL_0 - builtin_offset pi)%nat in
  let pick := fun xs => CairoAir.mk_challenges (nth 0 xs (fzero : C)) (nth 1 xs (fzero : C)) (nth 2 xs (fzero : C)) in
  length base = trace_columns (a_context a) -> (N.of_nat (4 * 2 ^ r) < 2 ^ 64)%N ->
  range_check_min pi = Some lo -> range_check_max pi = Some hi -> (lo < 2 ^ 16)%N -> (hi < 2 ^ 16)%N -> (1 <= num_steps pi <= 2 ^ r)%nat ->
  (forall i, (i + 1 < num_steps pi)%nat -> cell base i FRAME_SELECTOR = 1) ->
  (forall j f, (j < limit)%nat -> near_poly pts e (2 ^ r + 1) (fixed j) f ->
     nth j base [] = map (fun i => peval f (fpow (trace_primitive_root d) i)) (seq 0 (2 ^ r))) ->
  well_formed a s -> fair a 3 8 r d size samples -> winning a 3 8 r pick s d w b q samples W ->
  (forall xs j x, (j < limit)%nat -> In x pts -> s_columns s xs j x = fixed j x) ->
  (forall xs polys, In xs (product (firstn 3 samples)) -> length polys = trace_columns (a_context a) -> near_polys pts e (2 ^ r + 1) (s_columns s xs) polys ->
     first_row_equation pi (pick xs) (domain_columns polys (trace_primitive_root d) (2 ^ r))) ->
  ~ describes_run pi base (2 ^ r) ->
  let m := (4 * 2 ^ r + length (public_memory pi))%nat in
  (size * length W <= (2 * m * (2 * m) + 2 * m + 3 * 2 ^ r + error_weight a 8 r e) * (volume samples * (2 ^ (r + b)) ^ q) +
     size * (volume samples * (2 ^ (r + b) - e - 1) ^ q))%nat.
Proof.
  intros C p HC HS pi opts r b e d w lo hi fixed base s samples size q W a Hu Ht Hd Hw He pts limit pick Hbw Hn64 Hlo Hhi Hlo16 Hhi16 Hst Hsel Hbase Hs Hfa HW Hfix Hfirst Hno m.
  pose proof (co_env _ _ HC) as HE.
  apply (C77_winning_runs_are_few C a 3 8 r b pick d w e s samples size (2 * m * (2 * m) + 2 * m + 3 * 2 ^ r) q W HE); try assumption.
  { now apply cairo_playable. }
  intros X HX HXs. apply (cairo_rap_few C p HC pi opts r b e d w lo hi fixed base samples size X); try assumption.
  intros xs Hi. destruct (HXs xs Hi) as (Hp & polys & Hl & Hn & Hsat). split; [exact Hp|]. exists (s_columns s xs), polys.
  split; [exact (Hfix xs)|]. split; [exact Hl|]. split; [exact Hn|]. split; [exact Hsat|]. exact (Hfirst xs polys Hp Hl Hn).
Qed.
Print Assumptions C77_cairo_error.

(** ** Examples: a cheating prover over [F_97], with a trace of four rows on eight points. It commits to the zero column, states zeros in the
    frame and for the odd half, and chooses the value of the even half so that the out-of-domain check succeeds. Its last value is that of
    positions 0 and 4, and it wins if only these are queried. *)
Definition cheat_tape : list toy := map f97 [1; 2; 3; 4; 5; 6; 7; 8; 9; 10; 11; 12; 13; 14]%Z.
Definition cheat_proof (v : toy) : stark_proof toy := mk_stark_proof 0 [] (mk_frame [0; 0; 0] 1) [] v 0 [] 0 [] [] 0%N.
Definition cheat_passes (v : toy) : bool :=
  match step_2 toy ood_air (cheat_proof v) ood_domain (tape_challenges ood_air 0 2 2 (fun _ => tt) cheat_tape []) with Ok true => true | _ => false end.
Definition cheat_value : toy := match find cheat_passes (map (fun i => f97 (Z.of_nat i)) (seq 0 97)) with Some v => v | None => 0 end.
Definition cheat_point : toy := nth 6 cheat_tape 0.
Definition cheat_layer (x : toy) : toy := (0 - cheat_value) * finv (x - cheat_point * cheat_point) * nth 7 cheat_tape 0.
Definition cheat_last : toy := fold_value (nth 12 cheat_tape 0) cheat_layer (d_coset_offset ood_domain).
Definition cheat : strategy (E := toy) :=
  mk_strategy (fun _ _ _ => 0) (fun _ _ => 0) (fun _ _ => 0) (fun _ => cheat_value) (fun _ => 0) (fun _ => [[0]; [0]; [0]])
    (fun l _ => match l with O => cheat_layer | S _ => fun _ => cheat_last end) (fun _ => cheat_last).
Definition cheat_samples : list (list toy) := map (fun x => [x]) cheat_tape.

Lemma cheat_check : cheat_passes cheat_value = true. Proof. vm_compute. reflexivity. Qed.
Definition cheat_consistentb (i : nat) : bool :=
  let x := d_coset_offset ood_domain * fpow honest_w i in
  feqb_toy (fold_value (nth 12 cheat_tape 0) cheat_layer x) cheat_last &&
  feqb_toy (fold_value (nth 13 cheat_tape 0) (fun _ => cheat_last) (x * x)) cheat_last &&
  feqb_toy (cheat_layer x) (deep_word (play_proof ood_air 0 2 cheat cheat_tape) (tape_challenges ood_air 0 2 2 (fun _ => tt) cheat_tape []) (trace_primitive_root ood_domain)
    [[0]; [0]; [0]] (opened 1 (fun _ _ => 0) (fun _ => 0) (fun _ => 0)) x).
Lemma cheat_wins : wins ood_air 0 2 2 (fun _ => tt) cheat ood_domain honest_w cheat_tape [0; 4]%nat.
Proof.
  split.
  - pose proof cheat_check as H. unfold cheat_passes in H. change (step_2 toy ood_air (cheat_proof cheat_value) ood_domain (tape_challenges ood_air 0 2 2 (fun _ => tt) cheat_tape []) = Ok true).
    destruct (step_2 toy ood_air (cheat_proof cheat_value) ood_domain (tape_challenges ood_air 0 2 2 (fun _ => tt) cheat_tape [])) as [[|]| |]; try discriminate H. reflexivity.
  - assert (H : forallb cheat_consistentb [0; 4]%nat = true) by (vm_compute; reflexivity). rewrite forallb_forall in H. intros i Hi. specialize (H i Hi).
    unfold cheat_consistentb in H. cbv zeta in H. apply andb_prop in H. destruct H as [H H3]. apply andb_prop in H. destruct H as [H1 H2].
    apply feqb_toy_true in H1, H2, H3. split; [|exact H3]. split; [exact H1|]. split; [exact H2|exact I].
Qed.
Lemma cheat_fair : fair ood_air 0 2 2 ood_domain 1 cheat_samples.
Proof.
  constructor; [reflexivity| |].
  - intros l Hl. apply in_map_iff in Hl. destruct Hl as (x & <- & _). split; [constructor; [intros []|constructor]|cbn; lia].
  - intros z Hz Hi. change (In z [cheat_point]) in Hz. destruct Hz as [<-|[]].
    assert (H : forallb (fun y : toy => negb (feqb_toy cheat_point y)) (lde_roots_of_unity_coset ood_domain) = true) by (vm_compute; reflexivity).
    rewrite forallb_forall in H. specialize (H _ Hi). unfold feqb_toy in H. rewrite Z.eqb_refl in H. discriminate H.
Qed.

Lemma playable_nodup {E : env} (HE : env_ok E) (a : air E) nb r b e d w : playable a nb r b e d w -> NoDup (points (d_coset_offset d) w (2 ^ (r + b))).
Proof.
  intros [A _ Hd Hw _ _ _ _]. destruct (shape HE a r b _ d w A Hd Hw) as (g & D). rewrite (ds_offset _ _ _ _ _ _ D). exact (pts_nodup HE A D).
Qed.

Example C77_cheating_example :
  usable_options toy toy_opts 2 1 /\ (2 + 1 <= two_adicity toy)%nat /\ domain_new ood_air = Ok ood_domain /\ primitive_root (K := toy) (2 + 1) = Some honest_w /\
  (3 * 1 + 2 ^ 2 <= 2 ^ (2 + 1))%nat /\ well_formed ood_air cheat /\ fair ood_air 0 2 2 ood_domain 1 cheat_samples /\
  winning ood_air 0 2 2 (fun _ => tt) cheat ood_domain honest_w 1 2 cheat_samples [(cheat_tape, [0; 4]%nat)] /\
  (forall f : poly toy, near_poly (points (d_coset_offset ood_domain) honest_w (2 ^ (2 + 1))) 1 (2 ^ 2 + 1) (s_columns cheat [] 0%nat) f ->
     map (fun i => peval f (fpow (trace_primitive_root ood_domain) i)) (seq 0 (2 ^ 2)) <> fibs (f97 1 : toy) (f97 1 : toy) (2 ^ 2)).
Proof.
  split; [exact toy_usable|]. split; [cbn; lia|]. split; [exact ood_domain_ok|]. split; [exact honest_root|]. split; [cbn; lia|].
  split; [intro u; split; [reflexivity|repeat constructor]|]. split; [exact cheat_fair|]. split.
  - split; [constructor; [intros []|constructor]|]. intros t v [Q|[]]. injection Q as <- <-. split; [apply in_product; unfold cheat_samples, cheat_tape; repeat constructor|].
    split; [reflexivity|]. split; [intros i [<-|[<-|[]]]; cbn; lia|exact cheat_wins].
  - intros f Hf Q.
    pose proof (playable_nodup toy_ok _ _ _ _ _ _ _ (fibonacci_playable toy_ok (f97 1) (f97 1) toy_opts 2 1 1 ood_domain honest_w toy_usable (le_n 2) ltac:(cbn; lia) ood_domain_ok honest_root ltac:(cbn; lia))) as HN.
    assert (Z0 : near_poly (points (d_coset_offset ood_domain) honest_w (2 ^ (2 + 1))) 1 (2 ^ 2 + 1) (s_columns cheat [] 0%nat) []).
    { split; [cbn; lia|]. exists (points (d_coset_offset ood_domain) honest_w (2 ^ (2 + 1))). split; [split; [exact HN|split; [apply incl_refl|lia]]|]. intros x _. reflexivity. }
    pose proof (near_unique toy_ok _ 1 (2 ^ 2 + 1) _ f [] HN ltac:(unfold points; rewrite map_length, seq_length; cbn; lia) Hf Z0) as U.
    apply (f_equal (fun l : list toy => nth 0 l (0 : toy))) in Q. cbn [seq map Nat.pow Nat.mul Nat.add nth] in Q. rewrite U in Q. apply (f_equal (@zval 97)) in Q. vm_compute in Q. discriminate Q.
Qed.

(** The honest prover of the toy proof plays like this, whatever the tape. *)
Definition honest : strategy (E := toy) :=
  mk_strategy (fun _ j => peval (nth j ood_polys [])) (fun _ => peval (fst honest_halves)) (fun _ => peval (snd honest_halves))
    (fun _ => composition_poly_even_ood_evaluation honest_proof) (fun _ => composition_poly_odd_ood_evaluation honest_proof)
    (fun _ => honest_rows) (fun l _ => nth l query_words (fun x => x)) (fun _ => fri_last_value honest_proof).

Example C77_accepted_example :
  playable (query_air (trace_length honest_proof)) 2 2 1 1 ood_domain honest_w /\ well_formed ood_air honest /\
  verify toy 20 query_air toy_opts honest_proof = Ok true /\
  step_1 toy 20 ood_air honest_proof ood_domain tr_new = Ok (honest_challenges, snd honest_step) /\
  let t := tape_of ood_air [] honest_challenges in
  proof_plays ood_air 0 2 2 honest 1 ood_domain honest_w t honest_proof /\
  truthful honest_proof honest_challenges (2 + 1) (d_coset_offset ood_domain) honest_w (play_columns 0 honest t) (play_even ood_air 0 2 honest t) (play_odd ood_air 0 2 honest t)
    (play_words ood_air 0 2 2 honest t).
Proof.
  split; [rewrite honest_proof_length; exact (fibonacci_playable toy_ok (f97 1) (f97 1) toy_opts 2 1 1 ood_domain honest_w toy_usable ltac:(lia) ltac:(cbn; lia) ood_domain_ok honest_root ltac:(cbn; lia))|].
  split; [intro u; split; vm_compute; repeat constructor|]. split; [exact honest_accepted|]. split; [exact honest_step_ok|]. cbv zeta.
  generalize (tape_of ood_air [] honest_challenges). intro t. split; [|exact honest_truthful].
  split; [exact honest_frame|]. split; [reflexivity|]. split; [reflexivity|]. split; [reflexivity|exact honest_layers].
Qed.

Section Constants.
Context {K : field_ops} (HK : field_ok K).
Add Field Kfield71 : (fld_th K HK).
Lemma peval_constant (v y : K) : peval [v] y = v.
Proof. cbn. ring. Qed.
End Constants.

(** A Cairo prover that commits to zeros, with ones for the running product, whatever the program: the columns satisfy the equation of the
    first row, but the program counter does not start where the public inputs say. *)
Definition idle_pi : public_inputs plain252 := mk_public_inputs 1 0 0 0 0 (Some 0%N) (Some 0%N) [] [] 1.
Definition idle_product : nat := (PERMUTATION_ARGUMENT_COL_0 - builtin_offset idle_pi)%nat.
Definition idle_columns (j : nat) (x : plain252) : plain252 := if (j =? idle_product)%nat then 1 else 0.
Definition idle : strategy (E := plain252) :=
  mk_strategy (fun _ => idle_columns) (fun _ _ => 0) (fun _ _ => 0) (fun _ => 0) (fun _ => 0) (fun _ => repeat (repeat 0 (cairo_width idle_pi)) 2) (fun _ _ _ => 0) (fun _ => 0).
Definition idle_base : list (list plain252) := repeat (repeat 0 8) (cairo_width idle_pi).
Definition idle_air : air plain252 := cairo_air idle_pi default_test_options (2 ^ 3).
Definition idle_pick (xs : list plain252) : cairo_challenges plain252 := CairoAir.mk_challenges (nth 0 xs (fzero : plain252)) (nth 1 xs (fzero : plain252)) (nth 2 xs (fzero : plain252)).

Example C77_cairo_example :
  exists d w samples, usable_options plain252 default_test_options 3 2 /\ (3 + 2 <= two_adicity plain252)%nat /\ domain_new idle_air = Ok d /\
  primitive_root (K := plain252) (3 + 2) = Some w /\ (3 * 8 + 2 ^ 3 <= 2 ^ (3 + 2))%nat /\
  let pts := points (d_coset_offset d) w (2 ^ (3 + 2)) in
  length idle_base = trace_columns (a_context idle_air) /\ (1 <= num_steps idle_pi <= 2 ^ 3)%nat /\
  (forall i, (i + 1 < num_steps idle_pi)%nat -> cell idle_base i FRAME_SELECTOR = 1) /\
  (forall j f, (j < idle_product)%nat -> near_poly pts 8 (2 ^ 3 + 1) (idle_columns j) f ->
     nth j idle_base [] = map (fun i => peval f (fpow (trace_primitive_root d) i)) (seq 0 (2 ^ 3))) /\
  well_formed idle_air idle /\ fair idle_air 3 8 3 d 1 samples /\
  (forall xs polys, In xs (product (firstn 3 samples)) -> length polys = trace_columns (a_context idle_air) -> near_polys pts 8 (2 ^ 3 + 1) (s_columns idle xs) polys ->
     first_row_equation idle_pi (idle_pick xs) (domain_columns polys (trace_primitive_root d) (2 ^ 3))) /\
  ~ describes_run idle_pi idle_base (2 ^ 3).
Proof.
  pose proof (co_env _ _ plain252_ok) as HE. pose proof (fft_field_ok _ (e_fft_ok _ HE)) as HK.
  pose proof run_domain as Hd. change (is_ok (domain_new idle_air) = true) in Hd. destruct (domain_new idle_air) as [d| |] eqn:Ed; [|discriminate Hd..].
  pose proof (cairo_admissible HE idle_pi default_test_options 3 2 run_usable) as A.
  destruct (domain_new_shape HE idle_air d 3 2 Ed (ad_n _ _ _ _ A) (ad_blowup _ _ _ _ A) (ad_r _ _ _ _ A)) as (g & w & D). pose proof (ds_W _ _ _ _ _ _ D) as Hw.
  assert (Hst : (1 <= num_steps idle_pi <= 2 ^ 3)%nat) by (cbn; lia).
  pose proof (cairo_playable HE plain252_sampling idle_pi default_test_options 3 2 8 d w run_usable ltac:(cbn; lia) Ed Hw ltac:(cbn; lia) Hst) as PL.
  pose proof (playable_nodup HE _ _ _ _ _ _ _ PL) as HN.
  assert (Wd : trace_columns (a_context idle_air) = cairo_width idle_pi) by (cbn [idle_air cairo_air a_context]; apply cairo_width_declared).
  assert (Const : forall (v : plain252) (f u : poly plain252), u = [] /\ v = 0 \/ u = [v] -> near_poly (points (d_coset_offset d) w (2 ^ (3 + 2))) 8 (2 ^ 3 + 1) (fun _ => v) f -> forall x, peval f x = v).
  { intros v f u Hu Hf x. assert (Ev : forall y, peval u y = v).
    { intro y. destruct Hu as [[-> ->]| ->]; [reflexivity|]. exact (peval_constant HK v y). }
    rewrite (near_unique HE _ 8 (2 ^ 3 + 1) (fun _ => v) f u HN ltac:(unfold points; rewrite map_length, seq_length; cbn; lia) Hf); [apply Ev|].
    split; [destruct Hu as [[-> _]| ->]; cbn; lia|]. exists (points (d_coset_offset d) w (2 ^ (3 + 2))). split; [split; [exact HN|split; [apply incl_refl|lia]]|].
    intros y _. symmetry. apply Ev. }
  assert (Col : forall j f, near_poly (points (d_coset_offset d) w (2 ^ (3 + 2))) 8 (2 ^ 3 + 1) (idle_columns j) f -> forall x, peval f x = idle_columns j x).
  { intros j f Hf x. unfold idle_columns in *. destruct (j =? idle_product)%nat; [refine (Const 1 f [1] (or_intror eq_refl) Hf x)|refine (Const 0 f [] (or_introl (conj eq_refl eq_refl)) Hf x)]. }
  pose proof run_many as Hm. destruct run_points as [|z zs] eqn:Ez; [cbn in Hm; lia|].
  assert (Hz : ~ In z (lde_roots_of_unity_coset d)).
  { intro Hi. rewrite (ds_lde _ _ _ _ _ _ D) in Hi. apply in_map_iff in Hi. destruct Hi as (i & Q & _).
    assert (Hin : In z run_points) by (rewrite Ez; now left).
    destruct (outside_points HE idle_air 3 2 2 d w run_all z A Ed Hw (run_point z Hin)) as [Ho _].
    apply Ho. rewrite (ds_offset _ _ _ _ _ _ D). exists i. destruct (fld_th _ HK) as [[R1 R2 R3 R4 R5 R6 R7 R8 R9] _ _ _]. rewrite R5. symmetry. exact Q. }
  exists d, w, (repeat [z] (tape_length idle_air 3 8 3)).
  split; [exact run_usable|]. split; [cbn; lia|]. split; [reflexivity|]. split; [exact Hw|]. split; [cbn; lia|]. cbv zeta.
  split; [rewrite Wd; unfold idle_base; apply repeat_length|]. split; [exact Hst|]. split; [intros i Hi; cbn in Hi; lia|].
  split.
  { intros j f Hj Hf. pose proof (Col j f Hf) as Q. apply (nth_ext _ _ 0 (peval f (fpow (trace_primitive_root d) 0))).
    - rewrite map_length, seq_length. unfold idle_base. rewrite (nth_indep _ [] (repeat 0 8)), nth_repeat; [reflexivity|]. rewrite repeat_length. vm_compute in Hj. vm_compute. lia.
    - intros i Hi. rewrite (map_nth (fun i => peval f (fpow (trace_primitive_root d) i))), Q. unfold idle_columns. rewrite (proj2 (Nat.eqb_neq j idle_product)) by lia.
      unfold idle_base. rewrite (nth_indep _ [] (repeat 0 8)), !nth_repeat; [reflexivity|]. rewrite repeat_length. vm_compute in Hj. vm_compute. lia. }
  split; [intro u; rewrite Wd; split; [reflexivity|]; apply Forall_forall; intros row Hr; apply repeat_spec in Hr; subst row; apply repeat_length|].
  split.
  { constructor; [apply repeat_length| |].
    - intros l Hl. apply repeat_spec in Hl. subst l. split; [constructor; [intros []|constructor]|cbn; lia].
    - intros y Hy. rewrite (nth_indep _ [] [z]), nth_repeat in Hy by (rewrite repeat_length; unfold tape_length, at_folding, at_terms; lia). destruct Hy as [<-|[]]. exact Hz. }
  split.
  { intros xs polys _ Hl Hn. set (cols := domain_columns polys (trace_primitive_root d) (2 ^ 3)).
    assert (Cell : forall j, (j < cairo_width idle_pi)%nat -> cell cols 0 j = if (j =? idle_product)%nat then 1 else 0).
    { intros j Hj. rewrite Wd in Hl. unfold cell, cols, domain_columns.
      rewrite (nth_indep _ [] (map (fun i => peval [] (fpow (trace_primitive_root d) i)) (seq 0 (2 ^ 3)))) by (now rewrite map_length, Hl).
      rewrite (map_nth (fun p => map (fun i => peval p (fpow (trace_primitive_root d) i)) (seq 0 (2 ^ 3)))).
      change (peval (nth j polys []) (fpow (trace_primitive_root d) 0) = if (j =? idle_product)%nat then 1 else 0). apply (Col j), Hn. now rewrite Hl. }
    unfold first_row_equation, sorted_addr, sorted_value, mem_product, access_addr, access_value, flat.
    change (0 / 4)%nat with 0%nat. change (0 mod 4)%nat with 0%nat. rewrite !Nat.add_0_r.
    rewrite !Cell by (apply Nat.ltb_lt; vm_compute; reflexivity).
    rewrite (proj2 (Nat.eqb_neq (MEMORY_ADDR_SORTED_0 - _) _)), (proj2 (Nat.eqb_neq (MEMORY_VALUES_SORTED_0 - _) _)), (proj2 (Nat.eqb_eq (PERMUTATION_ARGUMENT_COL_0 - _) _)),
      (proj2 (Nat.eqb_neq FRAME_PC _)), (proj2 (Nat.eqb_neq FRAME_INST _)) by (reflexivity || (vm_compute; discriminate)).
    destruct (fld_th _ HK) as [[R1 R2 R3 R4 R5 R6 R7 R8 R9] _ _ _]. rewrite R5. apply R4. }
  intros [_ _ [H0 _] _ _]. apply (f_equal (fun x : plain252 => zval (x : zp stark_p))) in H0. vm_compute in H0. discriminate H0.
Qed.
