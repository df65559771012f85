(** C63, C64: what a verifier that is convinced again and again can conclude about the committed words. *)
From Coq Require Import List Arith Lia Bool NArith ZArith Field_theory Ring_theory.
From Verif.Base Require Import Outcome Bytes Field Poly Zp.
From Verif.Model Require Import Codec PublicInputs Trace Merkle Air Transcript Domain Options Fri Prover Verifier ExampleAirs CairoDecode CairoTrace CairoAir.
From Verif.Spec Require Import AirSpec CairoSpec CairoColumns ExampleSpec ProvingSpec Forgery VerifierSpec HashSpec LowDegree FriTree OodSpec StarkTree.
From Verif.Proofs Require Import OutcomeFacts FieldFacts PolyFacts FFTFacts TraceFacts DomainFacts ExampleFacts PolyAir CpuFacts CairoAirFacts CairoAdmissible
  VerifierTotal OodFacts LowDegreeFacts FriSoundness StarkSoundness FriComplete StarkComplete.
From Verif.Examples Require Import Toy Stark252 MiniRun RunExamples Calm.
From Verif.Proofs Require Import StarkFieldFacts.
From Verif.Properties Require Import ExampleProperties StarkProperties OodProperties CairoMemoryProperties CairoSoundnessProperties CairoForgeryProperties.
Import ListNotations.
Local Open Scope felt_scope.

(** ** C63 *)

(** Words for the columns are fixed. If, for every constraint, the verifier is convinced with two values of this
    constraint's coefficient, in each case at more points than the bound, then the words are polynomials and the values of
    these polynomials on the trace domain satisfy all constraints. *)
Theorem C63_convincing_words_satisfy :
  forall (E : env) (a : air E) r b k d w rap cols,
  env_ok E -> admissible a r b k -> proving_ok a r b -> domain_new a = Ok d -> primitive_root (r + b) = Some w ->
  (forall g, primitive_root r = Some g -> transition_is_polynomial a (2 ^ r + 1) g) ->
  (length (transition_exemptions (a_context a)) <= length (transition_degrees (a_context a)))%nat ->
  (forall bcs bc, a_boundary a rap = Ok bcs -> In bc bcs -> (bc_step bc < 2 ^ r)%nat /\ (bc_col bc < trace_columns (a_context a))%nat) ->
  convincing a d r b w rap cols ->
  exists polys, length polys = trace_columns (a_context a) /\ interpolated_by (on_coset (d_coset_offset d) w) cols polys (2 ^ r + 1) /\
    trace_satisfies a rap (domain_columns polys (trace_primitive_root d) (2 ^ r)) (2 ^ r).
Proof.
  intros E a r b k d w rap cols HE A P Hd Hw Hpoly Hex Hbc [HT HB].
  destruct (domain_new_shape HE a d r b Hd (ad_n _ _ _ _ A) (ad_blowup _ _ _ _ A) (ad_r _ _ _ _ A)) as (g & W & D).
  assert (w = W) by (pose proof (ds_W _ _ _ _ _ _ D); congruence). subst W.
  assert (Hpolys : exists polys, length polys = trace_columns (a_context a) /\
    interpolated_by (on_coset (e_u64 E (coset_offset (a_options a))) w) cols polys (2 ^ r + 1)).
  { pose proof (pk_deg_ne _ _ _ P) as Hne.
    assert (H0 : (0 < length (transition_degrees (a_context a)))%nat) by (destruct (transition_degrees (a_context a)); [congruence|cbn; lia]).
    destruct (HT 0%nat H0) as (bco & tco & beta & beta' & _ & _ & Ho & _). exact (often_polys HE A D rap cols _ _ _ Ho). }
  destruct Hpolys as (polys & Hl & Hi). exists polys. split; [exact Hl|]. rewrite (ds_offset _ _ _ _ _ _ D). split; [exact Hi|].
  apply (C59_columns_satisfy E a r b k d rap polys (2 ^ r + 1) (2 ^ r + 1)%nat HE A P Hd ltac:(lia) Hpoly Hl (proj1 Hi) Hex).
  - intros bcs bc H1 H2. rewrite Hl. exact (Hbc bcs bc H1 H2).
  - intros j Hj. exact (transition_twice HE A D rap cols polys j Hl Hi (HT j Hj)).
  - intros bcs j H1 Hj. exact (boundary_twice HE A D rap cols polys j Hl Hi (HB bcs j H1 Hj)).
Qed.
Print Assumptions C63_convincing_words_satisfy.

(** The converse: polynomials whose values satisfy the constraints are convincing, in a field with enough points outside
    the two domains and with hash functions without coincidences. *)
Theorem C63_satisfying_words_convince :
  forall (E : env) (a : air E) r b k d w g rap polys bcs zs,
  env_ok E -> perfect_hash (e_leaf E) (e_node E) -> admissible a r b k -> proving_ok a r b -> domain_new a = Ok d -> primitive_root (r + b) = Some w ->
  primitive_root r = Some g -> length polys = trace_columns (a_context a) -> Forall (fun p : poly E => (length p <= 2 ^ r)%nat) polys ->
  trace_satisfies a rap (domain_columns polys g (2 ^ r)) (2 ^ r) -> a_boundary a rap = Ok bcs ->
  NoDup zs -> (stark_bound a (2 ^ r) < length zs)%nat ->
  (forall z, In z zs -> ~ on_coset (d_coset_offset d) w z /\ fpow z (2 ^ r) <> 1) ->
  convincing a d r b w rap (fun j => peval (nth j polys [])).
Proof.
  intros E a r b k d w g rap polys bcs zs HE HH A P Hd Hw Hg Hl Hpl Hs Hb Hnd Hlen Hzs.
  destruct (domain_new_shape HE a d r b Hd (ad_n _ _ _ _ A) (ad_blowup _ _ _ _ A) (ad_r _ _ _ _ A)) as (g' & W & D).
  assert (w = W) by (pose proof (ds_W _ _ _ _ _ _ D); congruence). subst W.
  assert (g = g') by (pose proof (ds_g _ _ _ _ _ _ D); congruence). subst g'. rewrite (ds_offset _ _ _ _ _ _ D) in Hzs.
  exact (satisfying_convinces HE HH A P D rap polys Hl Hpl Hs bcs Hb zs Hnd Hlen Hzs).
Qed.
Print Assumptions C63_satisfying_words_convince.

(** The same for columns: the polynomials are their interpolants. *)
Lemma columns_interpolated (E : env) (cols : list (list E)) r g : env_ok E -> (1 <= r)%nat -> primitive_root r = Some g ->
  Forall (fun c => length c = (2 ^ r)%nat) cols ->
  exists polys, length polys = length cols /\ Forall (fun p : poly E => (length p <= 2 ^ r)%nat) polys /\ domain_columns polys g (2 ^ r) = cols.
Proof.
  intros HE Hr Hg Hc. pose proof (fft_field_ok _ (e_fft_ok E HE)) as HK. induction Hc as [|c cols L Hc IH]; [exists []; repeat split; constructor|].
  destruct IH as (polys & L1 & L2 & L3). destruct (interpolate_offset_ok (e_fft_ok E HE) c 1 r g L Hr (one_neq_zero HK) Hg) as (q & _ & Hq & Hv & _).
  exists (q :: polys). split; [cbn; lia|]. split; [constructor; [lia|exact L2]|].
  change (domain_columns (q :: polys) g (2 ^ r)) with (map (fun i => peval q (fpow g i)) (seq 0 (2 ^ r)) :: domain_columns polys g (2 ^ r)).
  rewrite L3. f_equal. apply (nth_ext _ _ 0 0); [now rewrite map_length, seq_length|]. intros i Hi. rewrite map_length, seq_length in Hi.
  rewrite (nth_indep _ 0 (peval q (fpow g 0))) by (rewrite map_length, seq_length; exact Hi).
  rewrite (map_nth (fun i => peval q (fpow g i))), seq_nth by exact Hi. rewrite <- (Hv i) by lia. f_equal. symmetry. apply (Rmul_1_l (F_R (fld_th E HK))).
Qed.
Theorem C63_satisfying_columns_convince :
  forall (E : env) (a : air E) r b k d w rap cols bcs zs,
  env_ok E -> perfect_hash (e_leaf E) (e_node E) -> admissible a r b k -> proving_ok a r b -> domain_new a = Ok d -> primitive_root (r + b) = Some w ->
  length cols = trace_columns (a_context a) -> Forall (fun c => length c = (2 ^ r)%nat) cols ->
  trace_satisfies a rap cols (2 ^ r) -> a_boundary a rap = Ok bcs ->
  NoDup zs -> (stark_bound a (2 ^ r) < length zs)%nat ->
  (forall z, In z zs -> ~ on_coset (d_coset_offset d) w z /\ fpow z (2 ^ r) <> 1) ->
  exists polys, length polys = length cols /\ Forall (fun p => (length p <= 2 ^ r)%nat) polys /\
    domain_columns polys (trace_primitive_root d) (2 ^ r) = cols /\
    convincing a d r b w rap (fun j => peval (nth j polys [])).
Proof.
  intros E a r b k d w rap cols bcs zs HE HH A P Hd Hw Hl Hc Hs Hb Hnd Hlen Hzs.
  destruct (domain_new_shape HE a d r b Hd (ad_n _ _ _ _ A) (ad_blowup _ _ _ _ A) (ad_r _ _ _ _ A)) as (g & W & D).
  destruct (columns_interpolated E cols r g HE (ad_r _ _ _ _ A) (ds_g _ _ _ _ _ _ D) Hc) as (polys & L1 & L2 & L3).
  exists polys. rewrite (ds_root _ _ _ _ _ _ D). split; [exact L1|]. split; [exact L2|]. split; [exact L3|].
  apply (C63_satisfying_words_convince E a r b k d w g rap polys bcs zs HE HH A P Hd Hw (ds_g _ _ _ _ _ _ D) (eq_trans L1 Hl) L2); try assumption. rewrite L3. exact Hs.
Qed.
Print Assumptions C63_satisfying_columns_convince.

(** The Fibonacci AIR: a convincing word is a polynomial whose values on the trace domain are the Fibonacci numbers. *)
Lemma fibonacci_proving (E : env) (a0 a1 : E) opts r b : (2 <= r)%nat -> (r + b <= two_adicity E)%nat ->
  proving_ok (fibonacci_air E a0 a1 opts (2 ^ r)) r b.
Proof.
  intros Hr Ht. assert (H4 : (4 <= 2 ^ r)%nat) by (change 4%nat with (2 ^ 2)%nat; apply Nat.pow_le_mono_r; lia).
  constructor; cbn; try easy.
  - intros e [<-|[]]. lia.
  - intros deg [<-|[]]. lia.
  - eauto.
Qed.
Theorem C63_fibonacci :
  forall (E : env) (a0 a1 : E) opts r b d w cols, env_ok E -> usable_options E opts r b -> (2 <= r)%nat -> (r + b <= two_adicity E)%nat ->
  domain_new (fibonacci_air E a0 a1 opts (2 ^ r)) = Ok d -> primitive_root (r + b) = Some w ->
  convincing (fibonacci_air E a0 a1 opts (2 ^ r)) d r b w tt cols ->
  exists q : poly E, (length q <= 2 ^ r + 1)%nat /\ (forall x, on_coset (d_coset_offset d) w x -> cols 0%nat x = peval q x) /\
    map (fun i => peval q (fpow (trace_primitive_root d) i)) (seq 0 (2 ^ r)) = fibs a0 a1 (2 ^ r).
Proof.
  intros E a0 a1 opts r b d w cols HE Hu Hr Ht Hd Hw Hc. pose proof (fft_field_ok _ (e_fft_ok E HE)) as HK.
  assert (H4 : (4 <= 2 ^ r)%nat) by (change 4%nat with (2 ^ 2)%nat; apply Nat.pow_le_mono_r; lia).
  destruct (C63_convincing_words_satisfy E (fibonacci_air E a0 a1 opts (2 ^ r)) r b 3 d w tt cols HE (fibonacci_admissible HE a0 a1 opts r b Hu) (fibonacci_proving E a0 a1 opts r b Hr Ht) Hd Hw) as (polys & Hl & [Hp1 Hp2] & Hs); [| | |exact Hc|].
  - intros g _. apply (transition_polynomial_exprs HK _ _ _ (fun _ => [Sub (Sub (Cell 2 0) (Cell 1 0)) (Cell 0 0)])); [lia| |].
    + intros rap polys x Hp. cbn [a_transition fibonacci_air a_context transition_offsets].
      rewrite !shifted_frame_row by (cbn; lia). cbn [obind]. cbn in Hp. rewrite !shifted_row_cell by lia. reflexivity.
    + intros rap [|j] H1 H2; cbn in *; lia.
  - cbn. lia.
  - cbn. intros bcs bc Hb Hin. apply ok_inj in Hb. subst bcs. destruct Hin as [<-|[<-|[]]]; cbn; lia.
  - cbn in Hl. destruct polys as [|q [|? ?]]; try discriminate. exists q. split; [now inversion Hp1|].
    split; [intros x Hx; exact (Hp2 0%nat x ltac:(cbn; lia) Hx)|].
    apply (fibonacci_characterised HE a0 a1 opts (2 ^ r)); [lia|now rewrite map_length, seq_length|exact Hs].
Qed.
Print Assumptions C63_fibonacci.

(** ** C64 *)

Lemma cairo_boundary_in {C : cairo_env} (pi : public_inputs C) opts n ch bcs bc : (1 <= num_steps pi <= n)%nat ->
  a_boundary (cairo_air pi opts n) ch = Ok bcs -> In bc bcs ->
  (bc_step bc < n)%nat /\ (bc_col bc < trace_columns (a_context (cairo_air pi opts n)))%nat.
Proof.
  intros Hs Hb Hin. cbn [cairo_air a_context a_boundary] in *. rewrite cairo_width_declared. unfold cairo_boundary in Hb.
  destruct (usub (num_steps pi) 1) as [ls| |] eqn:E1; cbn [obind] in Hb; [|discriminate..].
  destruct (usub n 1) as [fi| |] eqn:E2; cbn [obind] in Hb; [|discriminate..].
  destruct (inv_o _) as [cp| |]; cbn [obind] in Hb; [|discriminate..].
  destruct (unwrap (range_check_min pi)) as [mn| |]; cbn [obind] in Hb; [|discriminate..].
  destruct (unwrap (range_check_max pi)) as [mx| |]; cbn [obind] in Hb; [|discriminate..].
  rewrite usub_ok in E1, E2 by lia. apply ok_inj in E1, E2. apply ok_inj in Hb. subst ls fi bcs.
  assert (W : (50 <= cairo_width pi)%nat).
  { unfold cairo_width, builtin_offset, BUILTIN_OFFSET. destruct (has_rc_builtin pi); lia. }
  unfold cairo_width, builtin_offset, BUILTIN_OFFSET in *.
  cbn [In] in Hin. repeat (destruct Hin as [<-|Hin]; [cbn [bc_step bc_col]; split; [lia|]|]); try contradiction; clear -W;
  destruct (has_rc_builtin pi); apply Nat.ltb_lt; vm_compute; reflexivity.
Qed.

Lemma cairo_exemptions_le {C : cairo_env} (pi : public_inputs C) opts :
  (length (transition_exemptions (cairo_context pi opts)) <= length (transition_degrees (cairo_context pi opts)))%nat.
Proof.
  rewrite degrees_length. destruct (Nat.le_gt_cases (length (transition_exemptions (cairo_context pi opts))) (n_constraints pi)) as [H|H]; [exact H|].
  destruct (nth_error (transition_exemptions (cairo_context pi opts)) (n_constraints pi)) as [e|] eqn:He; [|apply nth_error_None in He; lia].
  apply exemption_inv in He. lia.
Qed.

(** The Cairo AIR. Words for the main columns and for all sorted columns are fixed before the challenges of the
    permutation arguments; [base] holds the values of those of them that are polynomials. With the three gaps of the AIR
    closed as in C58, then for all but the listed challenges, convincing words describe a run of the machine. *)
Theorem C64_cairo_words_describe_run :
  forall (C : cairo_env) p, cairo_ok C p -> sampling_ok C -> forall (pi : public_inputs C) opts r b d w lo hi (fixed : nat -> C -> C) (base : list (list C)),
  let a := cairo_air pi opts (2 ^ r) in
  usable_options C opts r b -> (r + b <= two_adicity C)%nat -> domain_new a = Ok d -> primitive_root (r + b) = Some w ->
  let on_domain := on_coset (d_coset_offset d) w in
  let limit := (PERMUTATION_ARGUMENT_COL_0 - builtin_offset pi)%nat in
  length base = trace_columns (a_context a) -> (N.of_nat (4 * 2 ^ r) < 2 ^ 64)%N ->
  range_check_min pi = Some lo -> range_check_max pi = Some hi -> (lo < 2 ^ 16)%N -> (hi < 2 ^ 16)%N -> (1 <= num_steps pi <= 2 ^ r)%nat ->
  (forall i, (i + 1 < num_steps pi)%nat -> cell base i FRAME_SELECTOR = 1) ->
  (forall j q, (j < limit)%nat -> (length q <= 2 ^ r + 1)%nat -> (forall x, on_domain x -> fixed j x = peval q x) ->
     nth j base [] = map (fun i => peval q (fpow (trace_primitive_root d) i)) (seq 0 (2 ^ r))) ->
  let m := (4 * 2 ^ r + length (public_memory pi))%nat in
  exists bad_alpha bad_zrc, (length bad_alpha <= (2 * m) * (2 * m))%nat /\ (length bad_zrc <= 3 * 2 ^ r)%nat /\
  forall alpha, ~ In alpha bad_alpha -> exists bad_z, (length bad_z <= 2 * m)%nat /\
  forall z zrc words, ~ In z bad_z -> ~ In zrc bad_zrc ->
    (forall j x, (j < limit)%nat -> on_domain x -> words j x = fixed j x) ->
    convincing a d r b w (CairoAir.mk_challenges alpha z zrc) words ->
    (forall polys, length polys = trace_columns (a_context a) -> interpolated_by on_domain words polys (2 ^ r + 1) ->
       first_row_equation pi (CairoAir.mk_challenges alpha z zrc) (domain_columns polys (trace_primitive_root d) (2 ^ r))) ->
    describes_run pi base (2 ^ r).
Proof.
  intros C p HC HS pi opts r b d w lo hi fixed base a Hu Ht Hd Hw on_domain limit Hbw Hn64 Hlo Hhi Hlo16 Hhi16 Hst Hsel Hbase m.
  pose proof (co_env _ _ HC) as HE. destruct Hu as (Hr & Hb1 & Hu'). assert (Hu : usable_options C opts r b) by (split; [exact Hr|split; [exact Hb1|exact Hu']]).
  pose proof (pow2_ge2 r Hr) as H2.
  destruct (C58_repaired_air_is_sound C p HC pi opts (2 ^ r) lo hi base Hbw ltac:(lia) Hn64 Hlo Hhi Hlo16 Hhi16 Hst Hsel) as (ba & bz & L1 & L2 & H).
  exists ba, bz. split; [exact L1|]. split; [exact L2|]. intros alpha Ha. destruct (H alpha Ha) as (bzz & L3 & H'). exists bzz. split; [exact L3|].
  intros z zrc words Hz Hzrc Hfix Hconv Hfirst.
  destruct (C63_convincing_words_satisfy C a r b 2 d w (CairoAir.mk_challenges alpha z zrc) words HE (cairo_admissible HE pi opts r b Hu) (cairo_proving HS pi opts r b Hr Ht) Hd Hw) as (polys & Hl & Hi & Hs); [| | |exact Hconv|].
  - intros g _. apply (cairo_polynomial HE). lia.
  - apply cairo_exemptions_le.
  - intros bcs bc. exact (cairo_boundary_in pi opts (2 ^ r) _ bcs bc Hst).
  - apply (H' z zrc (domain_columns polys (trace_primitive_root d) (2 ^ r)) Hz Hzrc); [|exact Hs|exact (Hfirst polys Hl Hi)].
    split; [unfold domain_columns; rewrite map_length, Hl; now symmetry|]. intros j Hj.
    assert (Hjl : (j < length polys)%nat).
    { rewrite Hl. cbn [a cairo_air a_context]. rewrite cairo_width_declared. fold limit in Hj.
      unfold limit, PERMUTATION_ARGUMENT_COL_0, cairo_width, builtin_offset, BUILTIN_OFFSET in *. destruct (has_rc_builtin pi); lia. }
    rewrite (Hbase j (nth j polys []) Hj).
    + unfold domain_columns. rewrite (nth_indep _ [] (map (fun i => peval [] (fpow (trace_primitive_root d) i)) (seq 0 (2 ^ r)))) by (now rewrite map_length).
      exact (map_nth (fun p => map (fun i => peval p (fpow (trace_primitive_root d) i)) (seq 0 (2 ^ r))) polys [] j).
    + destruct Hi as [Hi _]. rewrite Forall_forall in Hi. apply Hi, nth_In, Hjl.
    + intros x Hx. rewrite <- (Hfix j x Hj Hx). exact (proj2 Hi j x Hjl Hx).
Qed.
Print Assumptions C64_cairo_words_describe_run.

(** ** Examples *)

(** The toy environment with hash functions without coincidences. *)
Definition plain_leaf (bs : list byte) : commitment := Byte.x00 :: bs.
Definition plain_node (a b : commitment) : commitment := Byte.x01 :: repeat Byte.x01 (length a) ++ Byte.x00 :: a ++ b.
Lemma repeat_stop (a b u v : list byte) : repeat Byte.x01 (length a) ++ Byte.x00 :: a ++ u = repeat Byte.x01 (length b) ++ Byte.x00 :: b ++ v -> a = b /\ u = v.
Proof.
  intro H. assert (L : length a = length b).
  { revert H. generalize (length a) (length b) (a ++ u) (b ++ v). induction n as [|n IH]; intros [|m] p q H; cbn in H; try discriminate; [reflexivity|].
    injection H as H. f_equal. exact (IH _ _ _ H). }
  rewrite L in H. apply app_inv_head in H. injection H as H. revert b L H. induction a as [|x a IH]; intros [|y b] L H; try discriminate; [now split|].
  cbn in L, H. injection L as L. injection H as -> H. destruct (IH b L H) as [-> ->]. now split.
Qed.
Lemma plain_perfect {A} (enc : A -> list byte) : (forall x y, enc x = enc y -> x = y) -> perfect_hash (fun x => plain_leaf (enc x)) plain_node.
Proof.
  intro He. constructor.
  - intros a b c d H. unfold plain_node in H. injection H as H. now apply repeat_stop.
  - intros x y H. unfold plain_leaf in H. injection H as H. now apply He.
  - intros x a b H. discriminate H.
Qed.
Definition plain : env := {|
  e_K := FFT97; e_codec := toy_codec; e_bits := 7; e_u64 := e_u64 toy; e_tr := toy_transcript;
  e_leaf := fun x => plain_leaf (repeat Byte.x01 (Z.to_nat (zval x))); e_leaves := e_leaves toy; e_node := plain_node; e_keccak := e_keccak toy
|}.
Lemma plain_ok : env_ok plain.
Proof. constructor; [exact FFT97_ok|]. apply zp_eq. reflexivity. Qed.
Lemma zp_nonneg {p} (x : zp p) : (0 <= zval x)%Z.
Proof. destruct x as [x H]. cbn. unfold in_range in H. apply andb_true_iff in H. rewrite Z.leb_le in H. tauto. Qed.
Lemma plain_hash : perfect_hash (e_leaf plain) (e_node plain).
Proof.
  apply (plain_perfect (fun x : plain => repeat Byte.x01 (Z.to_nat (zval x)))). intros x y H. apply zp_eq.
  apply (f_equal (@length byte)) in H. rewrite !repeat_length in H. pose proof (zp_nonneg x). pose proof (zp_nonneg y). lia.
Qed.

Lemma distinct_values (l : list Z) : l = map Z.of_nat (seq (match l with [] => 0 | x :: _ => Z.to_nat x end) (length l)) -> NoDup l.
Proof. intros ->. apply FinFun.Injective_map_NoDup; [intros x y; apply Nat2Z.inj|apply seq_NoDup]. Qed.
(** Points outside both domains, by the powers that are constant on these. *)
Definition outside {E : env} (opts : proof_options) (r b : nat) (z : E) : bool :=
  negb (feqb (fpow z (2 ^ (r + b))) (fpow (e_u64 E (coset_offset opts)) (2 ^ (r + b)))) && negb (feqb (fpow z (2 ^ r)) 1).
Lemma outside_points {E : env} (HE : env_ok E) (a : air E) r b k d w l z : admissible a r b k -> domain_new a = Ok d -> primitive_root (r + b) = Some w ->
  In z (filter (outside (a_options a) r b) l) -> ~ on_coset (d_coset_offset d) w z /\ fpow z (2 ^ r) <> 1.
Proof.
  intros A Hd Hw Hz. apply filter_In in Hz. destruct Hz as [_ Hz]. apply andb_true_iff in Hz. destruct Hz as [H1 H2]. pose proof (fft_field_ok _ (e_fft_ok E HE)) as HK.
  destruct (domain_new_shape HE a d r b Hd (ad_n _ _ _ _ A) (ad_blowup _ _ _ _ A) (ad_r _ _ _ _ A)) as (g & W & D).
  apply negb_true_iff in H1, H2. split.
  - intros (i & ->). enough (feqb (fpow (d_coset_offset d * fpow w i) (2 ^ (r + b))) (fpow (e_u64 E (coset_offset (a_options a))) (2 ^ (r + b))) = true) by congruence.
    apply (feqb_spec E HK). rewrite (ds_offset _ _ _ _ _ _ D). pose proof (ad_r _ _ _ _ A).
    destruct (primitive_root_prim (e_fft_ok E HE) (r + b) w ltac:(lia) Hw) as [[Hp _] _].
    rewrite (fpow_mul_base HK), <- (fpow_mul HK), Nat.mul_comm, (fpow_mul HK), Hp, (fpow_one HK).
    rewrite (Rmul_comm (F_R (fld_th E HK))). apply (Rmul_1_l (F_R (fld_th E HK))).
  - intro H. apply (feqb_spec E HK) in H. congruence.
Qed.

(** Four rows of the Fibonacci AIR in this environment. *)
Definition plain_air : air plain := fibonacci_air plain (f97 1) (f97 1) toy_opts 4.
Definition plain_all : list plain := map (fun i => f97 (Z.of_nat i)) (seq 0 97).
Definition plain_points : list plain := filter (outside (E := plain) (a_options plain_air) 2 1) plain_all.
Definition plain_column : list plain := fibs (f97 1 : plain) (f97 1 : plain) 4.
Lemma plain_usable : usable_options plain toy_opts 2 1. Proof. exact toy_usable. Qed.
Lemma plain_satisfies : trace_satisfies plain_air tt [plain_column] 4.
Proof. exact (fibonacci_satisfies plain_ok (f97 1 : plain) (f97 1 : plain) toy_opts 4 ltac:(lia)). Qed.
Lemma plain_points_def : plain_points = filter (outside (E := plain) (a_options plain_air) 2 1) plain_all. Proof. reflexivity. Qed.
Lemma plain_point z : In z plain_points -> In z (filter (outside (E := plain) (a_options plain_air) 2 1) plain_all).
Proof. rewrite <- plain_points_def. intro H. exact H. Qed.
Lemma plain_distinct : NoDup plain_points.
Proof. apply NoDup_filter. apply (NoDup_map_inv (fun z : plain => zval z)). apply distinct_values. vm_compute. reflexivity. Qed.
Lemma plain_many : (stark_bound plain_air 4 < length plain_points)%nat.
Proof. apply Nat.ltb_lt. vm_compute. reflexivity. Qed.
Lemma plain_admissible : admissible plain_air 2 1 3.
Proof. exact (fibonacci_admissible plain_ok (f97 1 : plain) (f97 1 : plain) toy_opts 2 1 plain_usable). Qed.
Lemma plain_domain : is_ok (domain_new plain_air) = true. Proof. vm_compute. reflexivity. Qed.
Lemma plain_proving : proving_ok plain_air 2 1.
Proof. apply (fibonacci_proving plain (f97 1) (f97 1) toy_opts 2 1); cbn; lia. Qed.
Lemma plain_width : length [plain_column] = trace_columns (a_context plain_air). Proof. reflexivity. Qed.
Lemma plain_rows : Forall (fun c => length c = (2 ^ 2)%nat) [plain_column]. Proof. repeat constructor. Qed.
Definition plain_boundary : list (boundary_constraint plain) := match a_boundary plain_air tt with Ok bcs => bcs | _ => [] end.
Lemma plain_boundary_ok : a_boundary plain_air tt = Ok plain_boundary. Proof. reflexivity. Qed.
Lemma plain_convinces d w : domain_new plain_air = Ok d -> primitive_root (2 + 1) = Some w ->
  exists polys, length polys = length [plain_column] /\ Forall (fun p => (length p <= 2 ^ 2)%nat) polys /\
    domain_columns polys (trace_primitive_root d) (2 ^ 2) = [plain_column] /\
    convincing plain_air d 2 1 w tt (fun j => peval (nth j polys [])).
Proof.
  intros Hd Hw.
  exact (C63_satisfying_columns_convince plain plain_air 2 1 3 d w tt [plain_column] plain_boundary plain_points plain_ok plain_hash plain_admissible
    plain_proving Hd Hw plain_width plain_rows plain_satisfies plain_boundary_ok plain_distinct plain_many
    (fun z Hz => outside_points plain_ok plain_air 2 1 3 d w plain_all z plain_admissible Hd Hw (plain_point z Hz))).
Qed.
Example C63_example :
  exists d w q, domain_new plain_air = Ok d /\ primitive_root 3 = Some w /\ (length q <= 4)%nat /\
    map (fun i => peval q (fpow (trace_primitive_root d) i)) (seq 0 4) = plain_column /\
    convincing plain_air d 2 1 w tt (fun j => peval (nth j [q] [])).
Proof.
  pose proof plain_domain as H. destruct (domain_new plain_air) as [d| |] eqn:Hd; [|discriminate H..].
  destruct (primitive_root (K := plain) 3) as [w|] eqn:Hw; [|discriminate Hw].
  destruct (plain_convinces d w Hd Hw) as (polys & L1 & L2 & L3 & Hc).
  destruct polys as [|q [|? ?]]; try discriminate L1. exists d, w, q. split; [reflexivity|]. split; [reflexivity|]. split; [now inversion L2|].
  split; [|exact Hc].
  apply (f_equal (hd [])) in L3. exact L3.
Qed.

(** The run of [MiniRun], in the environment of [Calm] with hash functions without coincidences. *)
Definition plain252_env : env := {|
  e_K := FFT252; e_codec := stark_codec; e_bits := 252; e_u64 := e_u64 stark; e_tr := calm_transcript;
  e_leaf := fun x => plain_leaf (repeat Byte.x01 (Z.to_nat (zval x))); e_leaves := e_leaves stark; e_node := plain_node; e_keccak := fun _ => repeat Byte.x00 32
|}.
Definition plain252 : cairo_env := mk_cairo_env plain252_env (fun x : F252 => Z.to_N (zval x)).
Lemma plain252_ok : cairo_ok plain252 (Z.to_N stark_p).
Proof.
  destruct stark_ok as [[H0 H0'] H1 H2 H3 H4 H5 H6 H7 H8]. constructor; try assumption. constructor; assumption.
Qed.
Lemma plain252_sampling : sampling_ok plain252.
Proof. destruct calm_sampling as [H1 H2 H3 H4]. constructor; assumption. Qed.
Lemma plain252_hash : perfect_hash (e_leaf plain252) (e_node plain252).
Proof.
  apply (plain_perfect (fun x : plain252 => repeat Byte.x01 (Z.to_nat (zval (x : zp stark_p))))). intros x y H. apply zp_eq.
  apply (f_equal (@length byte)) in H. rewrite !repeat_length in H. pose proof (zp_nonneg (x : zp stark_p)). pose proof (zp_nonneg (y : zp stark_p)). lia.
Qed.
Definition run_pi : public_inputs plain252 := mini_pi.
Definition run_cols : list (list plain252) := mini_cols.
Definition run_challenges : cairo_challenges plain252 := CairoAir.mk_challenges (f252 5 : plain252) (f252 1000 : plain252) (f252 100000 : plain252).
Definition run_air : air plain252 := cairo_air run_pi default_test_options 8.
Lemma run_width : length run_cols = cairo_width run_pi. Proof. vm_compute. reflexivity. Qed.
Lemma run_boundary : boundaryb run_pi run_challenges run_cols 8 = true. Proof. vm_compute. reflexivity. Qed.
Lemma run_transitions : holdsb run_pi run_challenges run_cols 8 (seq 0 (n_constraints run_pi)) = true.
Proof. vm_compute. reflexivity. Qed.
Lemma run_satisfies : trace_satisfies run_air run_challenges run_cols 8.
Proof. exact (checked_satisfies (co_env _ _ plain252_ok) run_pi default_test_options run_challenges run_cols 8 run_width run_boundary run_transitions). Qed.
Lemma run_usable : usable_options plain252 default_test_options 3 2.
Proof. apply (default_coset_usable plain252_ok); try reflexivity; lia. Qed.
Lemma run_admissible : admissible run_air 3 2 2.
Proof. exact (cairo_admissible (co_env _ _ plain252_ok) run_pi default_test_options 3 2 run_usable). Qed.
Lemma run_proving : proving_ok run_air 3 2.
Proof. apply (cairo_proving plain252_sampling run_pi default_test_options 3 2); cbn; lia. Qed.
Definition run_all : list plain252 := map (fun i => f252 (Z.of_nat i) : plain252) (seq 2 50).
Definition run_points : list plain252 := filter (outside (E := plain252) (a_options run_air) 3 2) run_all.
Lemma run_points_def : run_points = filter (outside (E := plain252) (a_options run_air) 3 2) run_all. Proof. reflexivity. Qed.
Lemma run_point z : In z run_points -> In z (filter (outside (E := plain252) (a_options run_air) 3 2) run_all).
Proof. rewrite <- run_points_def. intro H. exact H. Qed.
Lemma run_distinct : NoDup run_points.
Proof. apply NoDup_filter. apply (NoDup_map_inv (fun z : plain252 => zval (z : zp stark_p))). apply distinct_values. vm_compute. reflexivity. Qed.
Lemma run_many : (stark_bound run_air 8 < length run_points)%nat.
Proof. apply Nat.ltb_lt. vm_compute. reflexivity. Qed.
Lemma run_declared : length run_cols = trace_columns (a_context run_air).
Proof. unfold run_air. cbn [cairo_air a_context]. rewrite cairo_width_declared. exact run_width. Qed.
Lemma run_rows : Forall (fun c => length c = (2 ^ 3)%nat) run_cols.
Proof. assert (H : forallb (fun c => Nat.eqb (length c) 8) run_cols = true) by (vm_compute; reflexivity). rewrite forallb_forall in H.
  apply Forall_forall. intros c Hc. exact (proj1 (Nat.eqb_eq _ _) (H c Hc)). Qed.
Lemma run_boundaries : exists bcs, a_boundary run_air run_challenges = Ok bcs.
Proof. assert (H : is_ok (a_boundary run_air run_challenges) = true) by (vm_compute; reflexivity). destruct (a_boundary run_air run_challenges) as [bcs| |]; [eauto|discriminate H..]. Qed.
Lemma run_domain : is_ok (domain_new run_air) = true. Proof. vm_compute. reflexivity. Qed.
Lemma run_convinces d w : domain_new run_air = Ok d -> primitive_root (3 + 2) = Some w ->
  exists polys, length polys = length run_cols /\ Forall (fun p => (length p <= 2 ^ 3)%nat) polys /\
    domain_columns polys (trace_primitive_root d) (2 ^ 3) = run_cols /\
    convincing run_air d 3 2 w run_challenges (fun j => peval (nth j polys [])).
Proof.
  intros Hd Hw. destruct run_boundaries as (bcs & Hb).
  exact (C63_satisfying_columns_convince plain252 run_air 3 2 2 d w run_challenges run_cols bcs run_points (co_env _ _ plain252_ok) plain252_hash run_admissible
    run_proving Hd Hw run_declared run_rows run_satisfies Hb run_distinct run_many
    (fun z Hz => outside_points (co_env _ _ plain252_ok) run_air 3 2 2 d w run_all z run_admissible Hd Hw (run_point z Hz))).
Qed.

(** Polynomials of this length with the same values on the coset have the same values on the trace domain. *)
Lemma same_columns (E : env) (a : air E) r b k d w (polys polys' : list (poly E)) : env_ok E -> admissible a r b k -> domain_new a = Ok d -> primitive_root (r + b) = Some w ->
  length polys' = length polys -> Forall (fun p : poly E => (length p <= 2 ^ r)%nat) polys ->
  interpolated_by (on_coset (d_coset_offset d) w) (fun j => peval (nth j polys [])) polys' (2 ^ r + 1) ->
  forall g, domain_columns polys' g (2 ^ r) = domain_columns polys g (2 ^ r).
Proof.
  intros HE A Hd Hw Hl Hp [Hp' Hv] g.
  destruct (domain_new_shape HE a d r b Hd (ad_n _ _ _ _ A) (ad_blowup _ _ _ _ A) (ad_r _ _ _ _ A)) as (g' & W & D).
  assert (w = W) by (pose proof (ds_W _ _ _ _ _ _ D); congruence). subst W. rewrite (ds_offset _ _ _ _ _ _ D) in Hv.
  unfold domain_columns. apply (nth_ext _ _ [] []); [now rewrite !map_length|]. intros j Hj. rewrite map_length in Hj.
  assert (N : forall ps : list (poly E), (j < length ps)%nat -> nth j (map (fun p => map (fun i => peval p (fpow g i)) (seq 0 (2 ^ r))) ps) [] = map (fun i => peval (nth j ps []) (fpow g i)) (seq 0 (2 ^ r))).
  { intros ps H. rewrite (nth_indep _ [] (map (fun i => peval [] (fpow g i)) (seq 0 (2 ^ r)))) by (rewrite map_length; exact H).
    exact (map_nth (fun p => map (fun i => peval p (fpow g i)) (seq 0 (2 ^ r))) ps [] j). }
  rewrite !N by lia. apply map_ext. intro i. rewrite Forall_forall in Hp, Hp'.
  apply (unique_poly HE A D (peval (nth j polys []))).
  - exact (Hp' _ (nth_In _ _ Hj)).
  - assert (length (nth j polys []) <= 2 ^ r)%nat by (apply Hp, nth_In; rewrite <- Hl; exact Hj). lia.
  - intros x Hx. exact (Hv j x Hj Hx).
  - reflexivity.
Qed.
Lemma run_selectors i : (i + 1 < num_steps run_pi)%nat -> cell run_cols i FRAME_SELECTOR = 1.
Proof.
  assert (N : num_steps run_pi = 3%nat) by (vm_compute; reflexivity). rewrite N. intro Hi.
  assert (H : forallb (fun i => feqb (cell run_cols i FRAME_SELECTOR) 1) (seq 0 2) = true) by (vm_compute; reflexivity). rewrite forallb_forall in H.
  apply (feqb_spec plain252 (fft_field_ok _ (e_fft_ok _ (co_env _ _ plain252_ok)))). apply H. apply in_seq. lia.
Qed.
Lemma run_first : first_row_equation run_pi run_challenges run_cols.
Proof.
  unfold first_row_equation. apply (feqb_spec plain252 (fft_field_ok _ (e_fft_ok _ (co_env _ _ plain252_ok)))). vm_compute. reflexivity.
Qed.
(** All premises of the theorem hold for these words, which are both the fixed words and the words with these challenges. *)
Example C64_example :
  exists d w (words : nat -> plain252 -> plain252), domain_new run_air = Ok d /\ primitive_root (3 + 2) = Some w /\
    usable_options plain252 default_test_options 3 2 /\ length run_cols = trace_columns (a_context run_air) /\
    (forall i, (i + 1 < num_steps run_pi)%nat -> cell run_cols i FRAME_SELECTOR = 1) /\
    (forall j q, (j < length run_cols)%nat -> (length q <= 2 ^ 3 + 1)%nat -> (forall x, on_coset (d_coset_offset d) w x -> words j x = peval q x) ->
       nth j run_cols [] = map (fun i => peval q (fpow (trace_primitive_root d) i)) (seq 0 (2 ^ 3))) /\
    convincing run_air d 3 2 w run_challenges words /\
    (forall polys, length polys = trace_columns (a_context run_air) -> interpolated_by (on_coset (d_coset_offset d) w) words polys (2 ^ 3 + 1) ->
       first_row_equation run_pi run_challenges (domain_columns polys (trace_primitive_root d) (2 ^ 3))).
Proof.
  pose proof run_domain as H. destruct (domain_new run_air) as [d| |] eqn:Hd; [|discriminate H..]. clear H.
  destruct (primitive_root (K := plain252) (3 + 2)) as [w|] eqn:Hw; [|discriminate Hw].
  destruct (run_convinces d w Hd Hw) as (polys & L1 & L2 & L3 & Hc). exists d, w, (fun j => peval (nth j polys [])).
  split; [reflexivity|]. split; [reflexivity|]. split; [exact run_usable|]. split; [exact run_declared|]. split; [exact run_selectors|].
  assert (Same : forall polys', length polys' = length polys -> interpolated_by (on_coset (d_coset_offset d) w) (fun j => peval (nth j polys [])) polys' (2 ^ 3 + 1) ->
    domain_columns polys' (trace_primitive_root d) (2 ^ 3) = run_cols).
  { intros polys' Hl Hi. rewrite <- L3. exact (same_columns plain252 run_air 3 2 2 d w polys polys' (co_env _ _ plain252_ok) run_admissible Hd Hw Hl L2 Hi _). }
  split; [|split; [exact Hc|]].
  - intros j q Hj Hq Hx. assert (Hj' : (j < length polys)%nat) by lia.
    set (polys' := firstn j polys ++ q :: skipn (j + 1) polys).
    assert (Hl : length polys' = length polys) by (unfold polys'; rewrite app_length; cbn [length]; rewrite firstn_length, skipn_length; lia).
    assert (N : nth j polys' [] = q) by (unfold polys'; rewrite app_nth2 by (rewrite firstn_length; lia); rewrite firstn_length, Nat.min_l, Nat.sub_diag by lia; reflexivity).
    assert (E : domain_columns polys' (trace_primitive_root d) (2 ^ 3) = run_cols).
    { apply (Same polys' Hl). split.
      - apply Forall_forall. intros p Hp. unfold polys' in Hp. apply in_app_or in Hp. rewrite Forall_forall in L2.
        assert (K : In p polys -> (length p <= 2 ^ 3 + 1)%nat) by (intro Hin; specialize (L2 p Hin); lia).
        destruct Hp as [Hp|[<-|Hp]]; [|exact Hq|]; apply K; [rewrite <- (firstn_skipn j polys)|rewrite <- (firstn_skipn (j + 1) polys)]; apply in_or_app; [now left|now right].
      - intros i x Hi Hon. destruct (Nat.lt_trichotomy i j) as [Hlt|[->|Hgt]].
        + f_equal. unfold polys'. rewrite app_nth1 by (rewrite firstn_length; lia). rewrite <- (firstn_skipn j polys) at 1. rewrite app_nth1 by (rewrite firstn_length; lia). reflexivity.
        + rewrite (Hx x Hon). f_equal. symmetry. exact N.
        + f_equal. unfold polys'. rewrite app_nth2 by (rewrite firstn_length; lia). rewrite firstn_length, Nat.min_l by lia.
          replace (i - j)%nat with (S (i - j - 1))%nat by lia. cbn [nth]. rewrite <- (firstn_skipn (j + 1) polys) at 1. rewrite app_nth2 by (rewrite firstn_length; lia).
          rewrite firstn_length, Nat.min_l by lia. f_equal. lia. }
    rewrite <- E. unfold domain_columns. rewrite (nth_indep _ [] (map (fun i => peval [] (fpow (trace_primitive_root d) i)) (seq 0 (2 ^ 3)))) by (rewrite map_length; exact (eq_ind_r (fun l => (j < l)%nat) Hj' Hl)).
    rewrite (map_nth (fun p => map (fun i => peval p (fpow (trace_primitive_root d) i)) (seq 0 (2 ^ 3)))).
    apply map_ext. intro i. exact (f_equal (fun q => peval q (fpow (trace_primitive_root d) i)) N).
  - intros polys' Hl Hi. rewrite (Same polys'); [exact run_first|rewrite L1, run_declared; exact Hl|exact Hi].
Qed.
