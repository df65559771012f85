(** C26, C27, C29, C30, C37, C40, C41, C42, C48: the building blocks of the protocol. *)
From Coq Require Import List Arith Lia Bool NArith ZArith.
From Verif.Base Require Import Outcome Bytes Field Poly Zp.
From Verif.Model Require Import Codec Trace Merkle Air Transcript Domain Fri Prover Verifier ExampleAirs.
From Verif.Spec Require Import HashSpec AirSpec.
From Verif.Proofs Require Import OutcomeFacts FieldFacts PolyFacts FFTFacts MerkleFacts BindingFacts FriFacts DomainFacts TranscriptFacts BytesFacts ComposeFacts.
From Verif.Examples Require Import Toy.
Import ListNotations.
Local Open Scope felt_scope.

(** ** C26 *)

(** Folding computes the random linear combination of the even and odd parts. *)
Theorem C26_folding_identity :
  forall (K : field_ops) (p : poly K) (zeta x : K), field_ok K -> (1 : K) + 1 <> 0 -> x <> 0 ->
    peval (fold_polynomial p zeta) (x * x) =
    (peval p x + peval p (- x)) * finv (1 + 1) + zeta * (peval p x - peval p (- x)) * finv ((1 + 1) * x).
Proof.
  intros K p zeta x HK H2 Hx. exact (fold_identity' HK p zeta x H2 Hx).
Qed.
Print Assumptions C26_folding_identity.

(** Folding halves the number of coefficients, rounding up. *)
Theorem C26_folding_halves :
  forall (K : field_ops) (p : poly K) (zeta : K), field_ok K ->
    (length (fold_polynomial p zeta) <= (length p + 1) / 2)%nat.
Proof.
  intros K p zeta HK. apply fold_length.
  pose proof (Nat.div_mod (length p + 1) 2 ltac:(lia)). pose proof (Nat.mod_upper_bound (length p + 1) 2 ltac:(lia)). lia.
Qed.
Print Assumptions C26_folding_halves.

(** After [m] folds a polynomial with at most [2^m] coefficients is a constant: its value everywhere is
    its coefficient of degree zero, which is what the prover sends. *)
Theorem C26_folds_to_a_constant :
  forall (K : field_ops) (p : poly K) (zetas : list K), field_ok K -> (length p <= 2 ^ length zetas)%nat ->
    forall x, peval (fold_left fold_polynomial zetas p) x = nth 0 (fold_left fold_polynomial zetas p) 0.
Proof.
  intros K p zetas HK Hp x. apply (constant_eval HK).
  revert p Hp. induction zetas as [|z zs IH]; intros p Hp; [exact Hp|].
  cbn [fold_left]. apply IH. apply fold_length. cbn [length Nat.pow] in Hp. lia.
Qed.
Print Assumptions C26_folds_to_a_constant.

Example C26_example : map (@zval 97) (fold_polynomial (map f97 [1; 2; 3; 4; 5]%Z) (f97 10)) = [21; 43; 5]%Z.
Proof. vm_compute. reflexivity. Qed.

(** ** C27 *)

(** Whatever the polynomial (of at most [2^L] coefficients), the transcript, the number [L] of layers, the
    domain [h * <w>] of size [2^m] and the query index, the decommitment the prover produces passes the
    verifier's query check with the challenges the verifier derives from the layer roots. *)
Theorem C27_honest_fri_queries_accepted :
  forall (E : env) L m (deep : poly E) (t : e_tr E) (h w : E) last_value layers t' (d : domain E) (pr : stark_proof E) iota q,
    env_ok E -> (1 <= L <= m)%nat -> (length deep <= 2 ^ L)%nat -> h <> 0 -> primitive_root m = Some w ->
    fri_commit_phase E L deep t h (2 ^ m) = Ok (last_value, layers, t') ->
    fri_decommit E layers iota = Ok q ->
    lde_root_order d = m ->
    fri_layers_merkle_roots pr = map (fl_root E) layers -> fri_last_value pr = last_value ->
    exists zetas t2, sample_zetas E (map (fl_root E) layers) t = Ok (zetas, t2) /\
      verify_query E pr zetas iota q d (finv (h * fpow w iota)) (finv (1 + 1)) = Ok true.
Proof.
  intros E L m deep t h w lv layers t' d pr iota q HE HL Hdeep Hh Hw Hc Hq Hd Hroots Hlv.
  destruct (fri_commit_spec E L deep h m t lv layers t' Hc) as (zs & last & t2 & Hzs & Hrel & Hl & _ & Hlay); [lia|lia|].
  rewrite Nat.max_r in Hlay by lia. exists zs, t2. split; [exact Hzs|].
  assert (Hlast : (length last <= 1)%nat).
  { change 1%nat with (2 ^ 0)%nat. apply (layers_rel_last E _ _ _ _ _ _ _ Hrel). now rewrite Hlay, Nat.add_0_r. }
  assert (Hdm : (length deep <= 2 ^ m)%nat) by (etransitivity; [exact Hdeep|apply Nat.pow_le_mono_r; lia]).
  unfold fri_decommit in Hq. apply obind_ok in Hq. destruct Hq as (os & Hos & Hq). apply ok_inj in Hq. subst q.
  pose proof (traverse_length _ _ _ Hos) as Hosl.
  destruct layers as [|l0 layers'] eqn:El; [cbn in Hlay; lia|]. rewrite <- El in *.
  rewrite verify_query_eq. cbn [layers_evaluations layers_auth_paths layers_auth_paths_sym layers_evaluations_sym].
  assert (Hv0 : idx (map snd os) 0 = Ok (peval deep (h * fpow w iota))).
  { rewrite El in Hos. cbn [traverse] in Hos. apply obind_ok in Hos. destruct Hos as (o & Ho & Hos).
    apply obind_ok in Hos. destruct Hos as (os' & _ & Heq). apply ok_inj in Heq. subst os. cbn [map idx nth_error unwrap].
    f_equal. destruct o as [[[psym esym] pth] ev]. cbn [snd].
    rewrite El in Hrel. destruct zs as [|z0 zs']; [contradiction|]. destruct Hrel as [Hl0 _].
    apply (layer_opening_ok E HE deep h m l0 iota psym esym pth ev w Hl0 Hdm ltac:(lia) Hw Ho). }
  rewrite Hv0. cbn [obind].
  destruct (vq_loop_ok E HE pr zs iota (mk_fri_decommitment (map (o_psym E) os) (map (o_esym E) os) (map (o_path E) os) (map (o_ev E) os)) d m
     Hd layers deep h m zs last os 0 w (peval deep (h * fpow w iota)) Hrel Hh Hdm Hlast) as [v' Hv'].
  - lia.
  - rewrite Hlay. lia.
  - exact Hos.
  - reflexivity.
  - reflexivity.
  - cbn [layers_evaluations]. rewrite map_length, Hosl. reflexivity.
  - now rewrite Hlv.
  - exact Hw.
  - reflexivity.
  - rewrite El. discriminate.
  - unfold o_psym, o_esym, o_path, o_ev in Hv'. rewrite Hroots. setoid_rewrite Hv'. reflexivity.
Qed.
Print Assumptions C27_honest_fri_queries_accepted.

(** Non-vacuity: a commit phase with two layers on the toy field runs. *)
Example C27_example :
  match fri_commit_phase toy 2 (map f97 [1; 2; 3; 4]%Z) (tr_new : e_tr toy) (f97 5) 8 with
  | Ok (v, layers, _) => length layers = 2%nat /\ forall iota, (iota < 8)%nat -> is_ok (fri_decommit toy layers iota) = true
  | _ => False
  end.
Proof.
  pose (run := fri_commit_phase toy 2 (map f97 [1; 2; 3; 4]%Z) (tr_new : e_tr toy) (f97 5) 8). fold run.
  assert (H : match run with
    | Ok (_, layers, _) => (length layers =? 2)%nat && forallb (fun i => is_ok (fri_decommit toy layers i)) (seq 0 8)
    | _ => false end = true) by (vm_compute; reflexivity).
  destruct run as [[[v layers] t]|e|]; try discriminate. apply andb_prop in H. destruct H as [H1 H2].
  split; [now apply Nat.eqb_eq|]. intros iota Hi. rewrite forallb_forall in H2. apply H2, in_seq. lia.
Qed.

(** ** C29 *)

(** The prover's exemption polynomials, one for each distinct positive number of exemptions in order of
    first appearance, vanish among the trace points exactly on the last rows. *)
Theorem C29_prover_exemptions_vanish_on_last_rows :
  forall (E : env) (a : air E) r (g : E) polys, env_ok E -> (1 <= r)%nat ->
    a_trace_length a = (2 ^ r)%nat -> primitive_root r = Some g ->
    (forall e, In e (transition_exemptions (a_context a)) -> (e <= 2 ^ r)%nat) ->
    transition_exemption_polys a = Ok polys ->
    Forall2 (fun e (p : poly E) => In e (transition_exemptions (a_context a)) /\ (1 <= e)%nat /\
               forall i, (i < 2 ^ r)%nat -> (peval p (fpow g i) = 0 <-> (2 ^ r - e <= i)%nat))
      (filter (fun e => (0 <? e)%nat) (uniq (transition_exemptions (a_context a)))) polys.
Proof.
  intros E a r g polys HE Hr Hn Hg Hle H.
  rewrite (transition_exemption_polys_ok HE a r g polys Hn Hg Hle H).
  assert (Hprim : is_prim g (2 ^ r)) by exact (proj1 (primitive_root_prim (e_fft_ok E HE) r g Hr Hg)).
  assert (G : forall l, (forall e, In e l -> In e (transition_exemptions (a_context a)) /\ (1 <= e)%nat) ->
    Forall2 (fun e (p : poly E) => In e (transition_exemptions (a_context a)) /\ (1 <= e)%nat /\
               forall i, (i < 2 ^ r)%nat -> (peval p (fpow g i) = 0 <-> (2 ^ r - e <= i)%nat)) l (map (exemption_poly_prover g (2 ^ r)) l)).
  { induction l as [|e l IH]; intros Hl; constructor.
    - destruct (Hl e (or_introl eq_refl)) as [H1 H2]. split; [exact H1|split; [exact H2|]]. intros i Hi.
      rewrite (exemption_poly_eval HE), (vanish_zero (fft_field_ok _ (e_fft_ok E HE))).
      apply (last_roots_in HE); [exact Hprim|now apply Hle|exact Hi].
    - apply IH. intros; apply Hl; now right. }
  apply G. intros e He. apply filter_In in He. destruct He as [He1 He2]. apply Nat.ltb_lt in He2.
  split; [|exact He2]. apply (proj1 (uniq_in _ _)) in He1. exact He1.
Qed.
Print Assumptions C29_prover_exemptions_vanish_on_last_rows.

(** The verifier's polynomial for [e] exemptions has the same values everywhere. *)
Theorem C29_prover_and_verifier_exemptions_agree :
  forall (E : env) (a : air E) r (g x : E) polys vpolys j e p, env_ok E -> (1 <= r)%nat ->
    a_trace_length a = (2 ^ r)%nat -> primitive_root r = Some g ->
    (forall e, In e (transition_exemptions (a_context a)) -> (e <= 2 ^ r)%nat) ->
    transition_exemption_polys a = Ok polys ->
    transition_exemptions_verifier a (fpow g (2 ^ r - 1)) = Ok vpolys ->
    nth_error (filter (fun e => (0 <? e)%nat) (uniq (transition_exemptions (a_context a)))) j = Some e ->
    nth_error polys j = Some p ->
    exists q, nth_error vpolys (e - 1) = Some q /\ peval q x = peval p x.
Proof.
  intros E a r g x polys vpolys j e p HE Hr Hn Hg Hle H Hv Hj Hp.
  rewrite (transition_exemption_polys_ok HE a r g polys Hn Hg Hle H) in Hp.
  rewrite nth_error_map, Hj in Hp. cbn in Hp. injection Hp as <-.
  apply nth_error_In in Hj. apply filter_In in Hj. destruct Hj as [He1 He2]. apply Nat.ltb_lt in He2.
  apply (proj1 (uniq_in _ _)) in He1.
  unfold transition_exemptions_verifier in Hv. apply obind_ok in Hv. destruct Hv as (mx & Hmx & Hv). apply ok_inj in Hv. subst vpolys.
  apply unwrap_ok in Hmx. pose proof (list_max_ge _ _ _ Hmx He1) as Hmle.
  exists (exemption_poly_verifier (fpow g (2 ^ r - 1)) e). split.
  - rewrite nth_error_map. assert (Hs : nth_error (seq 1 mx) (e - 1) = Some e).
    { rewrite (nth_error_nth' _ 0%nat) by (rewrite seq_length; lia). rewrite seq_nth by lia. f_equal. lia. }
    rewrite Hs. reflexivity.
  - assert (Hprim : is_prim g (2 ^ r)) by exact (proj1 (primitive_root_prim (e_fft_ok E HE) r g Hr Hg)).
    rewrite (exemption_poly_verifier_eval HE g (2 ^ r) e x (pow2_pos r) Hprim (Hle e He1)).
    now rewrite (exemption_poly_eval HE).
Qed.
Print Assumptions C29_prover_and_verifier_exemptions_agree.

Example C29_example :
  match transition_exemption_polys (fibonacci_air toy (f97 1) (f97 1) (mk_options 2 2 5 1) 4) with
  | Ok [p] => map (fun i => zval (peval p (fpow (f97 22 : toy) i))) (seq 0 4) = [46; 42; 0; 0]%Z
  | _ => False
  end /\ primitive_root (K := toy) 2 = Some (f97 22).
Proof. split; [vm_compute; reflexivity|]. cbn. f_equal. apply zp_eq. vm_compute. reflexivity. Qed.

(** ** C30 *)
Theorem C30_boundary_zerofier_vanishes_exactly :
  forall (E : env) r (g : E) (bcs : list (boundary_constraint E)) col i, env_ok E -> (1 <= r)%nat -> primitive_root r = Some g ->
    (i < 2 ^ r)%nat -> (forall bc, In bc bcs -> (bc_step bc < 2 ^ r)%nat) ->
    (peval (bc_compute_zerofier bcs g col) (fpow g i) = 0 <-> exists bc, In bc bcs /\ bc_col bc = col /\ bc_step bc = i).
Proof.
  intros E r g bcs col i HE Hr Hg Hi Hs.
  assert (Hprim : is_prim g (2 ^ r)) by exact (proj1 (primitive_root_prim (e_fft_ok E HE) r g Hr Hg)).
  rewrite (bc_zerofier_eval HE), (vanish_zero (fft_field_ok _ (e_fft_ok E HE))), <- bc_steps_in, in_map_iff. split.
  - intros (s & Heq & Hin). enough (s = i) by (subst; exact Hin).
    apply bc_steps_in in Hin. destruct Hin as (c & Hc & _ & <-).
    apply (prim_inj (fft_field_ok _ (e_fft_ok E HE)) g (2 ^ r)); auto.
  - intros H. exists i. auto.
Qed.
Print Assumptions C30_boundary_zerofier_vanishes_exactly.

Example C30_example : let bcs := [mk_bc 0 1 (f97 3); mk_bc 1 2 (f97 3); mk_bc 0 3 (f97 4)]%nat in
  map (fun i => Z.eqb (zval (peval (bc_compute_zerofier (K := toy) bcs (f97 22) 0) (fpow (f97 22 : toy) i))) 0) (seq 0 4) = [false; true; false; true].
Proof. vm_compute. reflexivity. Qed.

(** ** C37 *)

(** The nonce found is the least one whose digest has enough trailing zero bits. *)
Theorem C37_nonce_is_least :
  forall (E : env) challenge factor nonce, generate_nonce E challenge factor = Ok (Some nonce) ->
    (exists z, grind_zeros E challenge nonce = Ok z /\ factor <= z)%N /\
    (forall u, (u < nonce)%N -> exists z, grind_zeros E challenge u = Ok z /\ (z < factor)%N) /\
    (nonce < 2 ^ 64)%N.
Proof.
  intros E challenge factor nonce H. destruct (generate_nonce_spec E challenge factor nonce H) as (H1 & H2 & H3).
  split; [exact H1|split; [exact H2|]]. eapply N.lt_trans; [exact H3|]. vm_compute. reflexivity.
Qed.
Print Assumptions C37_nonce_is_least.

(** FINDING: it counts the trailing zeros of the first eight digest bytes, so at most 64: a larger grinding
    factor (an [u8], up to 255) is unsatisfiable and the prover panics. *)
Theorem C37_no_nonce_above_64 :
  forall (E : env) challenge factor, (64 < factor)%N -> forall nonce, generate_nonce E challenge factor <> Ok (Some nonce).
Proof.
  intros E challenge factor Hf nonce H. destruct (generate_nonce_spec E challenge factor nonce H) as ((z & Hz & Hle) & _).
  apply grind_zeros_le in Hz. lia.
Qed.
Print Assumptions C37_no_nonce_above_64.

(** The zeros are those of the low-order end of the 64-bit head: [2^z] divides it. *)
Theorem C37_zeros_are_low_order :
  forall (E : env) challenge v z, grind_zeros E challenge v = Ok z ->
    let head := be_val (firstn 8 (e_keccak E (challenge ++ le_bytes 8 v))) in
    (head = 0 /\ z = 64 \/ exists odd_part, head = (2 * odd_part + 1) * 2 ^ z)%N.
Proof.
  intros E challenge v z H. unfold grind_zeros in H. apply obind_ok in H. destruct H as (dg & Hd & H). apply ok_inj in H.
  apply slice_ok in Hd. destruct Hd as (_ & _ & ->). cbn [Nat.sub skipn] in H.
  cbv zeta. set (head := be_val _) in *. clearbody head. subst z. destruct head as [|p]; [left; split; reflexivity|]. right. cbn [tz64].
  induction p as [p IH|p IH|].
  - exists (Npos p). cbn [tz_pos]. change (N.of_nat 0) with 0%N. rewrite N.pow_0_r. lia.
  - destruct IH as [q Hq]. exists q. cbn [tz_pos]. rewrite Nat2N.inj_succ, N.pow_succ_r'. lia.
  - exists 0%N. reflexivity.
Qed.
Print Assumptions C37_zeros_are_low_order.

(** The verifier measures the nonce of the proof with the same function ... *)
Theorem C37_verifier_counts_the_same_zeros :
  forall (E : env) fuel (a : air E) (p : stark_proof E) d t c t', step_1 E fuel a p d t = Ok (c, t') ->
    exists challenge, grind_zeros E challenge (nonce p) = Ok (c_leading_zeros E a c).
Proof.
  intros E fuel a p d t c t' H. unfold step_1 in H.
  repeat (apply obind_ok in H; destruct H as (? & ? & H);
          repeat match type of H with context [let '(_, _) := ?v in _] => destruct v end).
  apply ok_inj in H. pose proof (f_equal fst H) as Hc. cbn [fst] in Hc. rewrite <- Hc. cbn [c_leading_zeros].
  eexists. eassumption.
Qed.
Print Assumptions C37_verifier_counts_the_same_zeros.

(** ... rejects a proof whose nonce falls short, and does not reject it for its nonce otherwise. *)
Theorem C37_verifier_requires_enough_zeros :
  forall (E : env) fuel mk opts (p : stark_proof E) d c t,
    let a := mk (trace_length p) in
    domain_new a = Ok d -> step_1 E fuel a p d tr_new = Ok (c, t) ->
    ((c_leading_zeros E a c < grinding_factor (a_options a))%N -> verify E fuel mk opts p = Ok false) /\
    ((grinding_factor (a_options a) <= c_leading_zeros E a c)%N -> (fri_number_of_queries opts <= length (query_list p))%nat ->
       verify E fuel mk opts p =
         obind (step_2 E a p d c) (fun b2 => if negb b2 then Ok false else
         obind (step_3 E a p d c) (fun b3 => if negb b3 then Ok false else step_4 E a p d c))).
Proof.
  intros E fuel mk opts p d c t a Hd Hc. unfold verify. fold a. split.
  - intros Hl. destruct (_ <? _)%nat; [reflexivity|]. rewrite Hd. cbn [obind]. rewrite Hc. cbn [obind].
    apply N.ltb_lt in Hl. now rewrite Hl.
  - intros Hl Hq. apply Nat.ltb_ge in Hq. rewrite Hq, Hd. cbn [obind]. rewrite Hc. cbn [obind].
    apply N.ltb_ge in Hl. rewrite Hl. destruct (step_2 E a p d c) as [[]|e|]; try reflexivity. cbn [obind negb].
    destruct (step_3 E a p d c) as [[]|e|]; try reflexivity. cbn [obind negb].
    destruct (step_4 E a p d c) as [b|e|]; reflexivity.
Qed.
Print Assumptions C37_verifier_requires_enough_zeros.

Example C37_example : generate_nonce toy (repeat Byte.x07 32) 3 = Ok (Some 6%N).
Proof. vm_compute. reflexivity. Qed.

(** ** C40 *)

(** A 32-byte challenge is reduced to its low [bits - 1] bits, and the field element is the one with that
    canonical value: no challenge is rejected when [2^(bits-1)] is at most the modulus. [val] is the
    canonical representative and the codec is assumed to read canonical 32-byte big-endian values. *)
Theorem C40_challenge_value :
  forall (E : env) (val : E -> N) (modulus : N) rnd,
    (2 <= e_bits E <= 257)%nat -> (2 ^ N.of_nat (e_bits E - 1) <= modulus)%N ->
    (forall bs, length bs = 32%nat -> (be_val bs < modulus)%N -> exists x, fe_from (e_codec E) bs = Some x /\ val x = be_val bs) ->
    length rnd = 32%nat ->
    exists x, randomness_to_field E rnd = Ok x /\ val x = (be_val rnd mod 2 ^ N.of_nat (e_bits E - 1))%N /\ (val x < modulus)%N.
Proof.
  intros E val modulus rnd Hb Hm Hcodec Hl. destruct (mask_spec (e_bits E) rnd) as (m & Hmk & Hml & Hv); [lia|lia|].
  assert (Hlt : (be_val m < modulus)%N).
  { rewrite Hv. eapply N.lt_le_trans; [apply N.mod_lt, N.pow_nonzero; lia|exact Hm]. }
  destruct (Hcodec m ltac:(lia) Hlt) as (x & Hx & Hxv). exists x. unfold randomness_to_field. rewrite Hmk. cbn [obind]. rewrite Hx.
  split; [reflexivity|]. rewrite Hxv. split; [exact Hv|exact Hlt].
Qed.
Print Assumptions C40_challenge_value.

(** Two challenges give the same element iff they agree on the low [bits - 1] bits; and exactly the elements
    whose canonical value is below [2^(bits-1)] can be drawn. *)
Theorem C40_challenges_injective_and_range :
  forall (E : env) (val : E -> N) (modulus : N),
    (2 <= e_bits E <= 257)%nat -> (2 ^ N.of_nat (e_bits E - 1) <= modulus)%N ->
    (forall bs, length bs = 32%nat -> (be_val bs < modulus)%N -> exists x, fe_from (e_codec E) bs = Some x /\ val x = be_val bs) ->
    (forall x y, val x = val y -> x = y) ->
    (forall r1 r2 x y, length r1 = 32%nat -> length r2 = 32%nat -> randomness_to_field E r1 = Ok x -> randomness_to_field E r2 = Ok y ->
       (x = y <-> (be_val r1 mod 2 ^ N.of_nat (e_bits E - 1) = be_val r2 mod 2 ^ N.of_nat (e_bits E - 1))%N)) /\
    (forall x, (exists rnd, length rnd = 32%nat /\ randomness_to_field E rnd = Ok x) <-> (val x < 2 ^ N.of_nat (e_bits E - 1))%N).
Proof.
  intros E val modulus Hb Hm Hcodec Hinj. split.
  - intros r1 r2 x y H1 H2 Hx Hy.
    destruct (C40_challenge_value E val modulus r1 Hb Hm Hcodec H1) as (x' & Hx' & Hvx & _).
    destruct (C40_challenge_value E val modulus r2 Hb Hm Hcodec H2) as (y' & Hy' & Hvy & _).
    rewrite Hx in Hx'. apply ok_inj in Hx'. subst x'. rewrite Hy in Hy'. apply ok_inj in Hy'. subst y'.
    rewrite <- Hvx, <- Hvy. split; [now intros ->|apply Hinj].
  - intros x. split.
    + intros (rnd & Hl & Hr). destruct (C40_challenge_value E val modulus rnd Hb Hm Hcodec Hl) as (x' & Hx' & Hv & _).
      rewrite Hr in Hx'. apply ok_inj in Hx'. subst x'. rewrite Hv. apply N.mod_lt, N.pow_nonzero. lia.
    + intros Hx.
      assert (H256 : (val x < 256 ^ N.of_nat 32)%N).
      { eapply N.lt_le_trans; [exact Hx|]. change (256 ^ N.of_nat 32)%N with (2 ^ 256)%N. apply N.pow_le_mono_r; lia. }
      exists (be_bytes 32 (val x)). split; [apply length_be_bytes|].
      destruct (C40_challenge_value E val modulus (be_bytes 32 (val x)) Hb Hm Hcodec (length_be_bytes 32 _)) as (x' & Hx' & Hv & _).
      rewrite be_val_be_bytes, N.mod_small in Hv by assumption. apply Hinj in Hv. now subst x'.
Qed.
Print Assumptions C40_challenges_injective_and_range.

(** Non-vacuity: the toy codec meets the hypotheses, [97] having seven bits. *)
Example C40_example : (2 ^ N.of_nat (e_bits toy - 1) <= 97)%N /\
  (forall bs, length bs = 32%nat -> (be_val bs < 97)%N -> exists x, fe_from (e_codec toy) bs = Some x /\ Z.to_N (zval x) = be_val bs) /\
  (forall x y : toy, Z.to_N (zval x) = Z.to_N (zval y) -> x = y).
Proof.
  split; [vm_compute; discriminate|]. split.
  - intros bs _ H. eexists. split; [reflexivity|]. cbn [f97 zp_of zval]. rewrite Z.mod_small by lia. apply N2Z.id.
  - intros x y H. apply zp_eq. pose proof (zval_bound 97 x). pose proof (zval_bound 97 y). lia.
Qed.

(** ** C41 *)

(** The out-of-domain point lies outside the trace domain and the LDE coset, so every denominator built
    from it for trace terms, in the prover and the verifier, is nonzero. *)
Theorem C41_out_of_domain_denominators :
  forall (E : env) (a : air E) (d : domain E) r b fuel (t : e_tr E) z t', env_ok E ->
    a_trace_length a = (2 ^ r)%nat -> (1 <= r)%nat -> a_blowup a = (2 ^ b)%nat -> domain_new a = Ok d ->
    sample_z_ood E fuel (lde_roots_of_unity_coset d) (trace_roots_of_unity d) t = Ok (z, t') ->
    fpow z (2 ^ r) - 1 <> 0 /\
    (forall k, z - fpow (trace_primitive_root d) k <> 0) /\
    (forall x k, In x (lde_roots_of_unity_coset d) -> x - z * fpow (trace_primitive_root d) k <> 0).
Proof.
  intros E a d r b fuel t z t' HE Hn Hr Hb Hd Hz.
  destruct (domain_new_shape HE a d r b Hd Hn Hb Hr) as (g & W & D).
  pose (HK := fft_field_ok _ (e_fft_ok E HE)).
  destruct (sample_z_ood_spec E HK _ _ _ _ _ _ Hz) as [Hzl Hzt].
  rewrite (ds_root _ _ _ _ _ _ D). repeat split.
  - rewrite <- (vanish_coset HK g (2 ^ r) z (pow2_pos r) (ds_gprim _ _ _ _ _ _ D)).
    intro H0. apply (vanish_zero HK) in H0. rewrite (shape_trace_coset HE D) in Hzt. contradiction.
  - intros k H0. apply (proj1 (sub_zero HK _ _)) in H0. subst z. apply Hzt, (shape_trace_in HE D).
  - intros x k Hx H0. apply (proj1 (sub_zero HK _ _)) in H0. subst x. apply Hzl. now apply (shape_lde_unmul HE D) in Hx.
Qed.
Print Assumptions C41_out_of_domain_denominators.

(** The denominators [x - z^2] of the composition terms are nonzero when the coset contains no square... *)
Theorem C41_composition_denominators_without_squares :
  forall (E : env) (d : domain E) (z x : E), env_ok E ->
    (forall y, ~ In (y * y) (lde_roots_of_unity_coset d)) -> In x (lde_roots_of_unity_coset d) -> x - z * z <> 0.
Proof.
  intros E d z x HE Hns Hx H0. apply (proj1 (sub_zero (fft_field_ok _ (e_fft_ok E HE)) _ _)) in H0. subst x. exact (Hns z Hx).
Qed.
Print Assumptions C41_composition_denominators_without_squares.

(** ... but sampling does not ensure it: a sampled point can have its square in the coset. *)
Theorem C41_square_in_coset_refuted :
  exists (a : air toy) d t z t', env_ok toy /\ domain_new a = Ok d /\
    sample_z_ood toy 20 (lde_roots_of_unity_coset d) (trace_roots_of_unity d) t = Ok (z, t') /\
    In (z * z) (lde_roots_of_unity_coset d).
Proof.
  pose (a := fibonacci_air toy (f97 11) (f97 1) (mk_options 2 2 4 1) 4).
  exists a. destruct (domain_new a) as [d|e|] eqn:Hd; [|vm_compute in Hd; discriminate..].
  exists d, 20%N.
  pose (ok := fun s : N => match sample_z_ood toy 20 (lde_roots_of_unity_coset d) (trace_roots_of_unity d) s with
       | Ok (z, _) => existsb (fun x => feqb x (z * z)) (lde_roots_of_unity_coset d) | _ => false end).
  assert (Hok : ok 20%N = true) by (apply ok_inj in Hd; subst d; vm_compute; reflexivity).
  unfold ok in Hok. destruct (sample_z_ood toy 20 _ _ 20%N) as [[z t']|e|] eqn:Hs; try discriminate.
  exists z, t'. split; [exact toy_ok|]. split; [reflexivity|]. split; [reflexivity|].
  apply existsb_exists in Hok. destruct Hok as (x & Hx & Heq).
  apply (feqb_spec toy (fft_field_ok _ (e_fft_ok toy toy_ok))) in Heq. now subst x.
Qed.
Print Assumptions C41_square_in_coset_refuted.

(** ** C42 *)
Theorem C42_domain_construction :
  forall (E : env) (a : air E) (d : domain E) r b, env_ok E ->
    a_trace_length a = (2 ^ r)%nat -> (1 <= r)%nat -> a_blowup a = (2 ^ b)%nat -> e_u64 E (coset_offset (a_options a)) <> 0 ->
    domain_new a = Ok d ->
    let h := e_u64 E (coset_offset (a_options a)) in
    NoDup (trace_roots_of_unity d) /\ length (trace_roots_of_unity d) = (2 ^ r)%nat /\
    (forall x, In x (trace_roots_of_unity d) <-> fpow x (2 ^ r) = 1) /\
    (forall i, (i < 2 ^ r)%nat -> nth i (trace_roots_of_unity d) 0 = fpow (trace_primitive_root d) i) /\
    NoDup (lde_roots_of_unity_coset d) /\ length (lde_roots_of_unity_coset d) = (2 ^ (r + b))%nat /\
    (forall x, In x (lde_roots_of_unity_coset d) <-> fpow (x * finv h) (2 ^ (r + b)) = 1) /\
    (forall i, (i < 2 ^ r)%nat -> nth (i * 2 ^ b) (lde_roots_of_unity_coset d) 0 = h * nth i (trace_roots_of_unity d) 0) /\
    (fpow h (2 ^ (r + b)) <> 1 -> forall x, In x (trace_roots_of_unity d) -> ~ In x (lde_roots_of_unity_coset d)).
Proof.
  intros E a d r b HE Hn Hr Hb Hh Hd h.
  destruct (domain_new_shape HE a d r b Hd Hn Hb Hr) as (g & W & D). fold h in D.
  pose (HK := fft_field_ok _ (e_fft_ok E HE)).
  assert (Hone : (1 : E) <> 0) by exact (one_neq_zero HK).
  destruct (fld_th E HK) as [[R1 R2 R3 R4 R5 R6 R7 R8 R9] F1 F2 F3].
  pose proof (ds_gprim _ _ _ _ _ _ D) as Pg. pose proof (ds_Wprim _ _ _ _ _ _ D) as PW.
  rewrite (shape_trace_coset HE D), (shape_lde_coset HE D), (ds_root _ _ _ _ _ _ D).
  assert (Hlde : forall x, In x (coset W h (2 ^ (r + b))) <-> fpow (x * finv h) (2 ^ (r + b)) = 1).
  { intros x. split.
    - intros Hx. apply coset_in in Hx. destruct Hx as (i & _ & ->).
      replace (h * fpow W i * finv h) with (fpow W i).
      2:{ rewrite (R5 h), <- R6, (inv_r HK h Hh), R5, R4. reflexivity. }
      rewrite (fpow_comm HK), (proj1 PW). apply (fpow_one HK).
    - intros Hx. apply (root_of_unity_in HK W) in Hx; [|apply pow2_pos|exact PW]. apply coset_in in Hx. destruct Hx as (i & Hi & Hx).
      apply coset_in. exists i. split; [exact Hi|]. rewrite R4 in Hx. rewrite <- Hx.
      rewrite (R5 x), R6, (inv_r HK h Hh), R4. reflexivity. }
  split; [apply (coset_nodup HK); assumption|]. split; [apply coset_length|].
  split. { intros x. split.
    - intros Hx. apply coset_in in Hx. destruct Hx as (i & _ & ->). rewrite R4, (fpow_comm HK), (proj1 Pg). apply (fpow_one HK).
    - intros Hx. apply (root_of_unity_in HK); [apply pow2_pos|exact Pg|exact Hx]. }
  split. { intros i Hi. unfold coset. rewrite nth_map_seq by exact Hi. apply R4. }
  split; [apply (coset_nodup HK); assumption|]. split; [apply coset_length|].
  split; [exact Hlde|].
  split. { intros i Hi. unfold coset. rewrite !nth_map_seq; [|exact Hi|].
    - rewrite R4, <- (shape_gpow HE D). reflexivity.
    - rewrite Nat.pow_add_r. pose proof (pow2_pos b). nia. }
  intros Hout x Hx Hx2. apply coset_in in Hx. destruct Hx as (i & Hi & ->). apply Hlde in Hx2. apply Hout.
  rewrite R4 in Hx2. rewrite (fpow_mul_base HK) in Hx2.
  assert (Hg1 : fpow (fpow g i) (2 ^ (r + b)) = 1).
  { rewrite Nat.pow_add_r, (fpow_mul HK), (fpow_comm HK g), (proj1 Pg), (fpow_one HK), (fpow_one HK). reflexivity. }
  rewrite Hg1, R4 in Hx2.
  rewrite <- (R4 (fpow h (2 ^ (r + b)))). rewrite <- Hx2 at 1. rewrite <- (fpow_mul_base HK), (R5 (finv h)), (inv_r HK h Hh).
  apply (fpow_one HK).
Qed.
Print Assumptions C42_domain_construction.

(** Domain construction succeeds for every size the field supports. *)
Theorem C42_domain_total :
  forall (E : env) (a : air E) r b, env_ok E ->
    a_trace_length a = (2 ^ r)%nat -> a_blowup a = (2 ^ b)%nat -> (1 <= r)%nat -> (r + b <= two_adicity E)%nat ->
    exists d, domain_new a = Ok d.
Proof. intros E a r b HE H1 H2 H3 H4. exact (domain_new_ok a r b H1 H2 H3 H4). Qed.
Print Assumptions C42_domain_total.

Example C42_example : exists d, domain_new (fibonacci_air toy (f97 1) (f97 1) (mk_options 2 2 5 1) 4) = Ok d /\
  map (@zval 97) (trace_roots_of_unity d) = [1; 22; 96; 75]%Z /\
  map (@zval 97) (lde_roots_of_unity_coset d) = [5; 29; 13; 56; 92; 68; 84; 41]%Z /\
  fpow (e_u64 toy 5) (2 ^ 3) <> (1 : toy).
Proof.
  eexists. split; [reflexivity|]. split; [vm_compute; reflexivity|]. split; [vm_compute; reflexivity|].
  intro H. apply (f_equal (@zval 97)) in H. vm_compute in H. discriminate.
Qed.

(** ** C48 *)

(** Honest openings verify: for every leaf of a built tree. *)
Theorem C48_honest_openings_verify :
  forall node leaves tree pos path, merkle_build leaves = Ok tree -> (pos < length leaves)%nat ->
    tree_path node tree pos = Some path -> path_verify node path (tree_root node tree) pos (nth pos leaves []) = true.
Proof.
  intros node leaves tree pos path Hb Hpos Hp. apply (build_path_verify node leaves tree pos path pos Hb Hp Hpos).
  apply Nat.mod_small. pose proof (tree_depth_pow2 leaves tree Hb) as Hd. rewrite <- Hd.
  unfold tree_path in Hp. destruct (Nat.ltb_spec pos (length (tree_leaves tree))) as [L|L]; [exact L|discriminate].
Qed.
Print Assumptions C48_honest_openings_verify.

(** Two accepted openings of one root at one index with equally long paths and different values contain a collision, of
    the leaf hash or of the node hash, among the hashes evaluated in checking them. *)
Theorem C48_openings_bind :
  forall (E : env) p1 p2 root index (x y : list E), length p1 = length p2 -> x <> y ->
    path_verify (e_node E) p1 root index (e_leaves E x) = true ->
    path_verify (e_node E) p2 root index (e_leaves E y) = true ->
    e_leaves E x = e_leaves E y \/
    exists u v, In u (path_calls (e_node E) p1 index (e_leaves E x)) /\ In v (path_calls (e_node E) p2 index (e_leaves E y)) /\
      u <> v /\ e_node E (fst u) (snd u) = e_node E (fst v) (snd v).
Proof.
  intros E p1 p2 root index x y Hl Hxy H1 H2. unfold path_verify in H1, H2. apply list_byte_eqb_spec in H1, H2.
  apply (openings_agree (e_node E) p1 p2 index _ _ Hl). now rewrite <- H1, <- H2.
Qed.
Print Assumptions C48_openings_bind.

(** An accepted opening, of any length, of the root of a tree with [2^k] leaves has a path of length [k] and opens the
    committed leaf, or two of the hashes evaluated coincide: two nodes, or a node and a leaf. *)
Theorem C48_openings_of_a_tree :
  forall node k leaves tree path index leaf, length leaves = (2 ^ k)%nat -> merkle_build leaves = Ok tree ->
    path_verify node path (tree_root node tree) index leaf = true ->
    (length path = k /\ leaf = nth (index mod 2 ^ k) leaves []) \/
    node_clash node (path_calls node path index leaf ++ tree_calls node k leaves) \/
    leaf_clash node (path_calls node path index leaf ++ tree_calls node k leaves) (leaf :: leaves).
Proof.
  intros node k leaves tree path index leaf Hl Hb H. unfold path_verify in H. apply list_byte_eqb_spec in H.
  assert (Et : tree_leaves tree = leaves).
  { destruct leaves as [|c l] eqn:El; [discriminate|]. rewrite <- El in *. unfold merkle_build in Hb. rewrite El in Hb. apply ok_inj in Hb.
    subst tree. cbn [tree_leaves]. rewrite <- El. now apply (complete_pow2_id _ k). }
  assert (Ed : tree_depth tree = k) by (unfold tree_depth; rewrite Et, Hl; apply Nat.log2_pow2; lia).
  unfold tree_root in H. rewrite Et, Ed in H. exact (opening_binds node k leaves path index leaf Hl (eq_sym H)).
Qed.
Print Assumptions C48_openings_of_a_tree.

(** The index is only used bit by bit along the path: the verifier does not bound it. *)
Theorem C48_index_modulo :
  forall node path root index leaf,
    path_verify node path root index leaf = path_verify node path root (index mod 2 ^ length path) leaf.
Proof. intros. unfold path_verify. now rewrite fold_path_mod. Qed.
Print Assumptions C48_index_modulo.

Example C48_example : let leaves := map (fun i => e_leaf toy (f97 i)) [3; 1; 4; 1; 5]%Z in
  exists tree path, merkle_build leaves = Ok tree /\ tree_path (e_node toy) tree 4 = Some path /\ length path = 3%nat /\
    path_verify (e_node toy) path (tree_root (e_node toy) tree) 4 (nth 4 leaves []) = true.
Proof. do 2 eexists. split; [vm_compute; reflexivity|]. split; [vm_compute; reflexivity|]. split; vm_compute; reflexivity. Qed.
