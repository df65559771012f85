(** C74: what the openings of columns and composition halves bind, and that the commitments then suffice for soundness. *)
From Coq Require Import List Arith Lia Bool NArith ZArith.
From Verif.Base Require Import Outcome Bytes Field Poly Zp.
From Verif.Model Require Import Codec PublicInputs Trace Merkle Air Transcript Domain Options Fri Prover Verifier ExampleAirs CairoDecode CairoTrace CairoAir CairoRunner.
From Verif.Spec Require Import AirSpec CairoSpec CairoColumns ExampleSpec ProvingSpec VerifierSpec HashSpec LowDegree FriTree OodSpec StarkTree Proximity Rounds Openings CairoRun.
From Verif.Proofs Require Import OutcomeFacts FieldFacts PolyFacts FFTFacts TraceFacts DomainFacts ExampleFacts VerifierFacts CairoAdmissible
  Completeness FriComplete RoundFacts RoundSoundness HonestRound OpeningFacts.
From Verif.Examples Require Import Toy.
From Verif.Properties Require Import ExampleProperties StarkSoundnessProperties RoundProperties RoundHonestProperties.
Import ListNotations.
Local Open Scope felt_scope.

(** The openings of the composition polynomial are checked: in an accepted proof whose root commits to two words, the opened
    values are those of the words, or hashes coincide. *)
Theorem C74_composition_openings_bind :
  forall (E : env) fuel (mk : nat -> air E) opts (p : stark_proof E) r b k d c t w even odd j iota o, env_ok E -> let a := mk (trace_length p) in
  admissible a r b k -> verify E fuel mk opts p = Ok true -> domain_new a = Ok d -> step_1 E fuel a p d tr_new = Ok (c, t) -> primitive_root (r + b) = Some w ->
  composition_poly_root p = row_commit (r + b) (d_coset_offset d) w (fun x => [even x; odd x]) ->
  nth_error (c_iotas E a c) j = Some iota -> nth_error (deep_poly_openings p) j = Some o ->
  lde_composition_poly_even_evaluation o = even (d_coset_offset d * fpow w iota) /\
  lde_composition_poly_odd_evaluation o = odd (d_coset_offset d * fpow w iota) \/
  row_clash (r + b) (d_coset_offset d) w (fun x => [even x; odd x]) (lde_composition_poly_proof o) iota
    [lde_composition_poly_even_evaluation o; lde_composition_poly_odd_evaluation o].
Proof.
  intros E fuel mk opts p r b k d c t w even odd j iota o HE a A Hv Hd Hc Hw Hroot Hj Ho.
  destruct (proj1 (verdict_exact HE fuel mk opts p r b true (ad_n _ _ _ _ A) (ad_r _ _ _ _ A) (ad_blowup _ _ _ _ A) (ad_ex_le _ _ _ _ A) Hv) eq_refl)
    as (d' & c' & t' & Hd' & Hc' & Acc).
  fold a in Hd', Hc', Acc. rewrite Hd in Hd'. apply ok_inj in Hd'. subst d'. rewrite Hc in Hc'. apply ok_inj in Hc'.
  pose proof (f_equal fst Hc') as Ec. cbn [fst] in Ec. subst c'.
  destruct (acc_openings _ _ _ _ _ _ _ _ Acc j iota o Hj Ho) as [Hop _]. rewrite Hroot in Hop.
  assert (Hp : is_prim w (2 ^ (r + b))) by (apply (primitive_root_prim (e_fft_ok E HE)) in Hw; [exact (proj1 Hw)|pose proof (ad_r _ _ _ _ A); lia]).
  destruct (row_value HE (r + b) (d_coset_offset d) w _ _ _ _ Hp Hop) as [H|H]; [left|right; exact H].
  injection H as H1 H2. now split.
Qed.
Print Assumptions C74_composition_openings_bind.

(** The value that the verifier computes from the openings of the columns, and forgets, says whether they all check. *)
Theorem C74_discarded_check :
  forall (E : env) (a : air E) (p : stark_proof E) iota (o : deep_openings E) num_main main_evals aux_evals result,
  usub (trace_columns (a_context a)) (a_n_aux a) = Ok num_main -> slice (lde_trace_evaluations o) 0 num_main = Ok main_evals ->
  slice (lde_trace_evaluations o) num_main (length (lde_trace_evaluations o)) = Ok aux_evals ->
  (trace_openings_check E p iota o main_evals aux_evals result = true <-> result = true /\ columns_checked a p iota o).
Proof.
  intros E a p iota o nm me ae result Hn Hm Ha. apply usub_inv in Hn. destruct Hn as [_ ->]. apply slice_ok in Hm, Ha. destruct Hm as (_ & _ & ->). destruct Ha as (_ & _ & ->).
  unfold trace_openings_check, columns_checked.
  generalize (lde_trace_merkle_roots p), (lde_trace_merkle_proofs o).
  assert (G : forall vs rs ps acc, fold_left (fun acc (x : commitment * list commitment * list E) =>
       let '(root, path, values) := x in acc && path_verify (e_node E) path root iota (e_leaves E values)) (combine (combine rs ps) vs) acc = true <->
     acc = true /\ forall k root path values, nth_error rs k = Some root -> nth_error ps k = Some path -> nth_error vs k = Some values ->
       opens_to (E := E) path root iota (e_leaves E values)).
  { induction vs as [|v vs IH]; intros rs ps acc.
    - destruct (combine rs ps); cbn; split; intros; [split; [assumption|]|tauto|split; [assumption|]|tauto]; intros [|k]; cbn; intros; discriminate.
    - destruct rs as [|x rs]; [cbn; split; [intro; split; [assumption|]|tauto]; intros [|k]; cbn; intros; discriminate|].
      destruct ps as [|q ps]; [cbn; split; [intro; split; [assumption|]|tauto]; intros [|k]; cbn; intros; discriminate|].
      cbn [combine fold_left]. rewrite IH, andb_true_iff, path_verify_iff. split.
      + intros [[H1 H2] H3]. split; [exact H1|]. intros [|k] root path values R P V; cbn in R, P, V; [congruence|exact (H3 k _ _ _ R P V)].
      + intros [H1 H2]. split; [split; [exact H1|exact (H2 0%nat x q v eq_refl eq_refl eq_refl)]|]. intros k. exact (H2 (S k)). }
  intros rs ps. rewrite G. unfold value_parts. cbn [skipn]. rewrite Nat.sub_0_r.
  rewrite (firstn_all2 (n := (length (lde_trace_evaluations o) - (trace_columns (a_context a) - a_n_aux a))%nat)) by (rewrite skipn_length; lia). reflexivity.
Qed.
Print Assumptions C74_discarded_check.

(** Were the forgotten check not forgotten, and answers required to be complete, then the openings would be truthful: the
    premise of C72 that is not about commitments follows from them. *)
Theorem C74_committed_run_is_accepted_run :
  forall (E : env) fuel (mk : nat -> air E) opts (p : stark_proof E) r b k e d c w rows cols even odd words, env_ok E ->
  admissible (mk (trace_length p)) r b k -> committed_run fuel mk opts p r b k e d c w rows cols even odd words ->
  accepted_run fuel mk opts p r b k e d c w rows cols even odd words.
Proof.
  intros E fuel mk opts p r b k e d c w rows cols even odd words HE A [Hv Hd (t & Hc) Hw Hfr Hrl Hrw Hwl Hroots Hcols Hhalves Hans U].
  assert (Hpr : is_prim w (2 ^ (r + b))) by (apply (primitive_root_prim (e_fft_ok E HE)) in Hw; [exact (proj1 Hw)|pose proof (ad_r _ _ _ _ A); lia]).
  constructor; try assumption; [exists t; exact Hc|]. intros j iota Hj. destruct (Hans j iota Hj) as (q & o & Hq & Ho & Sq & Cf & Ck & Cc & Ch).
  exists q, o. do 4 (split; [assumption|]). split.
  - intros i Hi. rewrite (opened_columns HE (mk (trace_length p)) p cols (r + b) _ w iota o Hpr (ad_aux _ _ _ _ A) Hcols Ck Cc).
    rewrite (nth_indep _ 0 (cols 0%nat (d_coset_offset d * fpow w iota))) by (now rewrite map_length, seq_length).
    rewrite (map_nth (fun j => cols j (d_coset_offset d * fpow w iota))). now rewrite seq_nth.
  - destruct (C74_composition_openings_bind E fuel mk opts p r b k d c t w even odd j iota o HE A Hv Hd Hc Hw Hhalves Hj Ho) as [H|H]; [exact H|destruct (Ch H)].
Qed.
Print Assumptions C74_committed_run_is_accepted_run.

(** So the commitments alone lead to a satisfying trace, unless a challenge is exceptional or the queries are lucky. *)
Theorem C74_committed_run_satisfies :
  forall (E : env) fuel (mk : nat -> air E) opts (p : stark_proof E) r b k d c w e rows cols even odd words,
  env_ok E -> let a := mk (trace_length p) in
  admissible a r b k -> proving_ok a r b ->
  (forall g, primitive_root r = Some g -> transition_is_polynomial a (2 ^ r + 1) g) ->
  (length (transition_exemptions (a_context a)) <= length (transition_degrees (a_context a)) <= num_transition_constraints (a_context a))%nat ->
  (forall rap bcs bc, a_boundary a rap = Ok bcs -> In bc bcs -> (bc_step bc < 2 ^ r)%nat /\ (bc_col bc < trace_columns (a_context a))%nat) ->
  (3 * e + 2 ^ r <= 2 ^ (r + b))%nat -> committed_run fuel mk opts p r b k e d c w rows cols even odd words ->
  (exists polys, length polys = trace_columns (a_context a) /\
     near_polys (points (d_coset_offset d) w (2 ^ (r + b))) e (2 ^ r + 1) cols polys /\
     trace_satisfies a (c_rap E a c) (domain_columns polys (trace_primitive_root d) (2 ^ r)) (2 ^ r)) \/
  lucky_run d r b e w p c rows cols even odd words.
Proof.
  intros E fuel mk opts p r b k d c w e rows cols even odd words HE a A P Hpoly Hex Hbc He R.
  exact (C72_accepted_run_satisfies E fuel mk opts p r b k d c w e rows cols even odd words HE A P Hpoly Hex Hbc He
    (C74_committed_run_is_accepted_run E fuel mk opts p r b k e d c w rows cols even odd words HE A R)).
Qed.
Print Assumptions C74_committed_run_satisfies.

(** An honest proof loses nothing by the check: the forgotten value is [true] for each of its queries, whose openings are complete. *)
Theorem C74_honest_columns_check :
  forall (E : env) fuel (mk : nat -> air E) (mt : trace_table E) r b k proof d c t, env_ok E -> let a := mk (tt_n_rows mt) in
  admissible a r b k -> tt_n_rows mt = (2 ^ r)%nat -> valid_trace a r mt ->
  (forall rap aux, a_build_aux a mt rap = Ok aux -> tt_n_cols aux = a_n_aux a) ->
  prove E fuel mk mt = Ok proof -> domain_new a = Ok d -> step_1 E fuel a proof d tr_new = Ok (c, t) ->
  forall j iota o, nth_error (c_iotas E a c) j = Some iota -> nth_error (deep_poly_openings proof) j = Some o ->
    columns_checked a proof iota o /\ length (lde_trace_merkle_proofs o) = length (lde_trace_merkle_roots proof) /\
    length (lde_trace_evaluations o) = trace_columns (a_context a).
Proof.
  intros E fuel mk mt r b k proof d c t HE a A Hn Hvt Hna Hp Hd Hc j iota o Hj Ho.
  destruct (honest_parts HE fuel mk mt r b k proof A Hn Hvt Hp)
    as (d' & g & w & c' & t' & polys & h1 & h2 & deep & Hd' & D & Ht & Hc' & Pl & Pf & Hs & Htr & _ & L1 & L2 & Hpass & Hz & Hfr & V1 & V2 & Ld & Lz & Hroots & _ & Hcol & Htruth).
  fold a in c', Hd', D, Hc', Pl, Hcol, Htruth. rewrite Hd in Hd'. apply ok_inj in Hd'. subst d'. rewrite Hc in Hc'. apply ok_inj in Hc'.
  pose proof (f_equal fst Hc') as Ec. cbn [fst] in Ec. subst c'.
  destruct (Hcol Hna) as [Hcr Hck]. destruct (Hck j iota o Hj Ho) as [H1 H2]. split; [exact H1|]. split; [rewrite Hcr, map_length; exact H2|].
  destruct (Htruth j iota Hj) as (q & o' & _ & Ho' & _ & O1 & _). rewrite Ho in Ho'. injection Ho' as <-. rewrite O1, map_length. exact Pl.
Qed.
Print Assumptions C74_honest_columns_check.

(** Honest proofs meet the premises of [C74_committed_run_satisfies], where hashes do not coincide. *)
Theorem C74_honest_proof_is_committed :
  forall (E : env) fuel (mk : nat -> air E) (mt : trace_table E) r b k e proof (zs : list E), env_ok E ->
  perfect_hash (e_leaf E) (e_node E) -> perfect_hash (e_leaves E) (e_node E) ->
  let a := mk (tt_n_rows mt) in
  admissible a r b k -> tt_n_rows mt = (2 ^ r)%nat -> valid_trace a r mt -> (3 * e + 2 ^ r <= 2 ^ (r + b))%nat ->
  (forall rap aux, a_build_aux a mt rap = Ok aux -> tt_n_cols aux = a_n_aux a) ->
  NoDup zs -> (stark_bound a (2 ^ r) < length zs)%nat -> (forall z, In z zs -> fpow z (2 ^ r) <> 1) ->
  prove E fuel mk mt = Ok proof ->
  exists d c w rows polys h1 h2 words,
    committed_run fuel mk (a_options a) proof r b k e d c w rows (fun j => peval (nth j polys [])) (peval h1) (peval h2) words /\
    trace_of (mk (trace_length proof)) mt (c_rap E _ c) (2 ^ r) (domain_columns polys (trace_primitive_root d) (2 ^ r)).
Proof.
  intros E fuel mk mt r b k e proof zs HE HH HL a A Hn Hvt He Hna Z1 Z2 Z3 Hp.
  destruct (honest_run E fuel mk mt r b k e proof zs HE HH A Hn Hvt He Z1 Z2 Z3 Hp)
    as (d & c & w & rows & polys & h1 & h2 & words & [Hv Hd Hc Hw Hfr Hrl Hrw Hwl Hroots Htruth U] & H1 & H2 & H3 & H4 & H5 & H6 & H7).
  destruct (H7 Hna) as [H8 H9]. exists d, c, w, rows, polys, h1, h2, words. split; [|exact H5]. constructor; try assumption.
  intros j iota Hj. destruct (Htruth j iota Hj) as (q & o & Hq & Ho & Sq & Cf & _). destruct (H9 j iota o Hj Ho) as (K1 & K2 & K3).
  exists q, o. do 5 (split; [assumption|]). split; [split; [exact K2|split; [exact K3|]]|].
  - intros n f path values _ _ _. exact (row_clash_never _ _ _ _ _ _ _ HL).
  - exact (row_clash_never _ _ _ _ _ _ _ HL).
Qed.
Print Assumptions C74_honest_proof_is_committed.

(** The Cairo air builds as many auxiliary columns as it announces. *)
Theorem C74_cairo_announces_columns :
  forall (C : cairo_env) (pi : public_inputs C) opts n mt rap aux, a_build_aux (cairo_air pi opts n) mt rap = Ok aux -> tt_n_cols aux = a_n_aux (cairo_air pi opts n).
Proof.
  intros C pi opts n mt rap aux H. cbn [cairo_air a_build_aux a_n_aux] in *. unfold cairo_build_aux in H.
  repeat match type of H with obind _ _ = Ok _ => apply obind_ok in H; destruct H as (? & _ & H) | (let '(_, _) := ?x in _) = Ok _ => destruct x end.
  apply ok_inj in H. now rewrite <- H.
Qed.
Print Assumptions C74_cairo_announces_columns.

(** ** Examples *)

(** The toy environment with hash functions without coincidences, also for rows. *)
Definition row_bytes (l : list F97) : list byte := concat (map (fun x => repeat Byte.x01 (Z.to_nat (zval x)) ++ [Byte.x00]) l).
Definition clear : env := {|
  e_K := FFT97; e_codec := toy_codec; e_bits := 7; e_u64 := e_u64 toy; e_tr := toy_transcript;
  e_leaf := fun x => plain_leaf (repeat Byte.x01 (Z.to_nat (zval x))); e_leaves := fun l => plain_leaf (row_bytes l); e_node := plain_node; e_keccak := e_keccak toy
|}.
Lemma clear_ok : env_ok clear.
Proof. constructor; [exact FFT97_ok|]. apply zp_eq. reflexivity. Qed.
Lemma clear_hash : perfect_hash (e_leaf clear) (e_node clear).
Proof. exact plain_hash. Qed.
Lemma row_bytes_inj l : forall l', row_bytes l = row_bytes l' -> l = l'.
Proof.
  assert (S : forall n m u v, repeat Byte.x01 n ++ Byte.x00 :: u = repeat Byte.x01 m ++ Byte.x00 :: v -> n = m /\ u = v).
  { induction n as [|n IH]; intros [|m] u v H; cbn in H; try discriminate; [injection H as H; now split|].
    injection H as H. destruct (IH _ _ _ H) as [-> ->]. now split. }
  unfold row_bytes. induction l as [|x l IH]; intros [|y l'] H; [reflexivity| | |]; cbn [map concat] in H; rewrite <- ?app_assoc in H; cbn [app] in H.
  - destruct (Z.to_nat (zval y)); discriminate.
  - destruct (Z.to_nat (zval x)); discriminate.
  - destruct (S _ _ _ _ H) as [H1 H2]. f_equal; [|exact (IH _ H2)]. apply zp_eq. pose proof (zp_nonneg x). pose proof (zp_nonneg y). lia.
Qed.
Lemma clear_rows : perfect_hash (e_leaves clear) (e_node clear).
Proof. apply (plain_perfect (fun l : list clear => row_bytes l)). exact row_bytes_inj. Qed.
Definition clear_air := fibonacci_air clear (f97 1) (f97 1) toy_opts.
Definition clear_table : trace_table clear := mk_trace (map f97 [1; 1; 2; 3]%Z) 1.
Definition clear_proof : stark_proof clear := ok_or (mk_stark_proof 4 [] (mk_frame [] 0) [] 0 0 [] 0 [] [] 0%N) (prove clear 20 clear_air clear_table).
Definition clear_points : list clear := map (fun i => f97 (Z.of_nat i)) (seq 2 16).

Example C74_example :
  env_ok clear /\ perfect_hash (e_leaf clear) (e_node clear) /\ perfect_hash (e_leaves clear) (e_node clear) /\
  admissible (clear_air 4) 2 1 3 /\ proving_ok (clear_air 4) 2 1 /\ valid_trace (clear_air 4) 2 clear_table /\ (3 * 1 + 2 ^ 2 <= 2 ^ (2 + 1))%nat /\
  (forall rap aux, a_build_aux (clear_air 4) clear_table rap = Ok aux -> tt_n_cols aux = a_n_aux (clear_air 4)) /\
  NoDup clear_points /\ (stark_bound (clear_air 4) (2 ^ 2) < length clear_points)%nat /\ (forall z, In z clear_points -> fpow z (2 ^ 2) <> 1) /\
  prove clear 20 clear_air clear_table = Ok clear_proof /\
  exists d c w rows polys h1 h2 words,
    committed_run 20 clear_air toy_opts clear_proof 2 1 3 1 d c w rows (fun j => peval (nth j polys [])) (peval h1) (peval h2) words.
Proof.
  assert (A : admissible (clear_air 4) 2 1 3) by exact (fibonacci_admissible clear_ok (f97 1) (f97 1) toy_opts 2 1 toy_usable).
  assert (V : valid_trace (clear_air 4) 2 clear_table).
  { apply (fibonacci_valid clear_ok (f97 1) (f97 1) toy_opts 2); [lia|]. vm_compute. reflexivity. }
  assert (N : forall rap aux, a_build_aux (clear_air 4) clear_table rap = Ok aux -> tt_n_cols aux = a_n_aux (clear_air 4)).
  { intros rap aux H. cbn in H. apply ok_inj in H. now rewrite <- H. }
  assert (D : NoDup clear_points).
  { apply (NoDup_map_inv (@zval 97)). vm_compute. repeat (constructor; [cbn; intuition discriminate|]). constructor. }
  assert (B : (stark_bound (clear_air 4) (2 ^ 2) < length clear_points)%nat) by (apply Nat.ltb_lt; vm_compute; reflexivity).
  assert (Z : forall z, In z clear_points -> fpow z (2 ^ 2) <> 1).
  { assert (H : forallb (fun z : F97 => negb (Z.eqb (zval (fpow (K := FFT97) z 4)) 1)) clear_points = true) by (vm_compute; reflexivity).
    intros z Hz C. rewrite forallb_forall in H. specialize (H z Hz). apply negb_true_iff, Z.eqb_neq in H. apply H. exact (f_equal (@zval 97) C). }
  assert (P : prove clear 20 clear_air clear_table = Ok clear_proof) by (apply ok_or_ok; vm_compute; reflexivity).
  split; [exact clear_ok|]. split; [exact clear_hash|]. split; [exact clear_rows|]. split; [exact A|].
  split. { constructor; [cbn; lia|intros e [<-|[]]; cbn; lia|discriminate|intros deg [<-|[]]; cbn; lia|cbn; lia|cbn; eauto]. }
  split; [exact V|]. split; [cbn; lia|]. split; [exact N|]. split; [exact D|]. split; [exact B|]. split; [exact Z|]. split; [exact P|].
  destruct (C74_honest_proof_is_committed clear 20 clear_air clear_table 2 1 3 1 clear_proof clear_points clear_ok clear_hash clear_rows A eq_refl V ltac:(cbn; lia) N D B Z P)
    as (d & c & w & rows & polys & h1 & h2 & words & R & _).
  exists d, c, w, rows, polys, h1, h2, words. exact R.
Qed.
