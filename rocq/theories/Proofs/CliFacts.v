(** Proofs of the command line's round trip: shape of proofs and public inputs, independence of the map order. *)
From Coq Require Import List Arith NArith ZArith Bool Lia Permutation.
From Verif.Base Require Import Outcome Bytes Field Poly.
From Verif.Model Require Import Codec PublicInputs Trace Merkle Air Transcript Domain Fri Prover Verifier Options CairoDecode CairoTrace CairoAir CairoRunner Cli.
From Verif.Spec Require Import CodecSpec CliSpec AirSpec ExampleSpec CairoSpec CairoRun.
From Verif.Proofs Require Import FieldFacts PolyFacts OutcomeFacts FFTFacts TraceFacts DomainFacts Completeness ProofShape PublicInputsFacts BuildFacts MainTraceFacts
  SortFacts HonestFacts RunnerFacts FermatFacts.
Import ListNotations.
Local Open Scope felt_scope.

(** * Width of the out-of-domain frame *)
Lemma prove_width {E : env} (HE : env_ok E) (mk : nat -> air E) (mt : trace_table E) r b k fuel proof :
  let a := mk (tt_n_rows mt) in
  admissible a r b k -> valid_trace a r mt -> prove E fuel mk mt = Ok proof ->
  fr_row_width (trace_ood_frame_evaluations proof) = trace_columns (a_context a).
Proof.
  intros a A Hvt H. unfold prove in H. fold a in H.
  apply obind_ok in H. destruct H as (d & Hd & H).
  destruct (domain_new_shape HE a d r b Hd (ad_n _ _ _ _ A) (ad_blowup _ _ _ _ A) (ad_r _ _ _ _ A)) as (g & W & D).
  apply obind_ok in H. destruct H as ([r1 t1] & Hr1 & H).
  destruct (round_1_ok HE A D mt _ r1 t1 Hvt Hr1) as (cols & root0 & t0 & _ & _ & _ & _ & Hpl & _).
  apply obind_ok in H. destruct H as (bcs & _ & H). do 4 (apply obind_ok in H; destruct H as ([? ?] & _ & H)).
  apply obind_ok in H. destruct H as (r2 & _ & H). apply obind_ok in H. destruct H as ([z tz] & _ & H).
  apply obind_ok in H. destruct H as ([r4 tw] & _ & H). apply ok_inj in H. subst proof. exact Hpl.
Qed.

(** * The verifier and equal AIRs *)
Section Ext.
Context {E : env}.

Lemma bind_ext {A B} (x : outcome A) (f g : A -> outcome B) : (forall y, f y = g y) -> obind x f = obind x g.
Proof using Type. intro H. destruct x; cbn; auto. Qed.
Lemma bind_assoc {A B D} (x : outcome A) (f : A -> outcome B) (g : B -> outcome D) : obind (obind x f) g = obind x (fun y => obind (f y) g).
Proof using Type. destruct x; reflexivity. Qed.

(** [a] with other auxiliary, transition and boundary functions. *)
Definition variant (a : air E) aux tr bnd : air E :=
  mk_air E (a_rap a) (a_context a) (a_trace_length a) aux (a_build_rap a) (a_n_aux a) (a_degree_bound a) tr bnd.
Definition conv (a : air E) aux tr bnd (c : challenges E a) : challenges E (variant a aux tr bnd) :=
  Verifier.mk_challenges E (variant a aux tr bnd) (c_z _ _ c) (c_boundary_coeffs _ _ c) (c_transition_coeffs _ _ c) (c_trace_term_coeffs _ _ c)
    (c_gamma_even _ _ c) (c_gamma_odd _ _ c) (c_zetas _ _ c) (c_iotas _ _ c) (c_rap _ _ c) (c_leading_zeros _ _ c).
Context (a : air E) (aux : trace_table E -> a_rap a -> outcome (trace_table E)) (tr : frame E -> a_rap a -> outcome (list E))
  (bnd : a_rap a -> outcome (list (boundary_constraint E))).
Hypothesis (Htr : forall f x, tr f x = a_transition a f x) (Hbnd : forall x, bnd x = a_boundary a x).
Notation a' := (variant a aux tr bnd).

Lemma step_1_variant fuel p d t : step_1 E fuel a' p d t = obind (step_1 E fuel a p d t) (fun '(c, t) => Ok (conv a aux tr bnd c, t)).
Proof using Hbnd.
  unfold step_1. cbn [variant a_build_rap a_boundary a_context].
  rewrite bind_assoc. apply bind_ext. intro root0. rewrite bind_assoc. apply bind_ext. intros [rap t1]. rewrite Hbnd.
  rewrite bind_assoc. apply bind_ext. intro bcs.
  do 4 (rewrite bind_assoc; apply bind_ext; intros [? ?]).
  rewrite bind_assoc; apply bind_ext; intros [z ?].
  do 2 (rewrite bind_assoc; apply bind_ext; intro).
  do 4 (rewrite bind_assoc; apply bind_ext; intros [? ?]).
  destruct (tr_challenge _) as [ch tc]. rewrite bind_assoc; apply bind_ext; intro lz.
  rewrite bind_assoc; apply bind_ext; intros [io ?]. reflexivity.
Qed.
Lemma step_2_variant p d c : step_2 E a' p d (conv a aux tr bnd c) = step_2 E a p d c.
Proof using Htr Hbnd.
  unfold step_2. cbn [variant a_boundary a_degree_bound a_trace_length a_transition conv c_rap]. rewrite Hbnd. apply bind_ext. intro bcs.
  apply bind_ext. intro adj. apply bind_ext. intro b. rewrite Htr. reflexivity.
Qed.
End Ext.

Lemma verify_variant {E : env} fuel (mk mk' : nat -> air E) opts p :
  (forall n, exists aux tr bnd, mk' n = variant (mk n) aux tr bnd /\ (forall f x, tr f x = a_transition (mk n) f x) /\ (forall x, bnd x = a_boundary (mk n) x)) ->
  verify E fuel mk' opts p = verify E fuel mk opts p.
Proof.
  intro H. unfold verify. destruct (length (query_list p) <? fri_number_of_queries opts)%nat; [reflexivity|]. cbv zeta.
  destruct (H (trace_length p)) as (aux & tr & bnd & -> & Htr & Hbnd).
  apply bind_ext. intro d. rewrite (step_1_variant _ aux tr bnd Hbnd), bind_assoc. apply bind_ext. intros [c t]. cbn [obind].
  change (a_options (variant (mk (trace_length p)) aux tr bnd)) with (a_options (mk (trace_length p))).
  change (c_leading_zeros E (variant (mk (trace_length p)) aux tr bnd) (conv (mk (trace_length p)) aux tr bnd c)) with (c_leading_zeros E (mk (trace_length p)) c).
  destruct (_ <? _)%N; [reflexivity|]. rewrite (step_2_variant _ aux tr bnd Htr Hbnd). reflexivity.
Qed.

Section Cairo.
Context {C : cairo_env} {p : N} (HC : cairo_ok C p).
Let HK : field_ok C := fft_field_ok _ (e_fft_ok _ (co_env _ _ HC)).
Add Field Kfield49 : (fld_th C HK).

Lemma fold_product ch (l l' : list (C * C)) : Permutation l l' -> forall acc,
  fold_left (fun product av => product * (z_memory ch - (fst av + alpha_memory ch * snd av))) l acc =
  fold_left (fun product av => product * (z_memory ch - (fst av + alpha_memory ch * snd av))) l' acc.
Proof using HC.
  induction 1 as [|x l l' H IH|x y l|l1 l2 l3 H1 IH1 H2 IH2]; intro acc; cbn [fold_left]; [reflexivity|apply IH| |congruence].
  f_equal. ring.
Qed.
Lemma same_builtin (pi pi' : public_inputs C) : same_up_to_order pi pi' -> has_rc_builtin pi' = has_rc_builtin pi.
Proof using Type.
  intros (_ & _ & _ & _ & _ & _ & _ & _ & P & _). unfold has_rc_builtin. apply Permutation_length in P.
  destruct (memory_segments pi), (memory_segments pi'); cbn in P; reflexivity || discriminate.
Qed.
Lemma same_boundary (pi pi' : public_inputs C) n ch : same_up_to_order pi pi' -> cairo_boundary pi' n ch = cairo_boundary pi n ch.
Proof using HC.
  intro S. pose proof (same_builtin _ _ S) as B. destruct S as (E1 & E2 & E3 & E4 & E5 & E6 & E7 & E8 & _ & P). unfold cairo_boundary, builtin_offset.
  rewrite B, <- E1, <- E2, <- E4, <- E5, <- E6, <- E7, <- E8, (Permutation_length P), (fold_product ch _ _ P 1). reflexivity.
Qed.
(** The verifier's answer does not depend on the iteration order of the maps. *)
Theorem verify_order fuel proof (pi pi' : public_inputs C) opts : same_up_to_order pi pi' ->
  verify_cairo_proof fuel proof pi' opts = verify_cairo_proof fuel proof pi opts.
Proof using HC.
  intro S. unfold verify_cairo_proof. apply verify_variant. intro n. pose proof (same_builtin _ _ S) as B.
  exists (cairo_build_aux pi'), (cairo_transition pi'), (cairo_boundary pi' n). split; [|split].
  - unfold cairo_air, variant. cbn [a_rap a_context a_trace_length a_build_rap a_n_aux a_degree_bound]. unfold cairo_context. rewrite B. reflexivity.
  - intros f x. cbn [cairo_air a_transition]. unfold cairo_transition, cairo_constraints, builtin_offset. rewrite B. reflexivity.
  - intro x. exact (same_boundary pi pi' n x S).
Qed.

(** * Public inputs of a run *)
Lemma to_u16_lt (x : C) : (to_u16 x < 65536)%N.
Proof using Type. unfold to_u16. apply N.mod_lt. discriminate. Qed.
Lemma public_inputs_wf raw (m : @cairo_memory C) size rc out t pi :
  generate_prover_args raw m size rc out = Ok (t, pi) ->
  (N.of_nat (length raw) < two64)%N -> (N.of_nat (length (public_memory pi)) < two64)%N ->
  (forall lo hi, rc = Some (lo, hi) -> lo < two64 /\ hi < two64)%N -> (forall lo hi, out = Some (lo, hi) -> lo < two64 /\ hi < two64)%N ->
  pub_wf pi.
Proof using HC.
  intros H Hraw Hpm Hrc Hout. unfold generate_prover_args in H. apply obind_ok in H. destruct H as (pi0 & H0 & H).
  apply from_regs_ok in H0. destruct H0 as (_ & _ & E0).
  unfold build_main_trace in H. apply obind_ok in H. destruct H as (t0 & _ & H). apply obind_ok in H. destruct H as (ac & _ & H).
  apply obind_ok in H. destruct H as ([[holes lo] hi] & Hh & H). do 5 (apply obind_ok in H; destruct H as (? & _ & H)).
  apply ok_inj in H. injection H as _ Ep. subst pi. cbn [with_rc_bounds public_memory] in Hpm.
  unfold get_rc_holes in Hh. apply obind_ok in Hh. destruct Hh as (oc & _ & Hh). apply obind_ok in Hh. destruct Hh as (l & Hl & Hh).
  apply obind_ok in Hh. destruct Hh as (f & Hf & Hh). apply ok_inj in Hh. injection Hh as _ <- <-.
  assert (G : forall x, In x (sort_by (fun x : N => x) (map to_u16 (tt_table oc))) -> (x < 65536)%N).
  { intros u Hx. apply (Permutation_in _ (sort_by_perm _ _)) in Hx. apply in_map_iff in Hx. destruct Hx as (y & <- & _). apply to_u16_lt. }
  unfold pub_wf. cbn [with_rc_bounds range_check_min range_check_max memory_segments public_memory num_steps opt16_wf].
  split; [|split; [|split; [|split; [|split; [|split]]]]].
  - unfold idx, unwrap in Hf. destruct (nth_error _ 0) eqn:Ef; [|discriminate]. apply ok_inj in Hf. subst. apply G, (nth_error_In _ _ Ef).
  - unfold unwrap in Hl. destruct (nth_error _ _) eqn:El; [|discriminate]. apply ok_inj in Hl. subst. apply G, (nth_error_In _ _ El).
  - subst pi0. cbn [memory_segments]. destruct rc as [[? ?]|], out as [[? ?]|]; cbn; repeat constructor; unfold seg_wf; cbn; first [apply (Hrc _ _ eq_refl)|apply (Hout _ _ eq_refl)].
  - subst pi0. cbn [memory_segments]. destruct rc as [[? ?]|], out as [[? ?]|]; cbn; repeat constructor; cbn; intuition discriminate.
  - subst pi0. cbn [public_memory]. exact (public_nodup HC m _).
  - exact Hpm.
  - subst pi0. exact Hraw.
Qed.

(** * The round trip *)
Lemma honest_stark_wf (HD : digest_hashes C) fuel (pi : public_inputs C) opts t r b proof :
  usable_options C opts r b -> tt_n_rows t = (2 ^ r)%nat -> valid_trace (cairo_air pi opts (2 ^ r)) r t ->
  admissible (cairo_air pi opts (2 ^ r)) r b 2 ->
  (N.of_nat (2 ^ r) < two64)%N -> generate_cairo_proof fuel t pi opts = Ok proof ->
  (forall bs, stark_serialize (e_codec C) proof = Ok bs -> (N.of_nat (length bs) < two64)%N) ->
  stark_wf (e_codec C) proof.
Proof using HC.
  intros Hu Hn Hv HA H64 Hp Hl. destruct (prove_shape HD _ _ _ _ Hp) as (S1 & S2 & S3 & S4 & S5 & S6 & S7).
  pose proof (prove_width (co_env _ _ HC) (cairo_air pi opts) t r b 2 fuel proof) as W. cbv zeta in W. rewrite Hn in W, S1. specialize (W HA Hv Hp).
  unfold stark_wf. rewrite S1. cbn [cairo_air a_trace_length]. split; [exact H64|]. split; [exact S2|]. split; [exact S3|]. split; [exact S4|].
  split; [exact S5|]. split; [|split; [exact S6|]; split; [exact S7|exact Hl]].
  rewrite W. cbn [cairo_air a_context cairo_context trace_columns]. destruct (has_rc_builtin pi); reflexivity.
Qed.
End Cairo.
