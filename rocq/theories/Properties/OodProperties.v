(** C59: what the out-of-domain check guarantees about committed polynomials. *)
From Coq Require Import List Arith Lia Bool NArith ZArith.
From Verif.Base Require Import Outcome Bytes Field Poly Zp.
From Verif.Model Require Import Codec Trace Merkle Air Transcript Domain Fri Prover Verifier ExampleAirs.
From Verif.Spec Require Import AirSpec CairoColumns ProvingSpec OodSpec.
From Verif.Proofs Require Import OutcomeFacts FieldFacts PolyFacts FFTFacts TraceFacts DomainFacts ExampleFacts OodFacts.
From Verif.Examples Require Import Toy.
From Verif.Properties Require Import ExampleProperties StarkProperties.
Import ListNotations.
Local Open Scope felt_scope.

Lemma felt_eq_dec (E : env) : env_ok E -> forall x y : E, x = y \/ x <> y.
Proof.
  intros HE x y. pose proof (feqb_spec E (fft_field_ok _ (e_fft_ok E HE)) x y) as H. destruct (feqb x y); [left; now apply H|right].
  intro E0. apply H in E0. discriminate.
Qed.

Lemma cs_in_form {E : env} (cs : list (poly E)) degs n :
  (forall j, (j < length cs)%nat -> (j < length degs)%nat -> (length (nth j cs []) <= nth j degs O * (n - 1) + 1)%nat) ->
  forall c deg, In (c, deg) (combine cs degs) -> (length c <= deg * (n - 1) + 1)%nat.
Proof.
  intros H c deg Hin. destruct (In_nth_error _ _ Hin) as [j E1]. apply Completeness.nth_error_combine in E1. destruct E1 as [E1 E2].
  assert (J1 : (j < length cs)%nat) by (apply nth_error_Some; congruence). assert (J2 : (j < length degs)%nat) by (apply nth_error_Some; congruence).
  specialize (H j J1 J2). rewrite (nth_error_nth _ _ _ E1), (nth_error_nth _ _ _ E2) in H. exact H.
Qed.

(** If two values of its second coefficient let the columns pass, a transition constraint holds on all enforced rows. *)
Theorem C59_transition_constraint_holds :
  forall (E : env) (a : air E) r b k d rap polys m h j beta beta',
  env_ok E -> admissible a r b k -> proving_ok a r b -> domain_new a = Ok d ->
  (1 <= m <= 2 ^ r + 1)%nat -> (forall g, primitive_root r = Some g -> transition_is_polynomial a m g) ->
  length polys = trace_columns (a_context a) -> Forall (fun p : poly E => (length p <= m)%nat) polys ->
  (j < length (transition_degrees (a_context a)))%nat -> beta <> beta' ->
  transition_passes_twice a d rap polys (2 ^ r) m h j beta beta' ->
  constraint_holds a rap (domain_columns polys (trace_primitive_root d) (2 ^ r)) (2 ^ r) j.
Proof.
  intros E a r b k d rap polys m h j beta beta' HE A P Hd Hm Hp0 Hw Hpl Hj Hbb (bco & tco & h1 & h2 & h1' & h2' & Hjt & L1 & L2 & L3 & L4 & P1 & P2).
  destruct (domain_new_shape HE a d r b Hd (ad_n _ _ _ _ A) (ad_blowup _ _ _ _ A) (ad_r _ _ _ _ A)) as (g & W & D).
  destruct (Hp0 g (ds_g _ _ _ _ _ _ D) rap polys Hw Hpl) as (cs & Htr & Hdeg).
  assert (Hoff : hd_error (transition_offsets (a_context a)) = Some O).
  { rewrite (ad_offsets _ _ _ _ A). pose proof (ad_k _ _ _ _ A). destruct k; [lia|reflexivity]. }
  assert (Hbc : exists bcs, a_boundary a rap = Ok bcs).
  { destruct P1 as (zs & _ & Hlen & Hzs). destruct zs as [|z zs]; [cbn in Hlen; lia|].
    destruct (Hzs z (or_introl eq_refl)) as (p & c & H & _ & _ & _ & _ & Hr & _). unfold step_2 in H. ok_as H bcs Hb. rewrite Hr in Hb. eauto. }
  destruct Hbc as [bcs Hbc]. rewrite (ds_root _ _ _ _ _ _ D).
  intros i e evals Hi He Hev. rewrite (domain_columns_frame HE D polys i ltac:(lia)), Htr in Hev. apply ok_inj in Hev. subst evals.
  destruct (nth_error cs j) as [c|] eqn:Ec.
  2:{ apply nth_error_None in Ec. apply nth_overflow. now rewrite map_length. }
  destruct (nth_error (transition_degrees (a_context a)) j) as [deg|] eqn:Ed; [|apply nth_error_None in Ed; lia].
  rewrite (nth_error_nth _ _ _ (map_nth_error (fun c => peval c (fpow g i)) j cs Ec)).
  apply (transition_sound HE D (ad_n _ _ _ _ A) (ad_blowup _ _ _ _ A) (ad_b _ _ _ _ A) rap polys cs bcs m (proj1 Hm) (proj2 Hm) Hpl (pk_bound _ _ _ P) (pk_deg _ _ _ P)
    (ad_ex_le _ _ _ _ A) Hoff (cs_in_form cs _ _ Hdeg) Htr Hbc bco tco j c deg e beta beta' h h1 h2 h1' h2'); assumption.
Qed.
Print Assumptions C59_transition_constraint_holds.

(** The same for a boundary constraint on a row of the trace. *)
Theorem C59_boundary_constraint_holds :
  forall (E : env) (a : air E) r b k d rap polys m h j beta beta' bcs bc,
  env_ok E -> admissible a r b k -> proving_ok a r b -> domain_new a = Ok d ->
  (1 <= m <= 2 ^ r + 1)%nat -> (forall g, primitive_root r = Some g -> transition_is_polynomial a m g) ->
  length polys = trace_columns (a_context a) -> Forall (fun p : poly E => (length p <= m)%nat) polys ->
  a_boundary a rap = Ok bcs -> nth_error bcs j = Some bc -> (bc_step bc < 2 ^ r)%nat -> beta <> beta' ->
  boundary_passes_twice a d rap polys (2 ^ r) m h j beta beta' ->
  nth (bc_step bc) (nth (bc_col bc) (domain_columns polys (trace_primitive_root d) (2 ^ r)) []) 0 = bc_value bc.
Proof.
  intros E a r b k d rap polys m h j beta beta' bcs bc HE A P Hd Hm Hp0 Hw Hpl Hbc Hjb Hst Hbb (bco & tco & h1 & h2 & h1' & h2' & Hjt & L1 & L2 & L3 & L4 & P1 & P2).
  destruct (domain_new_shape HE a d r b Hd (ad_n _ _ _ _ A) (ad_blowup _ _ _ _ A) (ad_r _ _ _ _ A)) as (g & W & D).
  destruct (Hp0 g (ds_g _ _ _ _ _ _ D) rap polys Hw Hpl) as (cs & Htr & Hdeg).
  assert (Hoff : hd_error (transition_offsets (a_context a)) = Some O).
  { rewrite (ad_offsets _ _ _ _ A). pose proof (ad_k _ _ _ _ A). destruct k; [lia|reflexivity]. }
  rewrite (ds_root _ _ _ _ _ _ D), domain_columns_nth by exact Hst.
  apply (boundary_sound HE D (ad_n _ _ _ _ A) (ad_blowup _ _ _ _ A) (ad_b _ _ _ _ A) rap polys cs bcs m (proj1 Hm) (proj2 Hm) Hpl (pk_bound _ _ _ P) (pk_deg _ _ _ P)
    (ad_ex_le _ _ _ _ A) Hoff (cs_in_form cs _ _ Hdeg) Htr Hbc bco tco j bc beta beta' h h1 h2 h1' h2'); assumption.
Qed.
Print Assumptions C59_boundary_constraint_holds.

(** A violated transition constraint leaves at most one value of its second coefficient with which some composition
    polynomial passes at more points than the bound. *)
Theorem C59_violation_leaves_one_coefficient :
  forall (E : env) (a : air E) r b k d rap polys m h j beta beta',
  env_ok E -> admissible a r b k -> proving_ok a r b -> domain_new a = Ok d ->
  (1 <= m <= 2 ^ r + 1)%nat -> (forall g, primitive_root r = Some g -> transition_is_polynomial a m g) ->
  length polys = trace_columns (a_context a) -> Forall (fun p : poly E => (length p <= m)%nat) polys ->
  (j < length (transition_degrees (a_context a)))%nat ->
  ~ constraint_holds a rap (domain_columns polys (trace_primitive_root d) (2 ^ r)) (2 ^ r) j ->
  transition_passes_twice a d rap polys (2 ^ r) m h j beta beta' -> beta = beta'.
Proof.
  intros E a r b k d rap polys m h j beta beta' HE A P Hd Hm Hp0 Hw Hpl Hj Hnot Hp.
  destruct (felt_eq_dec E HE beta beta') as [H|H]; [exact H|]. exfalso. apply Hnot.
  exact (C59_transition_constraint_holds E a r b k d rap polys m h j beta beta' HE A P Hd Hm Hp0 Hw Hpl Hj H Hp).
Qed.
Print Assumptions C59_violation_leaves_one_coefficient.

(** If that holds of every constraint, the columns are a satisfying trace. *)
Theorem C59_columns_satisfy :
  forall (E : env) (a : air E) r b k d rap polys m h,
  env_ok E -> admissible a r b k -> proving_ok a r b -> domain_new a = Ok d ->
  (1 <= m <= 2 ^ r + 1)%nat -> (forall g, primitive_root r = Some g -> transition_is_polynomial a m g) ->
  length polys = trace_columns (a_context a) -> Forall (fun p : poly E => (length p <= m)%nat) polys ->
  (length (transition_exemptions (a_context a)) <= length (transition_degrees (a_context a)))%nat ->
  (forall bcs bc, a_boundary a rap = Ok bcs -> In bc bcs -> (bc_step bc < 2 ^ r)%nat /\ (bc_col bc < length polys)%nat) ->
  (forall j, (j < length (transition_degrees (a_context a)))%nat ->
     exists beta beta', beta <> beta' /\ transition_passes_twice a d rap polys (2 ^ r) m h j beta beta') ->
  (forall bcs j, a_boundary a rap = Ok bcs -> (j < length bcs)%nat ->
     exists beta beta', beta <> beta' /\ boundary_passes_twice a d rap polys (2 ^ r) m h j beta beta') ->
  trace_satisfies a rap (domain_columns polys (trace_primitive_root d) (2 ^ r)) (2 ^ r).
Proof.
  intros E a r b k d rap polys m h HE A P Hd Hm Hp0 Hw Hpl Hlen Hin HT HB. constructor.
  - intros bcs bc Hbc Hbi. destruct (Hin bcs bc Hbc Hbi) as [H1 H2]. split; [exact H1|]. split; [unfold domain_columns; now rewrite map_length|].
    destruct (In_nth_error _ _ Hbi) as [j Hj]. destruct (HB bcs j Hbc) as (beta & beta' & Hbb & Hp); [apply nth_error_Some; congruence|].
    exact (C59_boundary_constraint_holds E a r b k d rap polys m h j beta beta' bcs bc HE A P Hd Hm Hp0 Hw Hpl Hbc Hj H1 Hbb Hp).
  - intros i Hi. destruct (domain_new_shape HE a d r b Hd (ad_n _ _ _ _ A) (ad_blowup _ _ _ _ A) (ad_r _ _ _ _ A)) as (g & W & D).
    destruct (Hp0 g (ds_g _ _ _ _ _ _ D) rap polys Hw Hpl) as (cs & Htr & _).
    eexists. split; [rewrite (ds_root _ _ _ _ _ _ D), (domain_columns_frame HE D polys i Hi); apply Htr|].
    intros j e He Hie. assert (Hj : (j < length (transition_degrees (a_context a)))%nat).
    { apply (Nat.lt_le_trans _ (length (transition_exemptions (a_context a)))); [|exact Hlen]. apply nth_error_Some. congruence. }
    destruct (HT j Hj) as (beta & beta' & Hbb & Hp).
    apply (C59_transition_constraint_holds E a r b k d rap polys m h j beta beta' HE A P Hd Hm Hp0 Hw Hpl Hj Hbb Hp i e _ Hie He).
    rewrite (ds_root _ _ _ _ _ _ D), (domain_columns_frame HE D polys i Hi). apply Htr.
Qed.
Print Assumptions C59_columns_satisfy.

(** Non-vacuity: on the toy Fibonacci trace, with either of two values of the transition coefficient, the prover's own
    composition polynomial passes at sixteen points. *)
Definition ood_air : air toy := fibonacci_air toy (f97 1) (f97 1) toy_opts 4.
Definition ood_run (beta : toy) : list (poly toy) * (poly toy * poly toy) :=
  match obind (domain_new ood_air) (fun d => obind (round_1 toy ood_air (toy_table [1; 1; 2; 3]%Z) d tr_new) (fun x =>
          obind (round_2 toy ood_air d (fst x) [(f97 3, beta)] [(f97 5, f97 6); (f97 7, f97 8)]) (fun y =>
            Ok (r1_trace_polys toy ood_air (fst x), (r2_even toy y, r2_odd toy y))))) with Ok x => x | _ => ([], ([], [])) end.
Definition ood_polys : list (poly toy) := fst (ood_run (f97 4)).
Definition ood_points : list toy := map (fun i => f97 (Z.of_nat i)) (seq 2 16).
Definition ood_passes (d : domain toy) (ps : list (poly toy)) (beta : toy) (run : list (poly toy) * (poly toy * poly toy)) (z : toy) : bool :=
  match step_2 toy ood_air
    (mk_stark_proof 4 [] (shifted_frame ps (transition_offsets (a_context ood_air)) (trace_primitive_root d) z) []
       (peval (fst (snd run)) (z * z)) (peval (snd (snd run)) (z * z)) [] 0 [] [] 0%N) d
    (mk_challenges toy ood_air z [(f97 5, f97 6); (f97 7, f97 8)] [(f97 3, beta)] [] 0 0 [] [] tt 0%N) with Ok true => true | _ => false end.
Definition ood_domain : domain toy := match domain_new ood_air with Ok d => d | _ => mk_domain 0 [] 0 (f97 0) [] (f97 0) 0 0 end.
Lemma ood_domain_ok : domain_new ood_air = Ok ood_domain.
Proof.
  unfold ood_domain. assert (H : is_ok (domain_new ood_air) = true) by (vm_compute; reflexivity).
  destruct (domain_new ood_air); [reflexivity|discriminate|discriminate].
Qed.
Lemma ood_points_distinct : NoDup ood_points.
Proof.
  apply (NoDup_map_inv (fun x : toy => zval x)).
  replace (map (fun x : toy => zval x) ood_points) with [2;3;4;5;6;7;8;9;10;11;12;13;14;15;16;17]%Z by (vm_compute; reflexivity).
  repeat constructor; cbn; lia.
Qed.
Lemma ood_often d ps beta run : forallb (ood_passes d ps beta run) ood_points = true ->
    passes_often ood_air d tt ps [(f97 5, f97 6); (f97 7, f97 8)] [(f97 3, beta)] (fst (snd run)) (snd (snd run)) (ood_bound ood_air 4 4 4).
Proof.
  intros H. exists ood_points. split; [exact ood_points_distinct|]. split; [apply Nat.ltb_lt; vm_compute; reflexivity|].
  intros z Hz. rewrite forallb_forall in H. specialize (H z Hz). unfold ood_passes in H.
  match type of H with (match step_2 _ _ ?p _ ?c with _ => _ end) = true => exists p, c end.
  destruct (step_2 _ _ _ _ _) as [[]| |]; try discriminate. repeat split.
Qed.
Lemma ood_short : Forall (fun p => (length p <= 4)%nat) ood_polys.
Proof.
  apply Forall_forall. intros p Hp. assert (H : forallb (fun p => (length p <=? 4)%nat) ood_polys = true) by (vm_compute; reflexivity).
  rewrite forallb_forall in H. exact (proj1 (Nat.leb_le _ _) (H p Hp)).
Qed.
Lemma ood_twice : transition_passes_twice ood_air ood_domain tt ood_polys 4 4 4 0 (f97 4) (f97 9).
Proof.
  exists [(f97 5, f97 6); (f97 7, f97 8)], [(f97 3, f97 0)], (fst (snd (ood_run (f97 4)))), (snd (snd (ood_run (f97 4)))), (fst (snd (ood_run (f97 9)))), (snd (snd (ood_run (f97 9)))).
  split; [cbn; lia|]. do 4 (split; [apply Nat.leb_le; vm_compute; reflexivity|]).
  assert (W : forall beta : toy, with_beta 0 beta [(f97 3, f97 0)] = [(f97 3, beta)]) by reflexivity. rewrite !W.
  split; apply ood_often; vm_compute; reflexivity.
Qed.
Example C59_example :
  admissible ood_air 2 1 3 /\ proving_ok ood_air 2 1 /\ domain_new ood_air = Ok ood_domain /\ length ood_polys = 1%nat /\
  Forall (fun p => (length p <= 4)%nat) ood_polys /\ f97 4 <> f97 9 /\
  transition_passes_twice ood_air ood_domain tt ood_polys 4 4 4 0 (f97 4) (f97 9).
Proof.
  split; [exact (fibonacci_admissible toy_ok (f97 1) (f97 1) toy_opts 2 1 toy_usable)|].
  split. { constructor; [cbn; lia|intros e [<-|[]]; cbn; lia|discriminate|intros deg [<-|[]]; cbn; lia|cbn; lia|cbn; eauto]. }
  split; [exact ood_domain_ok|]. split; [vm_compute; reflexivity|]. split; [exact ood_short|].
  split; [intro H; apply (f_equal zval) in H; vm_compute in H; discriminate|exact ood_twice].
Qed.
