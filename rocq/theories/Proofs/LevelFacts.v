(** Provers and verifiers that differ only in the number of queries and the grinding factor. *)
From Coq Require Import List Arith NArith Bool Lia.
From Verif.Base Require Import Outcome Bytes Field Poly.
From Verif.Model Require Import Codec Trace Merkle Air Transcript Domain Evaluator Fri Prover Verifier.
From Verif.Spec Require Import AirSpec VerifierSpec Forgery Levels.
From Verif.Proofs Require Import OutcomeFacts FieldFacts PolyFacts FFTFacts DomainFacts TranscriptFacts VerifierFacts VerifierTotal SurplusFacts.
Import ListNotations.
Local Open Scope outcome_scope.
Local Open Scope felt_scope.

Ltac ok_pair H x y Hx := apply obind_ok in H; destruct H as ([x y] & Hx & H).

Section Samples.
Context {E : env}.
Notation T := (e_tr E).
Lemma sample_indices_app n m k : forall t : T, sample_indices E (n + m) k t =
  obind (sample_indices E n k t) (fun st => obind (sample_indices E m k (snd st)) (fun st' => Ok (fst st ++ fst st', snd st'))).
Proof.
  induction n as [|n IH]; intro t; cbn [Nat.add sample_indices obind fst snd].
  - destruct (sample_indices E m k t) as [[is t']|e|]; reflexivity.
  - destruct (transcript_to_usize E t) as [[v t1]|e|]; cbn [obind]; try reflexivity.
    destruct (if (k =? 0)%nat then Panic else Ok (N.to_nat (v mod N.of_nat k))) as [i|e|]; cbn [obind]; try reflexivity.
    rewrite IH. destruct (sample_indices E n k t1) as [[is t2]|e|]; cbn [obind fst snd]; try reflexivity.
    destruct (sample_indices E m k t2) as [[js t3]|e|]; cbn [obind fst snd]; reflexivity.
Qed.
Lemma sample_indices_length n k : forall (t : T) is t', sample_indices E n k t = Ok (is, t') -> length is = n.
Proof.
  induction n as [|n IH]; intros t is t' H; cbn [sample_indices] in H.
  - apply ok_inj in H. injection H as <- <-. reflexivity.
  - ok_pair H v t1 Hv. ok_as H i Hi. ok_pair H js t2 Hj. apply ok_inj in H. injection H as <- <-. cbn. f_equal. now apply IH in Hj.
Qed.
Lemma sample_indices_cut n k t is t' q : (q <= n)%nat -> sample_indices E n k (t : T) = Ok (is, t') -> exists t'', sample_indices E q k t = Ok (firstn q is, t'').
Proof.
  intros Hq H. replace n with (q + (n - q))%nat in H by lia. rewrite sample_indices_app in H. ok_pair H js t1 Hj. cbn [fst snd] in H. ok_pair H ks t2 Hk.
  cbn [fst snd] in H. apply ok_inj in H. injection H as <- <-. exists t1. rewrite firstn_app, firstn_all2; pose proof (sample_indices_length _ _ _ _ _ Hj) as L; [|lia].
  replace (q - length js)%nat with 0%nat by lia. cbn [firstn]. now rewrite app_nil_r.
Qed.
End Samples.

Section Levels.
Context {E : env}.
Notation T := (e_tr E).

Lemma asking_self (a : air E) : asking (fri_number_of_queries (a_options a)) (grinding_factor (a_options a)) a = a.
Proof. destruct a as [rap [[b q o g] w dg of ex nc ne] n ba br na db tr bo]. reflexivity. Qed.

(** The challenges of [a], for the AIR that asks for other positions. *)
Definition ask q g (a : air E) (c : challenges E a) (is : list nat) : challenges E (asking q g a) :=
  mk_challenges E (asking q g a) (c_z E a c) (c_boundary_coeffs E a c) (c_transition_coeffs E a c) (c_trace_term_coeffs E a c) (c_gamma_even E a c) (c_gamma_odd E a c)
    (c_zetas E a c) is (c_rap E a c) (c_leading_zeros E a c).

Lemma step_1_ask fuel q g (a : air E) p d (t : T) :
  step_1 E fuel (asking q g a) p d t =
  obind (step_1 E fuel (asking 0 0 a) p d t) (fun st => obind (sample_indices E q (2 ^ lde_root_order d) (snd st)) (fun st' => Ok (ask q g (asking 0 0 a) (fst st) (fst st'), snd st'))).
Proof.
  unfold step_1.
  change (a_build_rap (asking q g a)) with (a_build_rap a). change (a_build_rap (asking 0 0 a)) with (a_build_rap a).
  change (a_boundary (asking q g a)) with (a_boundary a). change (a_boundary (asking 0 0 a)) with (a_boundary a).
  cbn [asking a_context num_transition_constraints trace_columns transition_offsets a_options ctx_options tuned fri_number_of_queries a_rap].
  repeat (cbn [obind fst snd sample_indices]; match goal with
    | |- ?l = ?r => match l with
       | obind ?o _ => match o with sample_indices _ _ _ _ => fail 2 | _ => destruct o as [?|?|] end
       | context [match ?o with (_, _) => _ end] => destruct o
       end
    end; cbn [obind]; try reflexivity).
  cbn [snd fst]. destruct (sample_indices E q _ _) as [[is t']|e|]; reflexivity.
Qed.

(** The verifier in two parts: what does not depend on the number of queries, and the rest. *)
Definition at_positions (a : air E) (c : challenges E (asking 0 0 a)) (is : list nat) : challenges E (asking 0 0 a) := ask 0 0 (asking 0 0 a) c is.

Definition judge fuel (a : air E) (p : stark_proof E) : outcome bool :=
  d <- domain_new a;;
  '(c, t) <- step_1 E fuel a p d tr_new;;
  if (c_leading_zeros E a c <? grinding_factor (a_options a))%N then Ok false else
  b2 <- step_2 E a p d c;;
  if negb b2 then Ok false else
  b3 <- step_3 E a p d c;;
  if negb b3 then Ok false else
  b4 <- step_4 E a p d c;;
  Ok b4.
Lemma verify_iff fuel (mk : nat -> air E) opts p : let a := mk (trace_length p) in let a0 := asking 0 0 a in
  verify E fuel mk opts p = Ok true <->
  (fri_number_of_queries opts <= length (query_list p))%nat /\
  exists d c t is t', domain_new a0 = Ok d /\ step_1 E fuel a0 p d tr_new = Ok (c, t) /\ (grinding_factor (a_options a) <= c_leading_zeros E a0 c)%N /\
    step_2 E a0 p d c = Ok true /\ sample_indices E (fri_number_of_queries (a_options a)) (2 ^ lde_root_order d) t = Ok (is, t') /\
    step_3 E a0 p d (at_positions a c is) = Ok true /\ step_4 E a0 p d (at_positions a c is) = Ok true.
Proof.
  intros a a0. change (verify E fuel mk opts p) with (if (length (query_list p) <? fri_number_of_queries opts)%nat then Ok false else judge fuel a p).
  replace (judge fuel a p) with (judge fuel (asking (fri_number_of_queries (a_options a)) (grinding_factor (a_options a)) a) p) by now rewrite asking_self.
  unfold judge. change (grinding_factor (a_options (asking (fri_number_of_queries (a_options a)) (grinding_factor (a_options a)) a))) with (grinding_factor (a_options a)).
  set (q := fri_number_of_queries (a_options a)) in *. set (g := grinding_factor (a_options a)) in *.
  destruct (Nat.ltb_spec (length (query_list p)) (fri_number_of_queries opts)) as [Hl|Hl].
  { split; [discriminate|]. intros [H _]. lia. }
  change (domain_new a0) with (domain_new a).
  change (domain_new (asking q g a)) with (domain_new a).
  destruct (domain_new a) as [d|e|] eqn:Hd; cbn [obind]; [|split; [discriminate|]; intros (_ & d' & c & t & is & t' & H & _); discriminate H..].
  rewrite step_1_ask. change (asking 0 0 a) with a0.
  destruct (step_1 E fuel a0 p d tr_new) as [[c t]|e|] eqn:H1; cbn [obind fst snd].
  2,3: split; [discriminate|]; intros (_ & d' & c & t & is & t' & H & H' & _); injection H as <-; rewrite H1 in H'; discriminate H'.
  destruct (sample_indices E q (2 ^ lde_root_order d) t) as [[is t']|e|] eqn:Hs; cbn [obind fst snd].
  2,3: split; [discriminate|]; intros (_ & d' & c' & t' & is & t'' & H & H' & _ & _ & Hx & _); injection H as <-; rewrite H1 in H'; injection H' as <- <-; rewrite Hs in Hx; discriminate Hx.
  change (c_leading_zeros E (asking q g a) (ask q g a0 c is)) with (c_leading_zeros E a0 c).
  change (step_2 E (asking q g a) p d (ask q g a0 c is)) with (step_2 E a0 p d c).
  change (step_3 E (asking q g a) p d (ask q g a0 c is)) with (step_3 E a0 p d (at_positions a c is)).
  change (step_4 E (asking q g a) p d (ask q g a0 c is)) with (step_4 E a0 p d (at_positions a c is)).
  destruct (N.ltb_spec (c_leading_zeros E a0 c) g) as [Hz|Hz].
  - split; [discriminate|]. intros (_ & d' & c' & t1 & is1 & t1' & H & H' & Hg & _). injection H as <-. rewrite H1 in H'. injection H' as <- <-. lia.
  - split.
    + intro H. ok_as H b2 Hb2. destruct b2; cbn [negb] in H; [|discriminate H]. ok_as H b3 Hb3. destruct b3; cbn [negb] in H; [|discriminate H].
      ok_as H b4 Hb4. apply ok_inj in H. subst b4. split; [exact Hl|]. exists d, c, t, is, t'. repeat split; assumption.
    + intros (_ & d' & c' & t1 & is1 & t1' & H & H' & Hg & H2 & Hx & H3 & H4). injection H as <-. rewrite H1 in H'. injection H' as <- <-. rewrite Hs in Hx. injection Hx as <- <-.
      rewrite H2. cbn [obind negb]. rewrite H3. cbn [obind negb]. now rewrite H4.
Qed.

Lemma traverse_cut {A B} (f : A -> outcome B) l n : forall r, traverse f l = Ok r -> traverse f (firstn n l) = Ok (firstn n r).
Proof.
  revert l. induction n as [|n IH]; intros [|x l] r H; cbn [traverse firstn] in *; try reflexivity.
  - apply ok_inj in H. now subst r.
  - ok_as H y Hy. ok_as H ys Hys. apply ok_inj in H. subst r. rewrite Hy. cbn [obind]. rewrite (IH _ _ Hys). reflexivity.
Qed.
Lemma batch_inverse_cut (l : list E) n r : batch_inverse l = Ok r -> batch_inverse (firstn n l) = Ok (firstn n r).
Proof.
  unfold batch_inverse. destruct (existsb _ l) eqn:Ex; [discriminate|]. intro H. apply ok_inj in H. subst r.
  destruct (existsb _ (firstn n l)) eqn:Ey; [|now rewrite firstn_map].
  exfalso. apply existsb_exists in Ey. destruct Ey as (x & Hx & Hz). assert (true = false); [|discriminate]. rewrite <- Ex. symmetry. apply existsb_exists. exists x. split; [|exact Hz].
  rewrite <- (firstn_skipn n l). apply in_or_app. now left.
Qed.
Lemma Forall_cut {A} (P : A -> Prop) l n : Forall P l -> Forall P (firstn n l).
Proof. intro H. rewrite <- (firstn_skipn n l) in H. apply Forall_app in H. exact (proj1 H). Qed.

Lemma step_3_cut (a : air E) p d c is q : step_3 E (asking 0 0 a) p d (at_positions a c is) = Ok true -> step_3 E (asking 0 0 a) p d (at_positions a c (firstn q is)) = Ok true.
Proof.
  intro H. unfold step_3 in *. cbn [at_positions ask c_iotas c_zetas] in *. ok_as H ti Hti. rewrite Hti. cbn [obind]. ok_as H pts Hpts. rewrite (traverse_cut _ _ q _ Hpts). cbn [obind].
  ok_as H pinv Hpinv. rewrite (batch_inverse_cut _ q _ Hpinv). cbn [obind].
  set (g := fun (x : fri_decommitment E * nat * E) => verify_query E p (c_zetas E (asking 0 0 a) c) (snd (fst x)) (fst (fst x)) d (snd x) ti).
  rewrite (ofold_ext _ (fun r x => obind (g x) (fun v => Ok (r && v)))) in H by (intros [[u iota] xi] b _; reflexivity).
  rewrite (ofold_ext _ (fun r x => obind (g x) (fun v => Ok (r && v)))) by (intros [[u iota] xi] b _; reflexivity).
  apply all_true in H. apply all_true. split; [reflexivity|]. destruct H as [_ H]. rewrite combine_firstn_r, combine_firstn_r, combine_firstn_left, firstn_firstn, Nat.min_id. now apply Forall_cut.
Qed.

Lemma opening_keeps (a : air E) p d c root i iota o di st : verify_opening E a p d c root i iota o di st = Ok true -> st = true.
Proof.
  intro Hf. unfold verify_opening in Hf. cbv zeta in Hf. do 9 (ok_step Hf). apply ok_inj in Hf.
  apply andb_true_iff in Hf. destruct Hf as [Hf _]. apply andb_true_iff in Hf. exact (proj1 Hf).
Qed.

Lemma step_4_cut (a : air E) p d c is q : step_4 E (asking 0 0 a) p d (at_positions a c is) = Ok true -> step_4 E (asking 0 0 a) p d (at_positions a c (firstn q is)) = Ok true.
Proof.
  intro H. unfold step_4 in *. cbv zeta in *. cbn [at_positions ask c_iotas c_z] in *. ok_as H root Hr. rewrite Hr. cbn [obind]. ok_as H dens Hd. rewrite (traverse_cut _ _ q _ Hd). cbn [obind].
  ok_as H dinv Hdi. rewrite (batch_inverse_cut _ q _ Hdi). cbn [obind].
  set (f := fun (result : bool) (x : nat * (nat * deep_openings E * E)) => let '(i, (iota, o, dinv)) := x in verify_opening E (asking 0 0 a) p d (at_positions a c is) root i iota o dinv result).
  change (ofold f (combine (seq 0 (length (combine (combine is (deep_poly_openings p)) dinv))) (combine (combine is (deep_poly_openings p)) dinv)) true = Ok true) in H.
  rewrite combine_firstn_left, combine_firstn_r, combine_firstn_left, firstn_firstn, Nat.min_id.
  set (l := combine (combine is (deep_poly_openings p)) dinv) in *.
  change (ofold f (combine (seq 0 (length (firstn q l))) (firstn q l)) true = Ok true). rewrite seq_cut.
  rewrite <- (firstn_skipn q (combine (seq 0 (length l)) l)) in H.
  assert (Hst : forall st x st', f st x = Ok st' -> st' = true -> st = true).
  { intros st [i [[iota o] di]] st' Hf ->. exact (opening_keeps _ _ _ _ _ _ _ _ _ _ Hf). }
  destruct (ofold_begin f (fun b => b = true) _ _ _ _ Hst H eq_refl) as (r1 & E1 & ->). exact E1.
Qed.

Theorem fewer_queries fuel (mk mk' : nat -> air E) opts opts' p q g : let a := mk (trace_length p) in
  mk' (trace_length p) = asking q g a -> (fri_number_of_queries opts' <= fri_number_of_queries opts)%nat ->
  (q <= fri_number_of_queries (a_options a))%nat -> (g <= grinding_factor (a_options a))%N ->
  verify E fuel mk opts p = Ok true -> verify E fuel mk' opts' p = Ok true.
Proof.
  intros a Em Ho Hq Hg H. apply verify_iff in H. fold a in H. destruct H as (Hl & d & c & t & is & t' & Hd & H1 & Hz & H2 & Hs & H3 & H4).
  apply verify_iff. rewrite Em. change (asking 0 0 (asking q g a)) with (asking 0 0 a). split; [lia|].
  destruct (sample_indices_cut _ _ _ _ _ q Hq Hs) as [t'' Hs'].
  exists d, c, t, (firstn q is), t''. split; [exact Hd|]. split; [exact H1|]. split; [change (g <= c_leading_zeros E (asking 0 0 a) c)%N; lia|]. split; [exact H2|].
  split; [exact Hs'|]. split; [exact (step_3_cut a p d c is q H3)|exact (step_4_cut a p d c is q H4)].
Qed.

Lemma traverse_app {A B} (f : A -> outcome B) l1 l2 r1 r2 : traverse f l1 = Ok r1 -> traverse f l2 = Ok r2 -> traverse f (l1 ++ l2) = Ok (r1 ++ r2).
Proof.
  revert r1. induction l1 as [|x l1 IH]; intros r1 H1 H2; cbn [traverse app] in *.
  - apply ok_inj in H1. subst r1. exact H2.
  - ok_as H1 y Hy. ok_as H1 ys Hys. apply ok_inj in H1. subst r1. rewrite Hy. cbn [obind]. rewrite (IH _ Hys H2). reflexivity.
Qed.
Lemma traverse_in {A B} (f : A -> outcome B) l r y : traverse f l = Ok r -> In y r -> exists x, In x l /\ f x = Ok y.
Proof.
  intro H. apply traverse_inv in H. induction H as [|x y' l r Hx F IH]; intro Hy; [destruct Hy|]. destruct Hy as [->|Hy].
  - exists x. split; [now left|exact Hx].
  - destruct (IH Hy) as (x' & Hi & Hf). exists x'. split; [now right|exact Hf].
Qed.
Lemma batch_inverse_app (l1 l2 : list E) r1 r2 : batch_inverse l1 = Ok r1 -> batch_inverse l2 = Ok r2 -> batch_inverse (l1 ++ l2) = Ok (r1 ++ r2).
Proof.
  unfold batch_inverse. rewrite existsb_app. destruct (existsb _ l1); [discriminate|]. destruct (existsb _ l2); [discriminate|]. intros H1 H2.
  apply ok_inj in H1, H2. subst. cbn [orb]. now rewrite map_app.
Qed.
Lemma combine_app2 {A B} (l1 l2 : list A) (m1 m2 : list B) : length l1 = length m1 -> combine (l1 ++ l2) (m1 ++ m2) = combine l1 m1 ++ combine l2 m2.
Proof. revert m1. induction l1 as [|x l1 IH]; intros [|y m1] H; cbn in *; try discriminate; [reflexivity|]. rewrite IH; [reflexivity|]. now injection H. Qed.
Lemma combine_short {A B} (l1 l2 : list A) (m : list B) : (length m <= length l1)%nat -> combine (l1 ++ l2) m = combine l1 m.
Proof. revert m. induction l1 as [|x l1 IH]; intros [|y m] H; cbn in *; try lia; try reflexivity; [now destruct l2|]. rewrite IH; [reflexivity|lia]. Qed.
Lemma combine_none {A B} (l : list A) : combine l ([] : list B) = [].
Proof. now destruct l. Qed.

Lemma dummy_query (p : stark_proof E) zetas iota v d xi ti : verify_query E p zetas iota (mk_fri_decommitment [] [] [] [v]) d xi ti = Ok true.
Proof. unfold verify_query. cbn [layers_evaluations layers_auth_paths]. rewrite combine_none. reflexivity. Qed.

Section Padding.
Context (HK : field_ok E).
Lemma step_3_pad (a : air E) p d c is js k v : length is = length (query_list p) ->
  (forall i, In i js -> exists x, idx (lde_roots_of_unity_coset d) i = Ok x /\ x <> 0) ->
  step_3 E (asking 0 0 a) p d (at_positions a c is) = Ok true -> step_3 E (asking 0 0 a) (padded k v p) d (at_positions a c (is ++ js)) = Ok true.
Proof using HK.
  intros Hl Hj H. unfold step_3 in *. cbn [at_positions ask c_iotas c_zetas] in *. ok_as H ti Hti. rewrite Hti. cbn [obind]. ok_as H pts Hpts.
  destruct (traverse_total (idx (lde_roots_of_unity_coset d)) js) as [pts' Hpts']; [intros i Hi; destruct (Hj i Hi) as (x & Hx & _); now exists x|].
  rewrite (traverse_app _ _ _ _ _ Hpts Hpts'). cbn [obind]. ok_as H pinv Hpinv.
  assert (Hb : batch_inverse pts' = Ok (map finv pts')).
  { apply (batch_inverse_ok HK). intros x Hx. destruct (traverse_in _ _ _ _ Hpts' Hx) as (i & Hi & Hxi). destruct (Hj i Hi) as (x' & Hx' & Hnz). rewrite Hxi in Hx'. apply ok_inj in Hx'. now subst. }
  rewrite (batch_inverse_app _ _ _ _ Hpinv Hb). cbn [obind].
  set (g := fun (x : fri_decommitment E * nat * E) => verify_query E p (c_zetas E (asking 0 0 a) c) (snd (fst x)) (fst (fst x)) d (snd x) ti).
  rewrite (ofold_ext _ (fun r x => obind (g x) (fun v => Ok (r && v)))) in H by (intros [[u iota] xi] b _; reflexivity).
  rewrite (ofold_ext _ (fun r x => obind (g x) (fun v => Ok (r && v)))) by (intros [[u iota] xi] b _; reflexivity).
  apply all_true in H. apply all_true. split; [reflexivity|]. destruct H as [_ H]. cbn [padded query_list].
  assert (Lp : length pinv = length is).
  { unfold batch_inverse in Hpinv. destruct (existsb _ _); [discriminate|]. apply ok_inj in Hpinv. rewrite <- Hpinv, map_length. exact (traverse_length _ _ _ Hpts). }
  rewrite combine_app2 by (now rewrite Hl). rewrite combine_app2 by (rewrite combine_length; lia).
  apply Forall_app. split; [exact H|]. apply Forall_forall. intros [[u iota] xi] Hin. apply in_combine_l, in_combine_l in Hin. apply repeat_spec in Hin. subst u. apply dummy_query.
Qed.

Lemma step_4_pad (a : air E) p d c is js k v : length is = length (query_list p) -> (length (deep_poly_openings p) <= length is)%nat ->
  (forall i, In i js -> exists x, idx (lde_roots_of_unity_coset d) i = Ok x /\ x - fsquare (c_z E (asking 0 0 a) c) <> 0) ->
  step_4 E (asking 0 0 a) p d (at_positions a c is) = Ok true -> step_4 E (asking 0 0 a) (padded k v p) d (at_positions a c (is ++ js)) = Ok true.
Proof using HK.
  intros Hl Ho Hj H. unfold step_4 in *. cbv zeta in *. cbn [at_positions ask c_iotas c_z] in *. ok_as H root Hr. rewrite Hr. cbn [obind]. ok_as H dens Hd.
  set (h := fun iota => x <- idx (lde_roots_of_unity_coset d) iota;; Ok (x - fsquare (c_z E (asking 0 0 a) c))) in *.
  destruct (traverse_total h js) as [dens' Hd']; [intros i Hi; destruct (Hj i Hi) as (x & Hx & _); unfold h; rewrite Hx; cbn; eauto|].
  rewrite (traverse_app _ _ _ _ _ Hd Hd'). cbn [obind]. ok_as H dinv Hdi.
  assert (Hb : batch_inverse dens' = Ok (map finv dens')).
  { apply (batch_inverse_ok HK). intros x Hx. destruct (traverse_in _ _ _ _ Hd' Hx) as (i & Hi & Hxi). destruct (Hj i Hi) as (x' & Hx' & Hnz). unfold h in Hxi. rewrite Hx' in Hxi. cbn [obind] in Hxi. apply ok_inj in Hxi. now subst. }
  rewrite (batch_inverse_app _ _ _ _ Hdi Hb). cbn [obind padded deep_poly_openings].
  assert (Lp : length dinv = length is).
  { unfold batch_inverse in Hdi. destruct (existsb _ _); [discriminate|]. apply ok_inj in Hdi. rewrite <- Hdi, map_length. exact (traverse_length _ _ _ Hd). }
  rewrite (combine_short is js) by exact Ho.
  replace (combine (combine is (deep_poly_openings p)) (dinv ++ map finv dens')) with (combine (combine is (deep_poly_openings p)) dinv).
  2:{ rewrite (combine_cut_r _ (dinv ++ _)), (combine_cut_r _ dinv). f_equal. rewrite firstn_app.
      replace (length (combine is (deep_poly_openings p)) - length dinv)%nat with 0%nat by (rewrite combine_length; lia). cbn [firstn]. now rewrite app_nil_r. }
  set (l := combine (combine is (deep_poly_openings p)) dinv) in *. rewrite <- H.
  assert (Ll : (length l <= length (query_list p))%nat) by (unfold l; rewrite !combine_length; lia).
  apply ofold_ext. intros [i [[iota o] di]] b Hin. apply in_combine_l, in_seq in Hin.
  apply (opening_same (asking 0 0 a) (padded k v p) p d (at_positions a c is)); [reflexivity|reflexivity|].
  cbn [padded query_list]. rewrite nth_error_app1 by lia. reflexivity.
Qed.
End Padding.

Lemma cut_accepted fuel (mk : nat -> air E) opts p : let q := fri_number_of_queries (a_options (mk (trace_length p))) in
  (fri_number_of_queries opts <= q)%nat -> verify E fuel mk opts p = Ok true -> verify E fuel mk opts (cut q p) = Ok true.
Proof.
  intros q Hq H. rewrite <- H. apply verify_same.
  - constructor; [reflexivity|..]; fold q; cbn [cut query_list deep_poly_openings]; now rewrite firstn_firstn, Nat.min_id.
  - cbn [cut query_list]. rewrite firstn_length. unfold verify in H. destruct (Nat.ltb_spec (length (query_list p)) (fri_number_of_queries opts)); [discriminate H|].
    symmetry. apply Nat.ltb_ge. lia.
Qed.

(** ** The prover *)

Definition moved q g (a : air E) (r1 : round1 E (asking 0 0 a)) : round1 E (asking q g a) :=
  mk_round1 E (asking q g a) (r1_trace_polys E _ r1) (r1_lde_trace E _ r1) (r1_trees E _ r1) (r1_roots E _ r1) (r1_rap E _ r1).

Lemma round_1_ask q g (a : air E) m d (t : T) : round_1 E (asking q g a) m d t = obind (round_1 E (asking 0 0 a) m d t) (fun st => Ok (moved q g a (fst st), snd st)).
Proof.
  unfold round_1. change (a_build_rap (asking q g a)) with (a_build_rap a). change (a_build_rap (asking 0 0 a)) with (a_build_rap a).
  change (a_build_aux (asking q g a)) with (a_build_aux a). change (a_build_aux (asking 0 0 a)) with (a_build_aux a).
  destruct (interpolate_and_commit E m d t) as [[[[[polys evals] tree] root] t1]|e|]; cbn [obind]; try reflexivity.
  change (a_rap (asking q g a)) with (a_rap a). change (a_rap (asking 0 0 a)) with (a_rap a).
  destruct (a_build_rap a t1) as [[rap t2]|e|]; cbn [obind]; try reflexivity.
  destruct (a_build_aux a m rap) as [aux|e|]; cbn [obind]; try reflexivity. destruct (tt_is_empty aux).
  - destruct (tt_new_from_cols evals) as [lde|e|]; reflexivity.
  - destruct (interpolate_and_commit E aux d t2) as [[[[[polys' evals'] tree'] root'] t3]|e|]; cbn [obind]; try reflexivity.
    destruct (tt_new_from_cols (evals ++ evals')) as [lde|e|]; reflexivity.
Qed.

(** The fourth round up to the queries. *)
Definition round_4_front q g (a : air E) d (r1 : round1 E (asking 0 0 a)) r2 r3 z (t : T) :=
  '(gamma, t) <- transcript_to_field E t;;
  '(gamma_p, t) <- transcript_to_field E t;;
  '(trace_gammas, t) <- batch_sample_challenges E (length (transition_offsets (a_context a)) * trace_columns (a_context a)) t;;
  deep <- compute_deep_composition_poly E a (r1_trace_polys E _ r1) r2 r3 z (trace_primitive_root d) gamma gamma_p trace_gammas;;
  '(last_value, layers, t) <- fri_commit_phase E (root_order d) deep t (e_u64 E (coset_offset (a_options a))) (length (lde_roots_of_unity_coset d));;
  let '(challenge, t) := tr_challenge t in
  nonce_o <- generate_nonce E challenge g;;
  nonce <- unwrap nonce_o;;
  let t := tr_append t (be_bytes 8 nonce) in
  '(query_list, iotas, t) <- fri_query_phase E q (length (lde_roots_of_unity_coset d)) layers t;;
  openings <- open_deep_composition_poly E (asking 0 0 a) d r1 r2 iotas;;
  Ok (mk_round4 E last_value (map (fl_root E) layers) openings query_list nonce, t).
Lemma round_4_ask q g (a : air E) d r1 r2 r3 z (t : T) : round_4 E (asking q g a) d (moved q g a r1) r2 r3 z t = round_4_front q g a d r1 r2 r3 z t.
Proof. reflexivity. Qed.

Lemma query_phase_cut q q' n layers (t : T) ql is t' : (q' <= q)%nat -> fri_query_phase E q n layers t = Ok (ql, is, t') ->
  exists t'', fri_query_phase E q' n layers t = Ok (firstn q' ql, firstn q' is, t'').
Proof.
  intros Hq H. unfold fri_query_phase in *. destruct layers as [|l layers].
  - apply ok_inj in H. injection H as <- <- <-. exists t. now rewrite !firstn_nil.
  - ok_pair H js t1 Hj. ok_as H qs Hqs. apply ok_inj in H. injection H as <- <- <-.
    destruct (sample_indices_cut _ _ _ _ _ _ Hq Hj) as [t'' Hs]. exists t''. rewrite Hs. cbn [obind]. rewrite (traverse_cut _ _ q' _ Hqs). reflexivity.
Qed.

Theorem prove_cut fuel (mk mk' : nat -> air E) m p a q q' g : (q' <= q)%nat -> mk (tt_n_rows m) = asking q g a -> mk' (tt_n_rows m) = asking q' g a ->
  prove E fuel mk m = Ok p -> prove E fuel mk' m = Ok (cut q' p).
Proof.
  intros Hq Em Em' H. unfold prove in *. rewrite Em in H. rewrite Em'.
  change (domain_new (asking q g a)) with (domain_new a) in H. change (domain_new (asking q' g a)) with (domain_new a).
  ok_as H d Hd. rewrite Hd. cbn [obind]. rewrite round_1_ask in *. 
  destruct (round_1 E (asking 0 0 a) m d tr_new) as [[r1 t1]|e|]; cbn [obind fst snd] in *; try discriminate H.
  change (a_boundary (asking q g a) (r1_rap E (asking q g a) (moved q g a r1))) with (a_boundary a (r1_rap E (asking 0 0 a) r1)) in H.
  change (a_boundary (asking q' g a) (r1_rap E (asking q' g a) (moved q' g a r1))) with (a_boundary a (r1_rap E (asking 0 0 a) r1)).
  change (num_transition_constraints (a_context (asking q g a))) with (num_transition_constraints (a_context a)) in H.
  change (num_transition_constraints (a_context (asking q' g a))) with (num_transition_constraints (a_context a)).
  ok_as H bcs Hbcs. rewrite Hbcs. cbn [obind].
  ok_pair H ba t2 Hba. rewrite Hba. cbn [obind]. ok_pair H bb t3 Hbb. rewrite Hbb. cbn [obind]. ok_pair H ta t4 Hta. rewrite Hta. cbn [obind]. ok_pair H tb t5 Htb. rewrite Htb. cbn [obind].
  change (round_2 E (asking q g a) d (moved q g a r1)) with (round_2 E (asking 0 0 a) d r1) in H.
  change (round_2 E (asking q' g a) d (moved q' g a r1)) with (round_2 E (asking 0 0 a) d r1).
  ok_as H r2 Hr2. rewrite Hr2. cbn [obind]. ok_pair H z t6 Hz. rewrite Hz. cbn [obind].
  change (round_3 E (asking q g a) d (moved q g a r1) r2 z) with (round_3 E (asking 0 0 a) d r1 r2 z) in H.
  change (round_3 E (asking q' g a) d (moved q' g a r1) r2 z) with (round_3 E (asking 0 0 a) d r1 r2 z).
  set (r3 := round_3 E (asking 0 0 a) d r1 r2 z) in *. rewrite round_4_ask in *.
  ok_pair H r4 t7 Hr4. apply ok_inj in H. subst p. unfold round_4_front in *.
  ok_pair Hr4 gm t8 Hgm. rewrite Hgm. cbn [obind]. ok_pair Hr4 gp t9 Hgp. rewrite Hgp. cbn [obind]. ok_pair Hr4 tg t10 Htg. rewrite Htg. cbn [obind].
  ok_as Hr4 deep Hdeep. rewrite Hdeep. cbn [obind]. ok_as Hr4 x Hx. rewrite Hx. cbn [obind]. destruct x as [[lv layers] t11].
  destruct (tr_challenge t11) as [ch t12]. ok_as Hr4 no Hno. rewrite Hno. cbn [obind]. ok_as Hr4 nn Hnn. rewrite Hnn. cbn [obind].
  ok_as Hr4 y Hy. destruct y as [[ql is] t13]. destruct (query_phase_cut _ _ _ _ _ _ _ _ Hq Hy) as [t14 Hy']. rewrite Hy'. cbn [obind].
  ok_as Hr4 op Hop. unfold open_deep_composition_poly in *. rewrite (traverse_cut _ _ q' _ Hop). cbn [obind]. apply ok_inj in Hr4. injection Hr4 as <- <-. reflexivity.
Qed.

Lemma prove_count fuel (mk : nat -> air E) m p : prove E fuel mk m = Ok p -> (length (query_list p) <= fri_number_of_queries (a_options (mk (tt_n_rows m))))%nat.
Proof.
  intro H. assert (H' : prove E fuel mk m = Ok (cut (fri_number_of_queries (a_options (mk (tt_n_rows m)))) p)).
  { refine (prove_cut fuel mk mk m p (mk (tt_n_rows m)) _ _ _ (le_n _) _ _ H); symmetry; apply asking_self. }
  rewrite H in H'. apply ok_inj in H'. rewrite H'. cbn [cut query_list]. rewrite firstn_length. lia.
Qed.

Context (HE : env_ok E) (HS : sampling_ok E).
Let HK : field_ok E := fft_field_ok E (e_fft_ok E HE).
Add Field Kfield82 : (fld_th E HK).

Theorem more_queries fuel (mk mk' : nat -> air E) opts opts' p r b k g v : let a := mk (trace_length p) in let q := fri_number_of_queries (a_options a) in
  a_trace_length a = (2 ^ r)%nat -> (1 <= r)%nat -> a_blowup a = (2 ^ b)%nat ->
  (forall y w i, primitive_root (r + b) = Some w -> y * y <> e_u64 E (coset_offset (a_options a)) * fpow w i) ->
  fri_number_of_queries opts = q -> (fri_number_of_queries opts' <= q + k)%nat -> mk' (trace_length p) = asking (q + k) g a -> (g <= grinding_factor (a_options a))%N ->
  verify E fuel mk opts p = Ok true -> verify E fuel mk' opts' (padded k v (cut q p)) = Ok true.
Proof using HE HS.
  intros a q Hn Hr Hb Hsq Ho Ho' Em Hg H.
  apply (cut_accepted fuel mk opts p) in H; [|fold a; fold q; lia]. fold a in H. fold q in H.
  assert (Hlo : (length (deep_poly_openings (cut q p)) <= q)%nat) by (cbn [cut deep_poly_openings]; rewrite firstn_length; lia).
  assert (Hlq : (length (query_list (cut q p)) <= q)%nat) by (cbn [cut query_list]; rewrite firstn_length; lia).
  set (p1 := cut q p) in *.
  apply verify_iff in H. change (trace_length p1) with (trace_length p) in H. fold a in H. destruct H as (Hl & d & c & t & is & t' & Hd & H1 & Hz & H2 & Hs & H3 & H4). fold q in Hs.
  assert (Lq : length (query_list p1) = q) by lia.
  pose proof (sample_indices_length _ _ _ _ _ Hs) as Li.
  change (domain_new (asking 0 0 a)) with (domain_new a) in Hd.
  destruct (domain_new_shape HE a d r b Hd Hn Hb Hr) as (g0 & W & D).
  set (h := e_u64 E (coset_offset (a_options a))) in *.
  assert (Hh : h <> 0). { intro Eh. apply (Hsq 0 W 0%nat (ds_W _ _ _ _ _ _ D)). rewrite Eh. ring. }
  assert (Hpt : forall i, (i < 2 ^ (r + b))%nat -> idx (lde_roots_of_unity_coset d) i = Ok (fpow W i * h)).
  { intros i Hi. rewrite (idx_nth _ _ 0) by (rewrite (shape_lde_length HE D); exact Hi). f_equal. rewrite (ds_lde _ _ _ _ _ _ D), nth_map_seq by exact Hi. reflexivity. }
  destruct (indices_total HS k (2 ^ lde_root_order d)) with (t := t') as (js & t'' & Hjs); [apply Nat.neq_0_lt_0, Nat.pow_nonzero; lia|].
  pose proof (proj2 (sample_indices_spec _ _ _ _ _ _ Hjs)) as Hjb. rewrite (ds_lde_order _ _ _ _ _ _ D) in Hjb.
  apply (verify_iff fuel mk' opts'). change (trace_length (padded k v p1)) with (trace_length p). rewrite Em. change (asking 0 0 (asking (q + k) g a)) with (asking 0 0 a).
  split; [cbn [padded query_list]; rewrite app_length, repeat_length; lia|].
  exists d, c, t, (is ++ js), t''. split; [exact Hd|]. split; [rewrite (step_1_header fuel (asking 0 0 a) (padded k v p1) p1); [exact H1|reflexivity]|].
  split; [change (g <= c_leading_zeros E (asking 0 0 a) c)%N; lia|]. split; [rewrite (step_2_header (asking 0 0 a) (padded k v p1) p1); [exact H2|reflexivity]|].
  split; [change (fri_number_of_queries (a_options (asking (q + k) g a))) with (q + k)%nat; rewrite sample_indices_app, Hs; cbn [obind fst snd]; rewrite Hjs; reflexivity|].
  split.
  - refine (step_3_pad HK a p1 d c is js k v _ _ H3); [lia|]. intros i Hi. exists (fpow W i * h). split; [apply Hpt, Hjb, Hi|].
    apply (mul_nonzero HK); [apply (fpow_nonzero HK), (shape_W_nonzero HE D)|exact Hh].
  - refine (step_4_pad HK a p1 d c is js k v _ _ _ H4); [lia|lia|]. intros i Hi. exists (fpow W i * h). split; [apply Hpt, Hjb, Hi|].
    intro H0. apply (proj1 (sub_zero HK _ _)) in H0. apply (Hsq (c_z E (asking 0 0 a) c) W i (ds_W _ _ _ _ _ _ D)). unfold fsquare in H0. rewrite <- H0. ring.
Qed.
End Levels.
