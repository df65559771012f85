(** What the verifier does not look at. *)
From Coq Require Import List Arith NArith Bool Lia.
From Verif.Base Require Import Outcome Bytes Field Poly.
From Verif.Model Require Import Codec Trace Merkle Air Transcript Domain Fri Prover Verifier.
From Verif.Spec Require Import Surplus.
From Verif.Proofs Require Import OutcomeFacts TranscriptFacts StatementFacts.
Import ListNotations.
Local Open Scope felt_scope.

Lemma combine_cut {A B} (l : list A) (m : list B) : combine l m = combine (firstn (length m) l) m.
Proof. revert l. induction m as [|b m IH]; intros [|a l]; cbn [combine firstn length]; [reflexivity..|]. now rewrite IH. Qed.
Lemma combine_cut_r {A B} (l : list A) (m : list B) : combine l m = combine l (firstn (length l) m).
Proof. revert m. induction l as [|b l IH]; intros [|a m]; cbn [combine firstn length]; [reflexivity..|]. now rewrite <- IH. Qed.
Lemma map_eq_Forall2 {A B} (f : A -> B) l l' : map f l = map f l' -> Forall2 (fun x y => f x = f y) l l'.
Proof. revert l'. induction l as [|a l IH]; intros [|b l'] H; try discriminate H; constructor; injection H; auto. Qed.
Lemma nth_error_cut {A} (l : list A) n i : (i < n)%nat -> nth_error (firstn n l) i = nth_error l i.
Proof. revert l i. induction n as [|n IH]; intros [|a l] [|i] H; cbn; try lia; auto. apply IH. lia. Qed.
Lemma Forall2_at {A B} (R : A -> B -> Prop) l l' : Forall2 R l l' -> forall i,
  match nth_error l i, nth_error l' i with Some x, Some y => R x y | None, None => True | _, _ => False end.
Proof. induction 1 as [|x y l l' H F IH]; intros [|i]; cbn; auto. apply IH. Qed.
Lemma ofold_app {A B} (f : B -> A -> outcome B) l1 l2 b : ofold f (l1 ++ l2) b = obind (ofold f l1 b) (ofold f l2).
Proof. revert b. induction l1 as [|a l1 IH]; intro b; cbn [ofold app obind]; [destruct (ofold f l2 b); reflexivity|]. destruct (f b a); cbn [obind]; auto. Qed.
Lemma ofold_true_start {A S} (f : S -> A -> outcome S) (good : S -> Prop) l b r :
  (forall s x s', f s x = Ok s' -> good s' -> good s) -> ofold f l b = Ok r -> good r -> good b.
Proof.
  intro H. revert b. induction l as [|x l IH]; intros b Hf Hr; cbn [ofold] in Hf; [apply ok_inj in Hf; now subst|].
  ok_step Hf. exact (H _ _ _ Hv (IH _ Hf Hr)).
Qed.
(** A fold whose states once bad stay bad: what is good after a list is good after its beginnings. *)
Lemma ofold_begin {A S} (f : S -> A -> outcome S) (good : S -> Prop) l1 l2 b r :
  (forall s x s', f s x = Ok s' -> good s' -> good s) -> ofold f (l1 ++ l2) b = Ok r -> good r -> exists r1, ofold f l1 b = Ok r1 /\ good r1.
Proof.
  intros H Hf Hr. rewrite ofold_app in Hf. ok_step Hf. exists v. split; [exact Hv|]. exact (ofold_true_start f good l2 v r H Hf Hr).
Qed.
Lemma combine_firstn_r {A B} (l : list A) (m : list B) n : combine l (firstn n m) = firstn n (combine l m).
Proof. revert l m. induction n as [|n IH]; intros [|a l] [|b m]; cbn [combine firstn]; try reflexivity. now rewrite IH. Qed.

Lemma combine_firstn_left {A B} (l : list A) (m : list B) n : combine (firstn n l) m = firstn n (combine l m).
Proof. revert l m. induction n as [|n IH]; intros [|a l] [|b m]; cbn [combine firstn]; try reflexivity. now rewrite IH. Qed.

Section Facts.
Context {E : env}.

(** The list of layers that [verify_query] runs through. *)
Definition regroup (x : nat * commitment * (list commitment * E * list commitment * E) * E) : nat * commitment * list commitment * E * list commitment * E * E :=
  let '(kr, (pa, ev, ps, es), xi) := x in (kr, pa, ev, ps, es, xi).
Lemma layers_regroup {A} (ks : list A) (q : fri_decommitment E) (xs : list E) :
  combine (combine (combine (combine (combine ks (layers_auth_paths q)) (layers_evaluations q)) (layers_auth_paths_sym q)) (layers_evaluations_sym q)) xs =
  map (fun x : A * (list commitment * E * list commitment * E) * E => let '(kr, (pa, ev, ps, es), xi) := x in (kr, pa, ev, ps, es, xi))
    (combine (combine ks (whole_layers q)) xs).
Proof.
  unfold whole_layers. generalize (layers_auth_paths q) as P, (layers_evaluations q) as V, (layers_auth_paths_sym q) as S, (layers_evaluations_sym q) as W. revert xs.
  induction ks as [|k ks IH]; intros [|x xs] [|a P] [|b V] [|c S] [|d W]; cbn [combine map]; try reflexivity. f_equal. apply IH.
Qed.

Lemma query_cut (ks : list (nat * commitment)) (q : fri_decommitment E) xs :
  combine (combine (combine (combine (combine ks (layers_auth_paths q)) (layers_evaluations q)) (layers_auth_paths_sym q)) (layers_evaluations_sym q)) xs =
  map regroup (combine (combine ks (firstn (length ks) (whole_layers q))) xs).
Proof. rewrite layers_regroup, <- combine_cut_r. apply map_ext. intros [[? [[[? ?] ?] ?]] ?]. reflexivity. Qed.

Lemma seq_roots_length (roots : list commitment) : length (combine (seq 0 (length roots)) roots) = length roots.
Proof. rewrite combine_length, seq_length. lia. Qed.

Lemma query_same (p p' : stark_proof E) zetas iota u u' d xi ti : fri_layers_merkle_roots p = fri_layers_merkle_roots p' -> fri_last_value p = fri_last_value p' ->
  layers_evaluations u = layers_evaluations u' -> firstn (length (fri_layers_merkle_roots p)) (whole_layers u) = firstn (length (fri_layers_merkle_roots p)) (whole_layers u') ->
  verify_query E p zetas iota u d xi ti = verify_query E p' zetas iota u' d xi ti.
Proof.
  intros Hr Hl He Hw. unfold verify_query. cbv zeta. rewrite !query_cut, <- Hr, <- Hl, <- He, !seq_roots_length, Hw. reflexivity.
Qed.

Lemma query_part (p p' : stark_proof E) zetas iota u u' d xi ti n : fri_layers_merkle_roots p = fri_layers_merkle_roots p' -> fri_last_value p = fri_last_value p' ->
  layers_evaluations u' = layers_evaluations u -> firstn (length (fri_layers_merkle_roots p)) (whole_layers u') = firstn n (whole_layers u) ->
  verify_query E p zetas iota u d xi ti = Ok true -> verify_query E p' zetas iota u' d xi ti = Ok true.
Proof.
  intros Hr Hl He Hw H. unfold verify_query in *. cbv zeta in *. rewrite query_cut in *. rewrite <- Hr, <- Hl, He, seq_roots_length in *. rewrite Hw.
  destruct (idx (layers_evaluations u) 0) as [v0|e|]; cbn [obind] in *; try discriminate H.
  set (ks := combine (seq 0 (length (fri_layers_merkle_roots p))) (fri_layers_merkle_roots p)) in *.
  set (f := fun (st : E * bool) (x : nat * commitment * list commitment * E * list commitment * E * E) => _) in *.
  set (xs := squares E (length (fri_layers_merkle_roots p)) xi) in *.
  assert (Hks : length ks = length (fri_layers_merkle_roots p)) by (unfold ks; apply seq_roots_length).
  rewrite <- Hks, <- combine_cut_r in H. rewrite combine_firstn_r, combine_firstn_left, <- firstn_map.
  rewrite <- (firstn_skipn n (map regroup (combine (combine ks (whole_layers u)) xs))) in H.
  destruct (ofold f _ (v0, true)) as [[v b]|e|] eqn:Ef in H; cbn [obind] in H; try discriminate H. apply ok_inj in H. subst b.
  assert (Hst : forall st x st', f st x = Ok st' -> snd st' = true -> snd st = true).
  { intros [w b] [[[[[[k root] pa] ev] ps] es] x'] [w' b'] Hs Hg. cbn [snd] in *. subst b'. unfold f in Hs. ok_step Hs. ok_step Hs. ok_step Hs. ok_step Hs.
    apply ok_inj in Hs. injection Hs as _ Hs. repeat (apply andb_true_iff in Hs; destruct Hs as [Hs _]). exact Hs. }
  destruct (ofold_begin f (fun st => snd st = true) _ _ _ _ Hst Ef eq_refl) as ([v1 b1] & E1 & G1). cbn [snd] in G1. subst b1.
  rewrite E1. reflexivity.
Qed.

Lemma header_inv (p p' : stark_proof E) : header p = header p' ->
  trace_length p = trace_length p' /\ nth_error (lde_trace_merkle_roots p) 0 = nth_error (lde_trace_merkle_roots p') 0 /\
  nth_error (lde_trace_merkle_roots p) 1 = nth_error (lde_trace_merkle_roots p') 1 /\ trace_ood_frame_evaluations p = trace_ood_frame_evaluations p' /\
  composition_poly_root p = composition_poly_root p' /\ composition_poly_even_ood_evaluation p = composition_poly_even_ood_evaluation p' /\
  composition_poly_odd_ood_evaluation p = composition_poly_odd_ood_evaluation p' /\ fri_layers_merkle_roots p = fri_layers_merkle_roots p' /\
  fri_last_value p = fri_last_value p' /\ nonce p = nonce p'.
Proof. unfold header. intro H. injection H as H1 H2 H3 H4 H5 H6 H7 H8 H9 H10. repeat (split; [assumption|]). assumption. Qed.

Lemma opening_same (a : air E) (p p' : stark_proof E) d c root i iota o o' dinv res : header p = header p' -> opened o = opened o' ->
  option_map layers_evaluations (nth_error (query_list p) i) = option_map layers_evaluations (nth_error (query_list p') i) ->
  verify_opening E a p d c root i iota o dinv res = verify_opening E a p' d c root i iota o' dinv res.
Proof.
  intros Hh Ho Hq. unfold opened in Ho. apply header_inv in Hh. destruct Hh as (H1 & H2 & H3 & H4 & H5 & H6 & H7 & H8 & H9 & H10). injection Ho as O1 O2 O3 O4.
  unfold verify_opening, reconstruct_deep. cbv zeta. rewrite <- H4, <- H5, <- H6, <- H7, <- O1, <- O2, <- O3, <- O4.
  do 6 (match goal with |- obind ?x _ = obind ?x _ => destruct x; cbn [obind]; try reflexivity end).
  match goal with |- obind ?x _ = obind ?x _ => destruct x; cbn [obind]; try reflexivity end.
  unfold idx at 1 3. destruct (nth_error (query_list p) i), (nth_error (query_list p') i); cbn [option_map] in Hq; try discriminate Hq; [|reflexivity].
  injection Hq as Hq. cbn [unwrap obind]. now rewrite Hq.
Qed.

Lemma step_1_header fuel a (p p' : stark_proof E) d t : header p = header p' -> step_1 E fuel a p d t = step_1 E fuel a p' d t.
Proof.
  intro Hh. apply header_inv in Hh. destruct Hh as (H1 & H2 & H3 & H4 & H5 & H6 & H7 & H8 & H9 & H10). unfold step_1, idx. cbv zeta.
  rewrite <- H2, <- H3, <- H4, <- H5, <- H6, <- H7, <- H8, <- H9, <- H10. reflexivity.
Qed.
Lemma step_2_header a (p p' : stark_proof E) d c : header p = header p' -> step_2 E a p d c = step_2 E a p' d c.
Proof.
  intro Hh. apply header_inv in Hh. destruct Hh as (H1 & H2 & H3 & H4 & H5 & H6 & H7 & H8 & H9 & H10). unfold step_2. rewrite <- H4, <- H6, <- H7. reflexivity.
Qed.
Lemma step_1_count fuel (a : air E) (p : stark_proof E) d t c t' : step_1 E fuel a p d t = Ok (c, t') -> length (c_iotas E a c) = fri_number_of_queries (a_options a).
Proof.
  intros H. unfold step_1 in H.
  ok_as H root0 Hroot0. ok_as H rp Hrp. destruct rp as [rap t1]. ok_as H bcs Hbcs.
  ok_as H s1 Hs1. destruct s1 as [ba t2]. ok_as H s2 Hs2. destruct s2 as [bb t3]. ok_as H s3 Hs3. destruct s3 as [ta t4]. ok_as H s4 Hs4. destruct s4 as [tb t5].
  ok_as H s5 Hz. destruct s5 as [z t6]. ok_as H nr Hnr. ok_as H rows Hrows. ok_as H s6 Hg1. destruct s6 as [g1 t7]. ok_as H s7 Hg2. destruct s7 as [g2 t8].
  ok_as H s8 Hs8. destruct s8 as [ttc t9]. ok_as H s9 Hs9. destruct s9 as [zetas t10]. destruct (tr_challenge _) as [ch t11]. ok_as H lz Hlz.
  ok_as H s10 Hs10. destruct s10 as [iotas t12]. apply ok_inj in H. injection H as <- _. cbn [c_iotas]. exact (proj1 (sample_indices_spec E _ _ _ _ _ Hs10)).
Qed.

Lemma Forall2_mono {A B} (R R' : A -> B -> Prop) l l' : (forall x y, R x y -> R' x y) -> Forall2 R l l' -> Forall2 R' l l'.
Proof. induction 2; constructor; auto. Qed.

Lemma step_3_same a (p p' : stark_proof E) d c q : length (c_iotas E a c) = q -> same_where_checked q p p' -> step_3 E a p d c = step_3 E a p' d c.
Proof.
  intros Hq [Hh Hs _]. apply header_inv in Hh. destruct Hh as (H1 & H2 & H3 & H4 & H5 & H6 & H7 & H8 & H9 & H10). unfold step_3.
  destruct (inv_o (e_u64 E 2)) as [ti|e|]; cbn [obind]; try reflexivity. destruct (traverse _ (c_iotas E a c)) as [pts|e|]; cbn [obind]; try reflexivity.
  destruct (batch_inverse pts) as [pinv|e|]; cbn [obind]; try reflexivity.
  rewrite (combine_cut (query_list p)), (combine_cut (query_list p')), Hq.
  apply (ofold_ext2 _ _ _ _ _ (Forall2_combine _ _ _ pinv (Forall2_combine _ _ _ (c_iotas E a c) (map_eq_Forall2 _ _ _ Hs)))).
  intros res [[u iota] xi] [[u' iota'] xi'] ((Hu & Ei) & Ex). cbn [fst snd] in *. subst iota' xi'. injection Hu as Hu1 Hu2.
  now rewrite (query_same p p' _ _ u u' d xi ti H8 H9 Hu1 Hu2).
Qed.

Lemma evals_at (p p' : stark_proof E) q i : map layers_evaluations (firstn q (query_list p)) = map layers_evaluations (firstn q (query_list p')) -> (i < q)%nat ->
  option_map layers_evaluations (nth_error (query_list p) i) = option_map layers_evaluations (nth_error (query_list p') i).
Proof.
  intros H Hi. rewrite <- (nth_error_cut (query_list p) q i Hi), <- (nth_error_cut (query_list p') q i Hi), <- !nth_error_map. now rewrite H.
Qed.

Lemma step_4_same a (p p' : stark_proof E) d c q : length (c_iotas E a c) = q -> same_where_checked q p p' -> step_4 E a p d c = step_4 E a p' d c.
Proof.
  intros Hq [Hh Hs Ho]. unfold step_4. cbv zeta.
  destruct (unwrap (primitive_root (root_order d))) as [root|e|]; cbn [obind]; try reflexivity. destruct (traverse _ (c_iotas E a c)) as [dens|e|]; cbn [obind]; try reflexivity.
  destruct (batch_inverse dens) as [dinv|e|]; cbn [obind]; try reflexivity.
  rewrite (combine_cut_r (c_iotas E a c) (deep_poly_openings p)), (combine_cut_r (c_iotas E a c) (deep_poly_openings p')), Hq.
  pose proof (Forall2_combine _ _ _ dinv (Forall2_combine_r _ _ _ (c_iotas E a c) (map_eq_Forall2 _ _ _ Ho))) as F.
  rewrite <- (Forall2_len _ _ _ F).
  set (l := combine (combine (c_iotas E a c) (firstn q (deep_poly_openings p))) dinv) in *. set (l' := combine (combine (c_iotas E a c) (firstn q (deep_poly_openings p'))) dinv) in *.
  assert (Hl : (length l <= q)%nat) by (unfold l; rewrite !combine_length; lia).
  assert (F' : Forall2 (fun x y : nat * (nat * deep_openings E * E) => (fst x < q)%nat /\ fst x = fst y /\ fst (fst (snd x)) = fst (fst (snd y)) /\ opened (snd (fst (snd x))) = opened (snd (fst (snd y))) /\ snd (snd x) = snd (snd y))
                 (combine (seq 0 (length l)) l) (combine (seq 0 (length l)) l')).
  { assert (G : forall s, (s + length l <= q)%nat -> Forall2 (fun x y : nat * (nat * deep_openings E * E) => (fst x < q)%nat /\ fst x = fst y /\ fst (fst (snd x)) = fst (fst (snd y)) /\ opened (snd (fst (snd x))) = opened (snd (fst (snd y))) /\ snd (snd x) = snd (snd y))
                 (combine (seq s (length l)) l) (combine (seq s (length l)) l')); [|apply G; lia].
    clear - F. clearbody l l'. induction F as [|x y l l' ((X1 & X2) & X3) F IH]; intros s Hs; cbn [length seq combine]; constructor.
    - cbn [fst snd length] in *. split; [lia|]. auto.
    - apply IH. cbn [length] in Hs. lia. }
  apply (ofold_ext2 _ _ _ _ _ F'). intros res [i [[iota o] di]] [i' [[iota' o'] di']] (X1 & X2 & X3 & X4 & X5). cbn [fst snd] in *. subst i' iota' di'.
  apply opening_same; [exact Hh|exact X4|]. apply (evals_at p p' q i); [|exact X1].
  apply (f_equal (map fst)) in Hs. rewrite !map_map in Hs. exact Hs.
Qed.

Theorem verify_same fuel (mk : nat -> air E) opts (p p' : stark_proof E) :
  same_where_checked (fri_number_of_queries (a_options (mk (trace_length p)))) p p' ->
  ((length (query_list p) <? fri_number_of_queries opts) = (length (query_list p') <? fri_number_of_queries opts))%nat ->
  verify E fuel mk opts p' = verify E fuel mk opts p.
Proof.
  intros Hs Hl. pose proof (sw_header _ _ _ Hs) as Hh. pose proof (proj1 (header_inv _ _ Hh)) as Ht. unfold verify. rewrite <- Ht, Hl.
  destruct (length (query_list p') <? fri_number_of_queries opts)%nat; [reflexivity|]. set (a := mk (trace_length p)) in *.
  destruct (domain_new a) as [d|e|]; cbn [obind]; try reflexivity. rewrite <- (step_1_header fuel a p p' d tr_new Hh).
  destruct (step_1 E fuel a p d tr_new) as [[c t]|e|] eqn:Ec; cbn [obind]; try reflexivity. destruct (c_leading_zeros E a c <? _)%N; [reflexivity|].
  pose proof (step_1_count _ _ _ _ _ _ _ Ec) as Hq.
  rewrite <- (step_2_header a p p' d c Hh), <- (step_3_same a p p' d c _ Hq Hs), <- (step_4_same a p p' d c _ Hq Hs). reflexivity.
Qed.

Lemma all_true {A} (g : A -> outcome bool) l : forall b, ofold (fun r x => obind (g x) (fun v => Ok (r && v))) l b = Ok true <-> b = true /\ Forall (fun x => g x = Ok true) l.
Proof.
  induction l as [|x l IH]; intro b; cbn [ofold].
  - split; [intro H; apply ok_inj in H; auto|intros [-> _]; reflexivity].
  - split.
    + intro H. ok_step H. ok_step Hv. apply ok_inj in Hv. subst v. apply IH in H. destruct H as [H F]. apply andb_true_iff in H. destruct H as [-> ->]. auto.
    + intros [-> F]. inversion F as [|? ? G F']; subst. rewrite G. cbn [obind andb]. apply IH. auto.
Qed.

Lemma step_3_part a (p p' : stark_proof E) d c q : length (c_iotas E a c) = q -> part_of q p p' -> step_3 E a p d c = Ok true -> step_3 E a p' d c = Ok true.
Proof.
  intros Hq [Hh Hs _] H. apply header_inv in Hh. destruct Hh as (H1 & H2 & H3 & H4 & H5 & H6 & H7 & H8 & H9 & H10). unfold step_3 in *.
  destruct (inv_o (e_u64 E 2)) as [ti|e|]; cbn [obind] in *; try discriminate H. destruct (traverse _ (c_iotas E a c)) as [pts|e|]; cbn [obind] in *; try discriminate H.
  destruct (batch_inverse pts) as [pinv|e|]; cbn [obind] in *; try discriminate H.
  rewrite (combine_cut (query_list p)), Hq in H. rewrite (combine_cut (query_list p')), Hq.
  set (g := fun (p : stark_proof E) (x : fri_decommitment E * nat * E) => verify_query E p (c_zetas E a c) (snd (fst x)) (fst (fst x)) d (snd x) ti).
  rewrite (ofold_ext _ (fun r x => obind (g p x) (fun v => Ok (r && v)))) in H by (intros [[u iota] xi] b _; reflexivity).
  rewrite (ofold_ext _ (fun r x => obind (g p' x) (fun v => Ok (r && v)))) by (intros [[u iota] xi] b _; reflexivity).
  apply all_true in H. apply all_true. split; [reflexivity|]. destruct H as [_ H].
  pose proof (Forall2_combine _ _ _ pinv (Forall2_combine _ _ _ (c_iotas E a c) Hs)) as F. revert H. clear Hs. induction F as [|[[u iota] xi] [[u' iota'] xi'] l l' (((Hu & n & Hn) & Ei) & Ex) F IH]; intro H; constructor.
  - cbn [fst snd] in *. subst iota' xi'. inversion H as [|? ? G _]; subst. exact (query_part p p' _ _ u u' d xi ti n H8 H9 Hu Hn G).
  - apply IH. now inversion H.
Qed.

Lemma seq_cut {A} (l : list A) n : forall s, combine (seq s (length (firstn n l))) (firstn n l) = firstn n (combine (seq s (length l)) l).
Proof. revert l. induction n as [|n IH]; intros [|x l] s; cbn [firstn length seq combine]; try reflexivity. now rewrite IH. Qed.

Lemma step_4_part a (p p' : stark_proof E) d c q : length (c_iotas E a c) = q -> part_of q p p' -> step_4 E a p d c = Ok true -> step_4 E a p' d c = Ok true.
Proof.
  intros Hq [Hh Hs (n & Ho)] H. unfold step_4 in *. cbv zeta in *.
  destruct (unwrap (primitive_root (root_order d))) as [root|e|]; cbn [obind] in *; try discriminate H. destruct (traverse _ (c_iotas E a c)) as [dens|e|]; cbn [obind] in *; try discriminate H.
  destruct (batch_inverse dens) as [dinv|e|]; cbn [obind] in *; try discriminate H.
  set (f := fun (p : stark_proof E) (result : bool) (x : nat * (nat * deep_openings E * E)) => let '(i, (iota, o, dinv)) := x in verify_opening E a p d c root i iota o dinv result).
  fold (f p) in H. fold (f p').
  set (l := combine (combine (c_iotas E a c) (deep_poly_openings p)) dinv) in *.
  assert (Hst : forall st x st', f p st x = Ok st' -> st' = true -> st = true).
  { intros st [i [[iota o] di]] st' Hf ->. unfold f, verify_opening in Hf. cbv zeta in Hf. do 9 (ok_step Hf). apply ok_inj in Hf.
    apply andb_true_iff in Hf. destruct Hf as [Hf _]. apply andb_true_iff in Hf. exact (proj1 Hf). }
  rewrite <- (firstn_skipn n (combine (seq 0 (length l)) l)) in H.
  destruct (ofold_begin (f p) (fun b => b = true) _ _ _ _ Hst H eq_refl) as (r1 & E1 & ->). rewrite <- E1, <- seq_cut.
  rewrite !firstn_map in Ho.
  assert (El : firstn n l = combine (combine (c_iotas E a c) (firstn n (deep_poly_openings p))) dinv).
  { unfold l. rewrite combine_firstn_r, combine_firstn_left. reflexivity. }
  rewrite El, (combine_cut_r (c_iotas E a c) (deep_poly_openings p')), Hq.
  pose proof (Forall2_combine _ _ _ dinv (Forall2_combine_r _ _ _ (c_iotas E a c) (map_eq_Forall2 _ _ _ Ho))) as F.
  rewrite <- (Forall2_len _ _ _ F).
  set (l1 := combine (combine (c_iotas E a c) (firstn q (deep_poly_openings p'))) dinv) in *. set (l2 := combine (combine (c_iotas E a c) (firstn n (deep_poly_openings p))) dinv) in *.
  assert (Hl : (length l1 <= q)%nat) by (unfold l1; rewrite !combine_length; lia).
  assert (F' : Forall2 (fun x y : nat * (nat * deep_openings E * E) => (fst x < q)%nat /\ fst x = fst y /\ fst (fst (snd x)) = fst (fst (snd y)) /\ opened (snd (fst (snd x))) = opened (snd (fst (snd y))) /\ snd (snd x) = snd (snd y))
                 (combine (seq 0 (length l1)) l1) (combine (seq 0 (length l1)) l2)).
  { assert (G : forall s, (s + length l1 <= q)%nat -> Forall2 (fun x y : nat * (nat * deep_openings E * E) => (fst x < q)%nat /\ fst x = fst y /\ fst (fst (snd x)) = fst (fst (snd y)) /\ opened (snd (fst (snd x))) = opened (snd (fst (snd y))) /\ snd (snd x) = snd (snd y))
                 (combine (seq s (length l1)) l1) (combine (seq s (length l1)) l2)); [|apply G; lia].
    clear - F. clearbody l1 l2. induction F as [|x y l l' ((X1 & X2) & X3) F IH]; intros s Hs; cbn [length seq combine]; constructor.
    - cbn [fst snd length] in *. split; [lia|]. auto.
    - apply IH. cbn [length] in Hs. lia. }
  refine (ofold_ext2 (f p') (f p) _ _ _ F' _ true). intros res [i [[iota o] di]] [i' [[iota' o'] di']] (X1 & X2 & X3 & X4 & X5). cbn [fst snd f] in *. subst i' iota' di'.
  apply opening_same; [symmetry; exact Hh|exact X4|]. symmetry. apply (evals_at p p' q i); [|exact X1].
  clear - Hs. induction Hs as [|u u' l l' (Hu & _) F IH]; cbn [map]; [reflexivity|]. now rewrite IH, Hu.
Qed.

Theorem verify_part fuel (mk : nat -> air E) opts (p p' : stark_proof E) :
  part_of (fri_number_of_queries (a_options (mk (trace_length p)))) p p' -> (fri_number_of_queries opts <= length (query_list p'))%nat ->
  verify E fuel mk opts p = Ok true -> verify E fuel mk opts p' = Ok true.
Proof.
  intros Hs Hl H. pose proof (po_header _ _ _ Hs) as Hh. pose proof (proj1 (header_inv _ _ Hh)) as Ht. unfold verify in *. rewrite <- Ht.
  apply Nat.ltb_ge in Hl. rewrite Hl. destruct (length (query_list p) <? fri_number_of_queries opts)%nat; [discriminate H|]. set (a := mk (trace_length p)) in *.
  destruct (domain_new a) as [d|e|]; cbn [obind] in *; try discriminate H. rewrite <- (step_1_header fuel a p p' d tr_new Hh).
  destruct (step_1 E fuel a p d tr_new) as [[c t]|e|] eqn:Ec; cbn [obind] in *; try discriminate H. destruct (c_leading_zeros E a c <? _)%N; [discriminate H|].
  pose proof (step_1_count _ _ _ _ _ _ _ Ec) as Hq. rewrite <- (step_2_header a p p' d c Hh).
  destruct (step_2 E a p d c) as [[|]|e|]; cbn [obind negb] in *; try discriminate H.
  destruct (step_3 E a p d c) as [[|]|e|] eqn:E3; cbn [obind negb] in *; try discriminate H. rewrite (step_3_part a p p' d c _ Hq Hs E3). cbn [obind negb].
  destruct (step_4 E a p d c) as [[|]|e|] eqn:E4; cbn [obind negb] in *; try discriminate H. rewrite (step_4_part a p p' d c _ Hq Hs E4). reflexivity.
Qed.
End Facts.
