(** Parts of a proof the verifier ignores, and statements it does not tell apart. *)
From Coq Require Import List Arith NArith Bool Lia.
From Verif.Base Require Import Outcome Bytes Field Poly.
From Verif.Model Require Import Codec Trace Merkle Air Transcript Domain Prover Verifier.
From Verif.Spec Require Import AirSpec VerifierSpec Forgery.
From Verif.Proofs Require Import OutcomeFacts FieldFacts PolyFacts DomainFacts TraceFacts TranscriptFacts FriFacts VerifierFacts VerifierTotal.
Import ListNotations.
Local Open Scope felt_scope.

Lemma ofold_ext2 {A B C} (f : C -> A -> outcome C) (f' : C -> B -> outcome C) (R : A -> B -> Prop) l l' :
  Forall2 R l l' -> (forall c x y, R x y -> f c x = f' c y) -> forall c, ofold f l c = ofold f' l' c.
Proof.
  intros HF Hf. induction HF as [|x y l l' Hxy HF IH]; intro c; cbn [ofold]; [reflexivity|].
  rewrite (Hf c x y Hxy). destruct (f' c y); cbn [obind]; auto.
Qed.

Lemma Forall2_combine {A A' B} (R : A -> A' -> Prop) l l' (m : list B) :
  Forall2 R l l' -> Forall2 (fun x y => R (fst x) (fst y) /\ snd x = snd y) (combine l m) (combine l' m).
Proof. intros H. revert m. induction H; intros [|b m]; cbn; constructor; auto. Qed.

Lemma Forall2_combine_r {A A' B} (R : A -> A' -> Prop) l l' (m : list B) :
  Forall2 R l l' -> Forall2 (fun x y => R (snd x) (snd y) /\ fst x = fst y) (combine m l) (combine m l').
Proof. intros H. revert m. induction H; intros [|b m]; cbn; constructor; auto. Qed.

Lemma Forall2_len {A B} (R : A -> B -> Prop) l l' : Forall2 R l l' -> length l = length l'.
Proof. induction 1; cbn; congruence. Qed.

Section Paths.
Context {E : env}.
Definition paths_differ (o o' : deep_openings E) : Prop := exists paths, o' = with_trace_paths paths o.

Lemma step_4_paths (a : air E) (p : stark_proof E) d c os :
  Forall2 paths_differ (deep_poly_openings p) os -> step_4 E a (with_openings os p) d c = step_4 E a p d c.
Proof.
  intros HF. unfold step_4. cbn [deep_poly_openings with_openings].
  destruct (unwrap _) as [root|e|]; [|reflexivity|reflexivity]. cbn [obind].
  destruct (traverse _ _) as [dens|e|]; [|reflexivity|reflexivity]. cbn [obind].
  destruct (batch_inverse _) as [dinv|e|]; [|reflexivity|reflexivity]. cbn [obind].
  pose proof (Forall2_combine_r _ _ _ (c_iotas E a c) HF) as H1.
  pose proof (Forall2_combine _ _ _ dinv H1) as H2. rewrite (Forall2_len _ _ _ H2).
  pose proof (Forall2_combine_r _ _ _ (seq 0 (length (combine (combine (c_iotas E a c) os) dinv))) H2) as H3.
  symmetry. apply (ofold_ext2 _ _ _ _ _ H3).
  intros result [i [[iota o] di]] [i' [[iota' o'] di']] [[[[paths Ho] Hi] Hd] Hii]. cbn [fst snd] in *. subst o' iota' di' i'.
  unfold verify_opening. cbn [with_trace_paths lde_composition_poly_even_evaluation lde_composition_poly_odd_evaluation lde_composition_poly_proof lde_trace_evaluations lde_trace_merkle_proofs].
  reflexivity.
Qed.

Theorem verify_paths fuel mk opts (p : stark_proof E) os :
  Forall2 paths_differ (deep_poly_openings p) os -> verify E fuel mk opts (with_openings os p) = verify E fuel mk opts p.
Proof.
  intros HF. unfold verify. cbn [query_list trace_length with_openings].
  destruct (_ <? _)%nat; [reflexivity|]. destruct (domain_new _) as [d|e|]; [|reflexivity|reflexivity]. cbn [obind].
  assert (H1 : step_1 E fuel (mk (trace_length p)) (with_openings os p) d tr_new = step_1 E fuel (mk (trace_length p)) p d tr_new) by reflexivity.
  rewrite H1. destruct (step_1 _ _ _ _ _ _) as [[c t]|e|]; [|reflexivity|reflexivity]. cbn [obind].
  destruct (N.ltb _ _); [reflexivity|].
  assert (H2 : step_2 E (mk (trace_length p)) (with_openings os p) d c = step_2 E (mk (trace_length p)) p d c) by reflexivity.
  assert (H3 : step_3 E (mk (trace_length p)) (with_openings os p) d c = step_3 E (mk (trace_length p)) p d c) by reflexivity.
  rewrite H2, H3. destruct (step_2 _ _ _ _ _) as [[]|e|]; try reflexivity. cbn [obind negb].
  destruct (step_3 _ _ _ _ _) as [[]|e|]; try reflexivity. cbn [obind negb]. now rewrite step_4_paths.
Qed.
End Paths.

Section Statements.
Context {E : env}.

Definition move {a : air E} tr bd (c : challenges E a) : challenges E (with_constraints a tr bd) :=
  mk_challenges E (with_constraints a tr bd) (c_z E a c) (c_boundary_coeffs E a c) (c_transition_coeffs E a c) (c_trace_term_coeffs E a c)
    (c_gamma_even E a c) (c_gamma_odd E a c) (c_zetas E a c) (c_iotas E a c) (c_rap E a c) (c_leading_zeros E a c).

Lemma step_1_move fuel (a : air E) tr bd (p : stark_proof E) d t :
  (forall rap, match a_boundary a rap, bd rap with
               | Ok bcs, Ok bcs' => length bcs = length bcs' | Err e, Err e' => e = e' | Panic, Panic => True | _, _ => False end) ->
  step_1 E fuel (with_constraints a tr bd) p d t =
  obind (step_1 E fuel a p d t) (fun x => Ok (move tr bd (fst x), snd x)).
Proof.
  intros Hbd. unfold step_1, a_options. cbn [with_constraints a_build_rap a_boundary a_context].
  destruct (idx _ 0) as [root0|e|]; [|reflexivity|reflexivity]. cbn [obind].
  destruct (a_build_rap a _) as [[rap t1]|e|]; [|reflexivity|reflexivity]. cbn [obind].
  specialize (Hbd rap). destruct (a_boundary a rap) as [bcs|e|], (bd rap) as [bcs'|e'|]; try contradiction; [|subst; reflexivity|reflexivity].
  cbn [obind]. rewrite Hbd.
  repeat (match goal with
          | |- obind ?x _ = _ => destruct x as [[? ?]|?|] || destruct x as [?|?|]; cbn [obind]; try reflexivity
          | |- context [let '(_, _) := tr_challenge ?x in _] => destruct (tr_challenge x)
          end).
Qed.

Context (HE : env_ok E).
Let HF := e_fft_ok E HE.
Let HK := fft_field_ok E HF.
Add Field Kfield24 : (fld_th E HK).

Lemma boundary_ood_shift bcs bcs' fr (g z : E) adj coeffs v : same_cells bcs bcs' ->
  boundary_ood E bcs fr g z adj coeffs = Ok v ->
  boundary_ood E bcs' fr g z adj coeffs = Ok (v + boundary_shift g z adj bcs bcs' coeffs).
Proof using HE HF HK.
  intros [Hc Hs] H. unfold boundary_ood in *. ok_as H nums Hn. ok_as H dens Hd. apply ok_inj in H. apply (batch_inverse_inv HK) in Hd. destruct Hd as [-> Hnz].
  assert (Hdens : map (fun bc => z - fpow g (bc_step bc)) bcs' = map (fun bc => z - fpow g (bc_step bc)) bcs).
  { rewrite <- (map_map bc_step (fun s => z - fpow g s) bcs'), <- Hs, map_map. reflexivity. }
  assert (Hnums : traverse (fun bc => obind (fr_get_row fr 0) (fun row => obind (idx row (bc_col bc)) (fun v => Ok (v - bc_value bc)))) bcs' =
     Ok (map (fun x : E * (boundary_constraint E * boundary_constraint E) => fst x + (bc_value (fst (snd x)) - bc_value (snd (snd x)))) (combine nums (combine bcs bcs')))).
  { clear H Hs Hdens Hnz. revert nums Hn bcs' Hc. induction bcs as [|bc bcs IH]; intros nums Hn bcs' Hc.
    - destruct bcs'; [|discriminate]. cbn [traverse] in *. apply ok_inj in Hn. subst. reflexivity.
    - destruct bcs' as [|bc' bcs']; [discriminate|]. cbn [map] in Hc. injection Hc as Hc0 Hc. cbn [traverse] in Hn |- *.
      ok_as Hn y Hy. ok_as Hn ys Hys. apply ok_inj in Hn. subst nums. ok_as Hy row Hrow. ok_as Hy u Hu. apply ok_inj in Hy. subst y.
      rewrite (IH ys Hys bcs' Hc), Hrow. cbn [obind]. rewrite <- Hc0, Hu. cbn [obind]. f_equal. cbn [combine map fst snd]. f_equal. ring. }
  rewrite Hnums. cbn [obind]. rewrite Hdens, (batch_inverse_ok HK) by exact Hnz. cbn [obind]. f_equal. rewrite <- H.
  apply traverse_length in Hn.
  assert (Hlen : length bcs' = length bcs) by (rewrite <- (map_length bc_col bcs'), <- Hc; apply map_length).
  clear H Hnums Hdens Hnz Hc Hs. revert nums bcs' coeffs Hn Hlen. unfold boundary_shift.
  assert (G : forall bcs nums bcs' (coeffs : list (E * E)) acc acc', length nums = length bcs -> length bcs' = length bcs ->
     fold_left (fun acc (x : E * E * (E * E)) => let '(num, den, (alpha, beta)) := x in acc + num * den * (alpha * fpow z adj + beta))
       (combine (combine (map (fun x : E * (boundary_constraint E * boundary_constraint E) => fst x + (bc_value (fst (snd x)) - bc_value (snd (snd x)))) (combine nums (combine bcs bcs')))
          (map finv (map (fun bc => z - fpow g (bc_step bc)) bcs))) coeffs) acc' =
     fold_left (fun acc (x : E * E * (E * E)) => let '(num, den, (alpha, beta)) := x in acc + num * den * (alpha * fpow z adj + beta))
       (combine (combine nums (map finv (map (fun bc => z - fpow g (bc_step bc)) bcs))) coeffs) acc + (acc' - acc) +
     fsum (map (fun x : boundary_constraint E * boundary_constraint E * (E * E) => let '(bc, bc', (alpha, beta)) := x in
       (bc_value bc - bc_value bc') * finv (z - fpow g (bc_step bc)) * (alpha * fpow z adj + beta)) (combine (combine bcs bcs') coeffs))).
  { induction bcs0 as [|bc bcs0 IH]; intros nums bcs' coeffs acc acc' Hn Hl.
    - destruct bcs'; [|discriminate]. destruct nums; [|discriminate]. cbn. ring.
    - destruct bcs' as [|bc' bcs']; [discriminate|]. destruct nums as [|num nums]; [discriminate|].
      destruct coeffs as [|[al be] coeffs]; [cbn; ring|].
      cbn [combine map fold_left fst snd]. rewrite (IH nums bcs' coeffs (acc + num * finv (z - fpow g (bc_step bc)) * (al * fpow z adj + be))) by (cbn in *; lia).
      rewrite fsum_cons. ring. }
  intros nums bcs' coeffs Hn Hl. rewrite (G bcs nums bcs' coeffs 0 0 Hn Hl). ring.
Qed.

(** The verdict for the other statement. *)
Theorem switch fuel mk mk' opts (p : stark_proof E) tr bd d c t :
  let a := mk (trace_length p) in
  mk' (trace_length p) = with_constraints a tr bd ->
  domain_new a = Ok d -> step_1 E fuel a p d tr_new = Ok (c, t) ->
  (forall fr, tr fr (c_rap E a c) = a_transition a fr (c_rap E a c)) ->
  (forall rap, match a_boundary a rap, bd rap with
               | Ok bcs, Ok bcs' => length bcs = length bcs' | Err e, Err e' => e = e' | Panic, Panic => True | _, _ => False end) ->
  (forall bcs, a_boundary a (c_rap E a c) = Ok bcs -> exists bcs', bd (c_rap E a c) = Ok bcs' /\ same_cells bcs bcs' /\
      boundary_shift (trace_primitive_root d) (c_z E a c) (a_degree_bound a - a_trace_length a) bcs bcs' (c_boundary_coeffs E a c) = 0) ->
  verify E fuel mk opts p = Ok true -> verify E fuel mk' opts p = Ok true.
Proof using HE HF HK.
  intros a Hmk Hd Hc Htr Hlen Hsh H. unfold verify in *. rewrite Hmk. fold a in H. destruct (_ <? _)%nat; [exact H|].
  change (domain_new (with_constraints a tr bd)) with (domain_new a). rewrite Hd in *. cbn [obind] in *.
  rewrite (step_1_move fuel a tr bd p d tr_new Hlen), Hc in *. cbn [obind fst snd] in *.
  change (c_leading_zeros E (with_constraints a tr bd) (move tr bd c)) with (c_leading_zeros E a c).
  change (a_options (with_constraints a tr bd)) with (a_options a).
  destruct (N.ltb _ _); [exact H|].
  change (step_3 E (with_constraints a tr bd) p d (move tr bd c)) with (step_3 E a p d c).
  change (step_4 E (with_constraints a tr bd) p d (move tr bd c)) with (step_4 E a p d c).
  ok_as H b2 H2. destruct b2; [|cbn [negb] in H; discriminate].
  match goal with |- obind ?x _ = _ => enough (H2' : x = Ok true) by (rewrite H2'; exact H) end.
  clear H. unfold step_2 in *. cbn [with_constraints a_boundary a_transition a_degree_bound a_trace_length move c_rap c_z c_boundary_coeffs c_transition_coeffs].
  ok_as H2 bcs Hb. destruct (Hsh bcs Hb) as (bcs' & Hb' & Hcells & H0). rewrite Hb'. cbn [obind].
  ok_as H2 adj Hadj. rewrite Hadj. cbn [obind]. apply usub_inv in Hadj. destruct Hadj as [_ Eadj].
  ok_as H2 bv Hbv. apply (boundary_ood_shift bcs bcs' _ _ _ _ _ _ Hcells) in Hbv. rewrite Hbv. cbn [obind].
  ok_as H2 evals Hev. rewrite Htr, Hev. cbn [obind]. ok_as H2 lr Hlr. rewrite Hlr. cbn [obind].
  ok_as H2 tv Htv. change (transition_ood E (with_constraints a tr bd)) with (transition_ood E a). rewrite Htv. cbn [obind].
  rewrite <- H2. f_equal. f_equal. rewrite Eadj, H0. ring.
Qed.
End Statements.
