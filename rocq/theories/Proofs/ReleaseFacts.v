(** The release profile of the verifier: where it agrees with the debug profile, and what it does elsewhere. *)
From Coq Require Import List Arith NArith ZArith Bool Lia.
From Verif.Base Require Import Outcome Bytes Field Poly.
From Verif.Model Require Import Codec PublicInputs Trace Merkle Air Transcript Domain Prover Verifier Options CairoDecode CairoTrace CairoAir CairoRunner Release.
From Verif.Spec Require Import Forgery ReleaseSpec.
From Verif.Proofs Require Import OutcomeFacts FieldFacts PolyFacts FFTFacts DomainFacts TraceFacts TranscriptFacts FriFacts VerifierFacts VerifierTotal StatementFacts.
Import ListNotations.
Local Open Scope felt_scope.

(** [y] does at least what [x] does. *)
Definition ole {A} (x y : outcome A) : Prop := forall v, x = Ok v -> y = Ok v.

Lemma ole_refl {A} (x : outcome A) : ole x x.
Proof. now intros v. Qed.

Lemma ole_bind {A B} (x y : outcome A) (f g : A -> outcome B) :
  ole x y -> (forall v, x = Ok v -> ole (f v) (g v)) -> ole (obind x f) (obind y g).
Proof. intros H Hf v Hv. destruct x as [a| |]; try discriminate. rewrite (H a eq_refl). cbn [obind] in *. now apply (Hf a). Qed.

Lemma ole_traverse {A B} (f g : A -> outcome B) l : (forall x, In x l -> ole (f x) (g x)) -> ole (traverse f l) (traverse g l).
Proof.
  induction l as [|x l IH]; intros H; [apply ole_refl|]. cbn [traverse].
  apply ole_bind; [apply H; now left|]. intros v _. apply ole_bind; [apply IH; intros y Hy; apply H; now right|]. intros w _. apply ole_refl.
Qed.

Lemma ole_fold {A B} (f g : B -> A -> outcome B) l : (forall b x, In x l -> ole (f b x) (g b x)) -> forall b, ole (ofold f l b) (ofold g l b).
Proof.
  induction l as [|x l IH]; intros H b; [apply ole_refl|]. cbn [ofold].
  apply ole_bind; [apply H; now left|]. intros v _. apply IH. intros b' y Hy. apply H. now right.
Qed.

Lemma usub_in_le m a b : ole (usub a b) (usub_in m a b).
Proof. intros v H. unfold usub in H. unfold usub_in. destruct (_ <? _)%nat; [discriminate|exact H]. Qed.

Lemma shift_in_le m a b : ole (usub a b) (shift_in m a b).
Proof. intros v H. unfold usub in H. unfold shift_in. destruct (_ <? _)%nat; [discriminate|exact H]. Qed.

Lemma usub_in_eq m a b : m = Debug \/ (b <= a)%nat -> usub_in m a b = usub a b.
Proof. intros [->|H]; unfold usub_in, usub; [reflexivity|]. destruct (Nat.ltb_spec a b); [lia|reflexivity]. Qed.

Lemma shift_in_eq m a b : m = Debug \/ (b <= a)%nat -> shift_in m a b = usub a b.
Proof. intros [->|H]; unfold shift_in, usub; [reflexivity|]. destruct (Nat.ltb_spec a b); [lia|reflexivity]. Qed.

Section Verifier.
Context {E : env} (m : build).

Lemma transition_ood_le (a : air E) evals z lr coeffs : ole (transition_ood E a evals z lr coeffs) (transition_ood_in m E a evals z lr coeffs).
Proof.
  unfold transition_ood, transition_ood_in. apply ole_bind; [apply ole_refl|]. intros den _. apply ole_bind; [apply ole_refl|]. intros polys _.
  apply ole_bind; [apply ole_refl|]. intros mx _. apply ole_bind.
  { apply ole_traverse. intros deg _. apply ole_bind; [apply usub_in_le|]. intros v _. apply ole_refl. }
  intros dadj _. apply ole_fold. intros acc [[[eval degree] except] [alpha beta]] _.
  apply ole_bind; [apply ole_refl|]. intros ex _. apply ole_bind; [apply usub_in_le|]. intros k _. apply ole_refl.
Qed.

Lemma step_2_le (a : air E) p d c : ole (step_2 E a p d c) (step_2_in m E a p d c).
Proof.
  unfold step_2, step_2_in. apply ole_bind; [apply ole_refl|]. intros bcs _. apply ole_bind; [apply usub_in_le|]. intros adj _.
  apply ole_bind; [apply ole_refl|]. intros bv _. apply ole_bind; [apply ole_refl|]. intros evals _. apply ole_bind; [apply ole_refl|]. intros lr _.
  apply ole_bind; [apply transition_ood_le|]. intros v _. apply ole_refl.
Qed.

Lemma query_step_le (p : stark_proof E) zetas iota q d two_inv st x :
  ole (vq_step E p zetas iota q d two_inv st x) (query_step_in m E p zetas iota q d two_inv st x).
Proof.
  destruct st as [v res], x as [[[[[[k root] ap] ev] aps] es] xi]. unfold vq_step, query_step_in.
  apply ole_bind; [apply shift_in_le|]. intros depth _. apply ole_bind; [apply ole_refl|]. intros beta _.
  apply ole_bind; [apply usub_in_le|]. intros l _. apply ole_refl.
Qed.

Lemma verify_query_le (p : stark_proof E) zetas iota q d xinv two_inv :
  ole (verify_query E p zetas iota q d xinv two_inv) (verify_query_in m E p zetas iota q d xinv two_inv).
Proof.
  rewrite verify_query_eq. unfold verify_query_in, vq_list. apply ole_bind; [apply ole_refl|]. intros v0 _. apply ole_bind; [|intros [v r] _; apply ole_refl].
  apply ole_fold. intros st x _. apply query_step_le.
Qed.

Lemma step_3_le (a : air E) p d c : ole (step_3 E a p d c) (step_3_in m E a p d c).
Proof.
  unfold step_3, step_3_in. apply ole_bind; [apply ole_refl|]. intros ti _. apply ole_bind; [apply ole_refl|]. intros pts _.
  apply ole_bind; [apply ole_refl|]. intros inv _. apply ole_fold. intros res [[q iota] xi] _.
  apply ole_bind; [apply verify_query_le|]. intros v _. apply ole_refl.
Qed.

Lemma step_4_le (a : air E) p d c : ole (step_4 E a p d c) (step_4_in m E a p d c).
Proof.
  unfold step_4, step_4_in. apply ole_bind; [apply ole_refl|]. intros ro _. apply ole_bind; [apply ole_refl|]. intros dens _.
  apply ole_bind; [apply ole_refl|]. intros di _. apply ole_fold. intros res [i [[iota o] dinv]] _.
  unfold verify_opening, verify_opening_in. apply ole_bind; [apply usub_in_le|]. intros nm _. apply ole_refl.
Qed.

(** Whatever the debug profile answers, the release profile answers. *)
Theorem verify_le fuel mk opts (p : stark_proof E) : ole (verify E fuel mk opts p) (verify_in m E fuel mk opts p).
Proof.
  unfold verify, verify_in. destruct (_ <? _)%nat; [apply ole_refl|]. apply ole_bind; [apply ole_refl|]. intros d _.
  apply ole_bind; [apply ole_refl|]. intros [c t] _. destruct (N.ltb _ _); [apply ole_refl|].
  apply ole_bind; [apply step_2_le|]. intros [] _; [|apply ole_refl]. cbn [negb].
  apply ole_bind; [apply step_3_le|]. intros [] _; [|apply ole_refl]. cbn [negb].
  apply ole_bind; [apply step_4_le|]. intros v _; apply ole_refl.
Qed.

Lemma bind_eq {A B} (x y : outcome A) (f g : A -> outcome B) : x = y -> (forall v, x = Ok v -> f v = g v) -> obind x f = obind y g.
Proof. intros <- H. destruct x; cbn [obind]; auto. Qed.

Lemma list_max_in l : l <> [] -> In (list_max l) l.
Proof.
  induction l as [|x l IH]; [easy|]. intros _. destruct l as [|y l].
  - cbn. left. apply eq_sym, Nat.max_0_r.
  - change (list_max (x :: y :: l)) with (Nat.max x (list_max (y :: l))). destruct (Nat.max_dec x (list_max (y :: l))) as [->| ->]; [now left|]. right. now apply IH.
Qed.

Lemma transition_ood_same (a : air E) evals z lr coeffs :
  m = Debug \/ (forall deg, In deg (transition_degrees (a_context a)) -> 1 <= deg /\ a_trace_length a * (deg - 1) <= a_degree_bound a)%nat ->
  transition_ood_in m E a evals z lr coeffs = transition_ood E a evals z lr coeffs.
Proof.
  intros H. unfold transition_ood, transition_ood_in. apply bind_eq; [reflexivity|]. intros den _. apply bind_eq; [reflexivity|]. intros polys _.
  apply bind_eq; [reflexivity|]. intros mx Hmx. apply bind_eq.
  { apply traverse_ext. intros deg Hdeg. apply bind_eq; [|reflexivity]. apply usub_in_eq. destruct H as [H|H]; [now left|right].
    unfold list_max_o in Hmx. destruct (transition_degrees (a_context a)) as [|x l] eqn:El; [discriminate|]. cbn [unwrap] in Hmx. apply ok_inj in Hmx.
    destruct (H mx) as [H1 H2]; [rewrite <- Hmx; now apply list_max_in|]. apply in_seq in Hdeg.
    transitivity (a_trace_length a * (mx - 1))%nat; [apply Nat.mul_le_mono_l; lia|exact H2]. }
  intros dadj _. apply ofold_ext. intros [[[eval degree] except] [alpha beta]] acc Hin.
  apply bind_eq; [reflexivity|]. intros ex _. apply bind_eq; [|reflexivity]. apply usub_in_eq. destruct H as [H|H]; [now left|right].
  apply H. apply in_combine_l, in_combine_l, in_combine_r in Hin. exact Hin.
Qed.

Lemma step_2_same (a : air E) (p : stark_proof E) d c o : m = Debug \/ no_underflow a p o -> step_2_in m E a p d c = step_2 E a p d c.
Proof.
  intros H. unfold step_2, step_2_in. apply bind_eq; [reflexivity|]. intros bcs _. apply bind_eq; [apply usub_in_eq; destruct H as [H|H]; [now left|right; apply H]|].
  intros adj _. apply bind_eq; [reflexivity|]. intros bv _. apply bind_eq; [reflexivity|]. intros evals _. apply bind_eq; [reflexivity|]. intros lr _.
  apply bind_eq; [apply transition_ood_same; destruct H as [H|H]; [now left|right; apply H]|]. reflexivity.
Qed.

Lemma verify_query_same (a : air E) (p : stark_proof E) zetas iota q (d : domain E) xinv two_inv : m = Debug \/ no_underflow a p (lde_root_order d) ->
  verify_query_in m E p zetas iota q d xinv two_inv = verify_query E p zetas iota q d xinv two_inv.
Proof.
  intros H. rewrite verify_query_eq. unfold verify_query_in, vq_list. apply bind_eq; [reflexivity|]. intros v0 Hv0. apply bind_eq; [|now intros [v r] _].
  apply ofold_ext. intros [[[[[[k root] ap] ev] aps] es] xi] [v res] Hin. unfold vq_step, query_step_in.
  do 6 apply in_combine_l in Hin. apply in_seq in Hin.
  apply bind_eq; [apply shift_in_eq; destruct H as [H|H]; [now left|right]; destruct H as (_ & _ & _ & H); lia|].
  intros depth _. apply bind_eq; [reflexivity|]. intros beta _. apply bind_eq; [|reflexivity]. apply usub_in_eq. right.
  apply idx_ok in Hv0. destruct (layers_evaluations q); [discriminate|cbn; lia].
Qed.

Lemma step_3_same (a : air E) (p : stark_proof E) d c : m = Debug \/ no_underflow a p (lde_root_order d) -> step_3_in m E a p d c = step_3 E a p d c.
Proof.
  intros H. unfold step_3, step_3_in. apply bind_eq; [reflexivity|]. intros ti _. apply bind_eq; [reflexivity|]. intros pts _. apply bind_eq; [reflexivity|]. intros inv _.
  apply ofold_ext. intros [[q iota] xi] res _. now rewrite (verify_query_same a).
Qed.

Lemma step_4_same (a : air E) (p : stark_proof E) d c o : m = Debug \/ no_underflow a p o -> step_4_in m E a p d c = step_4 E a p d c.
Proof.
  intros H. unfold step_4, step_4_in. apply bind_eq; [reflexivity|]. intros ro _. apply bind_eq; [reflexivity|]. intros dens _. apply bind_eq; [reflexivity|]. intros di _.
  apply ofold_ext. intros [i [[iota op] dinv]] res _. unfold verify_opening, verify_opening_in.
  apply bind_eq; [apply usub_in_eq; destruct H as [H|H]; [now left|right; apply H]|]. reflexivity.
Qed.

Theorem verify_same fuel mk opts (p : stark_proof E) :
  m = Debug \/ (forall d, domain_new (mk (trace_length p)) = Ok d -> no_underflow (mk (trace_length p)) p (lde_root_order d)) ->
  verify_in m E fuel mk opts p = verify E fuel mk opts p.
Proof.
  intros H. unfold verify, verify_in. destruct (_ <? _)%nat; [reflexivity|]. apply bind_eq; [reflexivity|]. intros d Hd.
  assert (G : m = Debug \/ no_underflow (mk (trace_length p)) p (lde_root_order d)) by (destruct H as [H|H]; [now left|right; auto]).
  apply bind_eq; [reflexivity|]. intros [c t] _. destruct (N.ltb _ _); [reflexivity|].
  rewrite (step_2_same _ _ _ _ _ G), (step_3_same _ _ _ _ G), (step_4_same _ _ _ _ _ G). reflexivity.
Qed.
End Verifier.

(** ** Other boundary steps with the same points *)
Section Steps.
Context {E : env}.

Definition same_points (g : E) (x y : outcome (list (boundary_constraint E))) : Prop :=
  match x, y with
  | Ok bcs, Ok bcs' => Forall2 (fun bc bc' => bc_col bc = bc_col bc' /\ bc_value bc = bc_value bc' /\ fpow g (bc_step bc) = fpow g (bc_step bc')) bcs bcs'
  | Err e, Err e' => e = e'
  | Panic, Panic => True
  | _, _ => False
  end.

Lemma boundary_ood_points bcs bcs' fr (g z : E) adj coeffs : same_points g (Ok bcs) (Ok bcs') ->
  boundary_ood E bcs' fr g z adj coeffs = boundary_ood E bcs fr g z adj coeffs.
Proof.
  cbn [same_points]. intros H. unfold boundary_ood. apply bind_eq.
  - induction H as [|bc bc' l l' (Hc & Hv & Hp) H IH]; [reflexivity|]. cbn [traverse]. rewrite Hc, Hv. apply bind_eq; [reflexivity|]. intros v _.
    apply bind_eq; [exact IH|]. reflexivity.
  - intros nums _. apply bind_eq; [|reflexivity]. f_equal. induction H as [|bc bc' l l' (Hc & Hv & Hp) H IH]; [reflexivity|]. cbn [map]. now rewrite Hp, IH.
Qed.

Theorem verify_points m fuel mk mk' opts (p : stark_proof E) bd :
  let a := mk (trace_length p) in
  mk' (trace_length p) = with_constraints a (a_transition a) bd ->
  (forall d rap, domain_new a = Ok d -> same_points (trace_primitive_root d) (a_boundary a rap) (bd rap)) ->
  verify_in m E fuel mk' opts p = verify_in m E fuel mk opts p.
Proof.
  intros a Hmk Hpt. unfold verify_in. rewrite Hmk. fold a. destruct (_ <? _)%nat; [reflexivity|].
  change (domain_new (with_constraints a (a_transition a) bd)) with (domain_new a). apply bind_eq; [reflexivity|]. intros d Hd. specialize (fun rap => Hpt d rap Hd).
  rewrite (step_1_move fuel a (a_transition a) bd p d tr_new).
  2:{ intro rap. specialize (Hpt rap). unfold same_points in Hpt. destruct (a_boundary a rap), (bd rap); try exact Hpt. exact (Forall2_len _ _ _ Hpt). }
  destruct (step_1 E fuel a p d tr_new) as [[c t]|e|]; [|reflexivity|reflexivity]. cbn [obind fst snd].
  change (c_leading_zeros E (with_constraints a (a_transition a) bd) (move (a_transition a) bd c)) with (c_leading_zeros E a c).
  change (a_options (with_constraints a (a_transition a) bd)) with (a_options a).
  destruct (N.ltb _ _); [reflexivity|].
  change (step_3_in m E (with_constraints a (a_transition a) bd) p d (move (a_transition a) bd c)) with (step_3_in m E a p d c).
  change (step_4_in m E (with_constraints a (a_transition a) bd) p d (move (a_transition a) bd c)) with (step_4_in m E a p d c).
  apply bind_eq; [|reflexivity].
  unfold step_2_in. cbn [with_constraints a_boundary a_transition a_degree_bound a_trace_length move c_rap c_z c_boundary_coeffs c_transition_coeffs].
  specialize (Hpt (c_rap E a c)).
  destruct (a_boundary a (c_rap E a c)) as [bcs|e|], (bd (c_rap E a c)) as [bcs'|e'|]; cbn [same_points] in Hpt; try contradiction; [|subst; reflexivity|reflexivity].
  cbn [obind]. apply bind_eq; [reflexivity|]. intros adj _. rewrite (boundary_ood_points bcs bcs' _ _ _ _ _ Hpt). reflexivity.
Qed.
End Steps.

Section Cairo.
Context {C : cairo_env}.

Lemma cairo_air_in_debug (pi : public_inputs C) opts n : cairo_air_in Debug pi opts n = cairo_air pi opts n.
Proof. reflexivity. Qed.

Lemma cairo_air_in_same m (pi : public_inputs C) opts n : (1 <= num_steps pi)%nat -> (1 <= n)%nat -> cairo_air_in m pi opts n = cairo_air pi opts n.
Proof.
  intros Hs Hn. unfold cairo_air_in, cairo_air. f_equal. unfold cairo_boundary_in, cairo_boundary.
  rewrite (usub_in_eq m (num_steps pi) 1), (usub_in_eq m n 1) by (right; assumption). reflexivity.
Qed.

End Cairo.

(** ** The release profile answers on proofs with any number of layers *)
Section Total.
Context {E : env} (HE : env_ok E) (HS : sampling_ok E).
Let HF := e_fft_ok E HE.
Let HK := fft_field_ok E HF.
Add Field Kfield62 : (fld_th E HK).

Lemma step_3_release (a : air E) d (p : stark_proof E) (c : challenges E a) r b rows width root h g W :
  statement_ok E a r b rows width root -> domain_shape d r b h g W -> h = e_u64 E (coset_offset (a_options a)) ->
  length (c_zetas E a c) = length (fri_layers_merkle_roots p) ->
  (forall i, In i (c_iotas E a c) -> (i < 2 ^ (r + b))%nat) ->
  (forall q, In q (query_list p) -> layers_evaluations q <> []) ->
  exists v, step_3_in Release E a p d c = Ok v.
Proof using HE HF HK HS.
  intros HA D Hh Hzl Hio Hq. unfold step_3_in. rewrite (e_two E HE).
  assert (H2 : inv_o (1 + 1 : E) = Ok (finv (1 + 1))) by (apply (inv_o_ok HK); split; [exact (two_neq E HE)|reflexivity]).
  rewrite H2. cbn [obind].
  destruct (traverse_total (idx (lde_roots_of_unity_coset d)) (c_iotas E a c)) as [pts Hp].
  { intros i Hi. rewrite (lde_nth HE HS HA D Hh) by now apply Hio. eauto. }
  rewrite Hp. cbn [obind]. rewrite (batch_inverse_ok HK).
  2:{ intros x Hx. apply In_nth_error in Hx. destruct Hx as [j Hj].
      pose proof (traverse_length _ _ _ Hp) as Hl. assert (Hjl : (j < length (c_iotas E a c))%nat) by (rewrite <- Hl; apply nth_error_Some; now rewrite Hj).
      pose proof (traverse_nth _ _ _ j 0%nat 0 Hp Hjl) as Hn. apply nth_error_nth with (d := 0) in Hj. rewrite Hj in Hn.
      rewrite (lde_nth HE HS HA D Hh) in Hn by (apply Hio, nth_In; exact Hjl). apply ok_inj in Hn. rewrite <- Hn.
      apply (mul_nonzero HK); [apply (fpow_nonzero HK), (shape_W_nonzero HE D)|exact (total_h HE HS HA D Hh)]. }
  cbn [obind]. apply ofold_total. intros acc [[q iota] xinv] Hin.
  apply in_combine_l, in_combine_l in Hin. specialize (Hq q Hin).
  assert (Hv : exists v, verify_query_in Release E p (c_zetas E a c) iota q d xinv (finv (1 + 1)) = Ok v).
  { unfold verify_query_in. destruct (layers_evaluations q) as [|v0 evs] eqn:Eev; [congruence|]. rewrite <- Eev in *.
    assert (Hlen : (1 <= length (layers_evaluations q))%nat) by (rewrite Eev; cbn; lia).
    rewrite (idx_nth _ _ 0) by lia. cbn [obind].
    match goal with |- context [ofold ?f ?l ?x] => destruct (ofold_total f l) with (b := x) as [st Hst] end.
    - intros [v res] [[[[[[k kroot] ap] ev] aps] es] xi] Hk. repeat apply in_combine_l in Hk. apply in_seq in Hk.
      unfold query_step_in. assert (Hs : exists dp, shift_in Release (lde_root_order d) k = Ok dp) by (unfold shift_in; destruct (_ <? _)%nat; eauto).
      destruct Hs as [dp ->]. cbn [obind].
      rewrite (idx_nth _ _ 0) by lia. cbn [obind]. rewrite usub_in_eq, usub_total by (try right; lia). cbn [obind].
      destruct (Nat.ltb_spec k (length (layers_evaluations q) - 1)); [|cbn; eauto].
      rewrite (idx_nth _ _ 0) by lia. cbn. eauto.
    - rewrite Hst. cbn [obind]. destruct st. eauto. }
  destruct Hv as [v ->]. cbn. eauto.
Qed.

Theorem verify_release_total fuel mk (p : stark_proof E) r b rows width root :
  let a := mk (trace_length p) in
  statement_ok E a r b rows width root -> z_found E fuel a -> hd_error (lde_trace_merkle_roots p) = Some root ->
  fr_row_width (trace_ood_frame_evaluations p) = width -> length (fr_data (trace_ood_frame_evaluations p)) = (rows * width)%nat ->
  (forall q, In q (query_list p) -> layers_evaluations q <> []) ->
  (forall o, In o (deep_poly_openings p) -> (trace_columns (a_context a) <= length (lde_trace_evaluations o))%nat) ->
  exists v, verify_in Release E fuel mk (a_options a) p = Ok v.
Proof using HE HF HK HS.
  intros a HA Hzf Hroot Hw Hl Hev Hop. unfold verify_in. fold a.
  destruct (Nat.ltb_spec (length (query_list p)) (fri_number_of_queries (a_options a))) as [Hq|Hq]; [eauto|].
  destruct (domain_new_ok a r b (st_n _ _ _ _ _ _ _ HA) (st_blowup _ _ _ _ _ _ _ HA) (st_r _ _ _ _ _ _ _ HA) (st_two_adicity _ _ _ _ _ _ _ HA)) as [d Hd].
  destruct (domain_new_shape HE a d r b Hd (st_n _ _ _ _ _ _ _ HA) (st_blowup _ _ _ _ _ _ _ HA) (st_r _ _ _ _ _ _ _ HA)) as (g & W & D).
  rewrite Hd. cbn [obind]. destruct (step_1_total HE HS HA D eq_refl fuel p Hd Hzf Hroot Hw Hl) as (c & t & Hc). rewrite Hc. cbn [obind].
  pose proof (step_1_columns fuel p tr_new c t Hc) as Hcols. destruct (step_1_rap fuel p tr_new c t Hroot Hc) as (t1 & Hrap).
  destruct (step_1_facts HE _ _ _ _ _ _ _ Hc) as (Hzl & _ & (Hiol & Hiob) & Hz1 & Hz2). rewrite (ds_lde_order _ _ _ _ _ _ D) in Hiob.
  destruct (N.ltb _ _); [eauto|].
  destruct (step_2_total HE HS HA D eq_refl p c Hw Hl Hz2 t1 Hrap) as [v2 H2]. rewrite (step_2_le Release _ _ _ _ _ H2). cbn [obind].
  destruct (negb v2); [eauto|].
  destruct (step_3_release a d p c r b rows width root _ g W HA D eq_refl Hzl Hiob Hev) as [v3 ->]. cbn [obind].
  destruct (negb v3); [eauto|].
  destruct (step_4_total HE HS HA D eq_refl p c Hw Hl Hiob Hz1 Hop) as [v4 H4]; [rewrite Hiol; exact Hq|exact Hev|exact Hcols|].
  rewrite (step_4_le Release _ _ _ _ _ H4). cbn. eauto.
Qed.
End Total.

(** ** The number of steps *)
Section StepCount.
Context {C : cairo_env} (HE : env_ok C).
Let HF := e_fft_ok C HE.
Let HK := fft_field_ok C HF.

Lemma last_step_ok m s r : m = Release \/ (1 <= s)%nat -> (r <= 64)%nat -> exists k, usub_in m s 1 = Ok k /\ (S k mod 2 ^ r = s mod 2 ^ r)%nat.
Proof using Type.
  intros H Hr. unfold usub_in. destruct (Nat.ltb_spec s 1) as [L|L].
  - assert (s = 0)%nat by lia. subst s. destruct H as [->|H]; [|lia]. eexists. split; [reflexivity|].
    assert (E1 : S (N.to_nat (2 ^ 64 + N.of_nat 0 - N.of_nat 1)) = (2 ^ 64)%nat).
    { rewrite <- N2Nat.inj_succ. replace (N.succ (2 ^ 64 + N.of_nat 0 - N.of_nat 1)) with (2 ^ 64)%N by reflexivity. rewrite N2Nat.inj_pow. reflexivity. }
    rewrite E1. replace 64%nat with (r + (64 - r))%nat by lia. rewrite Nat.pow_add_r, Nat.mul_comm, Nat.mod_mul by (pose proof (pow2_pos r); lia).
    symmetry. apply Nat.mod_0_l. pose proof (pow2_pos r); lia.
  - exists (s - 1)%nat. split; [reflexivity|]. now replace (S (s - 1)) with s by lia.
Qed.

Lemma pred_mod A k k' : (1 <= A)%nat -> (S k mod A = S k' mod A)%nat -> (k mod A = k' mod A)%nat.
Proof using Type.
  intros HA H. assert (G : forall k, (k mod A = (S k mod A + (A - 1)) mod A)%nat).
  { intro x. rewrite Nat.add_mod_idemp_l by lia. replace (S x + (A - 1))%nat with (x + 1 * A)%nat by lia. now rewrite Nat.mod_add by lia. }
  now rewrite (G k), (G k'), H.
Qed.

Theorem steps_modulo m fuel (q : stark_proof C) (pi : public_inputs C) opts r s s' : trace_length q = (2 ^ r)%nat -> (1 <= r <= 64)%nat ->
  m = Release \/ (1 <= s /\ 1 <= s')%nat -> (s mod 2 ^ r = s' mod 2 ^ r)%nat ->
  verify_cairo_proof_in m fuel q (with_steps s pi) opts = verify_cairo_proof_in m fuel q (with_steps s' pi) opts.
Proof using HE HF HK.
  intros Hq Hr Hm Hs. unfold verify_cairo_proof_in.
  destruct (last_step_ok m s r) as (k & Hk & Ek); [tauto|lia|]. destruct (last_step_ok m s' r) as (k' & Hk' & Ek'); [tauto|lia|].
  apply (verify_points m fuel (cairo_air_in m (with_steps s' pi) opts) (cairo_air_in m (with_steps s pi) opts) opts q
           (cairo_boundary_in m (with_steps s pi) (trace_length q))).
  - reflexivity.
  - intros d rap Hd. unfold domain_new in Hd. ok_as Hd g Hg. apply unwrap_ok in Hg. ok_as Hd l1 H1. ok_as Hd l2 H2. apply ok_inj in Hd. subst d. cbn [trace_primitive_root].
    cbn [cairo_air_in a_trace_length] in Hg. rewrite Hq, tz_pos_pow2 in Hg. destruct (primitive_root_prim HF r g (proj1 Hr) Hg) as [Hp _].
    change (a_boundary (cairo_air_in m (with_steps s' pi) opts (trace_length q)) rap) with (cairo_boundary_in m (with_steps s' pi) (trace_length q) rap).
    pose proof (pow2_pos r). unfold cairo_boundary_in. cbn [with_steps num_steps pc_init ap_init fp_init pc_final ap_final range_check_min range_check_max memory_segments public_memory].
    rewrite Hk, Hk'. cbn [obind]. rewrite Hq. destruct (usub_in m (2 ^ r) 1) as [fi|e|]; [|reflexivity|exact I]. cbn [obind].
    destruct (inv_o _) as [cp|e|]; [|reflexivity|exact I]. cbn [obind]. destruct (unwrap (range_check_min pi)) as [lo|e|]; [|reflexivity|exact I]. cbn [obind].
    destruct (unwrap (range_check_max pi)) as [hi|e|]; [|reflexivity|exact I]. cbn [obind same_points].
    assert (Hpow : fpow g k' = fpow g k).
    { rewrite <- (prim_pow_mod HK g (2 ^ r) k (pow2_pos r) Hp), <- (prim_pow_mod HK g (2 ^ r) k' (pow2_pos r) Hp).
      f_equal. apply pred_mod; [lia|]. now rewrite Ek, Ek', Hs. }
    repeat constructor; cbn [bc_col bc_value bc_step]; auto.
Qed.
End StepCount.
