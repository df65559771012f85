(** The builds of the crate compute the same. *)
From Coq Require Import List Arith Lia Bool NArith.
From Verif.Base Require Import Outcome Bytes Field Poly.
From Verif.Model Require Import Codec Trace Merkle Air Transcript Domain Fri Evaluator Prover Verifier Debug Features.
From Verif.Spec Require Import AirSpec FeatureSpec.
From Verif.Proofs Require Import OutcomeFacts FieldFacts PolyFacts FFTFacts TraceFacts DomainFacts DebugFacts ComposeFacts Completeness.
Import ListNotations.

(** ** Repeating a list *)
Lemma concat_repeat_nth {A} (l : list A) m i : l <> [] -> (i < m * length l)%nat ->
  nth_error (concat (repeat l m)) i = nth_error l (i mod length l).
Proof.
  intros Hl. assert (L0 : length l <> 0%nat) by (destruct l; [congruence|discriminate]).
  revert i. induction m as [|m IH]; intros i Hi; [lia|]. cbn [repeat concat].
  destruct (Nat.lt_ge_cases i (length l)) as [H|H].
  - now rewrite nth_error_app1, Nat.mod_small by exact H.
  - rewrite nth_error_app2 by exact H. rewrite IH by (cbn in Hi; lia).
    f_equal. rewrite <- (Nat.mod_add (i - length l) 1 (length l)) by exact L0. f_equal. lia.
Qed.

Lemma nth_error_firstn_lt {A} (l : list A) n i : (i < n)%nat -> nth_error (firstn n l) i = nth_error l i.
Proof. revert n i; induction l as [|x l IH]; intros [|n] [|i] H; cbn; try lia; try reflexivity. apply IH. lia. Qed.

Lemma cycle_nth {A} (l : list A) n i : l <> [] -> (i < n)%nat -> nth_error (cycle l n) i = nth_error l (i mod length l).
Proof.
  intros Hl Hi. unfold cycle. rewrite nth_error_firstn_lt by exact Hi. apply concat_repeat_nth; [exact Hl|].
  destruct l; [congruence|]. cbn [length]. nia.
Qed.

Lemma cycle_length {A} (l : list A) n : l <> [] -> length (cycle l n) = n.
Proof.
  intro Hl. unfold cycle. rewrite firstn_length. apply Nat.min_l. destruct l as [|x l]; [congruence|].
  induction n as [|n IH]; [lia|]. cbn [repeat concat]. rewrite app_length. cbn [length]. lia.
Qed.

(** Zipping rows with an iterator and looking the row up in a list do the same when the iterator yields that list. *)
Lemma traverse_zip {A B V} (f : A -> V -> outcome B) (look : A -> outcome V) l vs :
  length vs = length l -> (forall i x, nth_error l i = Some x -> look x = unwrap (nth_error vs i)) ->
  traverse (fun x => f (fst x) (snd x)) (combine l vs) = traverse (fun x => obind (look x) (f x)) l.
Proof.
  revert vs. induction l as [|x l IH]; intros [|v vs] Hl H; try discriminate; [reflexivity|]. cbn [combine traverse fst snd].
  rewrite (H 0%nat x eq_refl). cbn [nth_error unwrap obind]. rewrite IH; [reflexivity|cbn in Hl; lia|].
  intros i y Hy. exact (H (S i) y Hy).
Qed.

Lemma combine_seq_nth {A} (l : list A) : forall s n i x, nth_error (combine (seq s n) l) i = Some x -> fst x = (s + i)%nat.
Proof.
  induction l as [|y l IH]; intros s [|n] [|i] x H; cbn in H; try discriminate.
  - injection H as <-. cbn. lia.
  - apply IH in H. lia.
Qed.

Section Cycled.
Context {E : env}.

Lemma zerofier_inverses_length (a : air E) zer : zerofier_inverses a = Ok zer -> length zer = a_blowup a.
Proof.
  unfold zerofier_inverses. intro H. apply obind_ok in H. destruct H as (vs & Hv & H). apply unwrap_r_ok in Hv.
  unfold powers_coset in Hv. destruct (primitive_root _) in Hv; [|discriminate]. apply ok_inj in Hv. subst vs.
  unfold batch_inverse in H. destruct (existsb _ _); [discriminate|]. apply ok_inj in H. subst zer.
  now rewrite !map_length, seq_length.
Qed.

Theorem cycled_is_indexed (a : air E) lt d tcs bco rap : domain_new a = Ok d ->
  evaluate_constraints_cycled a lt d tcs bco rap = evaluate_constraints a lt d tcs bco rap.
Proof.
  intro Hd. unfold evaluate_constraints_cycled, evaluate_constraints.
  destruct (a_boundary a rap) as [bcs|e|]; try reflexivity. cbn [obind].
  destruct (boundary_zerofiers_inverse d bcs) as [zinv|e|]; try reflexivity. cbn [obind].
  destruct (usub _ _) as [adj|e|]; try reflexivity. cbn [obind].
  destruct (boundary_polys_evaluations d lt bcs) as [bev|e|]; try reflexivity. cbn [obind].
  set (n := length (lde_roots_of_unity_coset d)).
  destruct (traverse _ (combine (seq 0 n) (map _ _))) as [be|e|] eqn:Hbe; try reflexivity. cbn [obind].
  destruct (transition_exemption_polys a) as [ps|e|]; try reflexivity. cbn [obind].
  destruct (evaluate_transition_exemptions d ps) as [ex|e|]; try reflexivity. cbn [obind].
  destruct (degree_adjustments_lde a d) as [dj|e|]; try reflexivity. cbn [obind].
  destruct (zerofier_inverses a) as [zer|e|] eqn:Hz; try reflexivity. cbn [obind].
  apply zerofier_inverses_length in Hz.
  assert (Ln : n = (a_trace_length a * a_blowup a)%nat).
  { unfold domain_new in Hd. unfold n. clear - Hd. cbv zeta in Hd.
    repeat (apply obind_ok in Hd; destruct Hd as (? & ? & Hd)). apply ok_inj in Hd. subst d. cbn [lde_roots_of_unity_coset].
    match goal with H : unwrap_r (powers_coset _ (_ * _) _) = Ok _ |- _ => apply unwrap_r_ok in H; unfold powers_coset in H;
      destruct (primitive_root _) in H; [|discriminate]; apply ok_inj in H; subst end.
    now rewrite map_length, seq_length. }
  assert (Lb : length be = n).
  { apply traverse_length in Hbe. rewrite Hbe, combine_length, seq_length, map_length. fold n. apply Nat.min_id. }
  destruct (Nat.eq_dec (a_blowup a) 0) as [B0|B0].
  { rewrite B0, Nat.mul_0_r in Ln. rewrite Ln. reflexivity. }
  assert (Zne : zer <> []) by (intros ->; cbn in Hz; lia).
  set (row := fun (y : nat * E) (zerofier : E) =>
       obind (fr_read_from_trace lt (fst y) (a_blowup a) (transition_offsets (a_context a))) (fun fr =>
       obind (a_transition a fr rap) (fun evals =>
       obind (transition_acc a ex dj zerofier (fst y) evals tcs) (fun acc => Ok (fadd acc (snd y)))))).
  transitivity (traverse (fun x : nat * E * E => row (fst x) (snd x)) (combine (combine (seq 0 n) be) (cycle zer n))).
  { apply traverse_ext. intros [[i bo] z] _. reflexivity. }
  rewrite (traverse_zip row (fun y : nat * E => idx zer (fst y mod length zer))).
  - apply traverse_ext. intros [i bo] _. unfold row. cbn [fst snd].
    destruct (idx zer (i mod length zer)) as [z|e|] eqn:Hi.
    + cbn [obind]. destruct (fr_read_from_trace _ _ _ _); reflexivity.
    + exfalso. unfold idx in Hi. destruct (nth_error _ _) in Hi; discriminate.
    + exfalso. assert (Hlt : (i mod length zer < length zer)%nat) by (apply Nat.mod_upper_bound; lia).
      destruct zer as [|z0 zer']; [congruence|]. rewrite (idx_nth _ _ z0) in Hi by exact Hlt. discriminate.
  - rewrite cycle_length by exact Zne. rewrite combine_length, seq_length, Lb. symmetry. apply Nat.min_id.
  - intros i x Hx. pose proof (combine_seq_nth _ _ _ _ _ Hx) as Hf. cbn in Hf. rewrite Hf. unfold idx.
    rewrite cycle_nth; [reflexivity|exact Zne|].
    assert (i < length (combine (seq 0 n) be))%nat by (apply nth_error_Some; congruence).
    rewrite combine_length, seq_length, Lb, Nat.min_id in H. exact H.
Qed.
End Cycled.

(** ** From one build to another *)
Definition agrees {A} (x y : outcome A) : Prop := forall v, x = Ok v -> y = Ok v.

Lemma agrees_refl {A} (x : outcome A) : agrees x x.
Proof. intros v H. exact H. Qed.
Lemma agrees_bind {A B} (x y : outcome A) (f g : A -> outcome B) :
  agrees x y -> (forall v, x = Ok v -> agrees (f v) (g v)) -> agrees (obind x f) (obind y g).
Proof.
  intros Hx Hf w H. apply obind_ok in H. destruct H as (v & Hv & H). rewrite (Hx v Hv). cbn. now apply Hf.
Qed.
Lemma agrees_skip {A B} (x : outcome A) (y z : outcome B) : agrees y z -> agrees (obind x (fun _ => y)) z.
Proof. intros H w Hw. apply obind_ok in Hw. destruct Hw as (v & _ & Hw). now apply H. Qed.

Section Agree.
Context {E : env} (bld : build).

Lemma round_2_in_eq (a : air E) d r1 tcs bco : domain_new a = Ok d -> round_2_in bld a d r1 tcs bco = round_2 E a d r1 tcs bco.
Proof.
  intro Hd. unfold round_2_in, round_2, evaluate_constraints_in. destruct (b_parallel bld); [reflexivity|].
  now rewrite (cycled_is_indexed a _ d _ _ _ Hd).
Qed.

Lemma interpolate_agrees tt d t : agrees (interpolate_and_commit_in bld tt d t) (interpolate_and_commit E tt d t).
Proof.
  apply agrees_bind; [apply agrees_refl|]. intros ps _. apply agrees_bind; [apply agrees_refl|]. intros ev _.
  apply agrees_bind; [apply agrees_skip, agrees_refl|]. intros lt _. apply agrees_refl.
Qed.

Lemma round_1_agrees (a : air E) mt d t : agrees (round_1_in bld a mt d t) (round_1 E a mt d t).
Proof.
  apply agrees_bind; [apply interpolate_agrees|]. intros [[[[ps ev] tree] root] t1] _.
  apply agrees_bind; [apply agrees_refl|]. intros [rap t2] _. apply agrees_bind; [apply agrees_refl|]. intros aux _.
  destruct (tt_is_empty aux).
  - apply agrees_bind; [apply agrees_skip, agrees_refl|]. intros lt _. apply agrees_refl.
  - apply agrees_bind; [apply interpolate_agrees|]. intros [[[[ps' ev'] tree'] root'] t3] _.
    apply agrees_bind; [apply agrees_skip, agrees_refl|]. intros lt _. apply agrees_refl.
Qed.

Theorem prove_in_agrees asserts fuel (mk : nat -> air E) mt : agrees (prove_in bld asserts fuel mk mt) (prove E fuel mk mt).
Proof.
  unfold prove_in, prove. apply agrees_skip. apply agrees_bind; [apply agrees_refl|]. intros d Hd.
  apply agrees_bind; [apply round_1_agrees|]. intros [r1 t1] _. apply agrees_skip.
  repeat (apply agrees_bind; [apply agrees_refl|]; intros ? _; try match goal with x : (_ * _)%type |- _ => destruct x end).
  rewrite (round_2_in_eq _ _ _ _ _ Hd). apply agrees_refl.
Qed.

Theorem prove_in_release asserts fuel (mk : nat -> air E) mt : b_debug bld = false ->
  prove_in bld asserts fuel mk mt = prove E fuel mk mt.
Proof.
  intro Hb. unfold prove_in, prove, debug_assert, debug_validate. rewrite Hb. cbn [andb obind].
  destruct (domain_new (mk (tt_n_rows mt))) as [d|e|] eqn:Hd; try reflexivity. cbn [obind].
  assert (H1 : round_1_in bld (mk (tt_n_rows mt)) mt d tr_new = round_1 E (mk (tt_n_rows mt)) mt d tr_new).
  { unfold round_1_in, round_1, interpolate_and_commit_in, interpolate_and_commit, tt_new_from_cols_in, debug_assert. rewrite Hb.
    reflexivity. }
  rewrite H1. destruct (round_1 E (mk (tt_n_rows mt)) mt d tr_new) as [[r1 t1]|e|]; try reflexivity. cbn [obind].
  destruct (a_boundary _ _) as [bcs|e|]; try reflexivity. cbn [obind].
  repeat (match goal with |- obind (batch_sample_challenges E ?n ?t) _ = _ =>
     destruct (batch_sample_challenges E n t) as [[? ?]|?|]; try reflexivity; cbn [obind] end).
  now rewrite (round_2_in_eq _ _ _ _ _ Hd).
Qed.

Theorem verify_in_build_agrees asserts fuel (mk : nat -> air E) opts p :
  agrees (verify_in_build bld asserts fuel mk opts p) (verify E fuel mk opts p).
Proof.
  unfold verify_in_build. destruct (length (query_list p) <? fri_number_of_queries opts)%nat eqn:Hq.
  - unfold verify. rewrite Hq. apply agrees_refl.
  - apply agrees_skip, agrees_refl.
Qed.

Theorem verify_in_build_eq asserts fuel (mk : nat -> air E) opts p : b_debug bld = false \/ asserts (trace_length p) = true ->
  verify_in_build bld asserts fuel mk opts p = verify E fuel mk opts p.
Proof.
  intro H. unfold verify_in_build, debug_assert. destruct (length (query_list p) <? fri_number_of_queries opts)%nat eqn:Hq.
  - unfold verify. now rewrite Hq.
  - destruct H as [-> | ->]; [reflexivity|]. cbn [negb]. now rewrite Bool.andb_false_r.
Qed.
End Agree.

(** ** The checks of a debug build go through *)
Lemma same_lengths_ok {A} (cols : list (list A)) n : (forall c, In c cols -> length c = n) -> same_lengths cols = true.
Proof.
  intro H. destruct cols as [|c0 cols]; [reflexivity|]. unfold same_lengths. apply forallb_forall. intros c Hc.
  apply Nat.eqb_eq. rewrite (H c Hc). symmetry. apply H. now left.
Qed.

Lemma debug_assert_ok bld c : c = true -> debug_assert bld c = Ok tt.
Proof. intros ->. unfold debug_assert. cbn [negb]. now rewrite Bool.andb_false_r. Qed.

Section Checks.
Local Open Scope felt_scope.
Context {E : env} (HE : env_ok E) (bld : build).
Let HF : fft_ok E := e_fft_ok E HE.
Let HK : field_ok E := fft_field_ok E HF.
Context {a : air E} {d : domain E} {r b k : nat} {g W : E}.
Let h : E := e_u64 E (coset_offset (a_options a)).
Context (A : admissible a r b k) (D : domain_shape d r b h g W).

Lemma lde_same (polys : list (poly E)) : same_lengths (lde_evals (a := a) (r := r) (b := b) (W := W) polys) = true.
Proof using Type.
  apply (same_lengths_ok _ (2 ^ (r + b))%nat). intros c Hc. apply in_map_iff in Hc. destruct Hc as (p & <- & _).
  now rewrite map_length, seq_length.
Qed.

Lemma interpolate_checks mt cols t polys evals tree root t' : has_columns mt (2 ^ r) cols -> cols <> [] ->
  interpolate_and_commit E mt d t = Ok (polys, evals, tree, root, t') ->
  interpolate_and_commit_in bld mt d t = Ok (polys, evals, tree, root, t') /\
  interpolants (r := r) (g := g) cols polys /\ evals = lde_evals (a := a) (r := r) (b := b) (W := W) polys.
Proof using A D HE.
  intros Hc Hne H. destruct (interpolate_and_commit_ok HE A D mt cols t polys evals tree root t' Hc Hne H) as (Hi & He & _).
  split; [|split; [exact Hi|exact He]]. unfold interpolate_and_commit in H. unfold interpolate_and_commit_in.
  apply obind_ok in H. destruct H as (ps & Hps & H). rewrite Hps. cbn [obind].
  apply obind_ok in H. destruct H as (ev & Hev & H). rewrite Hev. cbn [obind].
  assert (Ee : ev = evals).
  { ok_step H. ok_step H. ok_step H. match goal with x : (merkle_tree * commitment)%type |- _ => destruct x end. apply ok_inj in H. congruence. }
  unfold tt_new_from_cols_in. rewrite (debug_assert_ok bld); [exact H|]. rewrite Ee, He. apply lde_same.
Qed.

Lemma round_1_checks mt t r1 t' : rectangular_trace a r mt -> round_1 E a mt d t = Ok (r1, t') ->
  round_1_in bld a mt d t = Ok (r1, t') /\ length (r1_trace_polys E a r1) = trace_columns (a_context a) /\
  r1_trace_polys E a r1 <> [] /\ Forall (fun p : poly E => (length p <= 2 ^ r)%nat) (r1_trace_polys E a r1) /\
  exists t0 t0' aux, a_build_rap a t0 = Ok (r1_rap E a r1, t0') /\ a_build_aux a mt (r1_rap E a r1) = Ok aux.
Proof using A D HE.
  intros (mcols & Hne & Hm & Hx) H. unfold round_1 in H. unfold round_1_in.
  apply obind_ok in H. destruct H as ([[[[ps ev] tree] root] t1] & H1 & H).
  destruct (interpolate_checks mt mcols t ps ev tree root t1 Hm Hne H1) as (-> & Hi & He). cbn [obind].
  apply obind_ok in H. destruct H as ([rap t2] & H2 & H). rewrite H2. cbn [obind].
  apply obind_ok in H. destruct H as (aux & H3 & H). rewrite H3. cbn [obind].
  destruct (Hx _ _ _ aux H2 H3) as (acols & Ha & Hw).
  assert (Pne : ps <> []).
  { destruct Hi as (Hl & _). intros ->. destruct mcols; [congruence|discriminate Hl]. }
  unfold tt_is_empty in *. pose proof Ha as (Hnc & _). destruct (Nat.eqb_spec (tt_n_cols aux) 0) as [E0|E0].
  - apply obind_ok in H. destruct H as (lt & Hlt & H). apply ok_inj in H. injection H as <- <-.
    unfold tt_new_from_cols_in. rewrite (debug_assert_ok bld) by (rewrite He; apply lde_same). cbn [obind]. rewrite Hlt. cbn [obind].
    cbn [r1_trace_polys r1_rap]. rewrite Hnc in E0. destruct acols; [|discriminate]. rewrite app_nil_r in Hw.
    split; [reflexivity|]. split; [rewrite <- Hw; apply Hi|]. split; [exact Pne|]. split; [apply Hi|]. now exists t1, t2, aux.
  - apply obind_ok in H. destruct H as ([[[[ps' ev'] tree'] root'] t3] & H4 & H).
    assert (Ane : acols <> []) by (intros ->; cbn in Hnc; congruence).
    destruct (interpolate_checks aux acols t2 ps' ev' tree' root' t3 Ha Ane H4) as (-> & Hi' & He'). cbn [obind].
    apply obind_ok in H. destruct H as (lt & Hlt & H). apply ok_inj in H. injection H as <- <-.
    unfold tt_new_from_cols_in. rewrite (debug_assert_ok bld).
    2:{ replace (ev ++ ev') with (lde_evals (a := a) (r := r) (b := b) (W := W) (ps ++ ps')); [apply lde_same|].
        rewrite He, He'. unfold lde_evals. apply map_app. }
    cbn [obind]. rewrite Hlt. cbn [obind]. cbn [r1_trace_polys r1_rap]. split; [reflexivity|].
    destruct Hi as (L1 & F1 & _). destruct Hi' as (L2 & F2 & _).
    split; [rewrite <- Hw, !app_length, L1, L2; reflexivity|]. split; [intro Z; apply app_eq_nil in Z; tauto|].
    split; [now apply Forall_app|]. now exists t1, t2, aux.
Qed.

Lemma row_frame (polys : list (poly E)) i :
  shifted_frame polys (transition_offsets (a_context a)) g (fpow g i) =
  mk_frame (concat (map (fun o => map (fun c => nth ((i + o) mod 2 ^ r) c 0) (domain_columns polys g (2 ^ r)))
                        (transition_offsets (a_context a)))) (length (domain_columns polys g (2 ^ r))).
Proof using D HE.
  unfold shifted_frame, shifted_rows, domain_columns. rewrite map_length. f_equal. f_equal. apply map_ext. intro o. rewrite map_map.
  apply map_ext. intro p. assert (Hm : ((i + o) mod 2 ^ r < 2 ^ r)%nat) by (apply Nat.mod_upper_bound; pose proof (pow2_pos r); lia).
  rewrite nth_map_seq by exact Hm. rewrite (prim_pow_mod HK) by (apply pow2_pos || exact (ds_gprim _ _ _ _ _ _ D)).
  now rewrite (fpow_add HK).
Qed.

Lemma validate_checks polys rap bcs : length polys = trace_columns (a_context a) -> polys <> [] ->
  Forall (fun p : poly E => (length p <= 2 ^ r)%nat) polys -> a_boundary a rap = Ok bcs ->
  (forall bc, In bc bcs -> (bc_step bc < 2 ^ r)%nat /\ (bc_col bc < length polys)%nat) -> constraints_declared a ->
  debug_validate bld a polys d rap = Ok tt.
Proof using A D HE.
  intros Hw Hne Hl Hb Hin Hc. unfold debug_validate. destruct (b_debug bld); [|reflexivity].
  pose proof (ds_g _ _ _ _ _ _ D) as Hg. pose proof (ds_size _ _ _ _ _ _ D) as Hs. pose proof (ad_r _ _ _ _ A) as Hr.
  destruct (validate_columns HE a polys d rap r g Hr Hg Hs Hne Hl bcs Hb Hin) as [V _]. rewrite V. cbn [obind].
  rewrite (debug_assert_ok bld).
  2:{ apply (same_lengths_ok _ (2 ^ r)%nat). intros c Hc'. apply in_map_iff in Hc'. destruct Hc' as (p & <- & _). now rewrite map_length, seq_length. }
  cbn [obind].
  destruct (validate_trace_total HE a polys d rap r g Hr Hg Hs Hne Hl bcs Hb Hin) as [v ->]; [|exact (ad_ex_le _ _ _ _ A)|reflexivity].
  intros i Hi. destruct (ad_poly _ _ _ _ A g Hg rap polys Hw Hl) as (cs & Hcs & _). exists (map (fun c => peval c (fpow g i)) cs).
  specialize (Hcs (fpow g i)). rewrite row_frame in Hcs. split; [exact Hcs|]. exact (Hc _ _ _ Hcs).
Qed.
End Checks.

Theorem prove_in_complete {E : env} (HE : env_ok E) bld asserts fuel (mk : nat -> air E) mt r b k p :
  let a := mk (tt_n_rows mt) in
  admissible a r b k -> rectangular_trace a r mt -> boundary_in_table a r mt -> constraints_declared a ->
  asserts (tt_n_rows mt) = true -> prove E fuel mk mt = Ok p -> prove_in bld asserts fuel mk mt = Ok p.
Proof.
  intros a A Hrect Hbt Hc Has H. unfold prove in H. fold a in H. unfold prove_in. fold a.
  rewrite (debug_assert_ok bld _ Has). cbn [obind].
  apply obind_ok in H. destruct H as (d & Hd & H). rewrite Hd. cbn [obind].
  destruct (domain_new_shape HE a d r b Hd (ad_n _ _ _ _ A) (ad_blowup _ _ _ _ A) (ad_r _ _ _ _ A)) as (g & W & D).
  apply obind_ok in H. destruct H as ([r1 t1] & H1 & H).
  destruct (round_1_checks HE bld A D mt tr_new r1 t1 Hrect H1) as (-> & Hw & Hne & Hl & t0 & t0' & aux & Hrap & Haux). cbn [obind].
  apply obind_ok in H. destruct H as (bcs & Hb & H).
  rewrite (validate_checks HE bld A D _ _ bcs Hw Hne Hl Hb).
  - cbn [obind]. rewrite Hb. cbn [obind].
    do 4 (let Hs := fresh "Hs" in apply obind_ok in H; destruct H as ([? ?] & Hs & H); rewrite Hs; cbn [obind]; clear Hs).
    rewrite (round_2_in_eq bld a d _ _ _ Hd). exact H.
  - intros bc Hin. rewrite Hw. exact (Hbt _ _ _ _ _ _ Hrap Haux Hb Hin).
  - exact Hc.
Qed.

(** A valid trace has the shapes asked for. *)
Lemma valid_trace_shapes {E : env} (a : air E) r mt : valid_trace a r mt -> rectangular_trace a r mt /\ boundary_in_table a r mt.
Proof.
  intros (mcols & Hne & Hm & Hv). split.
  - exists mcols. split; [exact Hne|]. split; [exact Hm|]. intros t rap t' aux H1 H2.
    destruct (Hv t rap t' aux H1 H2) as (acols & Ha & Hl & _). now exists acols.
  - intros t rap t' aux bcs bc H1 H2 Hb Hin. destruct (Hv t rap t' aux H1 H2) as (acols & _ & Hl & Hs).
    destruct (ts_boundary _ _ _ _ Hs bcs bc Hb Hin) as (S1 & S2 & _). rewrite <- Hl. now split.
Qed.
