(** A single run of the protocol: few challenges are exceptional, and without them acceptance means satisfaction. *)
From Coq Require Import List Arith NArith Bool Lia.
From Verif.Base Require Import Outcome Bytes Field Poly.
From Verif.Model Require Import Codec Trace Merkle Air Transcript Domain Verifier.
From Verif.Spec Require Import AirSpec CairoColumns ProvingSpec VerifierSpec LowDegree FriTree OodSpec StarkTree Proximity Rounds.
From Verif.Proofs Require Import OutcomeFacts FieldFacts PolyFacts FFTFacts MultisetFacts TraceFacts DomainFacts TranscriptFacts PolyAir HonestFacts VerifierFacts
  OodFacts LowDegreeFacts FriSoundness StarkSoundness LineFacts FriRound.
Import ListNotations.

Section Near.
Context {E : env} (HE : env_ok E).
Let HF : fft_ok E := e_fft_ok E HE.
Let HK : field_ok E := fft_field_ok E HF.
Add Field Kfield65 : (fld_th E HK).
Local Open Scope felt_scope.

(** Polynomials near the same word are the same. *)
Lemma near_unique (D : list E) e m f q1 q2 : NoDup D -> (2 * e + m <= length D)%nat -> near_poly D e m f q1 -> near_poly D e m f q2 ->
  forall x, peval q1 x = peval q2 x.
Proof using HE.
  intros HD Hn (L1 & A1 & B1 & E1) (L2 & A2 & B2 & E2) x.
  set (A := filter (isin HE A2) A1).
  assert (NA : NoDup A) by (apply NoDup_filter, B1).
  assert (LA : (m <= length A)%nat).
  { pose proof (outside_few HE e D A2 A1 HD B2 (proj1 B1) (proj1 (proj2 B1))) as O. pose proof (LineFacts.filter_split (isin HE A2) A1) as F.
    fold A in F. destruct B1 as (_ & _ & C1). lia. }
  apply (agree_eval HK A); [exact NA| |lia|lia]. intros y Hy. apply filter_In in Hy. destruct Hy as [H1 H2]. apply isin_true in H2.
  now rewrite <- (E1 y H1), <- (E2 y H2).
Qed.

Lemma near_polys_unique (D : list E) e m cols ps qs : NoDup D -> (2 * e + m <= length D)%nat -> length ps = length qs ->
  near_polys D e m cols ps -> near_polys D e m cols qs -> forall j x, peval (nth j ps []) x = peval (nth j qs []) x.
Proof using HE.
  intros HD Hn Hl H1 H2 j x. destruct (lt_dec j (length ps)) as [L|L].
  - apply (near_unique D e m (cols j)); [exact HD|exact Hn|now apply H1|apply H2; lia].
  - rewrite !nth_overflow by lia. reflexivity.
Qed.

Lemma same_row (ps qs : list (poly E)) y : length ps = length qs -> (forall j x, peval (nth j ps []) x = peval (nth j qs []) x) ->
  map (fun p => peval p y) ps = map (fun p => peval p y) qs.
Proof using Type.
  intros Hl H. apply (nth_ext _ _ (peval [] y) (peval [] y)); [now rewrite !map_length|]. intros i _.
  rewrite !(map_nth (fun p => peval p y)). apply H.
Qed.
Lemma same_frame (ps qs : list (poly E)) offs g x : length ps = length qs -> (forall j x, peval (nth j ps []) x = peval (nth j qs []) x) ->
  shifted_frame ps offs g x = shifted_frame qs offs g x.
Proof using Type.
  intros Hl H. unfold shifted_frame. rewrite Hl. f_equal. f_equal. unfold shifted_rows. apply map_ext. intro o. now apply same_row.
Qed.
Lemma passes_at_ext (a : air E) d rap ps qs bco tco h1 h2 k1 k2 z : length ps = length qs ->
  (forall j x, peval (nth j ps []) x = peval (nth j qs []) x) -> (forall x, peval h1 x = peval k1 x) -> (forall x, peval h2 x = peval k2 x) ->
  passes_at a d rap ps bco tco h1 h2 z -> passes_at a d rap qs bco tco k1 k2 z.
Proof using Type.
  intros Hl H P1 P2 (p & c & H1 & H2 & H3 & H4 & H5). exists p, c. split; [exact H1|].
  split; [rewrite H2; now apply same_frame|]. split; [now rewrite <- P1|]. split; [now rewrite <- P2|exact H5].
Qed.
Lemma passes_often_ext (a : air E) d rap ps qs bco tco h1 h2 l : length ps = length qs ->
  (forall j x, peval (nth j ps []) x = peval (nth j qs []) x) ->
  passes_often a d rap ps bco tco h1 h2 l -> passes_often a d rap qs bco tco h1 h2 l.
Proof using Type.
  intros Hl H (zs & H1 & H2 & H3). exists zs. split; [exact H1|]. split; [exact H2|]. intros z Hz.
  apply (passes_at_ext a d rap ps qs bco tco h1 h2 h1 h2); [exact Hl|exact H|reflexivity|reflexivity|now apply H3].
Qed.

Lemma set_nth_nth {A} (dflt : A) j l : (j < length l)%nat -> firstn j l ++ nth j l dflt :: skipn (S j) l = l.
Proof using Type. revert j; induction l as [|x l IH]; intros [|j] Hj; cbn in *; try lia; [reflexivity|]. f_equal. apply IH. lia. Qed.
Lemma with_beta_same j (l : list (E * E)) : (j < length l)%nat -> with_beta j (snd (nth j l (0, 0))) l = l.
Proof using Type. intro H. unfold with_beta. rewrite <- surjective_pairing. now apply set_nth_nth. Qed.

Lemma near_forall (D : list E) e m cols ps : near_polys D e m cols ps -> Forall (fun p : poly E => (length p <= m)%nat) ps.
Proof using Type. intro H. apply Forall_forall. intros q Hq. destruct (In_nth _ _ [] Hq) as (i & Hi & <-). apply (H i Hi). Qed.

Lemma few_one (P : E -> Prop) : (forall x y, P x -> P y -> x = y) -> few 1 P.
Proof using Type.
  intros H [|x [|y l]] Hl HP; [cbn; lia|cbn; lia|exfalso].
  inversion Hl as [|? ? Hn _]; subst. apply Hn. left. symmetry. apply H; apply HP; [now left|right; now left].
Qed.

(** ** Quotients by a linear factor, on a list of points *)
Lemma quotient_fits (A : list E) (f : E -> E) v y m : (1 <= m)%nat -> (forall x, In x A -> x <> y) ->
  fits (fun x => x) A (fun x => (f x - v) * finv (x - y)) m ->
  exists q : poly E, (length q <= m + 1)%nat /\ peval q y = v /\ forall x, In x A -> f x = peval q x.
Proof using HE.
  intros Hm Hne (q & Lq & Eq). exists (padd_raw [v] (pmul_raw [- y; 1] q)).
  assert (Ev : forall x, peval (padd_raw [v] (pmul_raw [- y; 1] q)) x = v + (x - y) * peval q x).
  { intro x. rewrite (peval_padd_raw HK), (peval_pmul_raw HK). cbn [peval]. ring. }
  split; [|split].
  - rewrite padd_raw_length. pose proof (pmul_raw_length_le [- y; 1] q 1 (m - 1)) as P. cbn [length] in *. lia.
  - rewrite Ev. ring.
  - intros x Hx. rewrite Ev, <- (Eq x Hx). field. intro Z. apply (Hne x Hx). exact (proj1 (sub_zero HK _ _) Z).
Qed.

Lemma folds_at_dec fs : forall zetas last (x : E), {folds_at fs zetas last x} + {~ folds_at fs zetas last x}.
Proof using HE.
  induction fs as [|f fs IH]; intros [|z zetas] last x; cbn [folds_at]; try (left; exact I).
  destruct (feq_dec HK (fold_value z f x) (match fs with f' :: _ => f' (x * x) | [] => last end)) as [H|H]; [|right; tauto].
  destruct (IH zetas last (x * x)) as [H'|H']; [left|right]; tauto.
Qed.
Lemma consistent_dec (p : stark_proof E) {a : air E} (c : challenges E a) g rows cols even odd words x :
  {consistent_at p c g rows cols even odd words x} + {~ consistent_at p c g rows cols even odd words x}.
Proof using HE.
  unfold consistent_at. destruct (folds_at_dec words (c_zetas E a c) (fri_last_value p) x) as [H|H]; [|right; tauto].
  destruct words as [|f words]; [left; tauto|].
  destruct (feq_dec HK (f x) (deep_word p c g rows (opened (trace_columns (a_context a)) cols even odd) x)); [left|right]; tauto.
Qed.

(** Openings with the same values give the same composition. *)
Lemma deep_value_same (p : stark_proof E) {a : air E} (c : challenges E a) g rows x o o' :
  (forall i, (i < fr_num_columns (trace_ood_frame_evaluations p))%nat -> nth i (lde_trace_evaluations o) 0 = nth i (lde_trace_evaluations o') 0) ->
  lde_composition_poly_even_evaluation o = lde_composition_poly_even_evaluation o' ->
  lde_composition_poly_odd_evaluation o = lde_composition_poly_odd_evaluation o' ->
  deep_value p c g rows x o = deep_value p c g rows x o'.
Proof using Type.
  intros H1 H2 H3. unfold deep_value. rewrite H2, H3. f_equal. f_equal. f_equal. apply map_ext_in. intros [i cl] Hi.
  apply in_combine_l in Hi. apply in_seq in Hi. cbn [fst snd]. rewrite H1 by lia. reflexivity.
Qed.
Lemma opened_nth width cols even odd (x : E) i : (i < width)%nat -> nth i (lde_trace_evaluations (opened width cols even odd x)) 0 = cols i x.
Proof using Type.
  intro H. unfold opened. cbn [lde_trace_evaluations]. rewrite (nth_indep _ 0 (cols 0%nat x)) by (now rewrite map_length, seq_length).
  rewrite (map_nth (fun j => cols j x)), seq_nth by exact H. reflexivity.
Qed.

Lemma sample_rows_shape rows len (t : e_tr E) m t' : sample_rows E rows len t = Ok (m, t') -> length m = rows /\ Forall (fun l => length l = len) m.
Proof using Type.
  revert t m t'. induction rows as [|rows IH]; intros t m t' H; cbn [sample_rows] in H.
  - apply ok_inj in H. injection H as <- _. split; [reflexivity|constructor].
  - ok_as H x Hx. destruct x as [x t1]. ok_as H y Hy. destruct y as [y t2]. apply ok_inj in H. injection H as <- _.
    destruct (IH _ _ _ Hy) as [L F]. split; [cbn; now rewrite L|]. constructor; [exact (batch_sample_length E _ _ _ _ Hx)|exact F].
Qed.
Lemma step_1_shape fuel (a : air E) (p : stark_proof E) (d : domain E) (t : e_tr E) c t' : step_1 E fuel a p d t = Ok (c, t') ->
  length (c_trace_term_coeffs E a c) = trace_columns (a_context a) /\
  Forall (fun l => length l = length (transition_offsets (a_context a))) (c_trace_term_coeffs E a c) /\
  length (c_transition_coeffs E a c) = num_transition_constraints (a_context a) /\
  exists bcs, a_boundary a (c_rap E a c) = Ok bcs /\ length (c_boundary_coeffs E a c) = length bcs.
Proof using Type.
  intros H. unfold step_1 in H.
  ok_as H root0 Hroot0. ok_as H rp Hrp. destruct rp as [rap t1]. ok_as H bcs Hbcs.
  ok_as H s1 Hs1. destruct s1 as [ba t2]. ok_as H s2 Hs2. destruct s2 as [bb t3]. ok_as H s3 Hs3. destruct s3 as [ta t4]. ok_as H s4 Hs4. destruct s4 as [tb t5].
  ok_as H s5 Hz. destruct s5 as [z t6]. ok_as H nr Hnr. ok_as H rows Hrows. ok_as H s6 Hg1. destruct s6 as [g1 t7]. ok_as H s7 Hg2. destruct s7 as [g2 t8].
  ok_as H s8 Httc. destruct s8 as [ttc t9]. ok_as H s9 Hzs. destruct s9 as [zs t10].
  destruct (tr_challenge _) as [ch t11]. ok_as H lz Hlz. ok_as H s10 Hio. destruct s10 as [iotas t12]. apply ok_inj in H.
  pose proof (f_equal fst H) as Hc. cbn [fst] in Hc. rewrite <- Hc. cbn [c_trace_term_coeffs c_transition_coeffs c_boundary_coeffs c_rap].
  destruct (sample_rows_shape _ _ _ _ _ Httc) as [L F]. split; [exact L|]. split; [exact F|].
  apply batch_sample_length in Hs1, Hs2, Hs3, Hs4. split; [rewrite combine_length; lia|]. exists bcs. split; [exact Hbcs|]. rewrite combine_length. lia.
Qed.
End Near.
