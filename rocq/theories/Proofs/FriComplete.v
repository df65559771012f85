(** Polynomials of low degree pass FRI in every run, and true values pass the DEEP quotients: the premises of the
    soundness statements are met by honest words. *)
From Coq Require Import List Arith Lia Bool NArith.
From Verif.Base Require Import Outcome Bytes Field Poly.
From Verif.Model Require Import Codec Trace Merkle Air Domain Fri Verifier.
From Verif.Spec Require Import AirSpec VerifierSpec HashSpec LowDegree FriTree OodSpec StarkTree.
From Verif.Proofs Require Import OutcomeFacts FieldFacts PolyFacts FFTFacts MerkleFacts TraceFacts DomainFacts FriFacts OodFacts LowDegreeFacts
  FriSoundness StarkSoundness.
Import ListNotations.
Local Open Scope felt_scope.

Section Complete.
Context {E : env} (HE : env_ok E) (HH : perfect_hash (e_leaf E) (e_node E)).
Let HF : fft_ok E := e_fft_ok E HE.
Let HK : field_ok E := fft_field_ok E HF.
Add Field Kfield58 : (fld_th E HK).

Lemma no_clash m (h w : E) f path i x : ~ opening_clash m h w f path i x.
Proof using HH.
  intros [(u & v & _ & _ & Hne & He)|[(u & _ & Hin)|(Hne & He)]].
  - apply Hne. destruct (ph_node _ _ HH _ _ _ _ He). destruct u, v; cbn in *; congruence.
  - cbn [In] in Hin. destruct Hin as [Hin|Hin].
    + exact (ph_apart _ _ HH _ _ _ Hin).
    + unfold word_leaves in Hin. apply in_map_iff in Hin. destruct Hin as (j & Hj & _). exact (ph_apart _ _ HH _ _ _ Hj).
  - apply Hne. exact (ph_leaf _ _ HH _ _ He).
Qed.

Lemma clash_free_always fs : forall m (h w : E) iota q, clash_free m h w fs iota q.
Proof using HH. induction fs as [|f fs IH]; intros; [exact I|]. split; [apply no_clash|]. split; [apply no_clash|apply IH]. Qed.

(** The answers of a prover that has committed to the words. *)
Fixpoint honest_answer (m : nat) (h w : E) (fs : list (E -> E)) (iota : nat) : fri_decommitment E :=
  match fs with
  | [] => mk_fri_decommitment [] [] [] []
  | f :: fs' =>
      let q := honest_answer (m - 1) (h * h) (w * w) fs' iota in
      let l := word_leaves m h w f in let j := ((iota + 2 ^ m / 2) mod 2 ^ m)%nat in
      mk_fri_decommitment (mt_path (e_node E) m l j :: layers_auth_paths_sym q) (f (h * fpow w j) :: layers_evaluations_sym q)
        (mt_path (e_node E) m l (iota mod 2 ^ m) :: layers_auth_paths q) (f (h * fpow w iota) :: layers_evaluations q)
  end.

Lemma honest_shape fs : forall m (h w : E) iota, answer_shape (length fs) (honest_answer m h w fs iota).
Proof using Type.
  induction fs as [|f fs IH]; intros m h w iota; [repeat split|]. destruct (IH (m - 1)%nat (h * h) (w * w) iota) as (H1 & H2 & H3 & H4).
  cbn. repeat split; cbn; congruence.
Qed.

Lemma word_opens m (h w : E) f i j : is_prim w (2 ^ m) -> (i mod 2 ^ m = j mod 2 ^ m)%nat ->
  opens_to (E := E) (mt_path (e_node E) m (word_leaves m h w f) (i mod 2 ^ m)) (word_commit m h w f) j (e_leaf E (f (h * fpow w i))).
Proof using HE.
  intros Hw Hij. assert (P := pow2_pos m). assert (L : (i mod 2 ^ m < 2 ^ m)%nat) by (apply Nat.mod_upper_bound; lia).
  pose proof (honest_opening_verifies (e_node E) m (word_leaves m h w f) (i mod 2 ^ m) j (word_leaves_length m h w f) L (eq_sym Hij)) as H.
  unfold path_verify in H. apply list_byte_eqb_spec in H. unfold opens_to, word_commit. symmetry. rewrite H. f_equal.
  unfold word_leaves. set (F := fun i0 => e_leaf E (f (h * fpow w i0))).
  rewrite (nth_indep _ [] (F 0%nat)) by (rewrite map_length, seq_length; exact L).
  rewrite map_nth, seq_nth by exact L. cbn [Nat.add]. unfold F. now rewrite (prim_pow_mod HK w (2 ^ m) i P Hw).
Qed.

Lemma honest_consistent fs : forall m (h w : E) zs v iota, (length fs <= m)%nat -> is_prim w (2 ^ m) -> length zs = length fs ->
  folds_at fs zs v (h * fpow w iota) ->
  fri_query_consistent m (layer_roots m h w fs) zs v iota (h * fpow w iota) (honest_answer m h w fs iota).
Proof using HE.
  induction fs as [|f fs IH]; intros m h w zs v iota Hm Hw Hz Hf; [intros k ? ? ? ? ? ? H; destruct k; discriminate|].
  destruct m as [|m]; [cbn in Hm; lia|]. destruct zs as [|zeta zs]; [discriminate|]. cbn [length] in *.
  assert (Hsq : (h * h) * fpow (w * w) iota = (h * fpow w iota) * (h * fpow w iota)).
  { rewrite <- (fpow_2 HK w), <- (fpow_mul HK), Nat.mul_comm, (fpow_mul HK), (fpow_2 HK). ring. }
  destruct Hf as [Hf0 Hf]. specialize (IH m (h * h) (w * w) zs v iota ltac:(lia) (prim_square HE m w Hw) ltac:(lia)).
  rewrite Hsq in IH. specialize (IH Hf).
  set (S' := (2 ^ S m)%nat) in *.
  intros k root path ev psym esym ze H1 H2 H3 H4 H5 H6. cbn [honest_answer layer_roots] in *. replace (S m - 1)%nat with m in * by lia.
  cbv zeta in H3, H4, H5, H6. cbn [layers_auth_paths layers_evaluations layers_auth_paths_sym layers_evaluations_sym] in *.
  destruct k as [|k].
  - cbn [nth_error] in *. injection H1 as <-. injection H2 as <-. injection H3 as <-. injection H4 as <-. injection H5 as <-.
    assert (Q : esym = f (h * fpow w ((iota + S' / 2) mod S'))) by (injection H6; intro Q; symmetry; exact Q). subst esym. clear H6.
    cbv zeta. rewrite Nat.sub_0_r. fold S'.
    assert (Hsym : h * fpow w ((iota + S' / 2) mod S') = - (h * fpow w iota)) by (apply (sym_point HE m h w iota Hw)).
    split; [apply (word_opens (S m)); [exact Hw|reflexivity]|]. split.
    { pose proof (word_opens (S m) h w f ((iota + S' / 2) mod S') ((iota + S' / 2) mod S') Hw eq_refl) as W. fold S' in W.
      rewrite Nat.mod_mod in W by (apply Nat.pow_nonzero; lia). exact W. }
    rewrite Hsym. unfold fold_value in Hf0. change (2 ^ 0)%nat with 1%nat. replace (fpow (h * fpow w iota) 1) with (h * fpow w iota) by (cbn [fpow]; ring).
    rewrite Hf0. destruct fs as [|f' fs]; [reflexivity|]. cbn [honest_answer]. cbv zeta. cbn [layers_evaluations length Nat.add Nat.ltb Nat.leb nth].
    now rewrite Hsq.
  - cbn [nth_error] in *. specialize (IH k root path ev psym esym ze H1 H2 H3 H4 H5 H6). cbv zeta in IH |- *.
    replace (S m - S k)%nat with (m - k)%nat by lia.
    replace (fpow (h * fpow w iota) (2 ^ S k)) with (fpow ((h * fpow w iota) * (h * fpow w iota)) (2 ^ k)).
    2: { change (2 ^ S k)%nat with (2 * 2 ^ k)%nat. rewrite (fpow_mul HK), (fpow_2 HK). reflexivity. }
    replace (S k + 1)%nat with (S (k + 1)) by lia. cbn [length nth]. exact IH.
Qed.

(** The tree of a polynomial, with the challenges zero and one in every round. *)
Fixpoint honest_tree (k : nat) (q : poly E) : fri_tree E :=
  match k with
  | O => fri_last (nth 0 q 0)
  | S k' => fri_round (peval q) 0 1 (honest_tree k' (fold_polynomial q 0)) (honest_tree k' (fold_polynomial q 1))
  end.

Lemma honest_rounds k : forall q, rounds k (honest_tree k q).
Proof using HE.
  induction k as [|k IH]; intro q; [exact I|]. cbn. split; [|split; apply IH]. intro H. exact (one_neq_zero HK (eq_sym H)).
Qed.

Lemma honest_folds k : forall q fs zs v x, (length q <= 2 ^ k)%nat -> x <> 0 -> In (fs, zs, v) (branches (honest_tree k q)) ->
  length fs = k /\ length zs = k /\ folds_at fs zs v x /\ (match fs with f :: _ => f = peval q | [] => v = nth 0 q 0 end).
Proof using HE.
  induction k as [|k IH]; intros q fs zs v x Hq Hx Hin.
  { cbn in Hin. destruct Hin as [Hin|[]]. injection Hin as <- <- <-. repeat split. }
  assert (Hx2 : x * x <> 0) by (intro H; apply (mul_zero HK) in H; tauto).
  assert (G : forall zeta fs' zs' v', In (fs', zs', v') (branches (honest_tree k (fold_polynomial q zeta))) ->
    length (peval q :: fs') = S k /\ length (zeta :: zs') = S k /\ folds_at (peval q :: fs') (zeta :: zs') v' x /\ peval q = peval q).
  { intros zeta fs' zs' v' Hb. assert (Hl : (length (fold_polynomial q zeta) <= 2 ^ k)%nat) by (apply (fold_length q zeta (2 ^ k)); exact Hq).
    destruct (IH _ _ _ _ (x * x) Hl Hx2 Hb) as (L1 & L2 & F & Hd).
    split; [cbn; congruence|]. split; [cbn; congruence|]. split; [|reflexivity]. split; [|exact F].
    unfold fold_value. rewrite <- (fold_identity' HK q zeta x (two_neq E HE) Hx). destruct fs' as [|f' fs'].
    - rewrite Hd. cbn in L1. subst k. apply (constant_eval HK). exact Hl.
    - now rewrite Hd. }
  cbn [honest_tree branches] in Hin. apply in_app_or in Hin.
  destruct Hin as [Hin|Hin]; apply in_map_iff in Hin; destruct Hin as ([[fs' zs'] v'] & Eq & Hin); injection Eq as <- <- <-; now apply G.
Qed.

Theorem polynomial_convinces r b (h w : E) q : h <> 0 -> is_prim w (2 ^ (r + b)) -> (length q <= 2 ^ r)%nat ->
  forall f, (forall x, on_coset h w x -> peval q x = f x) -> fri_convinced r b h w f.
Proof using HE HH.
  intros Hh Hw Hq f Hf. assert (P := pow2_pos (r + b)). pose proof (prim_nonzero HK w _ P Hw) as Hw0.
  exists (honest_tree r q). split; [apply honest_rounds|]. split.
  - intros fs zs v iota Hin Hi. exists (honest_answer (r + b) h w fs iota).
    assert (Hx : h * fpow w iota <> 0) by (intro H; apply (mul_zero HK) in H; destruct H as [H|H]; [contradiction|exact (fpow_nonzero HK w iota Hw0 H)]).
    destruct (honest_folds r q fs zs v _ Hq Hx Hin) as (L1 & L2 & F & _).
    split; [apply honest_shape|]. split; [apply clash_free_always|]. apply honest_consistent; [lia|exact Hw|congruence|exact F].
  - intros x Hx. rewrite <- (Hf x Hx). destruct r as [|r']; [|reflexivity]. cbn [honest_tree first_word].
    symmetry. apply (constant_eval HK). exact Hq.
Qed.

Lemma fsum_zero {X} (F : X -> E) l : (forall x, In x l -> F x = 0) -> fsum (map F l) = 0.
Proof using HE.
  induction l as [|x l IH]; intro H; [reflexivity|]. cbn [map]. change (F x + fsum (map F l) = 0). rewrite (H x (or_introl eq_refl)), IH; [ring|].
  intros y Hy. apply H. now right.
Qed.

(** A polynomial minus its value at a point, over the difference of the points. *)
Lemma true_quotient (q : poly E) y x gamma : x <> y ->
  (peval q x - peval q y) * finv (x - y) * gamma = peval (pscale_raw gamma (ruffini q y)) x.
Proof using HE.
  intro H. rewrite (peval_pscale_raw HK), (ruffini_spec HK q y x). field. intro H0. apply H. exact (proj1 (sub_zero HK _ _) H0).
Qed.

Section Shape.
Context {a : air E} {d : domain E} {r b k : nat} {g w : E}.
Local Notation h := (e_u64 E (coset_offset (a_options a))).
Context (A : admissible a r b k) (D : domain_shape d r b h g w).
Local Notation width := (trace_columns (a_context a)).
Local Notation n := (2 ^ r)%nat.
Local Notation S := (on_coset h w).
Context (rap : a_rap a) (polys : list (poly E)) (h1 h2 : poly E).
Context (Hw : length polys = width) (Hpl : Forall (fun p : poly E => (length p <= n + 1)%nat) polys).
Context (Hh1 : (length h1 <= n + 1)%nat) (Hh2 : (length h2 <= n + 1)%nat).

Definition true_opening (x : E) : deep_openings E := mk_deep_openings [] (peval h1 x) (peval h2 x) [] (map (fun q => peval q x) polys).
Definition bare (bco tco : list (E * E)) (z : E) : challenges E a :=
  mk_challenges E a z bco tco (repeat (repeat 0 k) width) 0 0 [] [] rap 0%N.

Lemma bare_deep p bco tco z rows x o : deep_value p (bare bco tco z) g rows x o = 0.
Proof using HE.
  unfold deep_value, bare. cbn [c_z c_trace_term_coeffs c_gamma_even c_gamma_odd]. rewrite fsum_zero; [ring|].
  intros [i l] Hin. apply in_combine_r in Hin. apply repeat_spec in Hin. subst l. cbn [fst snd]. apply fsum_zero.
  intros [i' c'] Hin. apply in_combine_r in Hin. apply repeat_spec in Hin. subst c'. cbn [fst snd]. ring.
Qed.

Lemma scaled_short (q : poly E) (y gamma : E) : (length q <= n + 1)%nat -> (length (pscale_raw gamma (ruffini q y)) <= n)%nat.
Proof using Type. intro H. rewrite pscale_raw_length, ruffini_length. clear -H. lia. Qed.

Theorem passes_convinces bco tco z : ~ S z -> passes_at a d rap polys bco tco h1 h2 z ->
  convinces_at a d r b w rap (fun j => peval (nth j polys [])) bco tco (peval h1) (peval h2) z.
Proof using A D HE HH Hh1 Hh2 Hpl Hw.
  intros Hz (p & c & H2 & Hfr & He & Ho & Hcz & Hcr & Hcb & Hct).
  rewrite (ds_root _ _ _ _ _ _ D) in Hfr.
  pose proof (offset_nonzero HE A D) as Hh. pose proof (ds_Wprim _ _ _ _ _ _ D) as HW.
  exists p, (bare bco tco z), (shifted_rows polys (transition_offsets (a_context a)) g z), true_opening.
  rewrite (ds_offset _ _ _ _ _ _ D), (ds_root _ _ _ _ _ _ D).
  do 4 (split; [reflexivity|]). split; [exact Hz|]. split.
  { rewrite <- H2. unfold step_2. cbn [bare c_rap c_z c_boundary_coeffs c_transition_coeffs]. rewrite Hcz, Hcr, Hcb, Hct. reflexivity. }
  split; [rewrite Hfr; unfold shifted_frame; now rewrite Hw|]. split; [unfold shifted_rows; apply map_length|].
  split. { apply Forall_forall. intros row Hrow. unfold shifted_rows in Hrow. apply in_map_iff in Hrow. destruct Hrow as (o & <- & _). now rewrite map_length. }
  rewrite (ad_offsets _ _ _ _ A), seq_length.
  split; [apply repeat_length|]. split; [apply Forall_forall; intros l Hl; apply repeat_spec in Hl; subst l; apply repeat_length|].
  split.
  { intros x _. split; [|split; reflexivity]. intros j Hj. cbn [true_opening lde_trace_evaluations].
    exact (map_nth (fun q => peval q x) polys [] j). }
  assert (Rows : forall col row, (col < width)%nat -> (row < k)%nat ->
    nth col (nth row (shifted_rows polys (seq 0 k) g z) []) 0 = peval (nth col polys []) (z * fpow g row)).
  { intros col row Hc Hr. unfold shifted_rows.
    rewrite (nth_indep _ [] (map (fun q => peval q (z * fpow g 0)) polys)) by (rewrite map_length, seq_length; exact Hr).
    rewrite (map_nth (fun o => map (fun q => peval q (z * fpow g o)) polys)), seq_nth by exact Hr.
    exact (map_nth (fun q => peval q (z * fpow g row)) polys [] col). }
  assert (G : forall gamma col row, (col < width)%nat -> (row < k)%nat ->
    fri_convinced r b h w (deep_word p (with_trace_coeff col row gamma (bare bco tco z)) g (shifted_rows polys (seq 0 k) g z) true_opening)).
  { intros gamma col row Hc Hr. apply (polynomial_convinces r b h w (pscale_raw gamma (ruffini (nth col polys []) (z * fpow g row))) Hh HW).
    - apply scaled_short. rewrite Forall_forall in Hpl. apply Hpl, nth_In. lia.
    - intros x Hx. unfold deep_word.
      rewrite (deep_value_coeff HE p (bare bco tco z) g _ x (true_opening x) col row gamma (repeat 0 k) 0).
      + rewrite bare_deep, Rows by assumption. cbn [true_opening lde_trace_evaluations bare c_z].
        replace (nth col (map (fun q => peval q x) polys) 0) with (peval (nth col polys []) x) by (symmetry; exact (map_nth (fun q => peval q x) polys [] col)).
        rewrite <- (true_quotient (nth col polys []) (z * fpow g row) x gamma) by (now apply (not_shifted HE D z row Hz x)). ring.
      + cbn [bare c_trace_term_coeffs]. now apply nth_error_repeat.
      + now apply nth_error_repeat.
      + rewrite Hfr. cbn. unfold fr_num_columns. cbn. lia.
      + unfold shifted_rows. now rewrite map_length, seq_length. }
  pose proof (one_neq_zero HK) as H10.
  split; [intros col row Hc Hr; exists 1, 0; split; [exact H10|]; split; now apply G|].
  assert (G1 : forall gamma, fri_convinced r b h w (deep_word p (with_gammas gamma 0 (bare bco tco z)) g (shifted_rows polys (seq 0 k) g z) true_opening)).
  { intro gamma. apply (polynomial_convinces r b h w (pscale_raw gamma (ruffini h1 (z * z))) Hh HW (scaled_short _ _ _ Hh1)).
    intros x Hx. unfold deep_word. pose proof (proj1 (deep_value_gammas HE p (bare bco tco z) g (shifted_rows polys (seq 0 k) g z) x (true_opening x) gamma 0 0)) as Q.
    change (with_gammas 0 0 (bare bco tco z)) with (bare bco tco z) in Q. rewrite bare_deep in Q.
    cbn [true_opening lde_composition_poly_even_evaluation] in Q. change (c_z E a (bare bco tco z)) with z in Q. rewrite He in Q.
    rewrite <- (true_quotient h1 (z * z) x gamma) by (now apply (not_square HE A D z x)).
    transitivity (deep_value p (with_gammas gamma 0 (bare bco tco z)) g (shifted_rows polys (seq 0 k) g z) x (true_opening x) - 0); [rewrite Q; ring|ring]. }
  assert (G2 : forall gamma, fri_convinced r b h w (deep_word p (with_gammas 0 gamma (bare bco tco z)) g (shifted_rows polys (seq 0 k) g z) true_opening)).
  { intro gamma. apply (polynomial_convinces r b h w (pscale_raw gamma (ruffini h2 (z * z))) Hh HW (scaled_short _ _ _ Hh2)).
    intros x Hx. unfold deep_word. pose proof (proj2 (deep_value_gammas HE p (bare bco tco z) g (shifted_rows polys (seq 0 k) g z) x (true_opening x) gamma 0 0)) as Q.
    change (with_gammas 0 0 (bare bco tco z)) with (bare bco tco z) in Q. rewrite bare_deep in Q.
    cbn [true_opening lde_composition_poly_odd_evaluation] in Q. change (c_z E a (bare bco tco z)) with z in Q. rewrite Ho in Q.
    rewrite <- (true_quotient h2 (z * z) x gamma) by (now apply (not_square HE A D z x)).
    transitivity (deep_value p (with_gammas 0 gamma (bare bco tco z)) g (shifted_rows polys (seq 0 k) g z) x (true_opening x) - 0); [rewrite Q; ring|ring]. }
  split; exists 1, 0, 0; (split; [exact H10|split]); auto.
Qed.
End Shape.
End Complete.
