(** A prover that ignores what it commits to: it states zeros, computes the value of the composition polynomial that the verifier expects, and
    folds the polynomial that agrees with the DEEP composition on the positions it hopes for. *)
From Coq Require Import List Arith Lia Bool NArith.
From Verif.Base Require Import Outcome Bytes Field Poly.
From Verif.Model Require Import Codec Trace Merkle Air Domain Fri Verifier.
From Verif.Spec Require Import AirSpec CairoColumns ProvingSpec VerifierSpec LowDegree FriTree OodSpec StarkTree Proximity Rounds Game.
From Verif.Proofs Require Import OutcomeFacts FieldFacts PolyFacts FFTFacts TraceFacts FriFacts DomainFacts ComposeFacts Completeness OodFacts
  FriComplete HonestRound CountFacts TapeFacts.
Import ListNotations.
Local Open Scope felt_scope.
Local Open Scope outcome_scope.

Section Folding.
Context {E : env} (HE : env_ok E).
Let HF : fft_ok E := e_fft_ok E HE.
Let HK : field_ok E := fft_field_ok E HF.

Lemma layer_words_fold zs : forall (q : poly E) x, (length q <= 2 ^ length zs)%nat -> x <> 0 ->
  folds_at (layer_words q zs) zs (nth 0 (fold_left fold_polynomial zs q) 0) x.
Proof using HE.
  induction zs as [|z zs IH]; intros q x Hq Hx; [exact I|]. cbn [layer_words folds_at fold_left length Nat.pow] in *.
  assert (Hl : (length (fold_polynomial q z) <= 2 ^ length zs)%nat) by (apply fold_length; lia).
  assert (Hx2 : x * x <> 0) by (intro H; apply (mul_zero HK) in H; tauto).
  split; [|apply IH; assumption]. unfold fold_value. rewrite <- (fold_identity' HK q z x (two_neq E HE) Hx).
  destruct zs as [|z' zs]; cbn [layer_words fold_left]; [|reflexivity]. apply (constant_eval HK). exact Hl.
Qed.
Lemma layer_words_nth zs : forall (q : poly E), layer_words q zs = map (fun l => peval (fold_left fold_polynomial (firstn l zs) q)) (seq 0 (length zs)).
Proof using Type.
  induction zs as [|z zs IH]; intro q; [reflexivity|]. cbn [layer_words length seq map firstn fold_left]. f_equal.
  rewrite IH, <- seq_shift, map_map. reflexivity.
Qed.
End Folding.

Section Gamble.
Context {E : env} (HE : env_ok E) (a : air E) (kr nb r b : nat) (pick : list E -> a_rap a) (d : domain E) (w : E) (e : nat).
Let HF : fft_ok E := e_fft_ok E HE.
Let HK : field_ok E := fft_field_ok E HF.
Add Field Kfield74 : (fld_th E HK).
Local Notation nt := (num_transition_constraints (a_context a)).
Local Notation width := (trace_columns (a_context a)).
Local Notation offsets := (transition_offsets (a_context a)).
Local Notation k := (length (transition_offsets (a_context a))).
Local Notation n := (2 ^ r)%nat.
Local Notation g := (trace_primitive_root d).
Local Notation h := (d_coset_offset d).
Local Notation Z := (at_point a kr nb).
Local Notation F := (at_folding a kr nb).
Local Notation len := (tape_length a kr nb r).
Local Notation rap := (tape_rap a kr pick).
Local Notation bco := (tape_boundary kr nb).
Local Notation tco := (tape_transition a kr nb).
Context (PL : playable a nb r b e d w).
Context (cols : list E -> nat -> E -> E) (even odd : list E -> E -> E).

Definition zeros : list (poly E) := repeat [] width.
Definition gamble_rows (u : list E) : list (list E) := shifted_rows zeros offsets g (nth Z u 0).

(** What the verifier expects of the stated values of the composition polynomial. *)
Definition expected_value (rap : a_rap a) (fr : frame E) (z : E) (bs ts : list (E * E)) : outcome E :=
  bcs <- a_boundary a rap;;
  adj <- usub (a_degree_bound a) (a_trace_length a);;
  b <- boundary_ood E bcs fr g z adj bs;;
  evals <- a_transition a fr rap;;
  last_root <- unwrap (hd_error (rev (trace_roots_of_unity d)));;
  t <- transition_ood E a evals z last_root ts;;
  Ok (b + t).

Lemma step_2_expected p (c : challenges E a) v :
  expected_value (c_rap E a c) (trace_ood_frame_evaluations p) (c_z E a c) (c_boundary_coeffs E a c) (c_transition_coeffs E a c) = Ok v ->
  composition_poly_even_ood_evaluation p + c_z E a c * composition_poly_odd_ood_evaluation p = v -> step_2 E a p d c = Ok true.
Proof using HE.
  unfold expected_value, step_2. intros H Hv.
  destruct (a_boundary a (c_rap E a c)) as [bcs| |]; cbn [obind] in *; try discriminate.
  destruct (usub _ _) as [adj| |]; cbn [obind] in *; try discriminate.
  destruct (boundary_ood _ _ _ _ _ _ _) as [x| |]; cbn [obind] in *; try discriminate.
  destruct (a_transition _ _ _) as [evals| |]; cbn [obind] in *; try discriminate.
  destruct (unwrap _) as [lr| |]; cbn [obind] in *; try discriminate.
  destruct (transition_ood _ _ _ _ _ _) as [y| |]; cbn [obind] in *; try discriminate.
  apply ok_inj in H. f_equal. apply (feqb_spec E HK). now rewrite Hv, H.
Qed.

Lemma zeros_length : length zeros = width. Proof using Type. apply repeat_length. Qed.
Lemma expected_exists rp z bs ts bcs : a_boundary a rp = Ok bcs -> fpow z n - 1 <> 0 ->
  exists v, expected_value rp (mk_frame (concat (shifted_rows zeros offsets g z)) width) z bs ts = Ok v.
Proof using HE PL.
  destruct PL as [A P Hd Hroot _ _ Hbd _]. intros Hb Hz.
  destruct (domain_new_shape HE a d r b Hd (ad_n _ _ _ _ A) (ad_blowup _ _ _ _ A) (ad_r _ _ _ _ A)) as (g' & W & D).
  destruct (ad_poly _ _ _ _ A g' (ds_g _ _ _ _ _ _ D) rp zeros zeros_length) as (cs & Hcs & Hdeg).
  { apply Forall_forall. intros p Hp. apply repeat_spec in Hp. subst p. cbn. lia. }
  pose proof (ad_n _ _ _ _ A) as Hn. pose proof (ad_blowup _ _ _ _ A) as Hbl. pose proof (ad_b _ _ _ _ A) as Hb1.
  unfold expected_value. rewrite Hb. cbn [obind]. rewrite usub_ok by (rewrite Hn; exact (pk_bound _ _ _ P)). cbn [obind].
  rewrite <- zeros_length. change (mk_frame (concat (shifted_rows zeros offsets g z)) (length zeros)) with (shifted_frame zeros offsets g z).
  rewrite Hn, (ds_root _ _ _ _ _ _ D).
  rewrite (boundary_ood_val HE D Hn Hbl Hb1).
  2:{ rewrite (ad_offsets _ _ _ _ A). pose proof (ad_k _ _ _ _ A) as H0. clear -H0. destruct k; [lia|reflexivity]. }
  2:{ intros bc Hin. rewrite zeros_length. exact (proj2 (proj2 (Hbd rp bcs Hb) bc Hin)). }
  2: exact Hz.
  cbn [obind]. rewrite Hcs. cbn [obind].
  assert (Hlast : hd_error (rev (trace_roots_of_unity d)) = Some (fpow g' (n - 1))).
  { assert (Pn := pow2_pos r). rewrite (ds_trace _ _ _ _ _ _ D). replace n with (S (n - 1)) at 1 by lia.
    rewrite seq_S, map_app, rev_app_distr. cbn [map rev app hd_error Nat.add]. f_equal. ring. }
  rewrite Hlast. cbn [unwrap obind].
  destruct (list_max_o (transition_degrees (a_context a))) as [mx|] eqn:Hmx.
  2:{ exfalso. pose proof (pk_deg_ne _ _ _ P) as Hne. destruct (transition_degrees (a_context a)); [congruence|discriminate]. }
  rewrite (transition_ood_val HE D Hn Hbl Hb1 cs ts z mx (ad_ex_le _ _ _ _ A) (ad_ex_ne _ _ _ _ A) Hmx); [| | |exact Hz].
  - eexists. reflexivity.
  - intros k0 Hk0. pose proof (proj2 (pk_deg _ _ _ P mx (list_max_mem _ _ Hmx))) as Q. assert (n * k0 <= n * (mx - 1))%nat by (apply Nat.mul_le_mono_l; lia). lia.
  - intros c ex deg ab Hin. apply in_combine_l in Hin. apply in_combine_r in Hin. exact (proj1 (pk_deg _ _ _ P deg Hin)).
Qed.

Definition gamble_value (u : list E) : E :=
  match expected_value (rap u) (mk_frame (concat (gamble_rows u)) width) (nth Z u 0) (bco u) (tco u) with Ok v => v | _ => 0 end.
(** The DEEP composition of the words behind the commitments, for the values stated. *)
Definition gamble_deep (u : list E) : E -> E :=
  deep_word (mk_stark_proof 0 [] (mk_frame (concat (gamble_rows u)) width) [] (gamble_value (firstn (Z + 1) u)) 0 [] 0 [] [] 0%N)
    (tape_challenges a kr nb 0 pick u []) g (gamble_rows (firstn (Z + 1) u))
    (opened width (cols (firstn kr u)) (even (firstn Z u)) (odd (firstn Z u))).
Definition gamble_poly (u : list E) : poly E :=
  match interpolate_offset_fft (map (fun j => gamble_deep u (h * fpow g j)) (seq 0 n)) h with Ok p => p | _ => [] end.

Definition gamble : strategy := mk_strategy cols even odd gamble_value (fun _ => 0) gamble_rows
  (fun l u => peval (fold_left fold_polynomial (skipn F u) (gamble_poly (firstn F u))))
  (fun t => nth 0 (fold_left fold_polynomial (skipn F t) (gamble_poly (firstn F t))) 0).

Lemma gamble_formed : well_formed a gamble.
Proof using Type.
  intro u. cbn [s_frame gamble]. unfold gamble_rows, shifted_rows. split; [apply map_length|].
  apply Forall_forall. intros row Hin. apply in_map_iff in Hin. destruct Hin as (o & <- & _). rewrite map_length. apply zeros_length.
Qed.

Lemma firstn_part {A} (t : list A) o l m : (o + l <= m)%nat -> part o l (firstn m t) = part o l t.
Proof using Type. intros H. unfold part. rewrite skipn_firstn_comm, firstn_firstn. f_equal. lia. Qed.

Theorem gamble_wins t v : length t = len -> (exists bcs, a_boundary a (rap t) = Ok bcs) -> fpow (nth Z t 0) n - 1 <> 0 ->
  (forall i, In i v -> exists j, (j < n)%nat /\ i = (2 ^ b * j)%nat) -> wins a kr nb r pick gamble d w t v.
Proof using HE PL.
  intros Ht [bcs Hb] Hz Hv. pose proof PL as PL0. destruct PL0 as [A P Hd Hroot _ _ Hbd _].
  destruct (domain_new_shape HE a d r b Hd (ad_n _ _ _ _ A) (ad_blowup _ _ _ _ A) (ad_r _ _ _ _ A)) as (g' & W & D).
  assert (EW : W = w) by (pose proof (ds_W _ _ _ _ _ _ D) as Q; rewrite Hroot in Q; now injection Q). subst W.
  assert (Eg : g = g') by exact (ds_root _ _ _ _ _ _ D). subst g'.
  assert (Ht' : (Z + 1 <= length t)%nat) by (rewrite Ht; unfold tape_length, at_folding, at_terms; lia).
  assert (Q1 : nth Z (firstn (Z + 1) t) 0 = nth Z t 0) by (apply nth_firstn_in; lia).
  assert (Qr : rap (firstn (Z + 1) t) = rap t) by (unfold tape_rap; rewrite firstn_part; [reflexivity|unfold at_point; lia]).
  assert (Qb : bco (firstn (Z + 1) t) = bco t) by (unfold tape_boundary; rewrite !firstn_part; [reflexivity| |]; unfold at_point, at_boundary; lia).
  assert (Qt : tco (firstn (Z + 1) t) = tco t) by (unfold tape_transition; rewrite !firstn_part; [reflexivity| |]; unfold at_point, at_transition; lia).
  split.
  - destruct (expected_exists (rap t) (nth Z t 0) (bco t) (tco t) bcs Hb Hz) as [x Hx].
    assert (Hg : gamble_rows (firstn (Z + 1) t) = shifted_rows zeros offsets g (nth Z t 0)) by (unfold gamble_rows; now rewrite Q1).
    apply (step_2_expected _ _ x).
    + cbn [tape_challenges c_rap c_z c_boundary_coeffs c_transition_coeffs play_proof trace_ood_frame_evaluations].
      unfold play_frame. cbn [gamble s_frame]. rewrite Hg. exact Hx.
    + cbn [play_proof composition_poly_even_ood_evaluation composition_poly_odd_ood_evaluation gamble s_even_value s_odd_value].
      unfold gamble_value. rewrite Hg, Q1, Qr, Qb, Qt, Hx. ring.
  - intros i Hi. destruct (Hv i Hi) as (j & Hj & ->).
    assert (Hr : (1 <= r)%nat) by exact (ad_r _ _ _ _ A).
    set (evals := map (fun j => gamble_deep (firstn F t) (h * fpow g j)) (seq 0 n)).
    assert (Hle : length evals = n) by (unfold evals; now rewrite map_length, seq_length).
    assert (Hh : h <> 0) by (rewrite (ds_offset _ _ _ _ _ _ D); exact (h_nonzero HE A D)).
    destruct (interpolate_offset_ok HF evals h r g Hle Hr Hh (ds_g _ _ _ _ _ _ D)) as (q & Hq & Hql & Hqe & _).
    assert (Eq : gamble_poly (firstn F t) = q) by (unfold gamble_poly; fold evals; now rewrite Hq).
    set (zs := part F r t). assert (Hzs : length zs = r) by (apply part_length; rewrite Ht; unfold tape_length; lia).
    assert (Esk : skipn F t = zs).
    { unfold zs, part. symmetry. apply firstn_all2. rewrite skipn_length, Ht. unfold tape_length. lia. }
    assert (Ew : play_words a kr nb r gamble t = layer_words q zs).
    { rewrite layer_words_nth, Hzs. unfold play_words. apply map_ext. intro l. cbn [gamble s_layer].
      rewrite firstn_firstn, skipn_firstn_comm, Esk. replace (Nat.min F (F + l)) with F by lia. replace (F + l - F)%nat with l by lia. now rewrite Eq. }
    assert (Hx : h * fpow w (2 ^ b * j) = h * fpow g j) by (rewrite (fpow_mul HK), (ds_gW _ _ _ _ _ _ D); reflexivity).
    rewrite Hx. assert (Hx0 : h * fpow g j <> 0).
    { intro H0. apply (mul_zero HK) in H0. destruct H0 as [H0|H0]; [exact (Hh H0)|]. revert H0. apply (fpow_nonzero HK).
      apply (prim_nonzero HK g n (pow2_pos r)). exact (ds_gprim _ _ _ _ _ _ D). }
    unfold consistent_at. rewrite Ew. cbn [tape_challenges c_zetas play_proof fri_last_value]. fold zs. split.
    + cbn [gamble s_last]. rewrite Esk, Eq. apply (layer_words_fold HE); [rewrite Hzs, <- Hle; exact Hql|exact Hx0].
    + destruct zs as [|z0 zs']; [cbn in Hzs; lia|]. cbn [layer_words]. rewrite Hqe by lia.
      unfold evals. rewrite (nth_indep _ 0 (gamble_deep (firstn F t) (h * fpow g 0))) by (rewrite map_length, seq_length; exact Hj).
      rewrite (map_nth (fun j => gamble_deep (firstn F t) (h * fpow g j))), seq_nth by exact Hj. cbn [Nat.add].
      unfold gamble_deep. rewrite !firstn_firstn.
      assert (HF1 : (Z + 3 <= F)%nat) by (unfold at_folding, at_terms; lia). assert (HF2 : (kr <= Z)%nat) by (unfold at_point; lia).
      replace (Nat.min (Z + 1) F) with (Z + 1)%nat by lia. replace (Nat.min kr F) with kr by lia. replace (Nat.min Z F) with Z by lia.
      unfold play_frame, play_columns, play_even, play_odd. cbn [gamble s_frame s_columns s_even s_odd].
      apply deep_ext; cbn [trace_ood_frame_evaluations fr_num_columns composition_poly_even_ood_evaluation composition_poly_odd_ood_evaluation play_proof gamble s_even_value s_odd_value
        tape_challenges c_z c_trace_term_coeffs c_gamma_even c_gamma_odd]; try reflexivity; try (apply nth_firstn_in; lia).
      unfold tape_terms. apply map_ext_in. intros col Hc. apply in_seq in Hc. apply firstn_part. unfold at_folding.
      pose proof (Nat.mul_le_mono_r (col + 1) width k ltac:(lia)). lia.
Qed.
End Gamble.
