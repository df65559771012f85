(** The verifier does not panic on well-shaped proofs, and the forger succeeds. *)
From Coq Require Import List Arith NArith Bool Lia.
From Verif.Base Require Import Outcome Bytes Field Poly.
From Verif.Model Require Import Codec Trace Merkle Air Transcript Domain Prover Verifier.
From Verif.Spec Require Import AirSpec VerifierSpec Forgery.
From Verif.Proofs Require Import OutcomeFacts FieldFacts PolyFacts FFTFacts DomainFacts MerkleFacts TraceFacts TranscriptFacts FriFacts ComposeFacts VerifierFacts.
Import ListNotations.
Local Open Scope felt_scope.

(** ** Total loops *)

Lemma traverse_total {A B} (f : A -> outcome B) l : (forall x, In x l -> exists y, f x = Ok y) -> exists r, traverse f l = Ok r.
Proof.
  induction l as [|x l IH]; intros H; cbn [traverse]; [eauto|].
  destruct (H x (or_introl eq_refl)) as [y ->]. destruct IH as [ys ->]; [intros; apply H; now right|]. cbn. eauto.
Qed.

Lemma ofold_total {A B} (f : B -> A -> outcome B) l : (forall b x, In x l -> exists y, f b x = Ok y) -> forall b, exists r, ofold f l b = Ok r.
Proof.
  induction l as [|x l IH]; intros H b; cbn [ofold]; [eauto|].
  destruct (H b x (or_introl eq_refl)) as [y ->]. cbn [obind]. apply IH. intros; apply H; now right.
Qed.

Lemma usub_total a b : (b <= a)%nat -> usub a b = Ok (a - b)%nat.
Proof. unfold usub. destruct (Nat.ltb_spec a b); [lia|reflexivity]. Qed.

Lemma slice_total {A} (l : list A) i j : (i <= j)%nat -> (j <= length l)%nat -> exists r, slice l i j = Ok r.
Proof. intros H1 H2. unfold slice. destruct (Nat.ltb_spec j i); [lia|]. destruct (Nat.ltb_spec (length l) j); [lia|]. cbn. eauto. Qed.

Lemma list_max_le_in l x : In x l -> (x <= list_max l)%nat.
Proof. induction l as [|y l IH]; [intros []|]. cbn [list_max fold_right]. fold (list_max l). intros [->|H]; [lia|]. specialize (IH H). lia. Qed.

Lemma list_max_in l : l <> [] -> In (list_max l) l.
Proof.
  induction l as [|y l IH]; [congruence|]. intros _. cbn [list_max fold_right]. fold (list_max l).
  destruct l as [|y' l]; [left; cbn; lia|]. specialize (IH ltac:(discriminate)).
  destruct (Nat.max_spec y (list_max (y' :: l))) as [[_ ->]|[_ ->]]; [now right|now left].
Qed.

Lemma idx_total {A} (l : list A) i : (i < length l)%nat -> exists x, idx l i = Ok x.
Proof. intros H. destruct (nth_error l i) as [x|] eqn:Hx; [exists x; unfold idx; now rewrite Hx|apply nth_error_None in Hx; lia]. Qed.

Section Sampling.
Context {E : env} (HS : sampling_ok E).
Notation T := (e_tr E).

Lemma field_total (t : T) : exists x t', transcript_to_field E t = Ok (x, t').
Proof using HS.
  unfold transcript_to_field. pose proof (so_challenge E HS t) as Hl. destruct (tr_challenge t) as [rnd t'] eqn:Et. cbn [fst] in Hl.
  pose proof (so_bits E HS). destruct (mask_spec (e_bits E) rnd) as (m & Hm & Hml & Hv); [lia|lia|].
  destruct (so_decode E HS m) as [x Hx]; [lia|rewrite Hv; apply N.mod_lt, N.pow_nonzero; lia|].
  exists x, t'. unfold randomness_to_field. rewrite Hm. cbn [obind]. now rewrite Hx.
Qed.

Lemma batch_total n : forall t : T, exists xs t', batch_sample_challenges E n t = Ok (xs, t').
Proof using HS.
  induction n as [|n IH]; intro t; cbn [batch_sample_challenges]; [eauto|].
  destruct (field_total t) as (x & t1 & ->). cbn [obind]. destruct (IH t1) as (xs & t2 & ->). cbn. eauto.
Qed.

Lemma rows_total n len : forall t : T, exists xs t', sample_rows E n len t = Ok (xs, t').
Proof using HS.
  induction n as [|n IH]; intro t; cbn [sample_rows]; [eauto|].
  destruct (batch_total len t) as (x & t1 & ->). cbn [obind]. destruct (IH t1) as (xs & t2 & ->). cbn. eauto.
Qed.

Lemma zetas_total roots : forall t : T, exists xs t', sample_zetas E roots t = Ok (xs, t').
Proof using HS.
  induction roots as [|x roots IH]; intro t; cbn [sample_zetas]; [eauto|].
  destruct (field_total (tr_append t x)) as (y & t1 & ->). cbn [obind]. destruct (IH t1) as (ys & t2 & ->). cbn. eauto.
Qed.

Lemma indices_total n m : (0 < m)%nat -> forall t : T, exists is t', sample_indices E n m t = Ok (is, t').
Proof using HS.
  intros Hm. induction n as [|n IH]; intro t; cbn [sample_indices]; [eauto|].
  unfold transcript_to_usize. pose proof (so_challenge E HS t) as Hl. destruct (tr_challenge t) as [rnd t1]. cbn [fst] in Hl.
  destruct (slice_total rnd 0 8) as [bs ->]; [lia|lia|]. cbn [obind].
  destruct (Nat.eqb_spec m 0); [lia|]. cbn [obind]. destruct (IH t1) as (xs & t2 & ->). cbn. eauto.
Qed.

Lemma grind_total ch v : exists z, grind_zeros E ch v = Ok z.
Proof using HS.
  unfold grind_zeros. destruct (slice_total (e_keccak E (ch ++ le_bytes 8 v)) 0 8) as [bs ->]; [lia|apply (so_keccak E HS)|]. cbn. eauto.
Qed.
End Sampling.

Section Frames.
Context {A : Type} (data : list A) (rows width : nat) (Hw : (0 < width)%nat) (Hl : length data = (rows * width)%nat).
Let fr := mk_frame data width.

Lemma frame_rows : fr_num_rows fr = Ok rows.
Proof using Hl Hw. unfold fr_num_rows, fr. cbn [fr_row_width fr_data]. destruct (Nat.eqb_spec width 0); [lia|]. rewrite Hl, Nat.div_mul by lia. reflexivity. Qed.

Lemma frame_row i : (i < rows)%nat -> exists row, fr_get_row fr i = Ok row /\ length row = width.
Proof using Hl.
  clear Hw. intros Hi. unfold fr_get_row, fr. cbn [fr_row_width fr_data].
  destruct (slice_total data (i * width) (i * width + width)) as [row Hr]; [lia|rewrite Hl; nia|].
  exists row. split; [exact Hr|]. apply slice_ok in Hr. destruct Hr as (_ & _ & ->).
  rewrite firstn_length, skipn_length, Hl. nia.
Qed.
End Frames.

Section Total.
Context {E : env} (HE : env_ok E) (HS : sampling_ok E).
Let HF := e_fft_ok E HE.
Let HK := fft_field_ok E HF.
Add Field Kfield22 : (fld_th E HK).
Context {a : air E} {r b rows width : nat} {root : commitment} (HA : statement_ok E a r b rows width root).

Lemma boundary_ood_total bcs data (g z : E) adj coeffs : length data = (rows * width)%nat ->
  (bcs <> [] -> 1 <= rows)%nat -> (forall bc, In bc bcs -> (bc_col bc < width)%nat) ->
  (forall k, z <> fpow g k) ->
  exists v, boundary_ood E bcs (mk_frame data width) g z adj coeffs = Ok v.
Proof using HE HF HK.
  intros Hl Hne Hcol Hz. unfold boundary_ood.
  match goal with |- context [traverse ?f bcs] => destruct (traverse_total f bcs) as [nums Hn] end.
  { intros bc Hin. destruct bcs as [|bc0 bcs]; [destruct Hin|]. specialize (Hne ltac:(discriminate)).
    destruct (frame_row data rows width Hl 0) as (row & -> & Hrl); [lia|]. cbn [obind].
    rewrite (idx_nth row (bc_col bc) 0) by (rewrite Hrl; now apply Hcol). cbn. eauto. }
  rewrite Hn. cbn [obind]. rewrite (batch_inverse_ok HK); [cbn; eauto|].
  intros x Hx. apply in_map_iff in Hx. destruct Hx as (bc & <- & _). intro H0. apply (proj1 (sub_zero HK _ _)) in H0. now apply (Hz (bc_step bc)).
Qed.

Lemma transition_ood_total evals (z lr : E) coeffs : fpow z (2 ^ r) - 1 <> 0 -> exists v, transition_ood E a evals z lr coeffs = Ok v.
Proof using All.
  intros Hz. unfold transition_ood. rewrite (st_n _ _ _ _ _ _ _ HA).
  assert (Hinv : inv_o (fpow z (2 ^ r) - 1) = Ok (finv (fpow z (2 ^ r) - 1))) by (apply (inv_o_ok HK); auto).
  rewrite Hinv. cbn [obind]. unfold transition_exemptions_verifier.
  pose proof (st_ex_ne _ _ _ _ _ _ _ HA) as Hne. pose proof (st_deg_ne _ _ _ _ _ _ _ HA) as Hde.
  pose proof (st_deg _ _ _ _ _ _ _ HA) as Hdeg.
  assert (Hmx : forall e, In e (transition_exemptions (a_context a)) -> (e <= list_max (transition_exemptions (a_context a)))%nat) by (intros; now apply list_max_le_in).
  assert (Hdx : forall e, In e (transition_degrees (a_context a)) -> (e <= list_max (transition_degrees (a_context a)))%nat) by (intros; now apply list_max_le_in).
  assert (Hdm : In (list_max (transition_degrees (a_context a))) (transition_degrees (a_context a))) by now apply list_max_in.
  destruct (transition_exemptions (a_context a)) as [|e0 es] eqn:Ees; [congruence|]. rewrite <- Ees in *.
  assert (Ho : list_max_o (transition_exemptions (a_context a)) = Some (list_max (transition_exemptions (a_context a)))) by (rewrite Ees; reflexivity).
  rewrite Ho. cbn [unwrap obind].
  destruct (transition_degrees (a_context a)) as [|d0 ds] eqn:Eds; [congruence|]. rewrite <- Eds in *.
  assert (Hod : list_max_o (transition_degrees (a_context a)) = Some (list_max (transition_degrees (a_context a)))) by (rewrite Eds; reflexivity).
  rewrite Hod. cbn [unwrap obind].
  match goal with |- context [traverse ?f ?l] => destruct (traverse_total f l) as [dadj Hd] end.
  { intros k Hk. apply in_seq in Hk. rewrite usub_total; [cbn; eauto|].
    destruct (Hdeg _ Hdm) as [_ Hb]. eapply Nat.le_trans; [|exact Hb]. apply Nat.mul_le_mono_l. lia. }
  rewrite Hd. cbn [obind]. apply traverse_length in Hd. rewrite seq_length in Hd.
  apply ofold_total. intros acc [[[ev deg] ex] [al be]] Hin.
  apply in_combine_l in Hin. pose proof (in_combine_r _ _ _ _ Hin) as Hex. apply in_combine_l in Hin. apply in_combine_r in Hin.
  destruct (Hdeg _ Hin) as [H1 _]. specialize (Hdx _ Hin). specialize (Hmx _ Hex).
  assert (Hx : exists v : E, match ex with O => Ok 1 | S i => idx (map (fun p => peval p z)
     (map (fun index => fold_left (fun acc k => pmul acc (x_minus (fpow lr k))) (seq 1 index) (monomial 1 0)) (seq 1 (list_max (transition_exemptions (a_context a)))))) i end = Ok v).
  { destruct ex as [|i]; [eauto|]. rewrite (idx_nth _ _ 0); [eauto|]. rewrite !map_length, seq_length. lia. }
  destruct Hx as [v Hv]. rewrite Hv. cbn [obind]. rewrite usub_total by lia. cbn [obind]. rewrite (idx_nth _ _ 0) by lia. cbn. eauto.
Qed.

Context {d : domain E} {h g W : E} (D : domain_shape d r b h g W).
Context (Hh : h = e_u64 E (coset_offset (a_options a))).

Lemma total_h : h <> 0.
Proof using All. intro H. apply (st_coset _ _ _ _ _ _ _ HA 0 W O (ds_W _ _ _ _ _ _ D)). rewrite <- Hh, H. ring. Qed.

Lemma lde_nth i : (i < 2 ^ (r + b))%nat -> idx (lde_roots_of_unity_coset d) i = Ok (fpow W i * h).
Proof using All.
  intros Hi. rewrite (idx_nth _ _ 0) by (rewrite (shape_lde_length HE D); exact Hi). f_equal.
  rewrite (ds_lde _ _ _ _ _ _ D), nth_map_seq by exact Hi. reflexivity.
Qed.

Lemma z_off_trace z : ~ In z (trace_roots_of_unity d) -> (forall k, z <> fpow g k) /\ fpow z (2 ^ r) - 1 <> 0.
Proof using All.
  intros Hz. split.
  - intros k ->. apply Hz. apply (shape_trace_in HE D).
  - rewrite <- (vanish_coset HK g (2 ^ r) z (pow2_pos r) (ds_gprim _ _ _ _ _ _ D)).
    intro H0. apply (vanish_zero HK) in H0. rewrite (shape_trace_coset HE D) in Hz. contradiction.
Qed.

Lemma step_2_total (p : stark_proof E) (c : challenges E a) :
  fr_row_width (trace_ood_frame_evaluations p) = width -> length (fr_data (trace_ood_frame_evaluations p)) = (rows * width)%nat ->
  ~ In (c_z E a c) (trace_roots_of_unity d) -> forall t, a_build_rap a (tr_append tr_new root) = Ok (c_rap E a c, t) -> exists v, step_2 E a p d c = Ok v.
Proof using All.
  intros Hw Hl Hz t Hrap. destruct (z_off_trace _ Hz) as [Hz1 Hz2]. unfold step_2.
  assert (Hfr : trace_ood_frame_evaluations p = mk_frame (fr_data (trace_ood_frame_evaluations p)) width) by (destruct (trace_ood_frame_evaluations p); cbn in *; now subst).
  destruct (st_boundary _ _ _ _ _ _ _ HA (c_rap E a c) _ Hrap) as (bcs & -> & Hne & Hcol). cbn [obind].
  rewrite usub_total by (rewrite (st_n _ _ _ _ _ _ _ HA); apply (st_bound _ _ _ _ _ _ _ HA)). cbn [obind].
  rewrite (ds_root _ _ _ _ _ _ D). rewrite Hfr.
  match goal with |- context [boundary_ood E bcs _ g ?z ?adj ?co] => destruct (boundary_ood_total bcs _ g z adj co Hl Hne Hcol Hz1) as [bv ->] end. cbn [obind].
  destruct (st_transition _ _ _ _ _ _ _ HA (c_rap E a c) _ Hl) as [evals ->]. cbn [obind].
  rewrite (last_trace_root HE D (st_n _ _ _ _ _ _ _ HA)). cbn [unwrap obind].
  match goal with |- context [transition_ood E a ?e ?z ?l ?co] => destruct (transition_ood_total e z l co Hz2) as [tv ->] end. cbn. eauto.
Qed.

Lemma step_3_total (p : stark_proof E) (c : challenges E a) :
  length (c_zetas E a c) = length (fri_layers_merkle_roots p) ->
  (forall i, In i (c_iotas E a c) -> (i < 2 ^ (r + b))%nat) ->
  (length (fri_layers_merkle_roots p) <= r + b)%nat ->
  (forall q, In q (query_list p) -> layers_evaluations q <> []) ->
  exists v, step_3 E a p d c = Ok v.
Proof using All.
  intros Hzl Hio Hlay Hq. unfold step_3. rewrite (e_two E HE).
  assert (H2 : inv_o (1 + 1 : E) = Ok (finv (1 + 1))) by (apply (inv_o_ok HK); split; [exact (two_neq E HE)|reflexivity]).
  rewrite H2. cbn [obind].
  destruct (traverse_total (idx (lde_roots_of_unity_coset d)) (c_iotas E a c)) as [pts Hp].
  { intros i Hi. rewrite lde_nth by now apply Hio. eauto. }
  rewrite Hp. cbn [obind]. rewrite (batch_inverse_ok HK).
  2:{ intros x Hx. apply In_nth_error in Hx. destruct Hx as [j Hj].
      pose proof (traverse_length _ _ _ Hp) as Hl. assert (Hjl : (j < length (c_iotas E a c))%nat) by (rewrite <- Hl; apply nth_error_Some; now rewrite Hj).
      pose proof (traverse_nth _ _ _ j 0%nat 0 Hp Hjl) as Hn. apply nth_error_nth with (d := 0) in Hj. rewrite Hj in Hn.
      rewrite lde_nth in Hn by (apply Hio, nth_In; exact Hjl). apply ok_inj in Hn. rewrite <- Hn.
      apply (mul_nonzero HK); [apply (fpow_nonzero HK), (shape_W_nonzero HE D)|exact total_h]. }
  cbn [obind]. apply ofold_total. intros acc [[q iota] xinv] Hin.
  apply in_combine_l, in_combine_l in Hin. specialize (Hq q Hin).
  assert (Hv : exists v, verify_query E p (c_zetas E a c) iota q d xinv (finv (1 + 1)) = Ok v).
  { rewrite verify_query_eq. destruct (layers_evaluations q) as [|v0 evs] eqn:Eev; [congruence|]. rewrite <- Eev in *.
    assert (Hlen : (1 <= length (layers_evaluations q))%nat) by (rewrite Eev; cbn; lia).
    rewrite (idx_nth _ _ 0) by lia. cbn [obind].
    match goal with |- context [ofold ?f ?l ?x] => destruct (ofold_total f l) with (b := x) as [st Hst] end.
    - intros [v res] [[[[[[k kroot] ap] ev] aps] es] xi] Hk. unfold vq_list in Hk. repeat apply in_combine_l in Hk. apply in_seq in Hk.
      unfold vq_step. rewrite (ds_lde_order _ _ _ _ _ _ D), usub_total by lia. cbn [obind].
      rewrite (idx_nth _ _ 0) by lia. cbn [obind]. rewrite usub_total by lia. cbn [obind].
      destruct (Nat.ltb_spec k (length (layers_evaluations q) - 1)); [|cbn; eauto].
      rewrite (idx_nth _ _ 0) by lia. cbn. eauto.
    - rewrite Hst. cbn [obind]. destruct st. eauto. }
  destruct Hv as [v ->]. cbn. eauto.
Qed.

Lemma step_4_total (p : stark_proof E) (c : challenges E a) :
  fr_row_width (trace_ood_frame_evaluations p) = width -> length (fr_data (trace_ood_frame_evaluations p)) = (rows * width)%nat ->
  (forall i, In i (c_iotas E a c) -> (i < 2 ^ (r + b))%nat) ->
  ~ In (c_z E a c) (lde_roots_of_unity_coset d) ->
  (forall o, In o (deep_poly_openings p) -> trace_columns (a_context a) <= length (lde_trace_evaluations o))%nat ->
  (length (c_iotas E a c) <= length (query_list p))%nat ->
  (forall q, In q (query_list p) -> layers_evaluations q <> []) ->
  length (c_trace_term_coeffs E a c) = trace_columns (a_context a) ->
  exists v, step_4 E a p d c = Ok v.
Proof using All.
  intros Hw Hl Hio Hz Hop Hql Hq Hcol. unfold step_4. rewrite (ds_root_order _ _ _ _ _ _ D), (ds_g _ _ _ _ _ _ D). cbn [unwrap obind].
  assert (Hfr : trace_ood_frame_evaluations p = mk_frame (fr_data (trace_ood_frame_evaluations p)) width) by (destruct (trace_ood_frame_evaluations p); cbn in *; now subst).
  match goal with |- context [traverse ?f (c_iotas E a c)] => destruct (traverse_total f (c_iotas E a c)) as [dens Hd] end.
  { intros i Hi. rewrite lde_nth by now apply Hio. cbn. eauto. }
  rewrite Hd. cbn [obind]. rewrite (batch_inverse_ok HK).
  2:{ intros x Hx. apply In_nth_error in Hx. destruct Hx as [j Hj].
      pose proof (traverse_length _ _ _ Hd) as Hdl. assert (Hjl : (j < length (c_iotas E a c))%nat) by (rewrite <- Hdl; apply nth_error_Some; now rewrite Hj).
      pose proof (traverse_nth _ _ _ j 0%nat 0 Hd Hjl) as Hn. apply nth_error_nth with (d := 0) in Hj. rewrite Hj in Hn.
      rewrite lde_nth in Hn by (apply Hio, nth_In; exact Hjl). cbn [obind] in Hn. apply ok_inj in Hn. rewrite <- Hn. unfold fsquare.
      intro H0. apply (proj1 (sub_zero HK _ _)) in H0.
      apply (st_coset _ _ _ _ _ _ _ HA (c_z E a c) W (nth j (c_iotas E a c) 0%nat) (ds_W _ _ _ _ _ _ D)). rewrite <- Hh, <- H0. ring. }
  cbn [obind]. apply ofold_total. intros acc [i [[iota o] dinv]] Hin.
  set (l := combine (combine (c_iotas E a c) (deep_poly_openings p)) (map finv dens)) in *.
  pose proof (in_combine_l _ _ _ _ Hin) as Hi. apply in_combine_r in Hin. unfold l in Hin. apply in_combine_l in Hin.
  pose proof (in_combine_l _ _ _ _ Hin) as Hiota. apply in_combine_r in Hin. specialize (Hop o Hin). specialize (Hio iota Hiota).
  assert (Hil : (i < length (query_list p))%nat).
  { apply in_seq in Hi. unfold l in Hi. rewrite !combine_length in Hi. lia. }
  unfold verify_opening. pose proof (st_aux _ _ _ _ _ _ _ HA).
  rewrite usub_total by lia. cbn [obind].
  destruct (slice_total (lde_trace_evaluations o) 0 (trace_columns (a_context a) - a_n_aux a)) as [m ->]; [lia|lia|]. cbn [obind].
  destruct (slice_total (lde_trace_evaluations o) (trace_columns (a_context a) - a_n_aux a) (length (lde_trace_evaluations o))) as [m' ->]; [lia|lia|]. cbn [obind].
  assert (Hnr : fr_num_rows (trace_ood_frame_evaluations p) = Ok rows) by (rewrite Hfr; apply frame_rows; [apply (st_width _ _ _ _ _ _ _ HA)|exact Hl]).
  rewrite Hnr. cbn [obind]. rewrite lde_nth by exact Hio. cbn [obind].
  rewrite (batch_inverse_ok HK).
  2:{ intros x Hx. apply in_map_iff in Hx. destruct Hx as (row & <- & _). intro H0. apply (proj1 (sub_zero HK _ _)) in H0.
      apply Hz. apply (shape_lde_unmul HE D _ row). rewrite <- H0. rewrite (ds_lde _ _ _ _ _ _ D).
      apply in_map_iff. exists iota. split; [reflexivity|apply in_seq; lia]. }
  cbn [obind]. unfold reconstruct_deep. rewrite Hnr. cbn [obind].
  match goal with |- context [ofold ?f ?l2 ?x] => destruct (ofold_total f l2) with (b := x) as [tt0 ->] end.
  { intros acc1 [col crow] Hc. pose proof (in_combine_l _ _ _ _ Hc) as Hcl. apply in_seq in Hcl.
    assert (Hcc : (col < trace_columns (a_context a))%nat).
    { apply In_nth_error in Hc. destruct Hc as [j Hj]. apply nth_error_combine_iff in Hj. destruct Hj as [Hj1 Hj2].
      assert (j < length (c_trace_term_coeffs E a c))%nat by (apply nth_error_Some; now rewrite Hj2).
      assert (j < length (seq 0 (fr_num_columns (trace_ood_frame_evaluations p))))%nat by (apply nth_error_Some; now rewrite Hj1).
      apply nth_error_nth with (d := 0%nat) in Hj1. rewrite seq_length in *. rewrite seq_nth in Hj1 by assumption. lia. }
    match goal with |- context [ofold ?f ?l2 ?x] => destruct (ofold_total f l2) with (b := x) as [inner ->] end; [|cbn; eauto].
    intros acc2 [row coeff] Hr. apply in_combine_l in Hr. apply in_seq in Hr.
    rewrite (idx_nth _ _ 0) by lia. cbn [obind].
    destruct (frame_row (fr_data (trace_ood_frame_evaluations p)) rows width Hl row) as (rw & Hrw & Hrl); [lia|].
    rewrite Hfr, Hrw. cbn [obind]. unfold fr_num_columns in Hcl. rewrite (idx_nth rw _ 0) by lia. cbn [obind].
    rewrite (idx_nth _ _ 0) by (rewrite !map_length, seq_length; lia). cbn. eauto. }
  cbn [obind]. destruct (idx_total (query_list p) i Hil) as [q Hqi]. rewrite Hqi. cbn [obind].
  apply idx_ok, nth_error_In in Hqi. specialize (Hq q Hqi).
  destruct (layers_evaluations q) as [|v0 vs]; [congruence|]. cbn. eauto.
Qed.

Lemma sample_rows_length n len : forall (t : e_tr E) xs t', sample_rows E n len t = Ok (xs, t') -> length xs = n.
Proof using Type.
  induction n as [|n IH]; intros t xs t' H; cbn [sample_rows] in H.
  - apply ok_inj in H. now injection H as <- _.
  - ok_as H y Hy. destruct y as [y t1]. ok_as H ys Hys. destruct ys as [ys t2]. apply ok_inj in H. injection H as <- _. cbn. f_equal. eauto.
Qed.

Lemma step_1_columns fuel (p : stark_proof E) (t : e_tr E) c t' : step_1 E fuel a p d t = Ok (c, t') ->
  length (c_trace_term_coeffs E a c) = trace_columns (a_context a).
Proof using Type.
  intros H. unfold step_1 in H.
  ok_as H root0 Hroot0. ok_as H rp Hrp. destruct rp as [rap t1]. ok_as H bcs Hbcs.
  ok_as H s1 Hs1. destruct s1 as [ba t2]. ok_as H s2 Hs2. destruct s2 as [bb t3]. ok_as H s3 Hs3. destruct s3 as [ta t4]. ok_as H s4 Hs4. destruct s4 as [tb t5].
  ok_as H s5 Hz. destruct s5 as [z t6]. ok_as H nr Hnr. ok_as H rws Hrows. ok_as H s6 Hg1. destruct s6 as [g1 t7]. ok_as H s7 Hg2. destruct s7 as [g2 t8].
  ok_as H s8 Httc. destruct s8 as [ttc t9]. ok_as H s9 Hzs. destruct s9 as [zs t10].
  destruct (tr_challenge _) as [ch t11]. ok_as H lz Hlz. ok_as H s10 Hio. destruct s10 as [iotas t12]. apply ok_inj in H.
  pose proof (f_equal fst H) as Hc. cbn [fst] in Hc. rewrite <- Hc. cbn [c_trace_term_coeffs]. eapply sample_rows_length; eassumption.
Qed.

Lemma step_1_rap fuel (p : stark_proof E) (t : e_tr E) c t' : hd_error (lde_trace_merkle_roots p) = Some root -> step_1 E fuel a p d t = Ok (c, t') ->
  exists t1, a_build_rap a (tr_append t root) = Ok (c_rap E a c, t1).
Proof using Type.
  intros Hr H. unfold step_1 in H. destruct (lde_trace_merkle_roots p) as [|root0 roots]; [discriminate|]. injection Hr as ->. cbn [idx nth_error unwrap obind] in H.
  ok_as H rp Hrp. destruct rp as [rap t1]. ok_as H bcs Hbcs.
  ok_as H s1 Hs1. destruct s1 as [ba t2]. ok_as H s2 Hs2. destruct s2 as [bb t3]. ok_as H s3 Hs3. destruct s3 as [ta t4]. ok_as H s4 Hs4. destruct s4 as [tb t5].
  ok_as H s5 Hz. destruct s5 as [z t6]. ok_as H nr Hnr. ok_as H rws Hrows. ok_as H s6 Hg1. destruct s6 as [g1 t7]. ok_as H s7 Hg2. destruct s7 as [g2 t8].
  ok_as H s8 Httc. destruct s8 as [ttc t9]. ok_as H s9 Hzs. destruct s9 as [zs t10].
  destruct (tr_challenge _) as [ch t11]. ok_as H lz Hlz. ok_as H s10 Hio. destruct s10 as [iotas t12]. apply ok_inj in H.
  pose proof (f_equal fst H) as Hc. cbn [fst] in Hc. rewrite <- Hc. cbn [c_rap]. eauto.
Qed.

Lemma step_1_total fuel (p : stark_proof E) : domain_new a = Ok d -> z_found E fuel a -> hd_error (lde_trace_merkle_roots p) = Some root ->
  fr_row_width (trace_ood_frame_evaluations p) = width -> length (fr_data (trace_ood_frame_evaluations p)) = (rows * width)%nat ->
  exists c t', step_1 E fuel a p d tr_new = Ok (c, t').
Proof using All.
  intros Hd Hzf Hr Hw Hl. unfold step_1.
  destruct (lde_trace_merkle_roots p) as [|root0 roots] eqn:Er; [discriminate|]. injection Hr as ->. cbn [idx nth_error unwrap obind].
  destruct (st_rap _ _ _ _ _ _ _ HA) as (rap & t1 & Hrap). rewrite Hrap. cbn [obind].
  destruct (st_boundary _ _ _ _ _ _ _ HA rap _ Hrap) as (bcs & -> & _ & _). cbn [obind].
  match goal with |- context [batch_sample_challenges E (length bcs) ?x] => destruct (batch_total HS (length bcs) x) as (ba & t2 & ->) end. cbn [obind].
  destruct (batch_total HS (length bcs) t2) as (bb & t3 & ->). cbn [obind].
  destruct (batch_total HS (num_transition_constraints (a_context a)) t3) as (ta & t4 & ->). cbn [obind].
  destruct (batch_total HS (num_transition_constraints (a_context a)) t4) as (tb & t5 & ->). cbn [obind].
  destruct (Hzf d (tr_append t5 (composition_poly_root p)) Hd) as (z & t6 & ->). cbn [obind].
  assert (Hfr : trace_ood_frame_evaluations p = mk_frame (fr_data (trace_ood_frame_evaluations p)) width)
    by (destruct (trace_ood_frame_evaluations p); cbn in *; now subst).
  assert (Hnr : fr_num_rows (trace_ood_frame_evaluations p) = Ok rows) by (rewrite Hfr; apply frame_rows; [apply (st_width _ _ _ _ _ _ _ HA)|exact Hl]).
  rewrite Hnr. cbn [obind].
  destruct (traverse_total (fr_get_row (trace_ood_frame_evaluations p)) (seq 0 rows)) as [rws ->].
  { intros i Hi. apply in_seq in Hi. destruct (frame_row (fr_data (trace_ood_frame_evaluations p)) rows width Hl i) as (rw & Hrw & _); [lia|]. rewrite Hfr, Hrw. eauto. }
  cbn [obind].
  match goal with |- context [transcript_to_field E ?x] => destruct (field_total HS x) as (g1 & t7 & ->) end. cbn [obind].
  destruct (field_total HS t7) as (g2 & t8 & ->). cbn [obind].
  match goal with |- context [sample_rows E ?x ?y t8] => destruct (rows_total HS x y t8) as (ttc & t9 & ->) end. cbn [obind].
  destruct (zetas_total HS (fri_layers_merkle_roots p) t9) as (zs & t10 & ->). cbn [obind].
  destruct (tr_challenge _) as [ch t11].
  destruct (grind_total HS ch (nonce p)) as [lz ->]. cbn [obind].
  match goal with |- context [sample_indices E ?x ?y ?z] => destruct (indices_total HS x y (pow2_pos _) z) as (is & t12 & ->) end. cbn. eauto.
Qed.
End Total.

Section Main.
Context {E : env} (HE : env_ok E) (HS : sampling_ok E).
Let HF := e_fft_ok E HE.
Let HK := fft_field_ok E HF.
Add Field Kfield23 : (fld_th E HK).

Theorem verify_total fuel mk (p : stark_proof E) r b rows width root :
  let a := mk (trace_length p) in
  statement_ok E a r b rows width root -> z_found E fuel a -> hd_error (lde_trace_merkle_roots p) = Some root -> proof_shape E a p r b rows width ->
  exists v, verify E fuel mk (a_options a) p = Ok v.
Proof using HE HF HK HS.
  intros a HA Hzf Hroot HP. unfold verify. fold a.
  destruct (Nat.ltb_spec (length (query_list p)) (fri_number_of_queries (a_options a))) as [Hq|Hq]; [eauto|].
  destruct (domain_new_ok a r b (st_n _ _ _ _ _ _ _ HA) (st_blowup _ _ _ _ _ _ _ HA) (st_r _ _ _ _ _ _ _ HA) (st_two_adicity _ _ _ _ _ _ _ HA)) as [d Hd].
  destruct (domain_new_shape HE a d r b Hd (st_n _ _ _ _ _ _ _ HA) (st_blowup _ _ _ _ _ _ _ HA) (st_r _ _ _ _ _ _ _ HA)) as (g & W & D).
  rewrite Hd. cbn [obind]. destruct (step_1_total HE HS HA D eq_refl fuel p Hd Hzf Hroot (ps_width _ _ _ _ _ _ _ HP) (ps_data _ _ _ _ _ _ _ HP)) as (c & t & Hc). rewrite Hc. cbn [obind].
  pose proof (step_1_columns fuel p tr_new c t Hc) as Hcols. destruct (step_1_rap fuel p tr_new c t Hroot Hc) as (t1 & Hrap).
  destruct (step_1_facts HE _ _ _ _ _ _ _ Hc) as (Hzl & _ & (Hiol & Hiob) & Hz1 & Hz2). rewrite (ds_lde_order _ _ _ _ _ _ D) in Hiob.
  destruct (N.ltb _ _); [eauto|].
  destruct (step_2_total HE HS HA D eq_refl p c (ps_width _ _ _ _ _ _ _ HP) (ps_data _ _ _ _ _ _ _ HP) Hz2 t1 Hrap) as [v2 ->]. cbn [obind].
  destruct (negb v2); [eauto|].
  destruct (step_3_total HE HS HA D eq_refl p c Hzl Hiob (ps_layers _ _ _ _ _ _ _ HP) (ps_evals _ _ _ _ _ _ _ HP)) as [v3 ->]. cbn [obind].
  destruct (negb v3); [eauto|].
  destruct (step_4_total HE HS HA D eq_refl p c (ps_width _ _ _ _ _ _ _ HP) (ps_data _ _ _ _ _ _ _ HP) Hiob Hz1 (ps_openings _ _ _ _ _ _ _ HP)) as [v4 ->];
    [rewrite Hiol; exact Hq|exact (ps_evals _ _ _ _ _ _ _ HP)|exact Hcols|]. cbn. eauto.
Qed.

(** ** The forger *)

Lemma forge_total fuel (a : air E) n roots comp_root data fri_roots last queries openings r b rows width root :
  statement_ok E a r b rows width root -> z_found E fuel a -> nonce_found E (grinding_factor (a_options a)) ->
  hd_error roots = Some root -> length data = (rows * width)%nat ->
  exists p, forge E fuel a n roots comp_root (mk_frame data width) fri_roots last queries openings = Ok p.
Proof using HE HF HK HS.
  intros HA Hzf Hnf Hr Hl. unfold forge.
  destruct (domain_new_ok a r b (st_n _ _ _ _ _ _ _ HA) (st_blowup _ _ _ _ _ _ _ HA) (st_r _ _ _ _ _ _ _ HA) (st_two_adicity _ _ _ _ _ _ _ HA)) as [d Hd].
  destruct (domain_new_shape HE a d r b Hd (st_n _ _ _ _ _ _ _ HA) (st_blowup _ _ _ _ _ _ _ HA) (st_r _ _ _ _ _ _ _ HA)) as (g & W & D).
  rewrite Hd. cbn [obind]. destruct roots as [|root0 roots]; [discriminate|]. injection Hr as ->. cbn [idx nth_error unwrap obind].
  destruct (st_rap _ _ _ _ _ _ _ HA) as (rap & t1 & Hrap). rewrite Hrap. cbn [obind].
  destruct (st_boundary _ _ _ _ _ _ _ HA rap _ Hrap) as (bcs & -> & Hne & Hcol). cbn [obind].
  match goal with |- context [batch_sample_challenges E (length bcs) ?x] => destruct (batch_total HS (length bcs) x) as (ba & t2 & ->) end. cbn [obind].
  destruct (batch_total HS (length bcs) t2) as (bb & t3 & ->). cbn [obind].
  destruct (batch_total HS (num_transition_constraints (a_context a)) t3) as (ta & t4 & ->). cbn [obind].
  destruct (batch_total HS (num_transition_constraints (a_context a)) t4) as (tb & t5 & ->). cbn [obind].
  destruct (Hzf d (tr_append t5 comp_root) Hd) as (z & t6 & Hz). rewrite Hz. cbn [obind].
  apply (sample_z_ood_spec E HK) in Hz. destruct Hz as [_ Hz2].
  destruct (z_off_trace HE HS HA D eq_refl z Hz2) as [Hz3 Hz4].
  rewrite usub_total by (rewrite (st_n _ _ _ _ _ _ _ HA); apply (st_bound _ _ _ _ _ _ _ HA)). cbn [obind].
  rewrite (ds_root _ _ _ _ _ _ D).
  match goal with |- context [boundary_ood E bcs _ g ?z ?adj ?co] => destruct (boundary_ood_total HE bcs data g z adj co Hl Hne Hcol Hz3) as [bv ->] end. cbn [obind].
  destruct (st_transition _ _ _ _ _ _ _ HA rap _ Hl) as [evals ->]. cbn [obind].
  rewrite (last_trace_root HE D (st_n _ _ _ _ _ _ _ HA)). cbn [unwrap obind].
  match goal with |- context [transition_ood E a ?e ?z ?l ?co] => destruct (transition_ood_total HE HS HA e z l co Hz4) as [tv ->] end. cbn [obind].
  rewrite (frame_rows data rows width (st_width _ _ _ _ _ _ _ HA) Hl). cbn [obind].
  destruct (traverse_total (fr_get_row (mk_frame data width)) (seq 0 rows)) as [rws ->].
  { intros i Hi. apply in_seq in Hi. destruct (frame_row data rows width Hl i) as (rw & Hrw & _); [lia|]. rewrite Hrw. eauto. }
  cbn [obind].
  match goal with |- context [transcript_to_field E ?x] => destruct (field_total HS x) as (g1 & t7 & ->) end. cbn [obind].
  destruct (field_total HS t7) as (g2 & t8 & ->). cbn [obind].
  match goal with |- context [sample_rows E ?x ?y t8] => destruct (rows_total HS x y t8) as (ttc & t9 & ->) end. cbn [obind].
  destruct (zetas_total HS fri_roots t9) as (zs & t10 & ->). cbn [obind].
  destruct (tr_challenge _) as [ch t11]. destruct (Hnf ch) as [nn ->]. cbn. eauto.
Qed.

(** A forged proof has the chosen parts, enough grinding, and satisfies the out-of-domain identity. *)
Lemma forge_spec fuel (a : air E) n roots comp_root fr fri_roots last queries openings p :
  forge E fuel a n roots comp_root fr fri_roots last queries openings = Ok p ->
  (exists even nn, p = mk_stark_proof n roots fr comp_root even 0 fri_roots last queries openings nn) /\
  exists d c t, domain_new a = Ok d /\ step_1 E fuel a p d tr_new = Ok (c, t) /\
    (grinding_factor (a_options a) <= c_leading_zeros E a c)%N /\ step_2 E a p d c = Ok true.
Proof using HE HF HK HS.
  intros H. unfold forge in H. ok_as H d Hd.
  ok_as H root0 Hroot0. ok_as H rp Hrp. destruct rp as [rap t1]. ok_as H bcs Hbcs.
  ok_as H s1 Hs1. destruct s1 as [ba t2]. ok_as H s2 Hs2. destruct s2 as [bb t3]. ok_as H s3 Hs3. destruct s3 as [ta t4]. ok_as H s4 Hs4. destruct s4 as [tb t5].
  ok_as H s5 Hz. destruct s5 as [z t6]. ok_as H adj Hadj. ok_as H bv Hbv. ok_as H evals Hev. ok_as H lr Hlr. ok_as H tv Htv.
  ok_as H nr Hnr. ok_as H rws Hrows. ok_as H s6 Hg1. destruct s6 as [g1 t7]. ok_as H s7 Hg2. destruct s7 as [g2 t8].
  ok_as H s8 Httc. destruct s8 as [ttc t9]. ok_as H s9 Hzs. destruct s9 as [zs t10].
  destruct (tr_challenge _) as [ch t11] eqn:Ech. ok_as H found Hf. ok_as H nn Hnn. apply ok_inj in H.
  destruct found as [nn'|]; [|discriminate]. cbn [unwrap] in Hnn. apply ok_inj in Hnn. subst nn'.
  apply generate_nonce_spec in Hf. destruct Hf as ((lz & Hlz & Hge) & _).
  destruct (indices_total HS (fri_number_of_queries (a_options a)) (2 ^ lde_root_order d) (pow2_pos _) (tr_append t11 (be_bytes 8 nn))) as (is & t12 & His).
  split; [exists (bv + tv), nn; now rewrite <- H|].
  exists d, (mk_challenges E a z (combine ba bb) (combine ta tb) ttc g1 g2 zs is rap lz), t12.
  split; [exact Hd|]. split; [|split; [exact Hge|]].
  - rewrite <- H. unfold step_1. cbn [lde_trace_merkle_roots composition_poly_root composition_poly_even_ood_evaluation
       composition_poly_odd_ood_evaluation trace_ood_frame_evaluations fri_layers_merkle_roots fri_last_value nonce].
    rewrite Hroot0. cbn [obind]. rewrite Hrp. cbn [obind]. rewrite Hbcs. cbn [obind]. rewrite Hs1. cbn [obind]. rewrite Hs2. cbn [obind].
    rewrite Hs3. cbn [obind]. rewrite Hs4. cbn [obind]. rewrite Hz. cbn [obind]. rewrite Hnr. cbn [obind]. rewrite Hrows. cbn [obind].
    rewrite Hg1. cbn [obind]. rewrite Hg2. cbn [obind]. rewrite Httc. cbn [obind]. rewrite Hzs. cbn [obind]. rewrite Ech.
    rewrite Hlz. cbn [obind]. rewrite His. reflexivity.
  - unfold step_2. cbn [c_rap c_z c_boundary_coeffs c_transition_coeffs]. rewrite <- H. cbn [trace_ood_frame_evaluations composition_poly_even_ood_evaluation composition_poly_odd_ood_evaluation].
    rewrite Hbcs. cbn [obind]. rewrite Hadj. cbn [obind]. rewrite Hbv. cbn [obind]. rewrite Hev. cbn [obind]. rewrite Hlr. cbn [obind]. rewrite Htv. cbn [obind].
    f_equal. apply (feqb_spec E HK). ring.
Qed.

Theorem forgery fuel mk n roots comp_root data last v r b rows width root :
  let a := mk n in let opts := a_options a in
  statement_ok E a r b rows width root -> z_found E fuel a -> nonce_found E (grinding_factor opts) ->
  hd_error roots = Some root -> length data = (rows * width)%nat ->
  exists even nn, verify E fuel mk opts
    (mk_stark_proof n roots (mk_frame data width) comp_root even 0 [] last
       (repeat (mk_fri_decommitment [] [] [] [v]) (fri_number_of_queries opts)) [] nn) = Ok true.
Proof using HE HF HK HS.
  intros a opts HA Hzf Hnf Hr Hl.
  destruct (forge_total fuel a n roots comp_root data [] last (repeat (mk_fri_decommitment [] [] [] [v]) (fri_number_of_queries opts)) [] r b rows width root HA Hzf Hnf Hr Hl) as [p Hp].
  destruct (forge_spec _ _ _ _ _ _ _ _ _ _ _ Hp) as ((even & nn & Ep) & d & c & t & Hd & Hc & Hg & H2).
  exists even, nn. rewrite <- Ep.
  assert (Htl : trace_length p = n) by (rewrite Ep; reflexivity).
  assert (HP : proof_shape E a p r b rows width).
  { rewrite Ep. constructor; cbn; auto; [intros ->; discriminate|lia| |intros o []]. intros q Hq. apply repeat_spec in Hq. subst q. discriminate. }
  destruct (verify_total fuel mk p r b rows width root) as [res Hres]; rewrite ?Htl; auto; [rewrite Ep; exact Hr|]. rewrite Htl in Hres. fold a opts in Hres. rewrite Hres. f_equal.
  apply (verdict_exact HE fuel mk opts p r b res); rewrite ?Htl; fold a; auto.
  - apply (st_n _ _ _ _ _ _ _ HA).
  - apply (st_r _ _ _ _ _ _ _ HA).
  - apply (st_blowup _ _ _ _ _ _ _ HA).
  - apply (st_ex_le _ _ _ _ _ _ _ HA).
  - exists d, c, t. split; [exact Hd|]. split; [exact Hc|].
    destruct (domain_new_shape HE a d r b Hd (st_n _ _ _ _ _ _ _ HA) (st_blowup _ _ _ _ _ _ _ HA) (st_r _ _ _ _ _ _ _ HA)) as (g & W & D).
    constructor.
    + rewrite Ep. cbn [query_list]. rewrite repeat_length. auto.
    + exact Hg.
    + rewrite (ds_root _ _ _ _ _ _ D). apply (step_2_exact HE D (st_n _ _ _ _ _ _ _ HA) p c true (st_ex_le _ _ _ _ _ _ _ HA)); auto.
    + rewrite Ep. intros j iota q _ _ k kroot path ev psym esym zeta Hk. cbn [fri_layers_merkle_roots] in Hk. destruct k; discriminate.
    + rewrite Ep. intros j iota o _ Hj. cbn [deep_poly_openings] in Hj. destruct j; discriminate.
Qed.

(** ** Panics *)

Lemma ofold_panic {A B} (f : B -> A -> outcome B) l :
  (forall b x, In x l -> f b x = Panic \/ exists y, f b x = Ok y) -> (exists x, In x l /\ forall b, f b x = Panic) ->
  forall b, ofold f l b = Panic.
Proof using Type.
  induction l as [|x l IH]; intros H (y & Hy & Hp) b; [destruct Hy|]. cbn [ofold].
  destruct (H b x (or_introl eq_refl)) as [->|[z Hz]]; [reflexivity|]. rewrite Hz. cbn [obind].
  destruct Hy as [->|Hy]; [now rewrite Hp in Hz|]. apply IH; [intros; apply H; now right|eauto].
Qed.

(** A forged proof whose first query panics makes the verifier panic. *)
Lemma forged_query_panics fuel mk n roots comp_root data fri_roots last q r b rows width root :
  let a := mk n in let opts := a_options a in
  statement_ok E a r b rows width root -> z_found E fuel a -> nonce_found E (grinding_factor opts) ->
  hd_error roots = Some root -> length data = (rows * width)%nat -> (1 <= fri_number_of_queries opts)%nat ->
  (forall p d zetas iota xinv, fri_layers_merkle_roots p = fri_roots -> fri_last_value p = last -> length zetas = length fri_roots -> lde_root_order d = (r + b)%nat ->
     verify_query E p zetas iota q d xinv (finv (1 + 1)) = Panic) ->
  exists even nn, verify E fuel mk opts (mk_stark_proof n roots (mk_frame data width) comp_root even 0 fri_roots last
       (repeat q (fri_number_of_queries opts)) [] nn) = Panic.
Proof using HE HF HK HS.
  intros a opts HA Hzf Hnf Hr Hl Hq Hpan.
  destruct (forge_total fuel a n roots comp_root data fri_roots last (repeat q (fri_number_of_queries opts)) [] r b rows width root HA Hzf Hnf Hr Hl) as [p Hp].
  destruct (forge_spec _ _ _ _ _ _ _ _ _ _ _ Hp) as ((even & nn & Ep) & d & c & t & Hd & Hc & Hg & H2).
  exists even, nn. rewrite <- Ep.
  assert (Htl : trace_length p = n) by (rewrite Ep; reflexivity).
  assert (Eql : query_list p = repeat q (fri_number_of_queries opts)) by (rewrite Ep; reflexivity).
  unfold verify. rewrite Eql, repeat_length, Nat.ltb_irrefl, Htl. fold a. rewrite Hd. cbn [obind]. rewrite Hc. cbn [obind].
  apply N.ltb_ge in Hg. rewrite Hg, H2. cbn [obind negb].
  enough (H3 : step_3 E a p d c = Panic) by now rewrite H3.
  destruct (domain_new_shape HE a d r b Hd (st_n _ _ _ _ _ _ _ HA) (st_blowup _ _ _ _ _ _ _ HA) (st_r _ _ _ _ _ _ _ HA)) as (g & W & D).
  destruct (step_1_facts HE _ _ _ _ _ _ _ Hc) as (Hzl & _ & (Hiol & Hiob) & _). rewrite (ds_lde_order _ _ _ _ _ _ D) in Hiob.
  assert (Efr : fri_layers_merkle_roots p = fri_roots) by (rewrite Ep; reflexivity).
  assert (Elast : fri_last_value p = last) by (rewrite Ep; reflexivity).
  unfold step_3. rewrite (e_two E HE).
  assert (Hinv : inv_o (1 + 1 : E) = Ok (finv (1 + 1))) by (apply (inv_o_ok HK); split; [exact (two_neq E HE)|reflexivity]).
  rewrite Hinv. cbn [obind].
  destruct (traverse_total (idx (lde_roots_of_unity_coset d)) (c_iotas E a c)) as [pts Hpts].
  { intros i Hi. rewrite (lde_nth HE HS HA D eq_refl) by now apply Hiob. eauto. }
  rewrite Hpts. cbn [obind]. rewrite (batch_inverse_ok HK).
  2:{ intros x Hx. apply In_nth_error in Hx. destruct Hx as [j Hj].
      pose proof (traverse_length _ _ _ Hpts) as Hlen. assert (Hjl : (j < length (c_iotas E a c))%nat) by (rewrite <- Hlen; apply nth_error_Some; now rewrite Hj).
      pose proof (traverse_nth _ _ _ j 0%nat 0 Hpts Hjl) as Hnn. apply nth_error_nth with (d := 0) in Hj. rewrite Hj in Hnn.
      rewrite (lde_nth HE HS HA D eq_refl) in Hnn by (apply Hiob, nth_In; exact Hjl). apply ok_inj in Hnn. rewrite <- Hnn.
      apply (mul_nonzero HK); [apply (fpow_nonzero HK), (shape_W_nonzero HE D)|exact (total_h HE HS HA D eq_refl)]. }
  cbn [obind]. rewrite Eql. fold opts in Hiol. pose proof (traverse_length _ _ _ Hpts) as Hlen.
  destruct (fri_number_of_queries opts) as [|k]; [lia|]. destruct (c_iotas E a c) as [|iota iotas]; [discriminate|].
  destruct pts as [|x pts]; [discriminate|]. cbn [repeat combine map ofold].
  rewrite Hpan; [reflexivity|exact Efr|exact Elast|now rewrite Hzl, Efr|exact (ds_lde_order _ _ _ _ _ _ D)].
Qed.

Lemma empty_decommitment_panics fuel mk n roots comp_root data last r b rows width root :
  let a := mk n in let opts := a_options a in
  statement_ok E a r b rows width root -> z_found E fuel a -> nonce_found E (grinding_factor opts) ->
  hd_error roots = Some root -> length data = (rows * width)%nat -> (1 <= fri_number_of_queries opts)%nat ->
  exists even nn, verify E fuel mk opts (mk_stark_proof n roots (mk_frame data width) comp_root even 0 [] last
       (repeat (mk_fri_decommitment [] [] [] []) (fri_number_of_queries opts)) [] nn) = Panic.
Proof using HE HF HK HS.
  intros a opts HA Hzf Hnf Hr Hl Hq. apply (forged_query_panics fuel mk n roots comp_root data [] last _ r b rows width root HA Hzf Hnf Hr Hl Hq).
  reflexivity.
Qed.

Lemma too_many_layers_panics fuel mk n roots comp_root data last v r b rows width root :
  let a := mk n in let opts := a_options a in let m := (r + b + 2)%nat in
  statement_ok E a r b rows width root -> z_found E fuel a -> nonce_found E (grinding_factor opts) ->
  hd_error roots = Some root -> length data = (rows * width)%nat -> (1 <= fri_number_of_queries opts)%nat ->
  exists even nn, verify E fuel mk opts (mk_stark_proof n roots (mk_frame data width) comp_root even 0 (repeat [] m) last
       (repeat (mk_fri_decommitment (repeat [] m) (repeat v m) (repeat [] m) (repeat v m)) (fri_number_of_queries opts)) [] nn) = Panic.
Proof using HE HF HK HS.
  intros a opts m HA Hzf Hnf Hr Hl Hq. apply (forged_query_panics fuel mk n roots comp_root data (repeat [] m) last _ r b rows width root HA Hzf Hnf Hr Hl Hq).
  intros p d zetas iota xinv Hfr Hlast Hzl Hord. rewrite repeat_length in Hzl. rewrite verify_query_eq. cbn [layers_evaluations layers_auth_paths layers_evaluations_sym layers_auth_paths_sym].
  rewrite (idx_nth _ _ 0) by (rewrite repeat_length; unfold m; lia). cbn [obind].
  match goal with |- obind ?x _ = _ => enough (G : x = Panic) by now rewrite G end.
  apply ofold_panic.
  - intros [w res] [[[[[[k kroot] ap] ev] aps] es] xi] Hk. unfold vq_list in Hk. repeat apply in_combine_l in Hk. apply in_seq in Hk. rewrite Hfr, repeat_length in Hk.
    unfold vq_step. rewrite Hord. destruct (Nat.leb_spec k (r + b)).
    + right. rewrite usub_total by lia. cbn [obind]. rewrite (idx_nth _ _ 0) by lia. cbn [obind].
      cbn [layers_evaluations]. rewrite usub_total by (rewrite repeat_length; unfold m; lia). cbn [obind].
      destruct (Nat.ltb_spec k (length (repeat v m) - 1)); [|cbn; eauto].
      rewrite (idx_nth _ _ 0) by (rewrite repeat_length in *; lia). cbn. eauto.
    + left. unfold usub. destruct (Nat.ltb_spec (r + b) k); [reflexivity|lia].
  - exists ((r + b + 1)%nat, [], [], v, [], v, fpow xinv (2 ^ (r + b + 1))). split.
    + apply (nth_error_In _ (r + b + 1)). unfold vq_list. rewrite Hfr.
      rewrite !nth_error_combine_iff, !nth_error_repeat by (unfold m; lia). rewrite (squares_nth HE) by (rewrite repeat_length; unfold m; lia).
      rewrite (nth_error_nth' _ 0%nat) by (rewrite seq_length, repeat_length; unfold m; lia).
      rewrite seq_nth by (rewrite repeat_length; unfold m; lia). auto 10.
    + intros [w res]. unfold vq_step. rewrite Hord. unfold usub. destruct (Nat.ltb_spec (r + b) (r + b + 1)); [reflexivity|lia].
Qed.

Lemma generate_nonce_total ch f : exists o, generate_nonce E ch f = Ok o.
Proof using HS.
  unfold generate_nonce. apply search_total. intros u. destruct (grind_total HS ch u) as [z ->]. cbn. eauto.
Qed.

Lemma generate_nonce_none ch f : generate_nonce E ch f = Ok None -> forall u, (u < Npos u64_max)%N -> exists z, grind_zeros E ch u = Ok z /\ (z < f)%N.
Proof using HS.
  unfold generate_nonce. intros H u Hu. destruct (search_spec (fun c => obind (grind_zeros E ch c) (fun z => Ok (f <=? z)%N)) u64_max 0) as [_ G].
  specialize (G H u ltac:(lia)). destruct (grind_total HS ch u) as [z Hz]. rewrite Hz in G. cbn [obind] in G. apply ok_inj in G.
  exists z. split; [exact Hz|]. now apply N.leb_gt.
Qed.
End Main.

Lemma tz_mul_pow2 k m : (0 < m)%nat -> (k <= trailing_zeros (2 ^ k * m)%nat)%nat.
Proof.
  intros Hm. unfold trailing_zeros. induction k as [|k IH]; [lia|].
  assert (Hs : N.of_nat (2 ^ S k * m)%nat = (2 * N.of_nat (2 ^ k * m)%nat)%N) by (rewrite Nat.pow_succ_r', <- Nat.mul_assoc, Nat2N.inj_mul; reflexivity).
  rewrite Hs. clear Hs. assert (Hz : (2 ^ k <> 0)%nat) by (apply Nat.pow_nonzero; lia).
  destruct (N.of_nat (2 ^ k * m)%nat) as [|q] eqn:Eq; [exfalso; nia|]. cbn [N.mul Pos.mul tz_pos] in *. lia.
Qed.
