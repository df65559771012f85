(** The number of bytes of the encoding of a proof with all its parts. *)
From Coq Require Import List Arith NArith Lia Bool.
From Verif.Base Require Import Outcome Bytes Field Poly.
From Verif.Model Require Import Codec Trace Merkle Air Transcript.
From Verif.Spec Require Import CodecSpec FriTree FullForgery ProofSize.
From Verif.Proofs Require Import BytesFacts OutcomeFacts CodecFacts.
Import ListNotations.

Lemma concat_length_const {A} (l : list (list A)) w : Forall (fun x => length x = w) l -> length (concat l) = length l * w.
Proof. induction 1 as [|x l Hx _ IH]; [reflexivity|]. cbn [concat length]. rewrite app_length, Hx, IH. lia. Qed.

Section Size.
Context {F : Type} (C : felt_codec F) (w : nat) (HC : codec_ok C w).

Lemma felts_length (l : list F) : length (concat (map (fe_to C) l)) = length l * w.
Proof using HC.
  rewrite (concat_length_const _ w); [now rewrite map_length|]. apply Forall_map, Forall_forall. intros x _. apply (codec_width C w HC).
Qed.
Lemma path_length (p : list commitment) : Forall digest p -> length (serialize_proof p) = 8 + 32 * length p.
Proof using Type. intro H. unfold serialize_proof. rewrite app_length, length_be8, (concat_length_const p 32 H). unfold commitment. lia. Qed.

(** Paths of lengths [m], [m - 1], ... *)
Lemma paths_length (ps : list (list commitment)) : forall m, paths_wf ps -> length ps <= m -> (forall k, k < length ps -> length (nth k ps []) = m - k) ->
  2 * length (concat (map serialize_proof ps)) + 32 * (length ps * length ps) = length ps * (16 + 64 * m + 32).
Proof using Type.
  induction ps as [|p ps IH]; intros m Hd Hm Hk; [reflexivity|]. cbn [map concat length] in *. rewrite app_length.
  inversion Hd as [|? ? D1 D2]; subst. rewrite path_length by exact D1. pose proof (Hk 0 ltac:(lia)) as H0. cbn [nth] in H0. rewrite H0.
  specialize (IH (m - 1) D2 ltac:(lia)). assert (G : forall k, k < length ps -> length (nth k ps []) = m - 1 - k).
  { intros k Hlt. specialize (Hk (S k) ltac:(lia)). cbn [nth] in Hk. lia. }
  specialize (IH G). nia.
Qed.
Lemma full_paths_length (ps : list (list commitment)) m : paths_wf ps -> Forall (fun p => length p = m) ps ->
  length (concat (map serialize_proof ps)) = length ps * (8 + 32 * m).
Proof using Type.
  intros Hd Hl. rewrite (concat_length_const _ (8 + 32 * m)); [now rewrite map_length|]. apply Forall_map. rewrite Forall_forall in *.
  intros p Hp. rewrite path_length by (unfold paths_wf in Hd; rewrite Forall_forall in Hd; now apply Hd). now rewrite (Hl p Hp).
Qed.

Lemma answer_length r b (q : fri_decommitment F) s : ps_w s = w -> ps_r s = r -> ps_b s = b -> 1 <= r ->
  length (layers_auth_paths q) = r -> length (layers_evaluations q) = r -> length (layers_auth_paths_sym q) = r -> length (layers_evaluations_sym q) = r ->
  (forall k, k < r -> length (nth k (layers_auth_paths q) []) = r + b - k /\ length (nth k (layers_auth_paths_sym q) []) = r + b - k) ->
  paths_wf (layers_auth_paths q) -> paths_wf (layers_auth_paths_sym q) ->
  exists bs, fri_serialize C q = Ok bs /\ length bs = answer_size s.
Proof using HC.
  intros Ew Er Eb Hr L1 L2 L3 L4 Hp W1 W2. unfold fri_serialize. destruct (layers_evaluations q) as [|x xs] eqn:Ex; [cbn in L2; lia|]. cbn [nth_error unwrap obind].
  eexists. split; [reflexivity|]. rewrite <- Ex in *. rewrite !app_length, !length_be8, !felts_length.
  pose proof (paths_length _ (r + b) W1 ltac:(lia) ltac:(intros k Hk; rewrite L1 in Hk; apply (Hp k Hk))) as P1.
  pose proof (paths_length _ (r + b) W2 ltac:(lia) ltac:(intros k Hk; rewrite L3 in Hk; apply (Hp k Hk))) as P2.
  rewrite L1 in P1. rewrite L3 in P2. rewrite L2, L4. unfold answer_size. rewrite Ew, Er, Eb. nia.
Qed.
Lemma opening_length r b (o : deep_openings F) s : ps_w s = w -> ps_r s = r -> ps_b s = b ->
  length (lde_composition_poly_proof o) = r + b -> length (lde_trace_merkle_proofs o) = ps_roots s -> Forall (fun path => length path = r + b) (lde_trace_merkle_proofs o) ->
  length (lde_trace_evaluations o) = ps_columns s -> Forall digest (lde_composition_poly_proof o) -> paths_wf (lde_trace_merkle_proofs o) ->
  length (deep_serialize C o) = opening_size s.
Proof using HC.
  intros Ew Er Eb L1 L2 L3 L4 D1 D2. unfold deep_serialize. rewrite !app_length, !length_be8, felts_length, !(codec_width C w HC), path_length, (full_paths_length _ (r + b)) by assumption.
  rewrite L1, L2, L4. unfold opening_size. rewrite Ew, Er, Eb. nia.
Qed.
End Size.

Section Complete.
Context {E : env} (w : nat) (HC : codec_ok (e_codec E) w).

Theorem complete_size (a : air E) (p : stark_proof E) r b : complete_proof a p r b -> 1 <= r ->
  Forall digest (lde_trace_merkle_roots p) -> digest (composition_poly_root p) -> Forall digest (fri_layers_merkle_roots p) ->
  Forall (fun q => paths_wf (layers_auth_paths_sym q) /\ paths_wf (layers_auth_paths q)) (query_list p) ->
  Forall (fun o => Forall digest (lde_composition_poly_proof o) /\ paths_wf (lde_trace_merkle_proofs o)) (deep_poly_openings p) ->
  exists bs, stark_serialize (e_codec E) p = Ok bs /\
    length bs = proof_size (mk_parameters w (length (transition_offsets (a_context a))) (trace_columns (a_context a)) (length (lde_trace_merkle_roots p)) r b
                  (fri_number_of_queries (a_options a))).
Proof using HC.
  intros [_ _ Hf Hl Hq Ho Ha Hop] Hr D1 D2 D3 D4 D5.
  set (s := mk_parameters w _ _ _ r b _).
  assert (Q : exists qs, traverse (fri_serialize (e_codec E)) (query_list p) = Ok qs /\ Forall (fun x => length x = answer_size s) qs /\ length qs = length (query_list p)).
  { clear Hq. induction (query_list p) as [|q qs IH]; [exists []; repeat split; constructor|].
    apply Forall_cons_iff in D4. destruct D4 as [[W1 W2] D4']. destruct (Ha q (or_introl eq_refl)) as [(A1 & A2 & A3 & A4) A5].
    destruct (answer_length (e_codec E) w HC r b q s eq_refl eq_refl eq_refl Hr A1 A2 A3 A4 A5 W2 W1) as (x & Ex & Lx).
    destruct (IH (fun q' H => Ha q' (or_intror H)) D4') as (xs & Exs & Fx & Lxs).
    exists (x :: xs). cbn [traverse]. rewrite Ex. cbn [obind]. rewrite Exs. cbn [obind length]. split; [reflexivity|]. split; [now constructor|now rewrite Lxs]. }
  destruct Q as (qs & Eq & Fq & Lq).
  assert (O : Forall (fun x => length x = 8 + opening_size s) (map (fun o => with_len (deep_serialize (e_codec E) o)) (deep_poly_openings p))).
  { apply Forall_map. rewrite Forall_forall in *. intros o Hin. destruct (Hop o Hin) as (O1 & O2 & O3 & O4), (D5 o Hin) as [W1 W2].
    unfold with_len. rewrite app_length, length_be8, (opening_length (e_codec E) w HC r b o s); auto. }
  assert (Q' : Forall (fun x => length x = 8 + answer_size s) (map with_len qs)).
  { apply Forall_map. rewrite Forall_forall in *. intros x Hin. unfold with_len. rewrite app_length, length_be8, (Fq x Hin). reflexivity. }
  unfold stark_serialize. rewrite Eq. cbn [obind]. eexists. split; [reflexivity|].
  rewrite !app_length, !length_be8, !(codec_width _ w HC), (concat_length_const _ _ O), (concat_length_const _ _ Q'), !map_length, Lq, Hq, Ho.
  rewrite (concat_length_const _ 32 D1), (concat_length_const _ 32 D3). unfold commitment in *. rewrite Hl. unfold digest in D2. rewrite D2.
  unfold with_len at 1, frame_serialize. rewrite !app_length, !length_be8, (felts_length (e_codec E) w HC), Hf, length_be_bytes.
  unfold proof_size. cbn [s ps_w ps_rows ps_columns ps_roots ps_r ps_b ps_queries]. nia.
Qed.
End Complete.
