(** Serialized proofs inside longer buffers, and proof files that are too short. *)
From Coq Require Import List Arith NArith Lia.
From Coq Require Import Init.Byte.
From Verif.Base Require Import Outcome Bytes.
From Verif.Model Require Import Codec PublicInputs.
From Verif.Spec Require Import CodecSpec.
From Verif.Proofs Require Import BytesFacts OutcomeFacts CodecFacts PublicInputsFacts.
Import ListNotations.

Section Tail.
Context {F : Type} (C : felt_codec F) (w : nat) (HC : codec_ok C w).

(** [p] with another nonce. *)
Definition with_nonce (nc : N) (p : stark_proof F) : stark_proof F :=
  mk_stark_proof (trace_length p) (lde_trace_merkle_roots p) (trace_ood_frame_evaluations p) (composition_poly_root p)
    (composition_poly_even_ood_evaluation p) (composition_poly_odd_ood_evaluation p) (fri_layers_merkle_roots p) (fri_last_value p)
    (query_list p) (deep_poly_openings p) nc.

Lemma serialize_with_nonce p body nc : stark_serialize C p = Ok (body ++ be_bytes 8 (nonce p)) ->
  stark_serialize C (with_nonce nc p) = Ok (body ++ be_bytes 8 nc).
Proof using Type.
  destruct p as [tl roots fr cproot even odd froots last qs ds nc0]. unfold stark_serialize, with_nonce.
  cbn [trace_length lde_trace_merkle_roots trace_ood_frame_evaluations composition_poly_root
       composition_poly_even_ood_evaluation composition_poly_odd_ood_evaluation fri_layers_merkle_roots
       fri_last_value query_list deep_poly_openings nonce].
  destruct (traverse (fri_serialize C) qs) as [qb| |]; cbn [obind]; try discriminate.
  intro H. apply CodecFacts.Ok_inj in H. f_equal. rewrite !app_assoc in H. apply app_inv_tail in H. rewrite <- H, <- !app_assoc. reflexivity.
Qed.

Lemma wf_with_nonce p nc : stark_wf C p -> (nc < two64)%N -> stark_wf C (with_nonce nc p).
Proof using Type.
  intros H Hn. destruct (stark_serialize_total C p H) as [bs Hs]. destruct (stark_serialize_split C p bs Hs) as [body ->].
  pose proof (serialize_with_nonce p body nc Hs) as Hs'.
  destruct H as (H1 & H2 & H3 & H4 & H5 & H6 & H7 & H8 & H9). unfold stark_wf.
  repeat (split; [assumption|]). intros bs' Hb. rewrite Hs' in Hb. apply CodecFacts.Ok_inj in Hb. subst bs'.
  specialize (H9 _ Hs). rewrite !app_length, !length_be_bytes in *. exact H9.
Qed.

Lemma stark_appended p bs rest : stark_wf C p -> stark_serialize C p = Ok bs ->
  stark_deserialize C (bs ++ rest) = Ok (with_nonce (be_val (skipn (length (bs ++ rest) - 8) (bs ++ rest))) p).
Proof using HC.
  intros H Hs. destruct (stark_serialize_split C p bs Hs) as [body ->].
  set (tail := be_bytes 8 (nonce p) ++ rest).
  assert (Lt : length tail = 8 + length rest) by (unfold tail; now rewrite app_length, length_be_bytes).
  replace ((body ++ be_bytes 8 (nonce p)) ++ rest) with (body ++ tail) by (unfold tail; now rewrite app_assoc).
  assert (E : skipn (length (body ++ tail) - 8) (body ++ tail) = skipn (length rest) tail).
  { rewrite skipn_app, app_length, Lt. rewrite (skipn_all2 body) by lia. cbn [app]. f_equal. lia. }
  rewrite E. set (T := skipn (length rest) tail).
  assert (L8 : length T = 8) by (unfold T; rewrite skipn_length; lia).
  assert (Hn : (be_val T < two64)%N).
  { pose proof (be_val_lt T) as B. rewrite L8 in B. exact B. }
  pose proof (serialize_with_nonce p body (be_val T) Hs) as Hs'.
  pose proof (stark_round_gen C w HC (with_nonce (be_val T) p) (firstn (length rest) tail) body (wf_with_nonce p _ H Hn) Hs') as R.
  cbn [with_nonce nonce] in R. rewrite <- L8 in R at 1. rewrite be_bytes_be_val in R. unfold T at 1 in R. rewrite firstn_skipn in R. exact R.
Qed.

Lemma file_too_short feqb bs : (length bs < 8 \/ (N.of_nat (length bs - 8) < be_val (firstn 8 bs))%N) -> file_read feqb C bs = Err OtherError.
Proof using Type.
  intro H. unfold file_read. destruct (Nat.ltb_spec (length bs) 8) as [Hs|Hs]; [reflexivity|]. destruct H as [H|H]; [lia|].
  assert (E : bs = firstn 8 bs ++ skipn 8 bs) by (symmetry; apply firstn_skipn).
  assert (L8 : length (firstn 8 bs) = 8) by (rewrite firstn_length; lia).
  assert (S1 : slice_to 8 bs = Ok (firstn 8 bs)).
  { rewrite E at 1. change 8%N with (N.of_nat 8). rewrite <- L8 at 1. apply slice_to_app. }
  assert (S2 : slice_from 8 bs = Ok (skipn 8 bs)).
  { rewrite E at 1. change 8%N with (N.of_nat 8). rewrite <- L8 at 1. apply slice_from_app. }
  rewrite S1. cbn [obind]. rewrite S2. cbn [obind]. rewrite skipn_length.
  destruct (N.ltb_spec (N.of_nat (length bs - 8)) (be_val (firstn 8 bs))); [reflexivity|lia].
Qed.
End Tail.
