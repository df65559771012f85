(** C01, C06, C07: encodings followed by further bytes, and files that are too short. *)
From Coq Require Import List Arith NArith Lia.
From Coq Require Import Init.Byte.
From Verif.Base Require Import Outcome Bytes.
From Verif.Model Require Import Codec PublicInputs.
From Verif.Spec Require Import CodecSpec.
From Verif.Proofs Require Import BytesFacts OutcomeFacts CodecFacts PublicInputsFacts CodecTail.
From Verif.Properties Require Import CodecProperties.
Import ListNotations.

(** ** C01 *)

(** Whatever follows an encoded proof, decoding returns the proof with the last eight bytes of the buffer as nonce. *)
Theorem C01_proof_in_a_longer_buffer :
  forall (F : Type) (C : felt_codec F) (w : nat), codec_ok C w ->
  forall (p : stark_proof F) bs rest, stark_wf C p -> stark_serialize C p = Ok bs ->
  exists q, stark_deserialize C (bs ++ rest) = Ok q /\
    trace_length q = trace_length p /\ lde_trace_merkle_roots q = lde_trace_merkle_roots p /\
    trace_ood_frame_evaluations q = trace_ood_frame_evaluations p /\ composition_poly_root q = composition_poly_root p /\
    composition_poly_even_ood_evaluation q = composition_poly_even_ood_evaluation p /\
    composition_poly_odd_ood_evaluation q = composition_poly_odd_ood_evaluation p /\
    fri_layers_merkle_roots q = fri_layers_merkle_roots p /\ fri_last_value q = fri_last_value p /\
    query_list q = query_list p /\ deep_poly_openings q = deep_poly_openings p /\
    forall before last8, bs ++ rest = before ++ last8 -> length last8 = 8 -> nonce q = be_val last8.
Proof.
  intros F C w HC p bs rest H Hs. eexists. split; [exact (stark_appended C w HC p bs rest H Hs)|]. do 10 (split; [reflexivity|]).
  intros before last8 E L8. cbn [with_nonce nonce]. rewrite E, app_length, L8. replace (length before + 8 - 8) with (length before) by lia.
  rewrite skipn_app, skipn_all, Nat.sub_diag. reflexivity.
Qed.
Print Assumptions C01_proof_in_a_longer_buffer.

(** ** C06 *)

(** Bytes behind encoded public inputs or frames are ignored, so these have encodings of every larger length too. *)
Theorem C06_trailing_bytes_ignored :
  forall (F : Type) (feqb : F -> F -> bool) (C : felt_codec F), (forall a b, feqb a b = true <-> a = b) ->
  forall w : nat, codec_ok C w ->
  (forall (f : frame F) junk, frame_wf C f -> frame_deserialize C (frame_serialize C f ++ junk) = Ok f) /\
  (forall (p : public_inputs F) junk, pub_wf p ->
     exists r, pub_deserialize feqb C (pub_serialize C p) = Ok r /\ pub_deserialize feqb C (pub_serialize C p ++ junk) = Ok r).
Proof.
  intros F feqb C Hf w HC. split.
  - intros f junk H. exact (frame_round C w HC f junk H).
  - intros p junk H. exists p. rewrite <- (app_nil_r (pub_serialize C p)) at 1. split; exact (pub_round feqb C Hf w HC p _ H).
Qed.
Print Assumptions C06_trailing_bytes_ignored.

(** ** C07 *)

(** A file without a whole header, or with fewer bytes behind it than the header says, is an error, whatever it holds. *)
Theorem C07_short_files_are_errors :
  forall (F : Type) (feqb : F -> F -> bool) (C : felt_codec F) header body,
  length header < 8 /\ body = [] \/ length header = 8 /\ (N.of_nat (length body) < be_val header)%N ->
  file_read feqb C (header ++ body) = Err OtherError.
Proof.
  intros F feqb C header body H. apply file_too_short. rewrite app_length. destruct H as [[H ->]|[L H]].
  - left. cbn [length]. lia.
  - right. rewrite <- L at 2. rewrite firstn_app, firstn_all, Nat.sub_diag. cbn [firstn]. rewrite app_nil_r.
    replace (length header + length body - 8) with (length body) by lia. exact H.
Qed.
Print Assumptions C07_short_files_are_errors.

(** The proof of C01's example followed by nine bytes: the nonce changes to 1. *)
Example C01_example_longer : exists bs q, stark_serialize ex_codec ex_proof = Ok bs /\
  stark_deserialize ex_codec (bs ++ [x05; x00; x00; x00; x00; x00; x00; x00; x01]) = Ok q /\ nonce q = 1%N /\ nonce ex_proof = 77%N.
Proof. do 2 eexists. vm_compute. repeat split; reflexivity. Qed.
Example C07_example_short : length ([] : list byte) < 8 /\ (N.of_nat (length [x01; x02]) < be_val [x00; x00; x00; x00; x00; x00; x00; x03])%N.
Proof. vm_compute. split; [lia|reflexivity]. Qed.
