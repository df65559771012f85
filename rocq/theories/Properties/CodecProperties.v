(** Properties C01-C07: byte formats of proofs, public inputs and the CLI file. *)
From Coq Require Import List NArith Arith Lia Permutation.
From Coq.Strings Require Import Byte.
From Verif.Base Require Import Outcome Bytes.
From Verif.Model Require Import Codec PublicInputs.
From Verif.Spec Require Import CodecSpec.
From Verif.Proofs Require Import BytesFacts CodecFacts PublicInputsFacts.
Import ListNotations.

(** ** C01 *)
Theorem C01_stark_proof_round_trip :
  forall (F : Type) (C : felt_codec F) (w : nat), codec_ok C w ->
  forall p : stark_proof F, stark_wf C p ->
  exists bs, stark_serialize C p = Ok bs /\ stark_deserialize C bs = Ok p.
Proof.
  intros F C w HC p Hp. destruct (stark_serialize_total C p Hp) as [bs Hbs].
  exists bs. split; [exact Hbs | exact (stark_round C w HC p bs Hp Hbs)].
Qed.
Print Assumptions C01_stark_proof_round_trip.

(** Distinct proofs have distinct encodings. *)
Theorem C01_stark_serialize_injective :
  forall (F : Type) (C : felt_codec F) (w : nat), codec_ok C w ->
  forall (p q : stark_proof F) bs, stark_wf C p -> stark_wf C q ->
  stark_serialize C p = Ok bs -> stark_serialize C q = Ok bs -> p = q.
Proof.
  intros F C w HC p q bs Hp Hq Ep Eq. apply Ok_inj.
  rewrite <- (stark_round C w HC p bs Hp Ep). exact (stark_round C w HC q bs Hq Eq).
Qed.
Print Assumptions C01_stark_serialize_injective.

(** ** C02 *)
Theorem C02_frame_round_trip :
  forall (F : Type) (C : felt_codec F) (w : nat), codec_ok C w ->
  forall (f : frame F) rest, frame_wf C f -> frame_deserialize C (frame_serialize C f ++ rest) = Ok f.
Proof. exact @frame_round. Qed.
Print Assumptions C02_frame_round_trip.

Theorem C02_fri_decommitment_round_trip :
  forall (F : Type) (C : felt_codec F) (w : nat), codec_ok C w ->
  forall (d : fri_decommitment F) bs rest, fri_wf C d -> fri_serialize C d = Ok bs ->
  fri_deserialize C (bs ++ rest) = Ok d.
Proof. exact @fri_round. Qed.
Print Assumptions C02_fri_decommitment_round_trip.

(** Serializing a decommitment panics exactly when it has no layer evaluations. *)
Theorem C02_fri_serialize_panics_iff_empty :
  forall (F : Type) (C : felt_codec F) (d : fri_decommitment F),
  fri_serialize C d = Panic <-> layers_evaluations d = [].
Proof. exact @fri_serialize_panic_iff. Qed.
Print Assumptions C02_fri_serialize_panics_iff_empty.

Theorem C02_deep_openings_round_trip :
  forall (F : Type) (C : felt_codec F) (w : nat), codec_ok C w ->
  forall (d : deep_openings F) rest, deep_wf C d -> deep_deserialize C (deep_serialize C d ++ rest) = Ok d.
Proof. exact @deep_round. Qed.
Print Assumptions C02_deep_openings_round_trip.

Theorem C02_merkle_path_round_trip :
  forall p rest, path_wf p -> deserialize_proof (serialize_proof p ++ rest) = Ok (p, rest).
Proof. exact (fun p rest H => reads_proof p H rest). Qed.
Print Assumptions C02_merkle_path_round_trip.

(** ** C03 *)
Theorem C03_proof_readers_never_panic :
  forall (F : Type) (C : felt_codec F) (bs : list byte),
  no_panic (stark_deserialize C bs) /\ no_panic (deep_deserialize C bs) /\
  no_panic (fri_deserialize C bs) /\ no_panic (frame_deserialize C bs) /\ no_panic (deserialize_proof bs).
Proof.
  intros F C bs.
  exact (conj (stark_total C bs) (conj (deep_total C bs) (conj (fri_total C bs)
        (conj (frame_total C bs) (total_proof bs))))).
Qed.
Print Assumptions C03_proof_readers_never_panic.

(** ** C04 *)
Theorem C04_public_inputs_panic_exactly :
  forall (F : Type) (feqb : F -> F -> bool) (C : felt_codec F) (bs : list byte),
  pub_deserialize feqb C bs = Panic <-> pub_panic_shape C bs.
Proof. exact @pub_panic_iff. Qed.
Print Assumptions C04_public_inputs_panic_exactly.

(** For every element codec that can encode anything at all, some truncated encoding of every public
    input panics: so "never panics" is false of the code. *)
Theorem C04_public_inputs_never_panics_refuted :
  forall (F : Type) (feqb : F -> F -> bool) (C : felt_codec F) (w : nat), codec_ok C w ->
  forall p : public_inputs F, range_check_min p <> None ->
  exists n, pub_deserialize feqb C (firstn n (pub_serialize C p)) = Panic.
Proof. exact @pub_truncation_panics. Qed.
Print Assumptions C04_public_inputs_never_panics_refuted.

(** ** C05 *)
Theorem C05_public_inputs_round_trip_any_map_order :
  forall (F : Type) (feqb : F -> F -> bool) (C : felt_codec F),
  (forall a b, feqb a b = true <-> a = b) ->
  forall w : nat, codec_ok C w ->
  forall (p q : public_inputs F) (rest : list byte), pub_wf p -> same_up_to_order p q ->
  exists r, pub_deserialize feqb C (pub_serialize C q ++ rest) = Ok r /\
    pc_init r = pc_init p /\ ap_init r = ap_init p /\ fp_init r = fp_init p /\
    pc_final r = pc_final p /\ ap_final r = ap_final p /\
    range_check_min r = range_check_min p /\ range_check_max r = range_check_max p /\
    num_steps r = num_steps p /\
    (forall s, map_get segment_eqb s (memory_segments r) = map_get segment_eqb s (memory_segments p)) /\
    (forall a, map_get feqb a (public_memory r) = map_get feqb a (public_memory p)).
Proof. exact @pub_round_any_order. Qed.
Print Assumptions C05_public_inputs_round_trip_any_map_order.

(** ** C06 *)
(** Any junk inserted just before the last eight bytes of an encoded proof is ignored. *)
Theorem C06_proof_encoding_malleable :
  forall (F : Type) (C : felt_codec F) (w : nat), codec_ok C w ->
  forall (p : stark_proof F) bs junk, stark_wf C p -> stark_serialize C p = Ok bs ->
  stark_deserialize C (firstn (length bs - 8) bs ++ junk ++ skipn (length bs - 8) bs) = Ok p.
Proof. exact @stark_malleable. Qed.
Print Assumptions C06_proof_encoding_malleable.

Theorem C06_unique_encoding_refuted :
  forall (F : Type) (C : felt_codec F) (w : nat), codec_ok C w ->
  forall (p : stark_proof F), stark_wf C p -> forall n : nat,
  exists bs, stark_deserialize C bs = Ok p /\ n < length bs.
Proof. exact @stark_many_encodings. Qed.
Print Assumptions C06_unique_encoding_refuted.

(** ** C07 *)
Theorem C07_cli_file_round_trip :
  forall (F : Type) (feqb : F -> F -> bool) (C : felt_codec F),
  (forall a b, feqb a b = true <-> a = b) ->
  forall w : nat, codec_ok C w ->
  forall (p : stark_proof F) (pi : public_inputs F), stark_wf C p -> pub_wf pi ->
  exists bs, file_write C p pi = Ok bs /\ file_read feqb C bs = Ok (p, pi).
Proof. exact @file_round_total. Qed.
Print Assumptions C07_cli_file_round_trip.

(** Cutting the file anywhere inside the header or the proof is reported as an error. *)
Theorem C07_cli_file_truncation_detected :
  forall (F : Type) (feqb : F -> F -> bool) (C : felt_codec F)
         (p : stark_proof F) (pi : public_inputs F) bs n,
  stark_wf C p -> file_write C p pi = Ok bs ->
  n < length bs - length (pub_serialize C pi) -> file_read feqb C (firstn n bs) = Err OtherError.
Proof. exact @file_truncated. Qed.
Print Assumptions C07_cli_file_truncation_detected.

(** * Non-vacuity: a one-byte field, a proof with two columns, two FRI layers and one query. *)
Definition ex_codec : felt_codec byte :=
  {| fe_to := fun b => [b]; fe_from := fun l => match l with [b] => Some b | _ => None end |}.

Example ex_codec_ok : codec_ok ex_codec 1.
Proof. constructor; cbn; try reflexivity; lia. Qed.

Definition ex_digest (b : byte) : commitment := repeat b 32.

Definition ex_proof : stark_proof byte :=
  mk_stark_proof 4 [ex_digest x01; ex_digest x02] (mk_frame [x05; x06; x07; x08] 2) (ex_digest x03)
    x0a x0b [ex_digest x04] x0c
    [mk_fri_decommitment [[ex_digest x05; ex_digest x06]] [x0d] [[ex_digest x07]; []] [x0e; x0f]]
    [mk_deep_openings [ex_digest x08] x10 x11 [[ex_digest x09]; []] [x12; x13]] 77%N.

Example ex_proof_wf : stark_wf ex_codec ex_proof.
Proof.
  unfold stark_wf, ex_proof, paths_wf; cbn [trace_length nonce lde_trace_merkle_roots composition_poly_root
    fri_layers_merkle_roots trace_ood_frame_evaluations fr_row_width query_list deep_poly_openings
    layers_evaluations layers_auth_paths_sym layers_auth_paths lde_composition_poly_proof lde_trace_merkle_proofs].
  repeat split; repeat constructor; try reflexivity; try discriminate.
  intros bs H. vm_compute in H. injection H as <-. reflexivity.
Qed.

Example ex_proof_round : exists bs, stark_serialize ex_codec ex_proof = Ok bs /\ stark_deserialize ex_codec bs = Ok ex_proof.
Proof. exact (C01_stark_proof_round_trip _ _ _ ex_codec_ok _ ex_proof_wf). Qed.

Definition ex_pub : public_inputs byte :=
  mk_public_inputs x01 x02 x03 x04 x05 (Some 7%N) (Some 65535%N)
    [(Output, (20, 22)%N); (RangeCheck, (30, 34)%N)] [(x01, x09); (x02, x0a)] 12.

Example ex_pub_wf : pub_wf ex_pub.
Proof.
  unfold pub_wf, ex_pub; cbn. repeat split; repeat constructor; cbn; try (intuition discriminate).
Qed.

Example ex_pub_truncated_panics : exists n, pub_deserialize Byte.eqb ex_codec (firstn n (pub_serialize ex_codec ex_pub)) = Panic.
Proof. exists 15. vm_compute. reflexivity. Qed.

Example ex_pub_reordered : same_up_to_order ex_pub
  (mk_public_inputs x01 x02 x03 x04 x05 (Some 7%N) (Some 65535%N)
    [(RangeCheck, (30, 34)%N); (Output, (20, 22)%N)] [(x02, x0a); (x01, x09)] 12).
Proof. unfold same_up_to_order, ex_pub; cbn. repeat split; apply perm_swap. Qed.
