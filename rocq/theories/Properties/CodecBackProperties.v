(** C66: what a buffer that decodes says about the decoded value. *)
From Coq Require Import List NArith Arith Lia.
From Coq.Strings Require Import Byte.
From Verif.Base Require Import Outcome Bytes.
From Verif.Model Require Import Codec PublicInputs.
From Verif.Spec Require Import CodecSpec.
From Verif.Proofs Require Import BytesFacts CodecFacts PublicInputsFacts CodecBack.
From Verif.Properties Require Import CodecProperties.
Import ListNotations.

(** Every buffer that decodes: the decoded proof has an encoding, no longer than the buffer, which decodes to the same
    proof; or one of its decommitments has no evaluations and serializing it panics. *)
Theorem C66_decoded_proofs_encode :
  forall (F : Type) (C : felt_codec F) (w : nat), codec_ok C w -> (forall bs x, fe_from C bs = Some x -> w <= length bs) ->
  forall bs p, (N.of_nat (length bs) < two64)%N -> stark_deserialize C bs = Ok p ->
  (exists bs', stark_serialize C p = Ok bs' /\ length bs' <= length bs /\ stark_deserialize C bs' = Ok p) \/
  (stark_serialize C p = Panic /\ exists d, In d (query_list p) /\ layers_evaluations d = []).
Proof.
  intros F C w HC Hl bs p Hb H.
  assert (Hdec : forall d : fri_decommitment F, {layers_evaluations d <> []} + {~ layers_evaluations d <> []})
    by (intro d; destruct (layers_evaluations d); [right; intro K; now apply K|left; discriminate]).
  destruct (Forall_Exists_dec _ Hdec (query_list p)) as [Hf|He].
  - left. exact (stark_canonical C w HC Hl bs p Hb H Hf).
  - right. apply Exists_exists in He. destruct He as (d & Hd & Hn). assert (He : layers_evaluations d = []) by (destruct (layers_evaluations d); [reflexivity|exfalso; apply Hn; discriminate]).
    split; [exact (stark_serialize_panics C p d Hd He)|]. eauto.
Qed.
Print Assumptions C66_decoded_proofs_encode.

(** The second case occurs: such a buffer decodes (and C49 says what the verifier then does), but cannot be written again. *)
Theorem C66_every_decoded_proof_encodes_refuted :
  exists bs p, stark_deserialize ex_codec bs = Ok p /\ stark_serialize ex_codec p = Panic.
Proof.
  set (bs := be8 4 ++ be8 0 ++ with_len (be8 0 ++ be8 0 ++ be8 1) ++ repeat x00 32 ++ be8 1 ++ [x01; x02] ++ be8 0 ++ [x03] ++ be8 1 ++ with_len (be8 0 ++ be8 1 ++ be8 0 ++ be8 0 ++ be8 0) ++ be8 0 ++ be8 7).
  exists bs, (mk_stark_proof 4 [] (mk_frame [] 1) (repeat x00 32) x01 x02 [] x03 [mk_fri_decommitment [] [] [] []] [] 7%N).
  split; vm_compute; reflexivity.
Qed.
Print Assumptions C66_every_decoded_proof_encodes_refuted.

(** Public inputs: whatever decodes is well formed, and has an encoding no longer than the buffer. *)
Theorem C66_decoded_public_inputs_encode :
  forall (F : Type) (feqb : F -> F -> bool) (C : felt_codec F), (forall a b, feqb a b = true <-> a = b) ->
  forall w : nat, codec_ok C w -> (forall bs x, fe_from C bs = Some x -> w <= length bs) ->
  forall bs p, (N.of_nat (length bs) < two64)%N -> pub_deserialize feqb C bs = Ok p ->
  pub_wf p /\ length (pub_serialize C p) <= length bs /\ pub_deserialize feqb C (pub_serialize C p) = Ok p.
Proof.
  intros F feqb C Heq w HC Hl bs p Hb H. destruct (pub_back feqb C Heq w HC Hl bs p Hb H) as [H1 H2]. split; [exact H1|]. split; [exact H2|].
  rewrite <- (app_nil_r (pub_serialize C p)). exact (pub_round feqb C Heq w HC p [] H1).
Qed.
Print Assumptions C66_decoded_public_inputs_encode.

(** The file of the command line. *)
Theorem C66_decoded_files_encode :
  forall (F : Type) (feqb : F -> F -> bool) (C : felt_codec F), (forall a b, feqb a b = true <-> a = b) ->
  forall w : nat, codec_ok C w -> (forall bs x, fe_from C bs = Some x -> w <= length bs) ->
  forall bs p pi, (N.of_nat (length bs) < two64)%N -> file_read feqb C bs = Ok (p, pi) ->
  Forall (fun d => layers_evaluations d <> []) (query_list p) ->
  exists bs', file_write C p pi = Ok bs' /\ length bs' <= length bs /\ file_read feqb C bs' = Ok (p, pi).
Proof. intros F feqb C Heq w HC Hl. exact (file_back feqb C Heq w HC Hl). Qed.
Print Assumptions C66_decoded_files_encode.

(** A file may list an address of the public memory several times: the last value wins, silently. *)
Theorem C66_last_cell_wins :
  forall (F : Type) (feqb : F -> F -> bool) (C : felt_codec F), (forall a b, feqb a b = true <-> a = b) ->
  forall w : nat, codec_ok C w ->
  forall (p : public_inputs F) cells rest, pub_wf p -> (N.of_nat (length cells) < two64)%N ->
  let q := mk_public_inputs (pc_init p) (ap_init p) (fp_init p) (pc_final p) (ap_final p) (range_check_min p) (range_check_max p)
             (memory_segments p) cells (num_steps p) in
  exists r, pub_deserialize feqb C (pub_serialize C q ++ rest) = Ok r /\
    forall before a v after, cells = before ++ (a, v) :: after -> ~ In a (map fst after) -> map_get feqb a (public_memory r) = Some v.
Proof.
  intros F feqb C Heq w HC [pci api fpi pcf apf rmin rmax segs mem ns] cells rest.
  unfold pub_wf, pub_serialize, pub_deserialize; cbn [pc_init ap_init fp_init pc_final ap_final range_check_min range_check_max memory_segments public_memory num_steps].
  intros (H1 & H2 & H3 & H4 & H5 & H6 & H7) Hc. eexists. split.
  - rewrite <- !app_assoc, (codec_width C w HC).
    rewrite reads_usize by exact (codec_small C w HC). cbn [obind].
    do 5 (rewrite (reads_felt C w HC); cbn [obind]).
    rewrite reads_opt16 by exact H1. cbn [obind]. rewrite reads_opt16 by exact H2. cbn [obind].
    rewrite reads_usize by (now apply seg_count). cbn [obind].
    rewrite (reads_many_nat read_segment ser_segment).
    2:{ intros e He. apply reads_segment. rewrite Forall_forall in H3. now apply H3. }
    cbn [obind]. rewrite reads_usize by exact Hc. cbn [obind].
    rewrite (reads_many_nat (read_cell C (N.of_nat w)) (ser_cell C)).
    2:{ intros e He. now apply reads_cell. }
    cbn [obind].
    replace (get_to 8 (be8 ns ++ rest)) with (Ok (be8 ns)).
    2:{ symmetry. replace 8%N with (N.of_nat (length (be8 ns))) by (rewrite length_be8; reflexivity). apply get_to_app. }
    reflexivity.
  - intros before a v after -> Hn. cbn [public_memory]. rewrite (entries_get feqb Heq), rev_app_distr. cbn [rev]. rewrite <- app_assoc. cbn [app].
    assert (G : forall l, ~ In a (map fst l) -> map_get feqb a (l ++ (a, v) :: rev before) = Some v).
    { induction l as [|[k x] l IH]; intro Hl; cbn [app map_get]; [now rewrite (proj2 (Heq a a) eq_refl)|].
      destruct (feqb a k) eqn:Ek; [apply Heq in Ek; subst k; exfalso; apply Hl; now left|]. apply IH. intro Hin. apply Hl. now right. }
    apply G. intro Hin. apply Hn. apply in_map_iff in Hin. destruct Hin as ([k x] & <- & Hin). apply in_rev in Hin. apply in_map_iff. exists (k, x). auto.
Qed.
Print Assumptions C66_last_cell_wins.

(** Instances. *)
Lemma ex_codec_long bs x : fe_from ex_codec bs = Some x -> 1 <= length bs.
Proof. destruct bs; [discriminate|]. intros _. cbn. lia. Qed.
Example C66_example : exists bs', stark_serialize ex_codec ex_proof = Ok bs' /\ stark_deserialize ex_codec bs' = Ok ex_proof.
Proof.
  destruct ex_proof_round as (bs & H1 & H2). assert (Hb : (N.of_nat (length bs) < two64)%N).
  { apply (proj2 (proj2 (proj2 (proj2 (proj2 (proj2 (proj2 (proj2 ex_proof_wf))))))) bs H1). }
  destruct (C66_decoded_proofs_encode byte ex_codec 1 ex_codec_ok ex_codec_long bs ex_proof Hb H2) as [(bs' & K1 & _ & K2)|(K & _)]; [eauto|].
  rewrite H1 in K. discriminate K.
Qed.
Example C66_cells_example : exists r, pub_deserialize Byte.eqb ex_codec (pub_serialize ex_codec
    (mk_public_inputs x01 x02 x03 x04 x05 (Some 7%N) (Some 65535%N) [] [(x01, x09); (x02, x0a); (x01, x0b)] 12)) = Ok r /\
  public_memory r = [(x01, x0b); (x02, x0a)].
Proof. eexists. split; vm_compute; reflexivity. Qed.
