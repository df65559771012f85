(** Round-trip and totality proofs for the proof codec. *)
From Coq Require Import List NArith Arith Lia.
From Coq.Strings Require Import Byte.
From Verif.Base Require Import Outcome Bytes.
From Verif.Model Require Import Codec.
From Verif.Spec Require Import CodecSpec.
From Verif.Proofs Require Import BytesFacts.
Import ListNotations.

(** [r] reads the bytes [bs] as the value [x], whatever follows. *)
Definition reads {A} (r : reader A) (bs : list byte) (x : A) : Prop :=
  forall rest, r (bs ++ rest) = Ok (x, rest).

Lemma Ok_inj {A} (a b : A) : Ok a = Ok b -> a = b.
Proof. congruence. Qed.

Lemma obind_ok {A B} (x : outcome A) (f : A -> outcome B) a : x = Ok a -> obind x f = f a.
Proof. intros ->. reflexivity. Qed.

Lemma get_to_app p rest : get_to (N.of_nat (length p)) (p ++ rest) = Ok p.
Proof.
  unfold get_to. rewrite app_length.
  destruct (N.ltb_spec (N.of_nat (length p + length rest)) (N.of_nat (length p))); [lia|].
  rewrite Nat2N.id, firstn_app, firstn_all, Nat.sub_diag. cbn [firstn]. now rewrite app_nil_r.
Qed.

Lemma slice_to_app p rest : slice_to (N.of_nat (length p)) (p ++ rest) = Ok p.
Proof.
  unfold slice_to. rewrite app_length.
  destruct (N.ltb_spec (N.of_nat (length p + length rest)) (N.of_nat (length p))); [lia|].
  rewrite Nat2N.id, firstn_app, firstn_all, Nat.sub_diag. cbn [firstn]. now rewrite app_nil_r.
Qed.

Lemma slice_from_app p rest : slice_from (N.of_nat (length p)) (p ++ rest) = Ok rest.
Proof.
  unfold slice_from. rewrite app_length.
  destruct (N.ltb_spec (N.of_nat (length p + length rest)) (N.of_nat (length p))); [lia|].
  rewrite Nat2N.id, skipn_app, skipn_all, Nat.sub_diag. reflexivity.
Qed.

Lemma reads_take n p : length p = N.to_nat n -> reads (take n) p p.
Proof.
  intros H rest. unfold take.
  replace n with (N.of_nat (length p)) by lia.
  rewrite get_to_app. cbn [obind]. rewrite slice_from_app. reflexivity.
Qed.

Lemma reads_usize (n : nat) : (N.of_nat n < two64)%N -> reads read_usize (be8 n) (N.of_nat n).
Proof.
  intros H rest. unfold read_usize.
  rewrite (reads_take 8 (be8 n)) by (rewrite length_be8; reflexivity).
  cbn [obind]. now rewrite be_val_be8.
Qed.

Lemma reads_u64 (n : N) : (n < two64)%N -> reads read_usize (be_bytes 8 n) n.
Proof.
  intros H rest. unfold read_usize.
  rewrite (reads_take 8 (be_bytes 8 n)) by (rewrite length_be_bytes; reflexivity).
  cbn [obind]. rewrite be_val_be_bytes by exact H. reflexivity.
Qed.

Lemma reads_commitment (c : commitment) : length c = 32 -> reads read_commitment c c.
Proof. intro H. apply reads_take. rewrite H. reflexivity. Qed.

Lemma reads_many {A} (r : reader A) (enc : A -> list byte) (l : list A) :
  (forall x, In x l -> reads r (enc x) x) ->
  reads (read_many (length l) r) (concat (map enc l)) l.
Proof.
  induction l as [|x l IH]; intros H rest; cbn [length read_many map concat app].
  - reflexivity.
  - rewrite <- app_assoc, (H x (or_introl eq_refl)). cbn [obind].
    rewrite IH by (intros y Hy; apply H; now right). reflexivity.
Qed.

(** Two-list variant: the i-th encoding belongs to the i-th value. *)
Lemma reads_many2 {A} (r : reader A) (l : list A) (es : list (list byte)) :
  Forall2 (fun x e => reads r e x) l es ->
  reads (read_many (length l) r) (concat es) l.
Proof.
  induction 1 as [|x e l es Hx Hl IH]; intros rest; cbn [length read_many concat app].
  - reflexivity.
  - rewrite <- app_assoc, Hx. cbn [obind]. rewrite IH. reflexivity.
Qed.

Lemma reads_many_nat {A} (r : reader A) (enc : A -> list byte) (l : list A) :
  (forall x, In x l -> reads r (enc x) x) ->
  reads (read_many (N.to_nat (N.of_nat (length l))) r) (concat (map enc l)) l.
Proof. rewrite Nat2N.id. apply reads_many. Qed.

Lemma concat_map_id {A} (l : list (list A)) : concat (map (fun x => x) l) = concat l.
Proof. now rewrite map_id. Qed.

Lemma reads_commitments (l : list commitment) :
  Forall digest l -> reads (read_many (N.to_nat (N.of_nat (length l))) read_commitment) (concat l) l.
Proof.
  intro H. rewrite <- (concat_map_id l). apply reads_many_nat.
  intros x Hx. apply reads_commitment. rewrite Forall_forall in H. now apply H.
Qed.

Lemma reads_proof (p : list commitment) : path_wf p -> reads deserialize_proof (serialize_proof p) p.
Proof.
  intros [H1 H2] rest. unfold deserialize_proof, serialize_proof.
  rewrite <- app_assoc, reads_usize by exact H1. cbn [obind]. now apply reads_commitments.
Qed.

Section Codec.
Context {F : Type} (C : felt_codec F).

Context (w : nat) (HC : codec_ok C w).

Lemma reads_felt x : reads (read_felt C (N.of_nat w)) (fe_to C x) x.
Proof using HC.
  intro rest. unfold read_felt. rewrite <- (codec_width C w HC x), get_to_app. cbn [obind].
  rewrite (codec_round C w HC). cbn [ok_or obind]. now rewrite slice_from_app.
Qed.

Lemma reads_felts l : reads (read_many (N.to_nat (N.of_nat (length l))) (read_felt C (N.of_nat w)))
                            (concat (map (fe_to C) l)) l.
Proof using HC. apply reads_many_nat. intros x _. apply reads_felt. Qed.

Lemma length_felts l : length (concat (map (fe_to C) l)) = length l * w.
Proof using HC.
  induction l as [|x l IH]; cbn [map concat length]; [reflexivity|].
  rewrite app_length, IH, (codec_width C w HC). lia.
Qed.

Lemma length_digests l : Forall digest l -> length (concat l) = length l * 32.
Proof using.
  induction 1 as [|x l Hx Hl IH]; cbn [concat length]; [reflexivity|].
  rewrite app_length, IH, Hx. lia.
Qed.

Lemma frame_round f rest : frame_wf C f -> frame_deserialize C (frame_serialize C f ++ rest) = Ok f.
Proof using HC.
  destruct f as [data rw]; intros [Hl Hw]; cbn [fr_row_width] in Hw.
  unfold frame_deserialize, frame_serialize in *; cbn [fr_data fr_row_width] in *.
  rewrite !app_length, !length_be8, length_felts in Hl.
  rewrite <- !app_assoc.
  pose proof (codec_pos C w HC) as Hpos. pose proof (codec_small C w HC) as Hsm.
  rewrite reads_usize by nia. cbn [obind].
  assert (Hget : get_to 8 (be8 rw ++ rest) = Ok (be8 rw)).
  { replace 8%N with (N.of_nat (length (be8 rw))) by (rewrite length_be8; reflexivity). apply get_to_app. }
  destruct data as [|x data].
  - rewrite reads_usize by (cbv; reflexivity). cbn [obind length N.of_nat N.to_nat read_many map concat app].
    rewrite Hget. cbn [obind]. rewrite be_val_be8, Nat2N.id by exact Hw. reflexivity.
  - rewrite (codec_width C w HC). rewrite reads_usize by exact Hsm. cbn [obind].
    rewrite reads_felts. cbn [obind]. rewrite Hget. cbn [obind].
    rewrite be_val_be8, Nat2N.id by exact Hw. reflexivity.
Qed.

Lemma paths_reads l : paths_wf l -> (N.of_nat (length (concat (map serialize_proof l))) < two64)%N ->
  reads (read_many (N.to_nat (N.of_nat (length l))) deserialize_proof) (concat (map serialize_proof l)) l.
Proof using.
  intros Hwf Hlen. apply reads_many_nat. intros p Hp. apply reads_proof.
  unfold paths_wf in Hwf. rewrite Forall_forall in Hwf. pose proof (Hwf p Hp) as Hd. split; [|exact Hd].
  assert (Hle : length (serialize_proof p) <= length (concat (map serialize_proof l))).
  { clear Hlen. apply in_split in Hp. destruct Hp as (l1 & l2 & ->).
    rewrite map_app, concat_app. cbn [map concat]. rewrite !app_length. lia. }
  unfold serialize_proof in Hle at 1. rewrite app_length, length_be8, length_digests in Hle by exact Hd. lia.
Qed.

Lemma length_paths l : length l * 8 <= length (concat (map serialize_proof l)).
Proof using.
  induction l as [|p l IH]; cbn [map concat length]; [lia|].
  rewrite app_length. unfold serialize_proof at 1. rewrite app_length, length_be8. lia.
Qed.

Lemma fri_round d bs rest : fri_wf C d -> fri_serialize C d = Ok bs ->
  fri_deserialize C (bs ++ rest) = Ok d.
Proof using HC.
  destruct d as [ps es p e]. intros (Hne & Hps & Hp & Hlen) Hser.
  specialize (Hlen _ Hser).
  unfold fri_serialize in Hser; cbn [layers_evaluations layers_auth_paths layers_evaluations_sym layers_auth_paths_sym] in *.
  destruct e as [|x e]; [congruence|]. cbn [nth_error unwrap obind] in Hser.
  apply Ok_inj in Hser. subst bs.
  rewrite !app_length, !length_be8, !length_felts in Hlen.
  pose proof (length_paths ps). pose proof (length_paths p).
  pose proof (codec_pos C w HC) as Hpos. pose proof (codec_small C w HC) as Hsm.
  rewrite (codec_width C w HC) in *.
  unfold fri_deserialize. rewrite <- !app_assoc.
  rewrite reads_usize by lia. cbn [obind].
  rewrite paths_reads by (auto; lia). cbn [obind].
  rewrite reads_usize by exact Hsm. cbn [obind].
  rewrite reads_usize by nia. cbn [obind].
  rewrite reads_felts. cbn [obind].
  rewrite reads_usize by nia. cbn [obind].
  rewrite reads_felts. cbn [obind].
  rewrite reads_usize by lia. cbn [obind].
  rewrite paths_reads by (auto; lia). reflexivity.
Qed.

Lemma deep_round d rest : deep_wf C d -> deep_deserialize C (deep_serialize C d ++ rest) = Ok d.
Proof using HC.
  destruct d as [cp ev od ps es]. intros (Hcp & Hps & Hlen).
  unfold deep_serialize, deep_deserialize in *.
  cbn [lde_composition_poly_proof lde_composition_poly_even_evaluation lde_composition_poly_odd_evaluation
       lde_trace_merkle_proofs lde_trace_evaluations] in *.
  rewrite !app_length, !length_be8, !length_felts, !(codec_width C w HC) in Hlen.
  pose proof (length_paths ps).
  pose proof (codec_pos C w HC) as Hpos. pose proof (codec_small C w HC) as Hsm.
  rewrite (codec_width C w HC).
  rewrite <- !app_assoc.
  rewrite reads_proof.
  2:{ split; [|exact Hcp]. unfold serialize_proof in Hlen at 1.
      rewrite app_length, length_be8, length_digests in Hlen by exact Hcp. lia. }
  cbn [obind].
  rewrite reads_usize by exact Hsm. cbn [obind].
  rewrite reads_felt. cbn [obind]. rewrite reads_felt. cbn [obind].
  rewrite reads_usize by lia. cbn [obind].
  rewrite paths_reads by (auto; lia). cbn [obind].
  rewrite reads_usize by nia. cbn [obind].
  rewrite reads_felts. reflexivity.
Qed.

Lemma reads_block {A} (parse : list byte -> outcome A) b x :
  (N.of_nat (length b) < two64)%N -> parse b = Ok x -> reads (read_block parse) (with_len b) x.
Proof using.
  intros Hb Hp rest. unfold read_block, with_len. rewrite <- app_assoc, reads_usize by exact Hb.
  cbn [obind]. rewrite get_to_app. cbn [obind]. rewrite Hp. cbn [obind]. rewrite slice_from_app. reflexivity.
Qed.

Lemma traverse_ok_forall2 {A B} (f : A -> outcome B) l bs :
  traverse f l = Ok bs -> Forall2 (fun a b => f a = Ok b) l bs.
Proof using.
  revert bs; induction l as [|a l IH]; intros bs H; cbn [traverse] in H.
  - injection H as <-. constructor.
  - destruct (f a) as [b| |] eqn:E; cbn [obind] in H; try discriminate.
    destruct (traverse f l) as [bs'| |] eqn:E2; cbn [obind] in H; try discriminate.
    injection H as <-. constructor; auto.
Qed.

Lemma Forall2_len {A B} (R : A -> B -> Prop) l l' : Forall2 R l l' -> length l = length l'.
Proof using. induction 1; cbn [length]; congruence. Qed.

Lemma in_concat_len (x : list byte) l : In x l -> length x <= length (concat l).
Proof using.
  intro H. apply in_split in H. destruct H as (l1 & l2 & ->).
  rewrite concat_app. cbn [concat]. rewrite !app_length. lia.
Qed.

Lemma length_blocks l : length (concat (map with_len l)) = length l * 8 + length (concat l).
Proof using.
  induction l as [|b l IH]; cbn [map concat length]; [reflexivity|].
  unfold with_len at 1. rewrite !app_length, length_be8, IH. lia.
Qed.

(** What the deserializer does on a serialized proof in which [junk] has been inserted before the
    final eight nonce bytes. *)
Lemma stark_round_gen p junk body :
  stark_wf C p -> stark_serialize C p = Ok (body ++ be_bytes 8 (nonce p)) ->
  stark_deserialize C (body ++ junk ++ be_bytes 8 (nonce p)) = Ok p.
Proof using HC.
  destruct p as [tl roots fr cproot even odd froots last qs ds nc].
  unfold stark_wf, stark_serialize.
  cbn [trace_length lde_trace_merkle_roots trace_ood_frame_evaluations composition_poly_root
       composition_poly_even_ood_evaluation composition_poly_odd_ood_evaluation fri_layers_merkle_roots
       fri_last_value query_list deep_poly_openings nonce].
  intros (Htl & Hnc & Hroots & Hcp & Hfr & Hrw & Hqs & Hds & Hlen) Hser.
  destruct (traverse (fri_serialize C) qs) as [qb| |] eqn:Eq; cbn [obind] in *; try discriminate.
  specialize (Hlen _ eq_refl). apply Ok_inj in Hser. rename Hser into Hbody.
  rewrite !app_length, !length_be8, !length_digests, !(codec_width C w HC), length_be_bytes in Hlen by assumption.
  unfold with_len in Hlen at 1. rewrite app_length, length_be8, length_blocks in Hlen.
  assert (Hmm : map (fun d => with_len (deep_serialize C d)) ds = map with_len (map (deep_serialize C) ds))
    by (symmetry; apply map_map).
  rewrite Hmm, length_blocks, map_length in Hlen.
  rewrite !app_assoc in Hbody. apply app_inv_tail in Hbody. rewrite <- !app_assoc in Hbody.
  subst body. rewrite <- !app_assoc.
  pose proof (codec_pos C w HC) as Hpos. pose proof (codec_small C w HC) as Hsm.
  apply traverse_ok_forall2 in Eq. pose proof (Forall2_len _ _ _ Eq) as Hql.
  unfold stark_deserialize.
  rewrite reads_usize by exact Htl. cbn [obind].
  rewrite reads_usize by lia. cbn [obind].
  rewrite reads_commitments by exact Hroots. cbn [obind].
  rewrite (reads_block _ _ fr).
  2: lia.
  2:{ rewrite <- (app_nil_r (frame_serialize C fr)). apply frame_round. split; [lia|exact Hrw]. }
  cbn [obind].
  rewrite reads_commitment by exact Hcp. cbn [obind].
  rewrite (codec_width C w HC). rewrite reads_usize by exact Hsm. cbn [obind].
  rewrite reads_felt. cbn [obind]. rewrite reads_felt. cbn [obind].
  rewrite reads_usize by lia. cbn [obind].
  rewrite reads_commitments by exact Hfr. cbn [obind].
  rewrite reads_felt. cbn [obind].
  rewrite reads_usize by lia. cbn [obind].
  rewrite Nat2N.id.
  rewrite (reads_many2 _ qs).
  2:{ assert (Hall : forall b, In b qb -> length b <= length (concat qb)) by (intros b Hb; now apply in_concat_len).
      clear - HC Eq Hqs Hall Hlen.
      assert (Hmax : (N.of_nat (length (concat qb)) < two64)%N) by lia. clear Hlen.
      revert Hall Hmax. generalize (length (concat qb)) as M. intros M Hall Hmax.
      induction Eq as [|d b qs qb Hd Hrest IH]; cbn [map]; constructor.
      - apply Forall_inv in Hqs. destruct Hqs as (Hne & H1 & H2).
        assert (length b <= M) by (apply Hall; now left).
        apply reads_block; [lia|].
        rewrite <- (app_nil_r b). apply fri_round; [|exact Hd].
        repeat split; auto. intros bs Hbs. rewrite Hd in Hbs. apply Ok_inj in Hbs. subst bs. lia.
      - apply IH; [now apply Forall_inv_tail in Hqs | intros b' Hb'; apply Hall; now right]. }
  cbn [obind].
  rewrite reads_usize by lia. cbn [obind].
  rewrite (reads_many_nat _ (fun d => with_len (deep_serialize C d)) ds).
  2:{ intros d Hd. rewrite Forall_forall in Hds. destruct (Hds d Hd) as (H1 & H2).
      assert (Hle : length (deep_serialize C d) <= length (concat (map (deep_serialize C) ds))).
      { apply in_concat_len. now apply in_map. }
      apply reads_block; [lia|].
      rewrite <- (app_nil_r (deep_serialize C d)). apply deep_round. repeat split; auto. lia. }
  cbn [obind].
  unfold read_nonce. rewrite app_length, length_be_bytes.
  destruct (Nat.ltb_spec (length junk + 8) 8); [lia|]. cbn [obind].
  replace (length junk + 8 - 8) with (length junk) by lia.
  rewrite skipn_app, skipn_all, Nat.sub_diag. cbn [app skipn].
  rewrite be_val_be_bytes by exact Hnc. rewrite Nat2N.id. reflexivity.
Qed.

Lemma stark_serialize_split p bs : stark_serialize C p = Ok bs -> exists body, bs = body ++ be_bytes 8 (nonce p).
Proof using.
  unfold stark_serialize. destruct (traverse (fri_serialize C) (query_list p)) as [qb| |]; cbn [obind]; try discriminate.
  intro H. apply Ok_inj in H. subst bs. rewrite !app_assoc. eexists. reflexivity.
Qed.

Lemma stark_round p bs : stark_wf C p -> stark_serialize C p = Ok bs -> stark_deserialize C bs = Ok p.
Proof using HC.
  intros Hwf Hser. destruct (stark_serialize_split p bs Hser) as [body ->].
  exact (stark_round_gen p [] body Hwf Hser).
Qed.

Lemma stark_serialize_total p : stark_wf C p -> exists bs, stark_serialize C p = Ok bs.
Proof using.
  intros (_ & _ & _ & _ & _ & _ & Hq & _). unfold stark_serialize.
  assert (Ht : exists qb, traverse (fri_serialize C) (query_list p) = Ok qb).
  { induction Hq as [|d l (Hne & _) Hl IH]; cbn [traverse]; [eexists; reflexivity|].
    destruct IH as [qb ->]. unfold fri_serialize at 1.
    destruct (layers_evaluations d) as [|x e]; [congruence|]. cbn. eexists. reflexivity. }
  destruct Ht as [qb ->]. cbn [obind]. eexists. reflexivity.
Qed.

Lemma fri_serialize_panic_iff (d : fri_decommitment F) : fri_serialize C d = Panic <-> layers_evaluations d = [].
Proof using.
  unfold fri_serialize. destruct (layers_evaluations d) as [|x l]; cbn [nth_error unwrap obind].
  - split; reflexivity.
  - split; discriminate.
Qed.

Lemma stark_malleable p bs junk : stark_wf C p -> stark_serialize C p = Ok bs ->
  stark_deserialize C (firstn (length bs - 8) bs ++ junk ++ skipn (length bs - 8) bs) = Ok p.
Proof using HC.
  intros Hwf Hser. destruct (stark_serialize_split p bs Hser) as [body ->].
  rewrite app_length, length_be_bytes. replace (length body + 8 - 8) with (length body + 0) by lia.
  rewrite firstn_app_2. cbn [firstn]. rewrite app_nil_r.
  rewrite Nat.add_0_r, skipn_app, skipn_all, Nat.sub_diag. cbn [app skipn].
  now apply stark_round_gen.
Qed.

Lemma stark_many_encodings p : stark_wf C p -> forall n : nat,
  exists bs, stark_deserialize C bs = Ok p /\ n < length bs.
Proof using HC.
  intros Hwf n. destruct (stark_serialize_total p Hwf) as [bs Hbs].
  eexists. split; [exact (stark_malleable p bs (repeat x00 (S n)) Hwf Hbs)|].
  rewrite !app_length, repeat_length. lia.
Qed.

(** * Totality: the readers never panic. *)

Definition total {A} (r : reader A) : Prop := forall bs, no_panic (r bs).

Lemma no_panic_bind {A B} (x : outcome A) (f : A -> outcome B) :
  no_panic x -> (forall a, no_panic (f a)) -> no_panic (obind x f).
Proof using. intros Hx Hf. destruct x; cbn [obind]; [apply Hf | discriminate | congruence]. Qed.

Lemma no_panic_bind_get {B} n bs (f : list byte -> outcome B) :
  ((n <= N.of_nat (length bs))%N -> no_panic (f (firstn (N.to_nat n) bs))) -> no_panic (obind (get_to n bs) f).
Proof using.
  intro H. unfold get_to. destruct (N.ltb_spec (N.of_nat (length bs)) n); cbn [obind]; [discriminate|].
  apply H. assumption.
Qed.

Lemma slice_from_le n bs : (n <= N.of_nat (length bs))%N -> slice_from n bs = Ok (skipn (N.to_nat n) bs).
Proof using. intro H. unfold slice_from. destruct (N.ltb_spec (N.of_nat (length bs)) n); [lia|reflexivity]. Qed.

Lemma total_take n : total (take n).
Proof using.
  intro bs. unfold take. apply no_panic_bind_get. intro H. rewrite slice_from_le by exact H. discriminate.
Qed.

Lemma total_usize : total read_usize.
Proof using. intro bs. unfold read_usize. apply no_panic_bind; [apply total_take|]. intros [p r]. discriminate. Qed.

Lemma total_many {A} n (r : reader A) : total r -> total (read_many n r).
Proof using.
  intro Hr. induction n as [|n IH]; intro bs; cbn [read_many]; [discriminate|].
  apply no_panic_bind; [apply Hr|]. intros [a bs1]. apply no_panic_bind; [apply IH|]. intros [l bs2]. discriminate.
Qed.

Lemma total_felt n : total (read_felt C n).
Proof using.
  intro bs. unfold read_felt. apply no_panic_bind_get. intro H.
  apply no_panic_bind; [destruct (fe_from C _); discriminate|]. intro x.
  rewrite slice_from_le by exact H. discriminate.
Qed.

Lemma total_proof : total deserialize_proof.
Proof using.
  intro bs. unfold deserialize_proof. apply no_panic_bind; [apply total_usize|]. intros [n bs1].
  apply total_many. apply total_take.
Qed.

Lemma total_block {A} (parse : list byte -> outcome A) :
  (forall bs, no_panic (parse bs)) -> total (read_block parse).
Proof using.
  intros Hp bs. unfold read_block. apply no_panic_bind; [apply total_usize|]. intros [n bs1].
  apply no_panic_bind_get. intro H. apply no_panic_bind; [apply Hp|]. intro x.
  rewrite slice_from_le by exact H. discriminate.
Qed.

Ltac step_total :=
  match goal with
  | |- no_panic (obind (get_to _ _) _) => apply no_panic_bind_get; intros _
  | |- no_panic (obind _ _) => apply no_panic_bind;
       [ first [ apply total_usize | apply total_proof | apply total_felt | apply total_take
               | apply total_many; first [ apply total_proof | apply total_felt | apply total_take | apply total_block ] 
               | apply total_block ] | intros [? ?] ]
  | |- no_panic (Ok _) => discriminate
  end.

Lemma frame_total bs : no_panic (frame_deserialize C bs).
Proof using. unfold frame_deserialize. repeat step_total. Qed.

Lemma fri_total bs : no_panic (fri_deserialize C bs).
Proof using. unfold fri_deserialize. repeat step_total. Qed.

Lemma deep_total bs : no_panic (deep_deserialize C bs).
Proof using. unfold deep_deserialize. repeat step_total. Qed.

Lemma read_nonce_total bs : no_panic (read_nonce bs).
Proof using. unfold read_nonce. destruct (length bs <? 8); discriminate. Qed.

Lemma stark_total bs : no_panic (stark_deserialize C bs).
Proof using.
  unfold stark_deserialize. repeat step_total.
  all: try (exact frame_total); try (exact fri_total); try (exact deep_total).
  apply no_panic_bind; [apply read_nonce_total|]. intro; discriminate.
Qed.

End Codec.
