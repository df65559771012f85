(** From a buffer that decodes back to a buffer: sizes and well-formedness of what the readers return. *)
From Coq Require Import List NArith Arith Lia.
From Coq.Strings Require Import Byte.
From Verif.Base Require Import Outcome Bytes.
From Verif.Model Require Import Codec.
From Verif.Spec Require Import CodecSpec.
From Verif.Proofs Require Import BytesFacts CodecFacts OutcomeFacts.
Import ListNotations.

(** What [r] returns takes at most the bytes it consumed, and satisfies [P]. *)
Definition fits {A} (r : reader A) (size : A -> nat) (P : A -> Prop) : Prop :=
  forall bs x rest, r bs = Ok (x, rest) -> size x + length rest <= length bs /\ P x.

Definition total_size {A} (size : A -> nat) (l : list A) : nat := list_sum (map size l).

Lemma get_to_ok n bs p : get_to n bs = Ok p -> (n <= N.of_nat (length bs))%N /\ p = firstn (N.to_nat n) bs /\ length p = N.to_nat n.
Proof.
  unfold get_to. destruct (N.ltb_spec (N.of_nat (length bs)) n); [discriminate|]. intro H0. apply ok_inj in H0. subst p.
  split; [assumption|]. split; [reflexivity|]. rewrite firstn_length. lia.
Qed.
Lemma slice_from_ok n bs r : slice_from n bs = Ok r -> (n <= N.of_nat (length bs))%N /\ length bs = N.to_nat n + length r.
Proof.
  unfold slice_from. destruct (N.ltb_spec (N.of_nat (length bs)) n); [discriminate|]. intro H0. apply ok_inj in H0. subst r.
  split; [assumption|]. rewrite skipn_length. lia.
Qed.
Lemma fits_take n : fits (take n) (@length byte) (fun p => length p = N.to_nat n).
Proof.
  intros bs x rest H. unfold take in H. ok_as H p Hp. ok_as H r Hr. apply ok_inj in H. injection H as <- <-.
  apply get_to_ok in Hp. apply slice_from_ok in Hr. destruct Hp as (_ & _ & Hp). lia.
Qed.
Lemma fits_usize : fits read_usize (fun _ => 8) (fun n => (n < two64)%N).
Proof.
  intros bs x rest H. unfold read_usize in H. ok_as H pr Hp. destruct pr as [p r]. apply ok_inj in H. injection H as <- <-.
  destruct (fits_take _ _ _ _ Hp) as [H1 H2]. change (N.to_nat 8) with 8 in H2. split; [lia|].
  pose proof (be_val_lt p) as Hb. rewrite H2 in Hb. exact Hb.
Qed.
Lemma fits_commitment : fits read_commitment (@length byte) digest.
Proof. exact (fits_take 32). Qed.
Lemma fits_many {A} n (r : reader A) size P : fits r size P -> fits (read_many n r) (total_size size) (fun l => length l = n /\ Forall P l).
Proof.
  intro Hr. induction n as [|n IH]; intros bs x rest H; cbn [read_many] in H.
  - apply ok_inj in H. injection H as <- <-. cbn. auto.
  - ok_as H s1 H1. destruct s1 as [a b1]. ok_as H s2 H2. destruct s2 as [l b2]. apply ok_inj in H. injection H as <- <-.
    apply Hr in H1. apply IH in H2. unfold total_size in *. cbn [map list_sum fold_right length]. destruct H1 as [H1 H1'], H2 as (H2 & H2' & H2'').
    split; [unfold list_sum in H2; lia|]. split; [now f_equal|now constructor].
Qed.
Lemma total_bytes (l : list (list byte)) : total_size (@length byte) l = length (concat l).
Proof. unfold total_size. induction l; [reflexivity|]. cbn [map list_sum fold_right concat]. rewrite app_length. unfold list_sum in IHl. lia. Qed.
Lemma total_map {A} (f : A -> list byte) l : total_size (fun x => length (f x)) l = length (concat (map f l)).
Proof. rewrite <- total_bytes. unfold total_size. now rewrite map_map. Qed.
Lemma total_ext {A} (f g : A -> nat) l : (forall x, In x l -> f x = g x) -> total_size f l = total_size g l.
Proof. intro H. unfold total_size. f_equal. now apply map_ext_in. Qed.

Lemma fits_proof : fits deserialize_proof (fun p => length (serialize_proof p)) (Forall digest).
Proof.
  intros bs x rest H. unfold deserialize_proof in H. ok_as H s1 H1. destruct s1 as [n b1].
  apply fits_usize in H1. apply (fits_many _ _ _ _ fits_commitment) in H. rewrite total_bytes in H.
  unfold serialize_proof. rewrite app_length, length_be8. split; [lia|tauto].
Qed.

Section Back.
Context {F : Type} (C : felt_codec F) (w : nat) (HC : codec_ok C w).
Context (Hlong : forall bs x, fe_from C bs = Some x -> w <= length bs).

Lemma fits_felt n : fits (read_felt C n) (fun x => length (fe_to C x)) (fun _ => True).
Proof using All.
  intros bs x rest H. unfold read_felt in H. ok_as H p Hp. ok_as H y Hy. ok_as H r Hr. apply ok_inj in H. injection H as <- <-.
  apply get_to_ok in Hp. apply slice_from_ok in Hr. destruct (fe_from C p) as [z|] eqn:Ez; [|discriminate]. apply ok_inj in Hy. subst z.
  apply Hlong in Ez. rewrite (codec_width _ _ HC). destruct Hp as (_ & _ & Hp). split; [lia|exact I].
Qed.
Lemma fits_felts n m : fits (read_many n (read_felt C m)) (fun l => length (concat (map (fe_to C) l))) (fun l => length l = n).
Proof using All.
  intros bs x rest H. apply (fits_many _ _ _ _ (fits_felt m)) in H. rewrite total_map in H. tauto.
Qed.
Lemma fits_paths n : fits (read_many n deserialize_proof) (fun l => length (concat (map serialize_proof l))) paths_wf.
Proof using Type.
  intros bs x rest H. apply (fits_many _ _ _ _ fits_proof) in H. rewrite total_map in H. tauto.
Qed.
Lemma fits_digests n : fits (read_many n read_commitment) (fun l => length (concat l)) (Forall digest).
Proof using Type.
  intros bs x rest H. apply (fits_many _ _ _ _ fits_commitment) in H. rewrite total_bytes in H. tauto.
Qed.

Lemma frame_back bs f : frame_deserialize C bs = Ok f -> length (frame_serialize C f) <= length bs /\ (N.of_nat (fr_row_width f) < two64)%N.
Proof using All.
  intro H. unfold frame_deserialize in H. ok_as H s1 H1. destruct s1 as [n b1]. ok_as H s2 H2. destruct s2 as [m b2]. ok_as H s3 H3. destruct s3 as [l b3].
  ok_as H p Hp. apply ok_inj in H. subst f. apply fits_usize in H1, H2. apply fits_felts in H3. apply get_to_ok in Hp.
  unfold frame_serialize. cbn [fr_data fr_row_width]. rewrite !app_length, !length_be8. destruct Hp as (Hp & _ & Hl). change (N.to_nat 8) with 8 in Hl. split; [lia|].
  rewrite N2Nat.id. pose proof (be_val_lt p) as Hb. rewrite Hl in Hb. exact Hb.
Qed.

(** The length of an encoded decommitment. *)
Definition fri_size (d : fri_decommitment F) : nat :=
  32 + length (concat (map serialize_proof (layers_auth_paths_sym d))) + length (concat (map (fe_to C) (layers_evaluations_sym d)))
  + length (concat (map (fe_to C) (layers_evaluations d))) + length (concat (map serialize_proof (layers_auth_paths d))) + 8.
Lemma fri_size_ok d bs : fri_serialize C d = Ok bs -> length bs = fri_size d.
Proof using Type.
  intro H. unfold fri_serialize in H. ok_as H x Hx. apply ok_inj in H. subst bs. rewrite !app_length, !length_be8. unfold fri_size. lia.
Qed.
Lemma fri_back bs d : fri_deserialize C bs = Ok d -> fri_size d <= length bs /\ paths_wf (layers_auth_paths_sym d) /\ paths_wf (layers_auth_paths d).
Proof using All.
  intro H. unfold fri_deserialize in H. ok_as H s1 H1. destruct s1 as [n1 b1]. ok_as H s2 H2. destruct s2 as [l2 b2]. ok_as H s3 H3. destruct s3 as [n3 b3].
  ok_as H s4 H4. destruct s4 as [n4 b4]. ok_as H s5 H5. destruct s5 as [l5 b5]. ok_as H s6 H6. destruct s6 as [n6 b6]. ok_as H s7 H7. destruct s7 as [l7 b7].
  ok_as H s8 H8. destruct s8 as [n8 b8]. ok_as H s9 H9. destruct s9 as [l9 b9]. apply ok_inj in H. subst d.
  apply fits_usize in H1, H3, H4, H6, H8. apply fits_paths in H2, H9. apply fits_felts in H5, H7. unfold fri_size.
  cbn [layers_auth_paths_sym layers_evaluations_sym layers_auth_paths layers_evaluations]. split; [lia|tauto].
Qed.
Lemma deep_back bs d : deep_deserialize C bs = Ok d ->
  length (deep_serialize C d) <= length bs /\ Forall digest (lde_composition_poly_proof d) /\ paths_wf (lde_trace_merkle_proofs d).
Proof using All.
  intro H. unfold deep_deserialize in H. ok_as H s1 H1. destruct s1 as [n1 b1]. ok_as H s2 H2. destruct s2 as [l2 b2]. ok_as H s3 H3. destruct s3 as [n3 b3].
  ok_as H s4 H4. destruct s4 as [n4 b4]. ok_as H s5 H5. destruct s5 as [l5 b5]. ok_as H s6 H6. destruct s6 as [n6 b6]. ok_as H s7 H7. destruct s7 as [l7 b7].
  ok_as H s8 H8. destruct s8 as [n8 b8]. apply ok_inj in H. subst d.
  apply fits_usize in H2, H5, H7. apply fits_proof in H1. apply fits_paths in H6. apply fits_felts in H8. apply fits_felt in H3, H4.
  unfold deep_serialize. cbn [lde_composition_poly_proof lde_composition_poly_even_evaluation lde_composition_poly_odd_evaluation lde_trace_merkle_proofs lde_trace_evaluations].
  rewrite !app_length, !length_be8. split; [lia|tauto].
Qed.
Lemma fits_block {A} (parse : list byte -> outcome A) size P : (forall bs x, parse bs = Ok x -> size x <= length bs /\ P x) ->
  fits (read_block parse) (fun x => 8 + size x) P.
Proof using Type.
  intros Hp bs x rest H. unfold read_block in H. ok_as H s1 H1. destruct s1 as [n b1]. ok_as H p Hg. ok_as H y Hy. ok_as H r Hr. apply ok_inj in H. injection H as <- <-.
  apply fits_usize in H1. apply get_to_ok in Hg. apply slice_from_ok in Hr. apply Hp in Hy. destruct Hg as (_ & _ & Hg). split; [lia|tauto].
Qed.

(** The length of an encoded proof. *)
Definition stark_size (p : stark_proof F) : nat :=
  8 + 8 + length (concat (lde_trace_merkle_roots p)) + (8 + length (frame_serialize C (trace_ood_frame_evaluations p))) + length (composition_poly_root p)
  + 8 + length (fe_to C (composition_poly_even_ood_evaluation p)) + length (fe_to C (composition_poly_odd_ood_evaluation p))
  + 8 + length (concat (fri_layers_merkle_roots p)) + length (fe_to C (fri_last_value p))
  + 8 + total_size (fun d => 8 + fri_size d) (query_list p)
  + 8 + total_size (fun d => 8 + length (deep_serialize C d)) (deep_poly_openings p) + 8.
Lemma stark_size_ok p bs : stark_serialize C p = Ok bs -> length bs = stark_size p.
Proof using Type.
  intro H. unfold stark_serialize in H. ok_as H qs Hq. apply ok_inj in H. subst bs. rewrite !app_length, !length_be8, length_be_bytes. unfold stark_size.
  assert (E1 : length (concat (map with_len qs)) = total_size (fun d => 8 + fri_size d) (query_list p)).
  { apply traverse_ok_forall2 in Hq. induction Hq as [|d b l l' Hd Hl IH]; [reflexivity|]. unfold total_size in *. cbn [map concat list_sum fold_right].
    rewrite app_length. unfold with_len at 1. rewrite app_length, length_be8, (fri_size_ok _ _ Hd). unfold list_sum in IH. lia. }
  assert (E2 : length (concat (map (fun d => with_len (deep_serialize C d)) (deep_poly_openings p))) = total_size (fun d => 8 + length (deep_serialize C d)) (deep_poly_openings p)).
  { rewrite <- total_map. apply total_ext. intros d _. unfold with_len. now rewrite app_length, length_be8. }
  unfold with_len at 1. rewrite !app_length, !length_be8. lia.
Qed.

Lemma stark_back bs p : stark_deserialize C bs = Ok p -> stark_size p <= length bs /\
  (N.of_nat (trace_length p) < two64)%N /\ (nonce p < two64)%N /\
  Forall digest (lde_trace_merkle_roots p) /\ digest (composition_poly_root p) /\ Forall digest (fri_layers_merkle_roots p) /\
  (N.of_nat (fr_row_width (trace_ood_frame_evaluations p)) < two64)%N /\
  Forall (fun d => paths_wf (layers_auth_paths_sym d) /\ paths_wf (layers_auth_paths d)) (query_list p) /\
  Forall (fun d => Forall digest (lde_composition_poly_proof d) /\ paths_wf (lde_trace_merkle_proofs d)) (deep_poly_openings p).
Proof using All.
  intro H. unfold stark_deserialize in H. ok_as H s1 H1. destruct s1 as [tl b1]. ok_as H s2 H2. destruct s2 as [n2 b2]. ok_as H s3 H3. destruct s3 as [l3 b3].
  ok_as H s4 H4. destruct s4 as [fr b4]. ok_as H s5 H5. destruct s5 as [cr b5]. ok_as H s6 H6. destruct s6 as [n6 b6]. ok_as H s7 H7. destruct s7 as [x7 b7].
  ok_as H s8 H8. destruct s8 as [x8 b8]. ok_as H s9 H9. destruct s9 as [n9 b9]. ok_as H s10 H10. destruct s10 as [l10 b10]. ok_as H s11 H11. destruct s11 as [x11 b11].
  ok_as H s12 H12. destruct s12 as [n12 b12]. ok_as H s13 H13. destruct s13 as [l13 b13]. ok_as H s14 H14. destruct s14 as [n14 b14]. ok_as H s15 H15. destruct s15 as [l15 b15].
  ok_as H nc Hnc. apply ok_inj in H. subst p.
  apply fits_usize in H1, H2, H6, H9, H12, H14. apply fits_digests in H3, H10. apply fits_commitment in H5. apply fits_felt in H7, H8, H11.
  apply (fits_block _ (fun f => length (frame_serialize C f)) (fun f => (N.of_nat (fr_row_width f) < two64)%N)) in H4; [|exact frame_back].
  apply (fits_many _ _ _ _ (fits_block _ _ _ fri_back)) in H13. apply (fits_many _ _ _ _ (fits_block _ _ _ deep_back)) in H15.
  unfold read_nonce in Hnc. destruct (Nat.ltb_spec (length b15) 8); [discriminate|]. apply ok_inj in Hnc.
  assert (Hn : (nc < two64)%N).
  { subst nc. pose proof (be_val_lt (skipn (length b15 - 8) b15)) as Hb. replace (length (skipn (length b15 - 8) b15)) with 8 in Hb by (rewrite skipn_length; lia). exact Hb. }
  unfold stark_size. cbn [trace_length lde_trace_merkle_roots trace_ood_frame_evaluations composition_poly_root composition_poly_even_ood_evaluation
    composition_poly_odd_ood_evaluation fri_layers_merkle_roots fri_last_value query_list deep_poly_openings nonce].
  rewrite N2Nat.id. split; [lia|tauto].
Qed.

(** Whatever buffer decodes, the decoded proof has an encoding at most as long, which decodes to the same proof; unless
    some decommitment has no evaluations. *)
Theorem stark_canonical bs p : (N.of_nat (length bs) < two64)%N -> stark_deserialize C bs = Ok p -> Forall (fun d => layers_evaluations d <> []) (query_list p) ->
  exists bs', stark_serialize C p = Ok bs' /\ length bs' <= length bs /\ stark_deserialize C bs' = Ok p.
Proof using All.
  intros Hb H Hne. destruct (stark_back bs p H) as (Hs & K1 & K2 & K3 & K4 & K5 & K6 & K7 & K8).
  assert (Hwf : stark_wf C p).
  { repeat (split; [assumption|]). split; [|split; [assumption|]].
    - rewrite Forall_forall in *. intros d Hd. split; [now apply Hne|now apply K7].
    - intros bs' Hbs'. rewrite (stark_size_ok _ _ Hbs'). lia. }
  destruct (stark_serialize_total C p Hwf) as [bs' Hbs']. exists bs'. split; [exact Hbs'|]. split; [rewrite (stark_size_ok _ _ Hbs'); exact Hs|].
  exact (stark_round C w HC p bs' Hwf Hbs').
Qed.
Lemma stark_serialize_panics p d : In d (query_list p) -> layers_evaluations d = [] -> stark_serialize C p = Panic.
Proof using Type.
  intros Hd He. unfold stark_serialize. assert (G : traverse (fri_serialize C) (query_list p) = Panic).
  { induction (query_list p) as [|d' l IH]; [destruct Hd|]. cbn [traverse]. destruct Hd as [->|Hd].
    - unfold fri_serialize at 1. now rewrite He.
    - rewrite (IH Hd). unfold fri_serialize. destruct (layers_evaluations d'); reflexivity. }
  now rewrite G.
Qed.
End Back.

(** ** Public inputs *)
From Verif.Model Require Import PublicInputs.
From Verif.Proofs Require Import PublicInputsFacts.

Section Maps.
Context {K V : Type} (eqk : K -> K -> bool) (eqk_spec : forall a b, eqk a b = true <-> a = b).

Lemma insert_keys k v (m : list (K * V)) x : In x (map fst (map_insert eqk k v m)) -> x = k \/ In x (map fst m).
Proof using Type.
  induction m as [|[k' v'] m IH]; cbn [map_insert map fst In]; [intuition|].
  destruct (eqk k k'); cbn [map fst In]; intuition.
Qed.
Lemma insert_nodup k v (m : list (K * V)) : NoDup (map fst m) -> NoDup (map fst (map_insert eqk k v m)).
Proof using eqk_spec.
  induction m as [|[k' v'] m IH]; intro H; cbn [map_insert map fst]; [constructor; [intros []|constructor]|].
  inversion H as [|? ? Hn Hd]; subst. destruct (eqk k k') eqn:Ek; cbn [map fst]; [now constructor|]. constructor; [|now apply IH].
  intro Hin. apply insert_keys in Hin. destruct Hin as [->|Hin]; [|contradiction]. rewrite (proj2 (eqk_spec k k) eq_refl) in Ek. discriminate.
Qed.
Lemma insert_length k v (m : list (K * V)) : length (map_insert eqk k v m) <= S (length m).
Proof using Type. induction m as [|[k' v'] m IH]; cbn [map_insert length]; [lia|]. destruct (eqk k k'); cbn [length]; lia. Qed.
Lemma insert_forall (P : K * V -> Prop) k v m : (forall k', eqk k k' = true -> P (k', v)) -> P (k, v) -> Forall P m -> Forall P (map_insert eqk k v m).
Proof using Type.
  intros H0 H1. induction 1 as [|[k' v'] m Hx Hm IH]; cbn [map_insert]; [now constructor|]. destruct (eqk k k') eqn:Ek; constructor; auto.
Qed.
Lemma insert_get k v (m : list (K * V)) x : map_get eqk x (map_insert eqk k v m) = if eqk x k then Some v else map_get eqk x m.
Proof using eqk_spec.
  induction m as [|[k' v'] m IH]; cbn [map_insert map_get]; [reflexivity|].
  destruct (eqk k k') eqn:Ek; cbn [map_get].
  - apply eqk_spec in Ek. subst k'. now destruct (eqk x k).
  - rewrite IH. destruct (eqk x k') eqn:E1; [|reflexivity]. apply eqk_spec in E1. subst k'. destruct (eqk x k) eqn:E2; [|reflexivity].
    apply eqk_spec in E2. subst x. rewrite (proj2 (eqk_spec k k) eq_refl) in Ek. discriminate.
Qed.

Lemma entries_gen (l : list (K * V)) : forall m,
  let r := fold_left (fun m e => map_insert eqk (fst e) (snd e) m) l m in
  (NoDup (map fst m) -> NoDup (map fst r)) /\ length r <= length m + length l.
Proof using eqk_spec.
  induction l as [|[k v] l IH]; intros m r; [subst r; cbn; split; [auto|lia]|]. cbn [fold_left fst snd] in r.
  destruct (IH (map_insert eqk k v m)) as [I1 I2]. fold r in I1, I2. split; [intro H; apply I1; now apply insert_nodup|].
  pose proof (insert_length k v m). cbn [length]. lia.
Qed.
Lemma entries_nodup (l : list (K * V)) : NoDup (map fst (of_entries eqk l)).
Proof using eqk_spec. apply (proj1 (entries_gen l [])). constructor. Qed.
Lemma entries_length (l : list (K * V)) : length (of_entries eqk l) <= length l.
Proof using eqk_spec. exact (proj2 (entries_gen l [])). Qed.
Lemma entries_forall (P : V -> Prop) (l : list (K * V)) : Forall (fun e => P (snd e)) l -> Forall (fun e => P (snd e)) (of_entries eqk l).
Proof using Type.
  unfold of_entries. assert (G : forall m, Forall (fun e => P (snd e)) m -> Forall (fun e => P (snd e)) l ->
    Forall (fun e => P (snd e)) (fold_left (fun m e => map_insert eqk (fst e) (snd e) m) l m)).
  { induction l as [|[k v] l IH]; intros m Hm Hl; [exact Hm|]. inversion Hl; subst. cbn [fold_left fst snd] in *. apply IH; [|assumption]. now apply insert_forall. }
  intro H. apply G; [constructor|exact H].
Qed.

(** The value of a key is the one of its last entry. *)
Lemma entries_get (l : list (K * V)) k : map_get eqk k (of_entries eqk l) = map_get eqk k (rev l).
Proof using eqk_spec.
  unfold of_entries. assert (A : forall l1 l2 : list (K * V), map_get eqk k (l1 ++ l2) = match map_get eqk k l1 with Some v => Some v | None => map_get eqk k l2 end).
  { induction l1 as [|[k' v'] l1 IH]; intro l2; cbn [app map_get]; [reflexivity|]. destruct (eqk k k'); auto. }
  assert (G : forall m, map_get eqk k (fold_left (fun m e => map_insert eqk (fst e) (snd e) m) l m) = match map_get eqk k (rev l) with Some v => Some v | None => map_get eqk k m end).
  { induction l as [|[k1 v1] l IH]; intro m; [reflexivity|]. cbn [fold_left fst snd rev]. rewrite IH, A, insert_get. cbn [map_get].
    destruct (map_get eqk k (rev l)); [reflexivity|]. destruct (eqk k k1); reflexivity. }
  rewrite G. cbn [map_get]. now destruct (map_get eqk k (rev l)).
Qed.
End Maps.

Section PubBack.
Context {F : Type} (feqb : F -> F -> bool) (C : felt_codec F).
Context (feqb_spec : forall a b, feqb a b = true <-> a = b).
Context (w : nat) (HC : codec_ok C w).
Context (Hlong : forall bs x, fe_from C bs = Some x -> w <= length bs).

Lemma fits_opt16 : fits read_opt16 (fun o => length (ser_opt16 o)) opt16_wf.
Proof using Type.
  intros bs o rest H. unfold read_opt16 in H. ok_as H b Hb. destruct bs as [|b' bs]; [discriminate|]. apply ok_inj in Hb. subst b'.
  destruct b; try discriminate.
  - ok_as H r Hr. apply ok_inj in H. injection H as <- <-. apply slice_from_ok in Hr. change (N.to_nat 1) with 1 in Hr. cbn [ser_opt16 length opt16_wf] in *. split; [lia|exact I].
  - ok_as H b1 H1. ok_as H p Hp. ok_as H r Hr. apply ok_inj in H. injection H as <- <-. apply slice_from_ok in H1, Hr. change (N.to_nat 1) with 1 in H1. change (N.to_nat 2) with 2 in Hr.
    unfold slice_to in Hp. destruct (N.ltb_spec (N.of_nat (length b1)) 2); [discriminate|]. apply ok_inj in Hp. cbn [ser_opt16 length opt16_wf] in *.
    rewrite length_be_bytes. split; [lia|]. assert (Hl : length p = 2) by (subst p; rewrite firstn_length; change (N.to_nat 2) with 2; lia).
    pose proof (be_val_lt p) as Hv. rewrite Hl in Hv. exact Hv.
Qed.
Lemma fits_segment : fits read_segment (fun _ => 17) seg_wf.
Proof using Type.
  intros bs e rest H. unfold read_segment in H. ok_as H b Hb. ok_as H s Hs. ok_as H b1 H1. ok_as H s2 H2. destruct s2 as [lo b2]. ok_as H s3 H3. destruct s3 as [hi b3].
  apply ok_inj in H. injection H as <- <-. apply slice_from_ok in H1. change (N.to_nat 1) with 1 in H1. apply fits_usize in H2, H3. split; [lia|]. split; tauto.
Qed.
Lemma fits_cell n : fits (read_cell C n) (fun _ => 2 * w) (fun _ => True).
Proof using HC Hlong.
  intros bs e rest H. unfold read_cell in H. ok_as H s1 H1. destruct s1 as [a b1]. ok_as H s2 H2. destruct s2 as [v b2]. apply ok_inj in H. injection H as <- <-.
  apply (fits_felt C w HC Hlong) in H1, H2. rewrite (codec_width _ _ HC) in H1, H2. split; [lia|exact I].
Qed.
Lemma total_const {A} k (l : list A) : total_size (fun _ => k) l = length l * k.
Proof using Type. unfold total_size. induction l as [|x l IH]; [reflexivity|]. cbn [map list_sum fold_right length]. unfold list_sum in IH. lia. Qed.
Lemma segments_length (l : list (memory_segment * (N * N))) : length (concat (map ser_segment l)) = length l * 17.
Proof using Type.
  rewrite <- total_map, <- total_const. apply total_ext. intros [s [lo hi]] _. cbn [ser_segment length]. rewrite app_length, !length_be_bytes. reflexivity.
Qed.
Lemma cells_length (l : list (F * F)) : length (concat (map (ser_cell C) l)) = length l * (2 * w).
Proof using HC.
  rewrite <- total_map, <- total_const. apply total_ext. intros [a v] _. unfold ser_cell. rewrite app_length, !(codec_width _ _ HC). lia.
Qed.

(** Decoded public inputs are well formed, and their encoding is at most as long as the buffer. *)
Theorem pub_back bs p : (N.of_nat (length bs) < two64)%N -> pub_deserialize feqb C bs = Ok p -> pub_wf p /\ length (pub_serialize C p) <= length bs.
Proof using All.
  intros Hb H. unfold pub_deserialize in H. ok_as H s1 H1. destruct s1 as [fl b1]. ok_as H s2 H2. destruct s2 as [x2 b2]. ok_as H s3 H3. destruct s3 as [x3 b3].
  ok_as H s4 H4. destruct s4 as [x4 b4]. ok_as H s5 H5. destruct s5 as [x5 b5]. ok_as H s6 H6. destruct s6 as [x6 b6]. ok_as H s7 H7. destruct s7 as [x7 b7].
  ok_as H s8 H8. destruct s8 as [x8 b8]. ok_as H s9 H9. destruct s9 as [n9 b9]. ok_as H s10 H10. destruct s10 as [segs b10]. ok_as H s11 H11. destruct s11 as [n11 b11].
  ok_as H s12 H12. destruct s12 as [mem b12]. ok_as H pb Hp. apply ok_inj in H. subst p.
  apply fits_usize in H1, H9, H11. apply (fits_felt C w HC Hlong) in H2, H3, H4, H5, H6. apply fits_opt16 in H7, H8.
  apply (fits_many _ _ _ _ fits_segment) in H10. apply (fits_many _ _ _ _ (fits_cell fl)) in H12. rewrite total_const in H10. rewrite total_const in H12.
  apply get_to_ok in Hp. destruct Hp as (Hp & _ & Hl). change (N.to_nat 8) with 8 in Hl.
  pose proof (entries_length segment_eqb segment_eqb_spec segs) as L1. pose proof (entries_length feqb feqb_spec mem) as L2.
  assert (M1 : length (of_entries segment_eqb segs) * 17 <= length segs * 17) by (apply Nat.mul_le_mono_r; exact L1).
  assert (M2 : length (of_entries feqb mem) * (2 * w) <= length mem * (2 * w)) by (apply Nat.mul_le_mono_r; exact L2).
  pose proof (codec_pos _ _ HC) as Hw. split.
  - repeat (split; cbn [range_check_min range_check_max memory_segments public_memory num_steps]).
    + apply H7.
    + apply H8.
    + apply (entries_forall segment_eqb (fun r : N * N => (fst r < two64)%N /\ (snd r < two64)%N)). exact (proj2 (proj2 H10)).
    + apply entries_nodup. exact segment_eqb_spec.
    + apply entries_nodup. exact feqb_spec.
    + assert (length mem <= length mem * (2 * w)) by nia. lia.
    + rewrite N2Nat.id. pose proof (be_val_lt pb) as Hv. rewrite Hl in Hv. exact Hv.
  - unfold pub_serialize. cbn [pc_init ap_init fp_init pc_final ap_final range_check_min range_check_max memory_segments public_memory num_steps].
    rewrite !app_length, !length_be8, segments_length, cells_length. lia.
Qed.

(** The same for the file of the command line. *)
Theorem file_back bs p pi : (N.of_nat (length bs) < two64)%N -> file_read feqb C bs = Ok (p, pi) -> Forall (fun d => layers_evaluations d <> []) (query_list p) ->
  exists bs', file_write C p pi = Ok bs' /\ length bs' <= length bs /\ file_read feqb C bs' = Ok (p, pi).
Proof using All.
  intros Hb H Hne. unfold file_read in H. destruct (length bs <? 8) eqn:E8; [discriminate|]. ok_as H h Hh. ok_as H b1 H1.
  destruct (N.ltb_spec (N.of_nat (length b1)) (be_val h)) as [|Hlen]; [discriminate|]. ok_as H pb Hpb. ok_as H q Hq. ok_as H rest Hrest. ok_as H qi Hqi. apply ok_inj in H. injection H as <- <-.
  apply slice_from_ok in H1, Hrest. change (N.to_nat 8) with 8 in H1.
  assert (Lp : length pb = N.to_nat (be_val h)).
  { unfold slice_to in Hpb. destruct (N.ltb_spec (N.of_nat (length b1)) (be_val h)); [discriminate|]. apply ok_inj in Hpb. subst pb. rewrite firstn_length. lia. }
  destruct (stark_canonical C w HC Hlong pb q) as (sb & S1 & S2 & S3); [lia|exact Hq|exact Hne|].
  destruct (pub_back rest qi) as [P1 P2]; [lia|exact Hqi|].
  exists (be8 (length sb) ++ sb ++ pub_serialize C qi). split; [unfold file_write; rewrite S1; reflexivity|].
  rewrite !app_length, length_be8. split; [lia|].
  destruct (stark_back C w HC Hlong pb q Hq) as (Hs & K1 & K2 & K3 & K4 & K5 & K6 & K7 & K8).
  apply (file_round feqb C feqb_spec w HC); [|exact P1|unfold file_write; rewrite S1; reflexivity].
  repeat (split; [assumption|]). split; [|split; [assumption|]].
  - rewrite Forall_forall in *. intros d Hd. split; [now apply Hne|now apply K7].
  - intros bs' Hbs'. rewrite (stark_size_ok _ _ _ Hbs'). lia.
Qed.
End PubBack.
