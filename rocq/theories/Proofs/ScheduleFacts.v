(** Proofs for the Fiat-Shamir schedule. *)
From Coq Require Import List Arith Lia Bool NArith.
From Verif.Base Require Import Outcome Bytes Field Poly.
From Verif.Model Require Import Codec Trace Merkle Air Transcript Domain Fri Prover Verifier.
From Verif.Spec Require Import CodecSpec Forgery Schedule.
From Verif.Proofs Require Import OutcomeFacts BytesFacts FieldFacts TraceFacts TranscriptFacts VerifierTotal.
Import ListNotations.

Section Events.
Context {T : transcript_ops}.
Implicit Types (t : T) (es fs : list event).

Lemma after_app es fs t : after (es ++ fs) t = after fs (after es t).
Proof. revert t. induction es as [|[bs|] es IH]; intro t; cbn [app after]; auto. Qed.
Lemma digests_app es fs t : digests (es ++ fs) t = digests es t ++ digests fs (after es t).
Proof. revert t. induction es as [|[bs|] es IH]; intro t; cbn [app after digests]; [reflexivity|apply IH|]. now rewrite IH. Qed.
Lemma after_absorb ms t : after (map Absorb ms) t = fold_left tr_append ms t.
Proof. revert t. induction ms as [|b ms IH]; intro t; cbn [map after fold_left]; auto. Qed.
Lemma digests_absorb ms t : digests (map Absorb ms) t = [].
Proof. revert t. induction ms as [|b ms IH]; intro t; cbn [map digests]; auto. Qed.
Lemma events_cons r rs : events (r :: rs) = map Absorb (fst r) ++ repeat Squeeze (snd r) ++ events rs.
Proof. unfold events. cbn [flat_map]. now rewrite app_assoc. Qed.
Lemma events_app rs rs' : events (rs ++ rs') = events rs ++ events rs'.
Proof. apply flat_map_app. Qed.
Lemma after_round ms n rs t : after (events ((ms, n) :: rs)) t = after (events rs) (after (repeat Squeeze n) (fold_left tr_append ms t)).
Proof. now rewrite events_cons, !after_app, after_absorb. Qed.
Lemma digests_round ms n rs t :
  digests (events ((ms, n) :: rs)) t =
  digests (repeat Squeeze n) (fold_left tr_append ms t) ++ digests (events rs) (after (repeat Squeeze n) (fold_left tr_append ms t)).
Proof. now rewrite events_cons, !digests_app, digests_absorb, after_absorb. Qed.
Lemma digests_squeeze_length n t : length (digests (repeat Squeeze n) t) = n.
Proof. revert t. induction n as [|n IH]; intro t; cbn [repeat digests length]; auto. Qed.
Lemma repeat_plus {A} (x : A) m n : repeat x (m + n) = repeat x m ++ repeat x n.
Proof. induction m as [|m IH]; [reflexivity|]. cbn [Nat.add repeat app]. now rewrite IH. Qed.
Lemma after_plus m n t : after (repeat Squeeze (m + n)) t = after (repeat Squeeze n) (after (repeat Squeeze m) t).
Proof. now rewrite repeat_plus, after_app. Qed.
Lemma digests_plus m n t :
  digests (repeat Squeeze (m + n)) t = digests (repeat Squeeze m) t ++ digests (repeat Squeeze n) (after (repeat Squeeze m) t).
Proof. now rewrite repeat_plus, digests_app. Qed.
End Events.

Lemma firstn_plus {A} (l : list A) a b : firstn (a + b) l = firstn a l ++ firstn b (skipn a l).
Proof. revert a. induction l as [|x l IH]; intros [|a]; cbn [Nat.add firstn skipn app]; [now rewrite firstn_nil|now rewrite firstn_nil|reflexivity|]. now rewrite IH. Qed.

Section Draws.
Context {E : env} (HS : sampling_ok E).
Notation T := (e_tr E).

Lemma field_draw (t : T) x t' : transcript_to_field E t = Ok (x, t') -> t' = snd (tr_challenge t) /\ felt_of (fst (tr_challenge t)) x.
Proof using HS.
  unfold transcript_to_field. pose proof (so_challenge E HS t) as Hl. destruct (tr_challenge t) as [r t1]. cbn [fst snd] in *. intro H.
  ok_step H. apply ok_inj in H. injection H as -> <-. split; [reflexivity|].
  unfold randomness_to_field in Hv. pose proof (so_bits E HS) as Hb.
  destruct (mask_spec (e_bits E) r) as (m & Hm & Hml & Hmv); [lia|lia|].
  rewrite Hm in Hv. cbn [obind] in Hv. destruct (fe_from (e_codec E) m) as [y|] eqn:Hy; [|discriminate]. apply ok_inj in Hv. subst y.
  exists m. auto.
Qed.

Lemma batch_draw n : forall (t : T) xs t', batch_sample_challenges E n t = Ok (xs, t') ->
  t' = after (repeat Squeeze n) t /\ Forall2 felt_of (digests (repeat Squeeze n) t) xs.
Proof using HS.
  induction n as [|n IH]; intros t xs t' H; cbn [batch_sample_challenges] in H.
  - apply ok_inj in H. injection H as <- <-. split; [reflexivity|constructor].
  - ok_step H. destruct v as [x t1]. ok_step H. destruct v as [ys t2]. apply ok_inj in H. injection H as <- <-.
    apply field_draw in Hv. destruct Hv as [-> Hx]. apply IH in Hv0. destruct Hv0 as [-> Hys]. cbn [repeat after digests].
    split; [reflexivity|now constructor].
Qed.

Lemma rows_draw rows len : forall (t : T) m t', sample_rows E rows len t = Ok (m, t') ->
  t' = after (repeat Squeeze (rows * len)) t /\ Forall2 felt_of (digests (repeat Squeeze (rows * len)) t) (concat m) /\
  length m = rows /\ Forall (fun row => length row = len) m.
Proof using HS.
  induction rows as [|rows IH]; intros t m t' H; cbn [sample_rows] in H.
  - apply ok_inj in H. injection H as <- <-. cbn. repeat split; constructor.
  - ok_step H. destruct v as [x t1]. ok_step H. destruct v as [ys t2]. apply ok_inj in H. injection H as <- <-.
    pose proof (batch_sample_length E _ _ _ _ Hv) as Lx. apply batch_draw in Hv. destruct Hv as [-> Hx].
    apply IH in Hv0. destruct Hv0 as (-> & Hys & Ly & Fy). cbn [Nat.mul concat]. rewrite after_plus, digests_plus.
    split; [reflexivity|]. split; [now apply Forall2_app|]. cbn [length]. split; [lia|]. now constructor.
Qed.

Lemma z_draw (HK : field_ok E) fuel lde trace : forall (t : T) z t', sample_z_ood E fuel lde trace t = Ok (z, t') ->
  exists zs, t' = after (repeat Squeeze (S (length zs))) t /\ Forall2 felt_of (digests (repeat Squeeze (S (length zs))) t) (zs ++ [z]) /\
    Forall (fun x => In x lde \/ In x trace) zs /\ ~ In z lde /\ ~ In z trace.
Proof using HS.
  induction fuel as [|fuel IH]; intros t z t' H; [discriminate|]. pose proof (sample_z_ood_spec E HK _ _ _ _ _ _ H) as Hz.
  cbn [sample_z_ood] in H. ok_step H. destruct v as [v t1].
  apply field_draw in Hv. destruct Hv as [-> Hx].
  destruct (existsb (fun x => feqb x v) lde) eqn:E1; [|destruct (existsb (fun x => feqb x v) trace) eqn:E2]; cbn [negb andb] in H.
  - destruct (IH _ _ _ H) as (zs & -> & F2 & F & _). exists (v :: zs). split; [reflexivity|].
    change (repeat Squeeze (S (length (v :: zs)))) with (Squeeze :: repeat Squeeze (S (length zs))). cbn [digests app].
    split; [now constructor|]. split; [|exact Hz]. constructor; [left|exact F]. apply existsb_exists in E1. destruct E1 as (x & Hin & Hq).
    apply (feqb_spec _ HK) in Hq. now subst.
  - destruct (IH _ _ _ H) as (zs & -> & F2 & F & _). exists (v :: zs). split; [reflexivity|].
    change (repeat Squeeze (S (length (v :: zs)))) with (Squeeze :: repeat Squeeze (S (length zs))). cbn [digests app].
    split; [now constructor|]. split; [|exact Hz]. constructor; [right|exact F]. apply existsb_exists in E2. destruct E2 as (x & Hin & Hq).
    apply (feqb_spec _ HK) in Hq. now subst.
  - apply ok_inj in H. injection H as <- <-. exists []. cbn [length repeat after digests app]. split; [reflexivity|].
    split; [constructor; [exact Hx|constructor]|]. split; [constructor|exact Hz].
Qed.

Lemma zetas_draw roots : forall (t : T) xs t', sample_zetas E roots t = Ok (xs, t') ->
  t' = after (events (map (fun root => ([root], 1)) roots)) t /\
  Forall2 felt_of (digests (events (map (fun root => ([root], 1)) roots)) t) xs.
Proof using HS.
  induction roots as [|r roots IH]; intros t xs t' H; cbn [sample_zetas] in H.
  - apply ok_inj in H. injection H as <- <-. split; [reflexivity|constructor].
  - ok_step H. destruct v as [x t1]. ok_step H. destruct v as [ys t2]. apply ok_inj in H. injection H as <- <-.
    apply field_draw in Hv. destruct Hv as [-> Hx]. apply IH in Hv0. destruct Hv0 as [-> Hys].
    cbn [map]. rewrite after_round, digests_round. cbn [fold_left repeat after digests app]. split; [reflexivity|now constructor].
Qed.

Lemma indices_draw n m : forall (t : T) is t', sample_indices E n m t = Ok (is, t') ->
  t' = after (repeat Squeeze n) t /\ Forall2 (index_of m) (digests (repeat Squeeze n) t) is.
Proof using.
  induction n as [|n IH]; intros t is t' H; cbn [sample_indices] in H.
  - apply ok_inj in H. injection H as <- <-. split; [reflexivity|constructor].
  - unfold transcript_to_usize in H. cbn [repeat after digests]. destruct (tr_challenge t) as [r t1]. cbn [fst snd].
    ok_step H. destruct v as [v t2]. ok_step Hv. apply ok_inj in Hv. injection Hv as <- <-. apply slice_ok in Hv0. destruct Hv0 as (_ & _ & ->).
    destruct (Nat.eqb_spec m 0) as [->|Hm]; [discriminate|]. cbn [obind] in H. ok_step H. destruct v as [js t2].
    apply ok_inj in H. injection H as <- <-. apply IH in Hv. destruct Hv as [-> Hys]. split; [reflexivity|]. constructor; [|exact Hys].
    unfold index_of. rewrite N2Nat.id. reflexivity.
Qed.

Lemma append_felts_after l : forall t : T, append_felts E t l = fold_left tr_append (map felt_bytes l) t.
Proof using. induction l as [|x l IH]; intro t; [reflexivity|]. cbn [map fold_left]. rewrite <- IH. reflexivity. Qed.
Lemma append_rows_after rows : forall t : T, fold_left (append_felts E) rows t = fold_left tr_append (map felt_bytes (concat rows)) t.
Proof using.
  induction rows as [|r rows IH]; intro t; [reflexivity|]. cbn [fold_left concat]. now rewrite IH, map_app, fold_left_app, append_felts_after.
Qed.

Lemma concat_rows (f : frame E) n rows : (n * fr_row_width f <= length (fr_data f))%nat -> traverse (fr_get_row f) (seq 0 n) = Ok rows ->
  concat rows = firstn (n * fr_row_width f) (fr_data f).
Proof using.
  intros Hn. revert rows. induction n as [|n IH]; intros rows H; [apply ok_inj in H; now subst|].
  rewrite seq_S, traverse_app in H. ok_step H. ok_step H. apply ok_inj in H. subst rows. cbn [traverse Nat.add] in Hv0. ok_step Hv0. apply ok_inj in Hv0. subst v0.
  rewrite concat_app, (IH ltac:(cbn in Hn; lia) _ Hv). cbn [concat]. rewrite app_nil_r. unfold fr_get_row in Hv1. apply slice_ok in Hv1.
  destruct Hv1 as (_ & _ & ->). replace (n * fr_row_width f + fr_row_width f - n * fr_row_width f)%nat with (fr_row_width f) by lia.
  replace (S n * fr_row_width f)%nat with (n * fr_row_width f + fr_row_width f)%nat by lia.
  symmetry. apply firstn_plus.
Qed.

Lemma zeros_draw dg v z : grind_zeros E dg v = Ok z -> zeros_of (E := E) dg v z.
Proof using.
  intro H. unfold grind_zeros in H. ok_step H. apply ok_inj in H. apply slice_ok in Hv. destruct Hv as (_ & _ & ->).
  cbn [Nat.sub skipn] in H. unfold zeros_of. cbv zeta. set (head := be_val _) in *. clearbody head. subst z.
  destruct head as [|q]; [left; split; reflexivity|]. right. cbn [tz64].
  induction q as [q IH|q IH|].
  - exists (Npos q). cbn [tz_pos]. change (N.of_nat 0) with 0%N. rewrite N.pow_0_r. lia.
  - destruct IH as [o Ho]. exists o. cbn [tz_pos]. rewrite Nat2N.inj_succ, N.pow_succ_r'. lia.
  - exists 0%N. reflexivity.
Qed.

Lemma Forall2_count {A B} (R : A -> B -> Prop) l l' : Forall2 R l l' -> length l = length l'.
Proof. induction 1; cbn; congruence. Qed.

Theorem step_1_follows (HK : field_ok E) fuel (a : air E) k pick p d c t' : draws a k pick ->
  step_1 E fuel a p d tr_new = Ok (c, t') -> follows a k pick p d c t'.
Proof using HS.
  intros Hdr H. unfold step_1 in H.
  ok_step H. rename v into root0, Hv into Hroot0. ok_step H. destruct v as [rap t1]. rename Hv into Hrap.
  ok_step H. rename v into bcs, Hv into Hbcs.
  ok_step H. destruct v as [ba t2]. rename Hv into Hba. ok_step H. destruct v as [bb t3]. rename Hv into Hbb.
  ok_step H. destruct v as [ta t4]. rename Hv into Hta. ok_step H. destruct v as [tb t5]. rename Hv into Htb.
  ok_step H. destruct v as [z t6]. rename Hv into Hz. ok_step H. rename v into n_rows, Hv into Hn. ok_step H. rename v into rows, Hv into Hrows.
  ok_step H. destruct v as [ge t7]. rename Hv into Hge. ok_step H. destruct v as [go t8]. rename Hv into Hgo.
  ok_step H. destruct v as [ttc t9]. rename Hv into Httc. ok_step H. destruct v as [zetas t10]. rename Hv into Hzetas.
  destruct (tr_challenge (tr_append t10 (fe_to (e_codec E) (fri_last_value p)))) as [dg t11] eqn:Hch.
  ok_step H. rename v into lz, Hv into Hlz. ok_step H. destruct v as [iotas t12]. rename Hv into Hio.
  apply ok_inj in H. injection H as <- <-.
  (* the phases *)
  destruct (Hdr _ _ _ Hrap) as (E1 & xs & Fxs & Erap).
  pose proof (batch_sample_length E _ _ _ _ Hba) as Lba. pose proof (batch_sample_length E _ _ _ _ Hbb) as Lbb.
  pose proof (batch_sample_length E _ _ _ _ Hta) as Lta. pose proof (batch_sample_length E _ _ _ _ Htb) as Ltb.
  apply batch_draw in Hba. destruct Hba as [E2 Fba]. apply batch_draw in Hbb. destruct Hbb as [E3 Fbb].
  apply batch_draw in Hta. destruct Hta as [E4 Fta]. apply batch_draw in Htb. destruct Htb as [E5 Ftb].
  destruct (z_draw HK _ _ _ _ _ _ Hz) as (zs & E6 & Fz & Fzs & Hz1 & Hz2).
  assert (Hcells : concat rows = whole_rows (trace_ood_frame_evaluations p)).
  { unfold fr_num_rows in Hn. destruct (Nat.eqb_spec (fr_row_width (trace_ood_frame_evaluations p)) 0) as [|Hw]; [discriminate|].
    apply ok_inj in Hn. subst n_rows. apply concat_rows in Hrows; [exact Hrows|]. rewrite Nat.mul_comm. now apply Nat.mul_div_le. }
  rewrite append_rows_after, Hcells in Hge.
  change (fe_to (e_codec E) (composition_poly_even_ood_evaluation p)) with (felt_bytes (composition_poly_even_ood_evaluation p)) in Hge.
  change (fe_to (e_codec E) (composition_poly_odd_ood_evaluation p)) with (felt_bytes (composition_poly_odd_ood_evaluation p)) in Hge.
  apply field_draw in Hge. destruct Hge as [E7 Fge]. apply field_draw in Hgo. destruct Hgo as [E8 Fgo].
  apply rows_draw in Httc. destruct Httc as (E9 & Fttc & Lttc & Wttc).
  assert (Lz : length zetas = length (fri_layers_merkle_roots p)).
  { clear -Hzetas. revert t9 zetas t10 Hzetas. induction (fri_layers_merkle_roots p) as [|r l IH]; intros t9 zetas t10 H; cbn [sample_zetas] in H.
    - apply ok_inj in H. injection H as <- <-. reflexivity.
    - ok_step H. destruct v as [x u]. ok_step H. destruct v as [ys u']. apply ok_inj in H. injection H as <- <-. cbn. f_equal. eapply IH. exact Hv0. }
  apply zetas_draw in Hzetas. destruct Hzetas as [E10 Fzetas].
  pose proof (sample_indices_spec E _ _ _ _ _ Hio) as [Lio _].
  apply indices_draw in Hio. destruct Hio as [E12 Fio]. apply zeros_draw in Hlz.
  assert (Hr0 : firstn 1 (lde_trace_merkle_roots p) = [root0]).
  { destruct (lde_trace_merkle_roots p) as [|r0 rest]; [discriminate|]. apply ok_inj in Hroot0. now subst. }
  set (s2 := match nth_error (lde_trace_merkle_roots p) 1 with Some r => tr_append t1 r | None => t1 end) in *.
  assert (Es2 : fold_left tr_append (firstn 1 (skipn 1 (lde_trace_merkle_roots p))) t1 = s2).
  { unfold s2. destruct (lde_trace_merkle_roots p) as [|r0 [|r1 rest]]; reflexivity. }
  clearbody s2. unfold follows. cbv zeta. exists bcs, zs. cbn [c_rap c_boundary_coeffs c_transition_coeffs c_z c_gamma_even c_gamma_odd c_trace_term_coeffs c_zetas c_leading_zeros c_iotas].
  split; [exact Hbcs|].
  set (nb := length bcs) in *. set (nt := num_transition_constraints (a_context a)) in *.
  set (terms := (trace_columns (a_context a) * length (transition_offsets (a_context a)))%nat) in *.
  assert (F5 : t5 = after (repeat Squeeze (nb + nb + (nt + nt))) s2) by (rewrite !after_plus; congruence).
  assert (F9 : t9 = after (repeat Squeeze (2 + terms)) (fold_left tr_append (felt_bytes (composition_poly_even_ood_evaluation p) :: felt_bytes (composition_poly_odd_ood_evaluation p) ::
      map felt_bytes (whole_rows (trace_ood_frame_evaluations p))) t6)).
  { rewrite E9, E8, E7. cbn [Nat.add repeat after]. reflexivity. }
  assert (Hch1 : fst (tr_challenge (tr_append t10 (felt_bytes (fri_last_value p)))) = dg /\ snd (tr_challenge (tr_append t10 (felt_bytes (fri_last_value p)))) = t11).
  { unfold felt_bytes. now rewrite Hch. }
  destruct Hch1 as [Hdg Ht11].
  unfold rounds. cbn [app]. rewrite Hr0. split.
  { rewrite !after_round. cbn [fold_left]. rewrite <- E1, Es2, <- F5. cbn [fold_left] in E6. rewrite <- E6.
    cbn [fold_left] in F9. rewrite <- F9. rewrite events_app, after_app, <- E10.
    rewrite !after_round. cbn [fold_left repeat after]. rewrite Ht11, <- E12. reflexivity. }
  exists (digests (repeat Squeeze k) (tr_append (tr_new : T) root0)), (digests (repeat Squeeze (nb + nb + (nt + nt))) s2),
    (digests (repeat Squeeze (S (length zs))) (tr_append t5 (composition_poly_root p))),
    (digests (repeat Squeeze (2 + terms)) (fold_left tr_append (felt_bytes (composition_poly_even_ood_evaluation p) :: felt_bytes (composition_poly_odd_ood_evaluation p) ::
      map felt_bytes (whole_rows (trace_ood_frame_evaluations p))) t6)),
    (digests (events (map (fun root => ([root], 1)) (fri_layers_merkle_roots p))) t9), dg,
    (digests (repeat Squeeze (fri_number_of_queries (a_options a))) (tr_append t11 (be_bytes 8 (nonce p)))), xs, ba, bb, ta, tb.
  split.
  { rewrite !digests_round. cbn [fold_left]. rewrite <- E1, Es2, <- F5. rewrite <- E6. cbn [fold_left] in F9. rewrite <- F9.
    rewrite events_app, digests_app, <- E10.
    rewrite !digests_round. cbn [fold_left repeat after digests app]. rewrite Ht11, Hdg. cbn [events flat_map digests]. rewrite app_nil_r. reflexivity. }
  split. { split; [exact Fxs|]. split; [|exact Erap]. rewrite <- (Forall2_count _ _ _ Fxs). apply digests_squeeze_length. }
  split. { split; [|repeat (split; [assumption|]); split; reflexivity]. rewrite !digests_plus, <- app_assoc. apply Forall2_app; [exact Fba|].
    rewrite <- E2. apply Forall2_app; [exact Fbb|]. rewrite after_plus, <- E2, <- E3. apply Forall2_app; [exact Fta|]. now rewrite <- E4. }
  split. { split; [exact Fz|]. auto. }
  split. { split; [|auto]. cbn [Nat.add repeat digests]. constructor; [exact Fge|]. change (repeat Squeeze (S terms)) with (Squeeze :: repeat Squeeze terms).
    cbn [digests fold_left]. rewrite <- E7. constructor; [exact Fgo|]. now rewrite <- E8. }
  split; [split; assumption|]. split; [exact Hlz|]. split; [exact Fio|exact Lio].
Qed.
End Draws.

(** ** Binding *)
Section Sponge.
Context (hash : list byte -> list byte) (Hlen : forall x, length (hash x) = 32%nat).

(** The strings absorbed before every digest. *)
Fixpoint blocks (carry : list byte) (es : list event) : list (list byte) :=
  match es with
  | [] => []
  | Absorb bs :: r => blocks (carry ++ bs) r
  | Squeeze :: r => carry :: blocks [] r
  end.
(** The strings hashed for blocks, from a state. *)
Fixpoint inputs (s : list byte) (bs : list (list byte)) : list (list byte) :=
  match bs with
  | [] => []
  | b :: r => (s ++ b) :: inputs (hash (s ++ b)) r
  end.

Lemma hashed_blocks es : forall s carry, hashed hash es (s ++ carry) = inputs s (blocks carry es).
Proof using.
  induction es as [|[bs|] es IH]; intros s carry; cbn [hashed blocks inputs]; [reflexivity|now rewrite <- app_assoc, IH|].
  f_equal. rewrite <- IH. now rewrite app_nil_r.
Qed.
Lemma digests_hashed es : forall s : sponge hash, digests es s = map hash (hashed hash es s).
Proof using. induction es as [|[bs|] es IH]; intro s; cbn; [reflexivity|apply IH|]. f_equal. apply IH. Qed.

Lemma app_same_length {A} (a b c d : list A) : length a = length c -> a ++ b = c ++ d -> a = c /\ b = d.
Proof using. revert c. induction a as [|x a IH]; intros [|y c] H E; try discriminate; [auto|]. cbn in *. injection E as -> E. destruct (IH c ltac:(lia) E) as [-> ->]. auto. Qed.

Lemma chain bs : forall bs' s s', length bs = length bs' -> length s = length s' -> bs <> [] ->
  hash (last (inputs s bs) []) = hash (last (inputs s' bs') []) ->
  (s = s' /\ bs = bs') \/ collide hash (inputs s bs) (inputs s' bs').
Proof using Hlen.
  assert (D : forall x y : list byte, {x = y} + {x <> y}) by (intros; apply list_eq_dec, Byte.byte_eq_dec).
  assert (One : forall s s' b b' l l', length s = length s' -> hash (s ++ b) = hash (s' ++ b') -> In (s ++ b) l -> In (s' ++ b') l' ->
    (s = s' /\ b = b') \/ collide hash l l').
  { intros s s' b b' l l' Ls Hh I1 I2. destruct (D (s ++ b) (s' ++ b')) as [Q|Q]; [left; now apply app_same_length|right].
    exists (s ++ b), (s' ++ b'). auto. }
  induction bs as [|b bs IH]; intros [|b' bs'] s s' Lb Ls Hne Hh; try discriminate; [now elim Hne|]. cbn [inputs].
  destruct bs as [|b2 bs].
  - destruct bs' as [|]; [|discriminate]. cbn [inputs last] in Hh.
    destruct (One s s' b b' [s ++ b] [s' ++ b'] Ls Hh) as [[-> ->]|C]; [now left|now left|left; auto|right; exact C].
  - destruct bs' as [|b2' bs']; [discriminate|].
    destruct (IH (b2' :: bs') (hash (s ++ b)) (hash (s' ++ b'))) as [[E1 E2]|C]; [cbn in *; lia|now rewrite !Hlen|discriminate| | |].
    + cbn [inputs last] in Hh |- *. exact Hh.
    + destruct (One s s' b b' ((s ++ b) :: inputs (hash (s ++ b)) (b2 :: bs)) ((s' ++ b') :: inputs (hash (s' ++ b')) (b2' :: bs')) Ls E1)
        as [[-> ->]|C]; [now left|now left| |now right]. left. split; [reflexivity|now rewrite E2].
    + right. destruct C as (x & y & I1 & I2 & R). exists x, y. split; [now right|]. split; [now right|exact R].
Qed.

Fixpoint closed (rs : list round) : Prop :=
  match rs with [] => False | [r] => snd r <> 0%nat | _ :: rs' => closed rs' end.

Lemma blocks_absorb ms : forall carry es, blocks carry (map Absorb ms ++ es) = blocks (carry ++ concat ms) es.
Proof using. induction ms as [|m ms IH]; intros carry es; cbn [map app blocks concat]; [now rewrite app_nil_r|]. now rewrite IH, <- app_assoc. Qed.
Lemma blocks_squeeze n : forall es, blocks [] (repeat Squeeze n ++ es) = repeat [] n ++ blocks [] es.
Proof using. induction n as [|n IH]; intro es; cbn [repeat app blocks]; [reflexivity|]. now rewrite IH. Qed.
Lemma blocks_round ms n rs carry : blocks carry (events ((ms, n) :: rs)) =
  match n with O => blocks (carry ++ concat ms) (events rs) | S c => (carry ++ concat ms) :: repeat [] c ++ blocks [] (events rs) end.
Proof using.
  rewrite events_cons. cbn [fst snd]. rewrite blocks_absorb. destruct n as [|c]; cbn [repeat app blocks]; [reflexivity|]. now rewrite blocks_squeeze.
Qed.

Definition alike (r r' : round) : Prop := snd r = snd r' /\ (snd r = 0%nat -> length (concat (fst r)) = length (concat (fst r'))).

Lemma blocks_count rs : forall rs' c c', Forall2 alike rs rs' -> length (blocks c (events rs)) = length (blocks c' (events rs')).
Proof using.
  induction rs as [|[ms n] rs IH]; intros rs' c c' H; inversion H as [|? [ms' n'] ? rs'' [Hn _] Hr]; subst; [reflexivity|].
  cbn [snd] in Hn. subst n'. rewrite !blocks_round. destruct n as [|n]; [now apply IH|]. cbn [length]. rewrite !app_length, !repeat_length, (IH rs'' [] [] Hr). reflexivity.
Qed.

Lemma blocks_inj rs : forall rs' c c', Forall2 alike rs rs' -> closed rs -> length c = length c' -> blocks c (events rs) = blocks c' (events rs') ->
  c = c' /\ Forall2 (fun r r' : round => concat (fst r) = concat (fst r')) rs rs'.
Proof using.
  induction rs as [|[ms n] rs IH]; intros rs' c c' H Hcl Lc Hb; [contradiction|]. inversion H as [|? [ms' n'] ? rs'' [Hn H0] Hr]; subst.
  cbn [fst snd] in *. subst n'. rewrite !blocks_round in Hb.
  assert (Rest : forall d d', length d = length d' -> blocks d (events rs) = blocks d' (events rs'') -> (n = 0%nat -> d = d') /\
    Forall2 (fun r r' : round => concat (fst r) = concat (fst r')) rs rs'').
  { intros d d' Ld Hd. destruct rs as [|r rs]; [inversion Hr; subst; split; [|constructor]; intro; contradiction|].
    cbn [closed] in Hcl. destruct (IH rs'' d d' Hr Hcl Ld Hd) as [-> F]. auto. }
  destruct n as [|n].
  - specialize (H0 eq_refl). destruct (Rest (c ++ concat ms) (c' ++ concat ms')) as [Hd F]; [rewrite !app_length; lia|exact Hb|].
    apply app_same_length in Hd; [|exact Lc|reflexivity]. destruct Hd as [-> Hm]. split; [reflexivity|]. constructor; [exact Hm|exact F].
  - injection Hb as Hm Hrest. apply app_same_length in Hrest; [|now rewrite !repeat_length]. destruct Hrest as [_ Hrest].
    apply app_same_length in Hm; [|exact Lc]. destruct Hm as [-> Hm]. destruct (Rest [] [] eq_refl Hrest) as [_ F]. split; [reflexivity|]. constructor; [exact Hm|exact F].
Qed.

Lemma closed_blocks rs : forall c, closed rs -> blocks c (events rs) <> [].
Proof using.
  induction rs as [|[ms n] rs IH]; intros c H; [contradiction|]. rewrite blocks_round. destruct n as [|n]; [|discriminate].
  destruct rs as [|r rs]; [cbn in H; lia|]. now apply IH.
Qed.

Lemma last_map {A B} (f : A -> B) l da db : l <> [] -> last (map f l) db = f (last l da).
Proof using. induction l as [|x l IH]; intro H; [now elim H|]. destruct l as [|y l]; [reflexivity|]. cbn [map last] in *. apply IH. discriminate. Qed.
Lemma inputs_nil s bs : bs <> [] -> inputs s bs <> [].
Proof using. destruct bs; [intro H; now elim H|discriminate]. Qed.

(** Equal digests after equally many others come from equal messages, or from a collision. *)
Theorem binding rs rs' : Forall2 alike rs rs' -> closed rs ->
  last (digests (events rs) (tr_new : sponge hash)) [] = last (digests (events rs') (tr_new : sponge hash)) [] ->
  Forall2 (fun r r' : round => concat (fst r) = concat (fst r')) rs rs' \/ collide hash (hashed hash (events rs) []) (hashed hash (events rs') []).
Proof using Hlen.
  intros HA Hc. rewrite !digests_hashed. cbn [tr_new sponge].
  change (@nil byte) with (@nil byte ++ []) at 1 3 5 6. rewrite !(hashed_blocks _ [] []). intro Hh.
  pose proof (closed_blocks rs [] Hc) as N1. pose proof (blocks_count rs rs' [] [] HA) as L.
  assert (N2 : blocks [] (events rs') <> []) by (intro Q; rewrite Q in L; destruct (blocks [] (events rs)); [now elim N1|discriminate]).
  rewrite (last_map _ _ [] []), (last_map _ _ [] []) in Hh by now apply inputs_nil.
  destruct (chain _ _ [] [] L eq_refl N1 Hh) as [[_ Q]|C]; [left|right; exact C].
  now apply (blocks_inj rs rs' [] [] HA Hc eq_refl) in Q.
Qed.
End Sponge.

(** ** Binding for proofs *)
Lemma Forall2_firstn {A B} (R : A -> B -> Prop) j : forall l l', Forall2 R l l' -> Forall2 R (firstn j l) (firstn j l').
Proof. induction j as [|j IH]; intros l l' H; [constructor|]. inversion H; subst; cbn; constructor; auto. Qed.
Lemma Forall2_nth {A B} (R : A -> B -> Prop) l : forall l' i x, Forall2 R l l' -> nth_error l i = Some x -> exists y, nth_error l' i = Some y /\ R x y.
Proof. induction l as [|a l IH]; intros l' [|i] x H Hi; try discriminate; inversion H; subst; cbn in *; [injection Hi as <-; eauto|eauto]. Qed.
Lemma nth_error_firstn {A} j : forall (l : list A) i, (i < j)%nat -> nth_error (firstn j l) i = nth_error l i.
Proof. induction j as [|j IH]; intros [|x l] [|i] H; cbn; try lia; try reflexivity. apply IH. lia. Qed.

Lemma nth_ext_error {A} (l : list A) : forall l', (forall i, nth_error l i = nth_error l' i) -> l = l'.
Proof.
  induction l as [|x l IH]; intros [|y l'] H; [reflexivity|specialize (H 0%nat); discriminate|specialize (H 0%nat); discriminate|].
  pose proof (H 0%nat) as H0. injection H0 as ->. f_equal. apply IH. intro i. apply (H (S i)).
Qed.
Lemma closed_firstn rs : forall j r, nth_error rs j = Some r -> snd r <> 0%nat -> closed (firstn (S j) rs).
Proof.
  induction rs as [|x rs IH]; intros [|j] r Hr Hn; try discriminate; cbn [nth_error] in Hr.
  - injection Hr as ->. exact Hn.
  - specialize (IH j r Hr Hn). destruct rs as [|y rs]; [destruct j; discriminate|]. exact IH.
Qed.

Lemma concat_map_inj {A} (f : A -> list byte) w : (0 < w)%nat -> (forall x, length (f x) = w) -> (forall x y, f x = f y -> x = y) ->
  forall l l', concat (map f l) = concat (map f l') -> l = l'.
Proof.
  intros Hw Hl Hi. induction l as [|x l IH]; intros [|y l'] H; cbn in H; try reflexivity.
  - apply (f_equal (@length byte)) in H. rewrite app_length, Hl in H. cbn in H. lia.
  - apply (f_equal (@length byte)) in H. rewrite app_length, Hl in H. cbn in H. lia.
  - apply app_same_length in H; [|now rewrite !Hl]. destruct H as [H1 H2]. f_equal; [now apply Hi|now apply IH].
Qed.

Lemma same_head (L : nat) (l l' : list (list byte)) : (0 < L)%nat -> Forall (fun r => length r = L) l -> Forall (fun r => length r = L) l' ->
  concat (firstn 1 l) = concat (firstn 1 l') -> firstn 1 l = firstn 1 l'.
Proof.
  intros HL Hl Hl' H. destruct Hl as [|x l Hx _], Hl' as [|y l' Hy _]; cbn in *; rewrite ?app_nil_r in H; subst; try reflexivity; cbn in *; lia.
Qed.

Section Proofs.
Context {E : env}.
Implicit Types p : stark_proof E.

Lemma rounds_nth_layer p k nb nt tries terms q i r : nth_error (fri_layers_merkle_roots p) i = Some r ->
  nth_error (rounds p k nb nt tries terms q) (4 + i) = Some ([r], 1%nat).
Proof.
  intro H. unfold rounds. rewrite nth_error_app2 by (cbn; lia). replace (4 + i - _)%nat with i by (cbn; lia).
  rewrite nth_error_app1 by (rewrite map_length; apply nth_error_Some; congruence). now rewrite (map_nth_error _ _ _ H).
Qed.
Lemma rounds_nth_last p k nb nt tries terms q : nth_error (rounds p k nb nt tries terms q) (4 + length (fri_layers_merkle_roots p)) = Some ([felt_bytes (fri_last_value p)], 1%nat).
Proof.
  unfold rounds. rewrite nth_error_app2 by (cbn; lia). rewrite nth_error_app2 by (rewrite map_length; cbn; lia). rewrite map_length. cbn [length].
  now replace (4 + _ - 4 - _)%nat with 0%nat by lia.
Qed.
Lemma rounds_nth_nonce p k nb nt tries terms q : nth_error (rounds p k nb nt tries terms q) (5 + length (fri_layers_merkle_roots p)) = Some ([be_bytes 8 (nonce p)], q).
Proof.
  unfold rounds. rewrite nth_error_app2 by (cbn; lia). rewrite nth_error_app2 by (rewrite map_length; cbn; lia). rewrite map_length. cbn [length].
  now replace (5 + _ - 4 - _)%nat with 1%nat by lia.
Qed.

Theorem schedule_binds hash w L p p' k nb nt tries terms q j :
  (forall x, length (hash x) = 32%nat) -> codec_ok (e_codec E) w -> (0 < L)%nat -> sized L p -> sized L p' ->
  length (fri_layers_merkle_roots p) = length (fri_layers_merkle_roots p') ->
  (0 < nb + nt)%nat -> (0 < tries)%nat ->
  (1 <= j <= 6 + length (fri_layers_merkle_roots p))%nat -> (j = 1%nat -> k <> 0%nat) -> (j = (6 + length (fri_layers_merkle_roots p))%nat -> q <> 0%nat) ->
  let rs := firstn j (rounds p k nb nt tries terms q) in
  let rs' := firstn j (rounds p' k nb nt tries terms q) in
  last (digests (events rs) (tr_new : sponge hash)) [] = last (digests (events rs') (tr_new : sponge hash)) [] ->
  agree_upto j p p' \/ collide hash (hashed hash (events rs) []) (hashed hash (events rs') []).
Proof.
  intros Hh HC HL (N0 & N1 & N2 & N3 & N4) (M0 & M1 & M2 & M3 & M4) Hlay Hcs Htr Hj Hk Hq rs rs' Hd.
  assert (HA : Forall2 alike (rounds p k nb nt tries terms q) (rounds p' k nb nt tries terms q)).
  { unfold rounds. cbn [app]. constructor; [|constructor; [|constructor; [|constructor]]].
    - split; [reflexivity|]. intros _. cbn [fst]. destruct (lde_trace_merkle_roots p) as [|x l]; [now elim N0|]. destruct (lde_trace_merkle_roots p') as [|y l']; [now elim M0|].
      inversion N1; inversion M1. cbn. rewrite !app_nil_r. congruence.
    - split; [reflexivity|]. cbn [snd]. lia.
    - split; [reflexivity|]. cbn [snd]. lia.
    - split; [reflexivity|]. cbn [snd]. lia.
    - apply Forall2_app.
      + clear -Hlay. revert Hlay. generalize (fri_layers_merkle_roots p') as l'. induction (fri_layers_merkle_roots p) as [|x l IH]; intros [|y l'] H; try discriminate; cbn [map]; constructor.
        * split; [reflexivity|discriminate].
        * apply IH. cbn in H. lia.
      + constructor; [split; [reflexivity|discriminate]|]. constructor; [|constructor]. split; [reflexivity|]. intros _. cbn [fst concat]. rewrite !app_nil_r. now rewrite !length_be_bytes. }
  assert (Hcl : closed rs).
  { destruct j as [|j]; [lia|]. unfold rs.
    destruct j as [|[|[|[|j]]]].
    - apply (closed_firstn _ 0 (firstn 1 (lde_trace_merkle_roots p), k)); [reflexivity|]. now apply Hk.
    - eapply (closed_firstn _ 1); [reflexivity|]. cbn [snd]. lia.
    - eapply (closed_firstn _ 2); [reflexivity|]. cbn [snd]. lia.
    - eapply (closed_firstn _ 3); [reflexivity|]. cbn [snd]. lia.
    - destruct (Nat.lt_ge_cases j (length (fri_layers_merkle_roots p))) as [Hlt|Hge].
      + destruct (nth_error (fri_layers_merkle_roots p) j) as [r|] eqn:Er; [|apply nth_error_None in Er; lia].
        apply (closed_firstn _ (4 + j) ([r], 1%nat)); [now apply rounds_nth_layer|discriminate].
      + destruct (Nat.eq_dec j (length (fri_layers_merkle_roots p))) as [->|Hne].
        * eapply (closed_firstn _ (4 + length (fri_layers_merkle_roots p))); [apply rounds_nth_last|discriminate].
        * assert (j = S (length (fri_layers_merkle_roots p))) as -> by lia.
          eapply (closed_firstn _ (5 + length (fri_layers_merkle_roots p))); [apply rounds_nth_nonce|]. cbn [snd]. apply Hq. lia. }
  destruct (binding hash Hh rs rs' (Forall2_firstn _ j _ _ HA) Hcl Hd) as [F|C]; [left|now right].
  assert (At : forall i r, (i < j)%nat -> nth_error (rounds p k nb nt tries terms q) i = Some r ->
    exists r', nth_error (rounds p' k nb nt tries terms q) i = Some r' /\ concat (fst r) = concat (fst r')).
  { intros i r Hi Hr. rewrite <- (nth_error_firstn j) in Hr by exact Hi. destruct (Forall2_nth _ _ _ _ _ F Hr) as (r' & Hr' & Q).
    unfold rs' in Hr'. rewrite nth_error_firstn in Hr' by exact Hi. eauto. }
  assert (Hinj : forall x y : E, felt_bytes x = felt_bytes y -> x = y).
  { intros x y Q. pose proof (codec_round _ _ HC x) as R. unfold felt_bytes in Q. rewrite Q, (codec_round _ _ HC) in R. now injection R. }
  assert (R1 : (1 <= j)%nat -> firstn 1 (lde_trace_merkle_roots p) = firstn 1 (lde_trace_merkle_roots p')).
  { intro H. destruct (At 0%nat _ ltac:(lia) eq_refl) as (r' & Hr' & Q). injection Hr' as <-. cbn [fst] in Q. apply (same_head L); assumption. }
  unfold agree_upto. split; [|split; [|split; [|split; [intro H4; split; [|split]|split; [|split]]]]].
  - exact R1.
  - intro H. specialize (R1 ltac:(lia)). destruct (At 1%nat _ ltac:(lia) eq_refl) as (r' & Hr' & Q). injection Hr' as <-. cbn [fst] in Q.
    apply (same_head L) in Q; [|exact HL| |]; [|destruct N1; [constructor|assumption]|destruct M1; [constructor|assumption]].
    destruct (lde_trace_merkle_roots p) as [|x l], (lde_trace_merkle_roots p') as [|y l']; cbn in R1 |- *; try discriminate; try reflexivity.
    injection R1 as ->. cbn in Q. f_equal. exact Q.
  - intro H. destruct (At 2%nat _ ltac:(lia) eq_refl) as (r' & Hr' & Q). injection Hr' as <-. cbn in Q. now rewrite !app_nil_r in Q.
  - destruct (At 3%nat _ ltac:(lia) eq_refl) as (r' & Hr' & Q). injection Hr' as <-. cbn [fst concat] in Q.
    apply app_same_length in Q; [|unfold felt_bytes; now rewrite !(codec_width _ _ HC)]. apply Hinj. apply Q.
  - destruct (At 3%nat _ ltac:(lia) eq_refl) as (r' & Hr' & Q). injection Hr' as <-. cbn [fst concat] in Q.
    apply app_same_length in Q; [|unfold felt_bytes; now rewrite !(codec_width _ _ HC)]. destruct Q as [_ Q].
    apply app_same_length in Q; [|unfold felt_bytes; now rewrite !(codec_width _ _ HC)]. apply Hinj. apply Q.
  - destruct (At 3%nat _ ltac:(lia) eq_refl) as (r' & Hr' & Q). injection Hr' as <-. cbn [fst concat] in Q.
    apply app_same_length in Q; [|unfold felt_bytes; now rewrite !(codec_width _ _ HC)]. destruct Q as [_ Q].
    apply app_same_length in Q; [|unfold felt_bytes; now rewrite !(codec_width _ _ HC)]. destruct Q as [_ Q].
    apply (concat_map_inj felt_bytes w (codec_pos _ _ HC) (codec_width _ _ HC) Hinj) in Q. exact Q.
  - apply nth_ext_error. intro i. destruct (Nat.lt_ge_cases i (j - 4)) as [Hi|Hi].
    + rewrite !nth_error_firstn by exact Hi. destruct (nth_error (fri_layers_merkle_roots p) i) as [r|] eqn:Er.
      * destruct (At (4 + i)%nat _ ltac:(lia) (rounds_nth_layer p k nb nt tries terms q i r Er)) as (r' & Hr' & Q).
        assert (i < length (fri_layers_merkle_roots p))%nat by (apply nth_error_Some; congruence).
        destruct (nth_error (fri_layers_merkle_roots p') i) as [s|] eqn:Es; [|apply nth_error_None in Es; lia].
        rewrite (rounds_nth_layer p' k nb nt tries terms q i s Es) in Hr'. injection Hr' as <-. cbn in Q. rewrite !app_nil_r in Q. now subst.
      * symmetry. apply nth_error_None. apply nth_error_None in Er. lia.
    + assert (O : forall l : list commitment, nth_error (firstn (j - 4) l) i = None) by (intro l; apply nth_error_None; rewrite firstn_length; lia).
      now rewrite !O.
  - intro H. destruct (At (4 + length (fri_layers_merkle_roots p))%nat _ ltac:(lia) (rounds_nth_last p k nb nt tries terms q)) as (r' & Hr' & Q).
    rewrite Hlay, rounds_nth_last in Hr'. injection Hr' as <-. cbn in Q. rewrite !app_nil_r in Q. now apply Hinj.
  - intro H. destruct (At (5 + length (fri_layers_merkle_roots p))%nat _ ltac:(lia) (rounds_nth_nonce p k nb nt tries terms q)) as (r' & Hr' & Q).
    rewrite Hlay, rounds_nth_nonce in Hr'. injection Hr' as <-. cbn [fst concat] in Q. rewrite !app_nil_r in Q.
    rewrite <- (be_val_be_bytes 8 (nonce p)), <- (be_val_be_bytes 8 (nonce p')), Q; [reflexivity|exact M4|exact N4].
Qed.

(** The replay depends on nothing else. *)
Lemma rows_read (f : frame E) : fr_row_width f <> 0%nat ->
  exists n rows, fr_num_rows f = Ok n /\ traverse (fr_get_row f) (seq 0 n) = Ok rows /\ concat rows = whole_rows f.
Proof.
  intro H. exists (length (fr_data f) / fr_row_width f)%nat. unfold fr_num_rows. replace (fr_row_width f =? 0) with false by (symmetry; now apply Nat.eqb_neq).
  assert (Hm : (length (fr_data f) / fr_row_width f * fr_row_width f <= length (fr_data f))%nat) by (rewrite Nat.mul_comm; now apply Nat.mul_div_le).
  destruct (traverse_total (fr_get_row f) (seq 0 (length (fr_data f) / fr_row_width f))) as [rows Er].
  - intros i Hi. apply in_seq in Hi. unfold fr_get_row. apply slice_total; [lia|]. nia.
  - exists rows. split; [reflexivity|]. split; [exact Er|]. exact (concat_rows f _ rows Hm Er).
Qed.

(** The messages are all that the replay reads. *)
Lemma step_1_messages fuel (a : air E) p p' d (t : e_tr E) :
  firstn 2 (lde_trace_merkle_roots p) = firstn 2 (lde_trace_merkle_roots p') -> composition_poly_root p = composition_poly_root p' ->
  composition_poly_even_ood_evaluation p = composition_poly_even_ood_evaluation p' ->
  composition_poly_odd_ood_evaluation p = composition_poly_odd_ood_evaluation p' ->
  fr_row_width (trace_ood_frame_evaluations p) <> 0%nat -> fr_row_width (trace_ood_frame_evaluations p') <> 0%nat ->
  whole_rows (trace_ood_frame_evaluations p) = whole_rows (trace_ood_frame_evaluations p') ->
  fri_layers_merkle_roots p = fri_layers_merkle_roots p' -> fri_last_value p = fri_last_value p' -> nonce p = nonce p' ->
  step_1 E fuel a p d t = step_1 E fuel a p' d t.
Proof.
  intros H1 H2 H3 H4 W W' H5 H6 H7 H8.
  destruct (rows_read _ W) as (n & rows & E1 & E2 & E3). destruct (rows_read _ W') as (n' & rows' & E1' & E2' & E3').
  assert (F : forall t : e_tr E, fold_left (append_felts E) rows t = fold_left (append_felts E) rows' t) by (intro t0; rewrite !append_rows_after; congruence).
  assert (I0 : idx (lde_trace_merkle_roots p) 0 = idx (lde_trace_merkle_roots p') 0 /\ nth_error (lde_trace_merkle_roots p) 1 = nth_error (lde_trace_merkle_roots p') 1).
  { unfold idx. rewrite <- !(nth_error_firstn 2 (lde_trace_merkle_roots p)), <- !(nth_error_firstn 2 (lde_trace_merkle_roots p')) by lia. now rewrite H1. }
  destruct I0 as [I0 I1]. unfold step_1. rewrite I0, I1, H2, H3, H4, E1, E1', H6, H7, H8. cbn [obind]. rewrite E2, E2'. cbn [obind].
  destruct (idx (lde_trace_merkle_roots p') 0) as [root0|e|]; cbn [obind]; try reflexivity.
  destruct (a_build_rap a _) as [[rap t1]|e|]; cbn [obind]; try reflexivity.
  destruct (a_boundary a rap) as [bcs|e|]; cbn [obind]; try reflexivity.
  do 4 (destruct (batch_sample_challenges E _ _) as [[? ?]|e|]; cbn [obind]; try reflexivity).
  destruct (sample_z_ood E _ _ _ _) as [[? ?]|e|]; cbn [obind]; try reflexivity.
  now rewrite F.
Qed.
End Proofs.
