(** Proofs about the public-input format and the CLI file. *)
From Coq Require Import List NArith Arith Lia Permutation.
From Coq.Strings Require Import Byte.
From Verif.Base Require Import Outcome Bytes.
From Verif.Model Require Import Codec PublicInputs.
From Verif.Spec Require Import CodecSpec.
From Verif.Proofs Require Import BytesFacts CodecFacts.
Import ListNotations.

Section MapFacts.
Context {K V : Type} (eqk : K -> K -> bool).
Context (eqk_spec : forall a b, eqk a b = true <-> a = b).

Lemma eqk_refl k : eqk k k = true.
Proof using eqk_spec. now apply eqk_spec. Qed.

Lemma eqk_neq a b : a <> b -> eqk a b = false.
Proof using eqk_spec. intro H. destruct (eqk a b) eqn:E; [apply eqk_spec in E; congruence|reflexivity]. Qed.

Lemma map_insert_fresh k v (m : list (K * V)) :
  ~ In k (map fst m) -> map_insert eqk k v m = m ++ [(k, v)].
Proof using eqk_spec.
  induction m as [|[k' v'] m IH]; cbn [map_insert map fst app In]; intro H; [reflexivity|].
  rewrite eqk_neq by (intro; subst; tauto). rewrite IH by tauto. reflexivity.
Qed.

Lemma of_entries_gen (l m : list (K * V)) :
  NoDup (map fst (m ++ l)) ->
  fold_left (fun m e => map_insert eqk (fst e) (snd e) m) l m = m ++ l.
Proof using eqk_spec.
  revert m; induction l as [|[k v] l IH]; intros m H; cbn [fold_left fst snd].
  - now rewrite app_nil_r.
  - rewrite map_insert_fresh.
    + rewrite IH; rewrite <- app_assoc; [reflexivity|]. exact H.
    + rewrite map_app in H. cbn [map fst] in H. intro Hin.
      apply NoDup_remove_2 in H. apply H. apply in_or_app. now left.
Qed.

(** Filling a map with the entries of a duplicate-free list gives this list. *)
Lemma of_entries_nodup (l : list (K * V)) : NoDup (map fst l) -> of_entries eqk l = l.
Proof using eqk_spec. intro H. unfold of_entries. now rewrite of_entries_gen. Qed.

Lemma map_get_in k v (m : list (K * V)) :
  NoDup (map fst m) -> (map_get eqk k m = Some v <-> In (k, v) m).
Proof using eqk_spec.
  induction m as [|[k' v'] m IH]; cbn [map_get map fst In]; intro H; [split; [discriminate|tauto]|].
  apply NoDup_cons_iff in H. destruct H as [Hn Hd].
  destruct (eqk k k') eqn:E.
  - apply eqk_spec in E. subst k'. split.
    + intro Hs. injection Hs as ->. now left.
    + intros [He | Hin]; [congruence|]. exfalso. apply Hn.
      change k with (fst (k, v)). now apply in_map.
  - rewrite IH by exact Hd. split; [tauto|]. intros [He | Hin]; [|exact Hin].
    injection He as -> ->. rewrite eqk_refl in E. discriminate.
Qed.

Lemma map_get_perm k (m m' : list (K * V)) :
  NoDup (map fst m) -> Permutation m m' -> map_get eqk k m = map_get eqk k m'.
Proof using eqk_spec.
  intros Hd Hp.
  assert (Hd' : NoDup (map fst m')) by (eapply Permutation_NoDup; [apply Permutation_map, Hp | exact Hd]).
  destruct (map_get eqk k m) as [v|] eqn:E.
  - symmetry. apply map_get_in; [exact Hd'|]. apply (Permutation_in _ Hp). now apply map_get_in in E.
  - destruct (map_get eqk k m') as [v|] eqn:E'; [|reflexivity].
    apply map_get_in in E'; [|exact Hd']. apply (Permutation_in _ (Permutation_sym Hp)) in E'.
    apply map_get_in in E'; [congruence|exact Hd].
Qed.
End MapFacts.

Lemma segment_eqb_spec a b : segment_eqb a b = true <-> a = b.
Proof. destruct a, b; cbn; split; congruence. Qed.

Section PI.
Context {F : Type} (feqb : F -> F -> bool) (C : felt_codec F).
Context (feqb_spec : forall a b, feqb a b = true <-> a = b).
Context (w : nat) (HC : codec_ok C w).

Lemma reads_opt16 o : opt16_wf o -> reads read_opt16 (ser_opt16 o) o.
Proof using.
  intros H rest. destruct o as [v|]; cbn [opt16_wf ser_opt16 app] in *; unfold read_opt16; cbn [head_byte obind].
  - change (x01 :: be_bytes 2 v ++ rest) with ([x01] ++ (be_bytes 2 v ++ rest)).
    change 1%N with (N.of_nat (length [x01])). rewrite slice_from_app. cbn [obind].
    replace 2%N with (N.of_nat (length (be_bytes 2 v))) by (rewrite length_be_bytes; reflexivity).
    rewrite slice_to_app, slice_from_app. cbn [obind].
    rewrite be_val_be_bytes by exact H. reflexivity.
  - change (x00 :: rest) with ([x00] ++ rest).
    change 1%N with (N.of_nat (length [x00])). rewrite slice_from_app. reflexivity.
Qed.

Lemma reads_segment e : seg_wf e -> reads read_segment (ser_segment e) e.
Proof using.
  destruct e as [s [lo hi]]; intros [Hlo Hhi] rest; cbn [fst snd] in *.
  unfold ser_segment, read_segment. cbn [app head_byte].
  rewrite <- !app_assoc.
  set (b := match s with RangeCheck => x00 | Output => x01 end).
  replace (obind (Ok b) _) with
    (obind (slice_from 1 (b :: be_bytes 8 lo ++ be_bytes 8 hi ++ rest)) (fun bs =>
       obind (read_usize bs) (fun '(lo, bs) => obind (read_usize bs) (fun '(hi, bs) => Ok ((s, (lo, hi)), bs)))))
    by (destruct s; reflexivity).
  change (b :: be_bytes 8 lo ++ be_bytes 8 hi ++ rest) with ([b] ++ (be_bytes 8 lo ++ be_bytes 8 hi ++ rest)).
  change 1%N with (N.of_nat (length [b])). rewrite slice_from_app. cbn [obind].
  rewrite reads_u64 by exact Hlo. cbn [obind]. rewrite reads_u64 by exact Hhi. reflexivity.
Qed.

Lemma reads_cell e : reads (read_cell C (N.of_nat w)) (ser_cell C e) e.
Proof using HC.
  destruct e as [a v]; intro rest. unfold read_cell, ser_cell; cbn [fst snd]. rewrite <- app_assoc.
  rewrite (reads_felt C w HC). cbn [obind]. rewrite (reads_felt C w HC). reflexivity.
Qed.

Lemma seg_count (l : list (memory_segment * (N * N))) : NoDup (map fst l) -> (N.of_nat (length l) < two64)%N.
Proof using.
  intro H. assert (Hl : length (map fst l) <= length [RangeCheck; Output]).
  { apply NoDup_incl_length; [exact H|]. intros [|] _; cbn; tauto. }
  rewrite map_length in Hl. cbn [length] in Hl. unfold two64. lia.
Qed.

Lemma pub_round p rest : pub_wf p -> pub_deserialize feqb C (pub_serialize C p ++ rest) = Ok p.
Proof using HC feqb_spec.
  destruct p as [pci api fpi pcf apf rmin rmax segs mem ns].
  unfold pub_wf, pub_serialize, pub_deserialize;
    cbn [pc_init ap_init fp_init pc_final ap_final range_check_min range_check_max memory_segments public_memory num_steps].
  intros (H1 & H2 & H3 & H4 & H5 & H6 & H7).
  rewrite <- !app_assoc, (codec_width C w HC).
  rewrite reads_usize by exact (codec_small C w HC). cbn [obind].
  do 5 (rewrite (reads_felt C w HC); cbn [obind]).
  rewrite reads_opt16 by exact H1. cbn [obind]. rewrite reads_opt16 by exact H2. cbn [obind].
  rewrite reads_usize by (now apply seg_count). cbn [obind].
  rewrite (reads_many_nat read_segment ser_segment).
  2:{ intros e He. apply reads_segment. rewrite Forall_forall in H3. now apply H3. }
  cbn [obind]. rewrite reads_usize by exact H6. cbn [obind].
  rewrite (reads_many_nat (read_cell C (N.of_nat w)) (ser_cell C)).
  2:{ intros e He. apply reads_cell. }
  cbn [obind].
  replace (get_to 8 (be8 ns ++ rest)) with (Ok (be8 ns)).
  2:{ symmetry. replace 8%N with (N.of_nat (length (be8 ns))) by (rewrite length_be8; reflexivity). apply get_to_app. }
  cbn [obind]. rewrite be_val_be8, Nat2N.id by exact H7.
  rewrite of_entries_nodup by (auto using segment_eqb_spec).
  rewrite of_entries_nodup by auto. reflexivity.
Qed.

Lemma pub_wf_order (p q : public_inputs F) : same_up_to_order p q -> pub_wf p -> pub_wf q.
Proof using.
  intros (_ & _ & _ & _ & _ & E1 & E2 & E3 & P1 & P2) (H1 & H2 & H3 & H4 & H5 & H6 & H7).
  unfold pub_wf. rewrite <- E1, <- E2, <- E3.
  repeat split; auto.
  - rewrite Forall_forall in *. intros e He. apply H3. now apply (Permutation_in _ (Permutation_sym P1)).
  - eapply Permutation_NoDup; [apply Permutation_map, P1|exact H4].
  - eapply Permutation_NoDup; [apply Permutation_map, P2|exact H5].
  - now rewrite <- (Permutation_length P2).
Qed.

Lemma pub_round_any_order (p q : public_inputs F) rest :
  pub_wf p -> same_up_to_order p q ->
  exists r, pub_deserialize feqb C (pub_serialize C q ++ rest) = Ok r /\
    pc_init r = pc_init p /\ ap_init r = ap_init p /\ fp_init r = fp_init p /\
    pc_final r = pc_final p /\ ap_final r = ap_final p /\
    range_check_min r = range_check_min p /\ range_check_max r = range_check_max p /\
    num_steps r = num_steps p /\
    (forall s, map_get segment_eqb s (memory_segments r) = map_get segment_eqb s (memory_segments p)) /\
    (forall a, map_get feqb a (public_memory r) = map_get feqb a (public_memory p)).
Proof using HC feqb_spec.
  intros Hwf Hs. exists q. split; [apply pub_round; now apply (pub_wf_order p)|].
  destruct Hs as (-> & -> & -> & -> & -> & -> & -> & -> & P1 & P2).
  destruct Hwf as (_ & _ & _ & H4 & H5 & _).
  repeat (split; [reflexivity|]). split; intro k; symmetry.
  - apply map_get_perm; auto using segment_eqb_spec.
  - apply map_get_perm; auto.
Qed.

(** * Panics of the public-input reader *)

Lemma read_opt16_panic bs : read_opt16 bs = Panic <-> cut16 bs.
Proof using.
  unfold read_opt16, cut16. split.
  - destruct bs as [|b bs]; cbn [head_byte obind]; [discriminate|].
    destruct b; try discriminate.
    + change (x00 :: bs) with ([x00] ++ bs). change 1%N with (N.of_nat (length [x00])).
      rewrite slice_from_app. discriminate.
    + destruct bs as [|b1 bs]; [eexists; split; [reflexivity|cbn; lia]|].
      destruct bs as [|b2 bs]; [eexists; split; [reflexivity|cbn; lia]|].
      change (x01 :: b1 :: b2 :: bs) with ([x01] ++ (b1 :: b2 :: bs)). change 1%N with (N.of_nat (length [x01])).
      rewrite slice_from_app. cbn [obind].
      change (b1 :: b2 :: bs) with ([b1; b2] ++ bs). change 2%N with (N.of_nat (length [b1; b2])).
      rewrite slice_to_app, slice_from_app. discriminate.
  - intros (u & -> & Hu). cbn [head_byte obind].
    change (x01 :: u) with ([x01] ++ u). change 1%N with (N.of_nat (length [x01])).
    rewrite slice_from_app. cbn [obind]. unfold slice_to.
    destruct (N.ltb_spec (N.of_nat (length u)) 2); [reflexivity|lia].
Qed.

Lemma read_opt16_ok bs o r : read_opt16 bs = Ok (o, r) -> exists t, whole16 t /\ bs = t ++ r.
Proof using.
  unfold read_opt16, whole16.
  destruct bs as [|b bs]; cbn [head_byte obind]; [discriminate|].
  destruct b; try discriminate.
  - change (x00 :: bs) with ([x00] ++ bs). change 1%N with (N.of_nat (length [x00])).
    rewrite slice_from_app. cbn [obind]. intro H. injection H as _ <-. exists [x00]. auto.
  - destruct bs as [|b1 [|b2 bs]]; [cbn; discriminate|cbn; discriminate|].
    change (x01 :: b1 :: b2 :: bs) with ([x01] ++ (b1 :: b2 :: bs)). change 1%N with (N.of_nat (length [x01])).
    rewrite slice_from_app. cbn [obind].
    change (b1 :: b2 :: bs) with ([b1; b2] ++ bs). change 2%N with (N.of_nat (length [b1; b2])).
    rewrite slice_to_app, slice_from_app. cbn [obind]. intro H. apply Ok_inj in H.
    injection H as _ <-. exists [x01; b1; b2]. split; [right; eauto|reflexivity].
Qed.

Lemma read_opt16_whole t r : whole16 t -> exists o, read_opt16 (t ++ r) = Ok (o, r).
Proof using.
  intros [-> | (b1 & b2 & ->)].
  - exists None. unfold read_opt16. cbn [app head_byte obind].
    change (x00 :: r) with ([x00] ++ r). change 1%N with (N.of_nat (length [x00])).
    rewrite slice_from_app. reflexivity.
  - exists (Some (be_val [b1; b2])). unfold read_opt16. cbn [app head_byte obind].
    change (x01 :: b1 :: b2 :: r) with ([x01] ++ (b1 :: b2 :: r)). change 1%N with (N.of_nat (length [x01])).
    rewrite slice_from_app. cbn [obind].
    change (b1 :: b2 :: r) with ([b1; b2] ++ r). change 2%N with (N.of_nat (length [b1; b2])).
    rewrite slice_to_app, slice_from_app. reflexivity.
Qed.

Lemma total_segment : total read_segment.
Proof using.
  intros bs. unfold read_segment. destruct bs as [|b bs]; cbn [head_byte obind]; [discriminate|].
  apply no_panic_bind; [destruct b; discriminate|]. intro s.
  change (b :: bs) with ([b] ++ bs). change 1%N with (N.of_nat (length [b])).
  rewrite slice_from_app. cbn [obind].
  apply no_panic_bind; [apply total_usize|]. intros [lo bs1].
  apply no_panic_bind; [apply total_usize|]. intros [hi bs2]. discriminate.
Qed.

Lemma total_cell n : total (read_cell C n).
Proof using.
  intro bs. unfold read_cell. apply no_panic_bind; [apply total_felt|]. intros [a bs1].
  apply no_panic_bind; [apply total_felt|]. intros [v bs2]. discriminate.
Qed.

(** [bs] starts with a field element of [n] bytes that decodes, followed by [r]. *)
Lemma read_felt_ok_iff n bs x r :
  read_felt C n bs = Ok (x, r) <->
  exists b, bs = b ++ r /\ N.of_nat (length b) = n /\ fe_from C b = Some x.
Proof using.
  unfold read_felt. split.
  - unfold get_to. destruct (N.ltb_spec (N.of_nat (length bs)) n) as [H|H]; cbn [obind]; [discriminate|].
    destruct (fe_from C (firstn (N.to_nat n) bs)) as [y|] eqn:E; cbn [ok_or obind]; [|discriminate].
    rewrite slice_from_le by exact H. cbn [obind]. intro He. apply Ok_inj in He. injection He as -> <-.
    exists (firstn (N.to_nat n) bs). split; [now rewrite firstn_skipn|]. split; [|exact E].
    rewrite firstn_length. lia.
  - intros (b & -> & <- & Hb). rewrite get_to_app. cbn [obind]. rewrite Hb. cbn [ok_or obind].
    rewrite slice_from_app. reflexivity.
Qed.

Lemma obind_panic {A B} (x : outcome A) (f : A -> outcome B) :
  obind x f = Panic <-> x = Panic \/ exists a, x = Ok a /\ f a = Panic.
Proof using.
  destruct x; cbn [obind]; split; intro H.
  - right. eauto.
  - destruct H as [H|(b & Hb & H)]; [discriminate|]. apply Ok_inj in Hb. now subst.
  - discriminate.
  - destruct H as [H|(b & Hb & H)]; discriminate.
  - now left.
  - reflexivity.
Qed.

Lemma read_usize_ok_iff bs n r :
  read_usize bs = Ok (n, r) <-> exists h, bs = h ++ r /\ length h = 8 /\ be_val h = n.
Proof using.
  unfold read_usize, take, get_to. split.
  - destruct (N.ltb_spec (N.of_nat (length bs)) 8) as [H|H]; cbn [obind]; [discriminate|].
    rewrite slice_from_le by exact H. cbn [obind]. intro He. apply Ok_inj in He. injection He as <- <-.
    exists (firstn 8 bs). split; [symmetry; apply (firstn_skipn 8)|]. split; [rewrite firstn_length; lia|reflexivity].
  - intros (h & -> & Hh & <-). 
    pose proof (reads_take 8 h ltac:(rewrite Hh; reflexivity) r) as Ht. unfold take, get_to in Ht.
    rewrite Ht. reflexivity.
Qed.

Lemma pub_panic_iff bs : pub_deserialize feqb C bs = Panic <-> pub_panic_shape C bs.
Proof using.
  unfold pub_deserialize, pub_panic_shape. split.
  - intro H.
    apply obind_panic in H. destruct H as [H|([n b0] & H0 & H)]; [now apply total_usize in H|].
    apply obind_panic in H. destruct H as [H|([v1 b1] & H1 & H)]; [now apply total_felt in H|].
    apply obind_panic in H. destruct H as [H|([v2 b2] & H2 & H)]; [now apply total_felt in H|].
    apply obind_panic in H. destruct H as [H|([v3 b3] & H3 & H)]; [now apply total_felt in H|].
    apply obind_panic in H. destruct H as [H|([v4 b4] & H4 & H)]; [now apply total_felt in H|].
    apply obind_panic in H. destruct H as [H|([v5 b5] & H5 & H)]; [now apply total_felt in H|].
    apply read_usize_ok_iff in H0. destruct H0 as (h & -> & Hh & <-).
    apply read_felt_ok_iff in H1. destruct H1 as (e1 & -> & L1 & D1).
    apply read_felt_ok_iff in H2. destruct H2 as (e2 & -> & L2 & D2).
    apply read_felt_ok_iff in H3. destruct H3 as (e3 & -> & L3 & D3).
    apply read_felt_ok_iff in H4. destruct H4 as (e4 & -> & L4 & D4).
    apply read_felt_ok_iff in H5. destruct H5 as (e5 & -> & L5 & D5).
    exists h, e1, e2, e3, e4, e5, b5. split; [reflexivity|]. split; [exact Hh|]. split.
    { unfold decodes. intros e [<-|[<-|[<-|[<-|[<-|[]]]]]]; split; congruence. }
    apply obind_panic in H. destruct H as [H|([o1 c1] & H1 & H)]; [left; now apply read_opt16_panic|].
    apply read_opt16_ok in H1. destruct H1 as (t1 & W1 & ->).
    apply obind_panic in H. destruct H as [H|([o2 c2] & H2 & H)].
    { right. exists t1, c1. split; [reflexivity|]. split; [exact W1|]. now apply read_opt16_panic. }
    exfalso.
    apply obind_panic in H. destruct H as [H|([n1 d1] & _ & H)]; [now apply total_usize in H|].
    apply obind_panic in H. destruct H as [H|([s1 d2] & _ & H)]; [now apply (total_many _ _ total_segment) in H|].
    apply obind_panic in H. destruct H as [H|([n2 d3] & _ & H)]; [now apply total_usize in H|].
    apply obind_panic in H. destruct H as [H|([s2 d4] & _ & H)]; [now apply (total_many _ _ (total_cell _)) in H|].
    apply obind_panic in H. destruct H as [H|(p & _ & H)]; [|discriminate].
    unfold get_to in H. destruct (_ <? _)%N; discriminate.
  - intros (h & e1 & e2 & e3 & e4 & e5 & t & -> & Hh & He & Ht).
    rewrite (proj2 (read_usize_ok_iff _ (be_val h) (e1 ++ e2 ++ e3 ++ e4 ++ e5 ++ t))) by eauto. cbn [obind].
    assert (Hrd : forall e r, In e [e1; e2; e3; e4; e5] -> exists v, read_felt C (be_val h) (e ++ r) = Ok (v, r)).
    { intros e r Hin. destruct (He e Hin) as [Hl Hd]. unfold decodes in Hd.
      destruct (fe_from C e) as [v|] eqn:E; [|congruence]. exists v. apply read_felt_ok_iff. eauto. }
    destruct (Hrd e1 (e2 ++ e3 ++ e4 ++ e5 ++ t)) as [v1 ->]; [cbn; tauto|]. cbn [obind].
    destruct (Hrd e2 (e3 ++ e4 ++ e5 ++ t)) as [v2 ->]; [cbn; tauto|]. cbn [obind].
    destruct (Hrd e3 (e4 ++ e5 ++ t)) as [v3 ->]; [cbn; tauto|]. cbn [obind].
    destruct (Hrd e4 (e5 ++ t)) as [v4 ->]; [cbn; tauto|]. cbn [obind].
    destruct (Hrd e5 t) as [v5 ->]; [cbn; tauto|]. cbn [obind].
    destruct Ht as [Hc | (t1 & t2 & -> & Hw & Hc)].
    + apply read_opt16_panic in Hc. rewrite Hc. reflexivity.
    + destruct (read_opt16_whole t1 t2 Hw) as [o ->]. cbn [obind].
      apply read_opt16_panic in Hc. rewrite Hc. reflexivity.
Qed.

Lemma pub_truncation_panics (p : public_inputs F) : range_check_min p <> None ->
  exists n, pub_deserialize feqb C (firstn n (pub_serialize C p)) = Panic.
Proof using HC.
  intro Hm. destruct (range_check_min p) as [m|] eqn:Em; [|congruence].
  exists (8 + (w + (w + (w + (w + (w + 1)))))). apply pub_panic_iff.
  unfold pub_serialize. rewrite Em. unfold ser_opt16 at 1.
  exists (be8 w), (fe_to C (pc_init p)), (fe_to C (ap_init p)), (fe_to C (fp_init p)),
         (fe_to C (pc_final p)), (fe_to C (ap_final p)), [x01].
  split; [|split; [apply length_be8|split]].
  - rewrite (codec_width C w HC).
    rewrite <- (length_be8 w) at 1. rewrite firstn_app_2. f_equal.
    rewrite <- (codec_width C w HC (pc_init p)) at 1. rewrite firstn_app_2. f_equal.
    rewrite <- (codec_width C w HC (ap_init p)) at 1. rewrite firstn_app_2. f_equal.
    rewrite <- (codec_width C w HC (fp_init p)) at 1. rewrite firstn_app_2. f_equal.
    rewrite <- (codec_width C w HC (pc_final p)) at 1. rewrite firstn_app_2. f_equal.
    rewrite <- (codec_width C w HC (ap_final p)) at 1. rewrite firstn_app_2. f_equal.
  - assert (He : forall x, N.of_nat (length (fe_to C x)) = be_val (be8 w) /\ decodes C (fe_to C x)).
    { intro x. rewrite be_val_be8 by apply (codec_small C w HC). rewrite (codec_width C w HC).
      split; [reflexivity|]. unfold decodes. rewrite (codec_round C w HC). discriminate. }
    intros e [<-|[<-|[<-|[<-|[<-|[]]]]]]; apply He.
  - left. exists []. split; [reflexivity|cbn; lia].
Qed.

(** * The CLI file *)

Lemma slice_to_be8 n r : slice_to 8 (be8 n ++ r) = Ok (be8 n).
Proof using.
  replace 8%N with (N.of_nat (length (be8 n))) by (rewrite length_be8; reflexivity). apply slice_to_app.
Qed.

Lemma slice_from_be8 n r : slice_from 8 (be8 n ++ r) = Ok r.
Proof using.
  replace 8%N with (N.of_nat (length (be8 n))) by (rewrite length_be8; reflexivity). apply slice_from_app.
Qed.

Lemma file_round p pi bs :
  stark_wf C p -> pub_wf pi -> file_write C p pi = Ok bs -> file_read feqb C bs = Ok (p, pi).
Proof using HC feqb_spec.
  intros Hp Hpi Hw. unfold file_write in Hw.
  destruct (stark_serialize C p) as [pb| |] eqn:Es; cbn [obind] in Hw; try discriminate.
  apply Ok_inj in Hw. subst bs.
  assert (Hlen : (N.of_nat (length pb) < two64)%N).
  { destruct Hp as (_ & _ & _ & _ & _ & _ & _ & _ & Hl). now apply Hl. }
  unfold file_read. rewrite app_length, length_be8. cbn [Nat.ltb Nat.leb Nat.add].
  rewrite slice_to_be8. cbn [obind]. rewrite slice_from_be8. cbn [obind].
  rewrite be_val_be8 by exact Hlen. rewrite app_length.
  destruct (N.ltb_spec (N.of_nat (length pb + length (pub_serialize C pi))) (N.of_nat (length pb))); [lia|].
  rewrite slice_to_app. cbn [obind]. rewrite (stark_round C w HC p pb Hp Es). cbn [obind].
  rewrite slice_from_app. cbn [obind].
  rewrite <- (app_nil_r (pub_serialize C pi)), pub_round by exact Hpi. reflexivity.
Qed.

Lemma file_round_total (p : stark_proof F) (pi : public_inputs F) : stark_wf C p -> pub_wf pi ->
  exists bs, file_write C p pi = Ok bs /\ file_read feqb C bs = Ok (p, pi).
Proof using HC feqb_spec.
  intros Hp Hpi. destruct (stark_serialize_total C p Hp) as [pb Hpb].
  assert (Hw : file_write C p pi = Ok (be8 (length pb) ++ pb ++ pub_serialize C pi))
    by (unfold file_write; rewrite Hpb; reflexivity).
  eexists. split; [exact Hw|]. now apply file_round.
Qed.

Lemma file_truncated p pi bs n :
  stark_wf C p -> file_write C p pi = Ok bs ->
  n < length bs - length (pub_serialize C pi) -> file_read feqb C (firstn n bs) = Err OtherError.
Proof using.
  intros Hp Hw Hn. unfold file_write in Hw.
  destruct (stark_serialize C p) as [pb| |] eqn:Es; cbn [obind] in Hw; try discriminate.
  apply Ok_inj in Hw. subst bs.
  assert (Hlen : (N.of_nat (length pb) < two64)%N).
  { destruct Hp as (_ & _ & _ & _ & _ & _ & _ & _ & Hl). now apply Hl. }
  rewrite !app_length, length_be8 in Hn.
  unfold file_read. destruct (Nat.ltb_spec (length (firstn n (be8 (length pb) ++ pb ++ pub_serialize C pi))) 8) as [Hs|Hs];
    [reflexivity|].
  rewrite firstn_length, !app_length, length_be8 in Hs.
  rewrite firstn_app, length_be8.
  rewrite firstn_all2 by (rewrite length_be8; lia).
  rewrite slice_to_be8. cbn [obind]. rewrite slice_from_be8. cbn [obind].
  rewrite be_val_be8 by exact Hlen.
  match goal with |- (if ?c then _ else _) = _ => replace c with true end; [reflexivity|].
  symmetry. apply N.ltb_lt. rewrite firstn_length, app_length. lia.
Qed.

End PI.
