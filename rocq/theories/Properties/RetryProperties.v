(** C85: what asking for positions again and again wins. *)
From Coq Require Import List Arith Lia Bool NArith ZArith.
From Verif.Base Require Import Outcome Bytes Field Poly Zp.
From Verif.Model Require Import Codec Trace Merkle Air Transcript Domain Options Fri Prover Verifier ExampleAirs.
From Verif.Spec Require Import AirSpec CairoColumns ExampleSpec ProvingSpec VerifierSpec HashSpec LowDegree FriTree OodSpec StarkTree Proximity Rounds Game Oracle Retry.
From Verif.Proofs Require Import BytesFacts OutcomeFacts FieldFacts PolyFacts FFTFacts DomainFacts ExampleFacts VerifierTotal OodFacts LowDegreeFacts CountFacts TapeFacts GambleFacts OracleCount.
From Verif.Examples Require Import Toy.
From Verif.Properties Require Import ExampleProperties StarkProperties OodProperties OptionsProperties LowDegreeProperties StarkSoundnessProperties RoundProperties GameProperties
  GameAirProperties GambleProperties OracleProperties OracleAirProperties.
Import ListNotations.
Local Open Scope felt_scope.

Section Retry.
Context {E : env} (a : air E) (kr nb r : nat) (pick : list E -> a_rap a) (s : strategy (E := E)).
Context (enc : list E -> commitment) (dec : commitment -> list E) (Hdec : forall u, dec (enc u) = u) (c0 : commitment).
Local Notation start := (start a kr nb).
Local Notation len := (tape_length a kr nb r).
Local Notation wo := (named_words s dec).
Local Notation speech := (speech a kr nb s enc c0).
Local Notation whole := (whole a kr nb r s enc c0).

Lemma start_mono i j : (i <= j)%nat -> (start i <= start j)%nat.
Proof using Type. induction 1 as [|j _ IH]; [lia|]. pose proof (start_le a kr nb j). lia. Qed.
Lemma start_end : start (4 + r) = len.
Proof using Type. reflexivity. Qed.

Lemma speech_length t n : length (speech t n) = n.
Proof using Type. unfold Retry.speech. now rewrite map_length, seq_length. Qed.
Lemma whole_length t n : length (whole t n) = (5 + r)%nat.
Proof using Type. unfold Retry.whole. rewrite app_length, speech_length. cbn. lia. Qed.
Lemma speech_prefix t n m : (m <= n)%nat -> firstn m (speech t n) = speech t m.
Proof using Type.
  intro H. unfold Retry.speech. rewrite firstn_map. f_equal. replace n with (m + (n - m))%nat by lia. rewrite seq_app, firstn_app, seq_length, Nat.sub_diag, firstn_O, app_nil_r.
  apply firstn_all2. rewrite seq_length. lia.
Qed.
Lemma whole_prefix t n m : (m <= 4 + r)%nat -> firstn m (whole t n) = speech t m.
Proof using Type.
  intro H. unfold Retry.whole. rewrite firstn_app, speech_length. replace (m - (4 + r))%nat with 0%nat by lia. rewrite firstn_O, app_nil_r. now apply speech_prefix.
Qed.
Lemma speech_cut t n m : (m <= S n)%nat -> speech (firstn (start n) t) m = speech t m.
Proof using Type.
  intro H. unfold Retry.speech. apply map_ext_in. intros j Hj. apply in_seq in Hj. f_equal. rewrite firstn_firstn. f_equal. apply Nat.min_l. apply start_mono. lia.
Qed.
Lemma whole_nth t n j : (j < 4 + r)%nat -> nth_error (whole t n) j = Some (say s enc c0 j (firstn (start j) t)).
Proof using Type.
  intro H. unfold Retry.whole. rewrite nth_error_app1 by (rewrite speech_length; exact H). unfold Retry.speech.
  apply (map_nth_error (fun j => say s enc c0 j (firstn (start j) t))). rewrite nth_error_nth' with (d := 0%nat) by (rewrite seq_length; exact H). now rewrite seq_nth.
Qed.
Lemma whole_last t n : nth_error (whole t n) (4 + r) = Some (Last (s_last s t) (N.of_nat n)).
Proof using Type. unfold Retry.whole. rewrite nth_error_app2; rewrite speech_length; [|lia]. now rewrite Nat.sub_diag. Qed.

(** Against the oracle the prover plays as the strategy does. *)
Lemma committed_plays d w t v n : length t = len -> wins a kr nb r pick (committed a r wo (whole t n)) d w t v <-> wins a kr nb r pick s d w t v.
Proof using Hdec.
  intro Ht. set (ms := whole t n).
  assert (R1 : root_at 1 ms = enc (firstn (start 1) t)) by (unfold root_at, ms; now rewrite whole_nth by lia).
  assert (R2 : root_at 2 ms = enc (firstn (start 2) t)) by (unfold root_at, ms; now rewrite whole_nth by lia).
  assert (V : values_at a ms = (s_even_value s (firstn (start 3) t), s_odd_value s (firstn (start 3) t), s_frame s (firstn (start 3) t))) by (unfold values_at, ms; now rewrite whole_nth by lia).
  assert (L : last_at r ms = s_last s t) by (unfold last_at, ms; now rewrite whole_last).
  assert (W : play_words a kr nb r (committed a r wo ms) t = play_words a kr nb r s t).
  { unfold play_words. apply map_ext_in. intros l Hl. apply in_seq in Hl. cbn [committed s_layer named_words w_layer]. unfold root_at, ms. rewrite whole_nth by lia. cbn [Nat.add say]. now rewrite Hdec. }
  assert (P : play_proof a kr nb (committed a r wo ms) t = play_proof a kr nb s t).
  { unfold play_proof, play_frame. cbn [committed s_even_value s_odd_value s_frame s_last]. rewrite V, L. reflexivity. }
  unfold wins. rewrite W, P. unfold play_frame, play_columns, play_even, play_odd. cbn [committed s_frame s_columns s_even s_odd named_words w_columns w_even w_odd].
  rewrite V, R1, R2, !Hdec. reflexivity.
Qed.
Lemma committed_formed t n : well_formed a s -> well_formed a (committed a r wo (whole t n)).
Proof using Type. intros H u. cbn [committed s_frame]. unfold values_at. rewrite whole_nth by lia. exact (H _). Qed.

Section Table.
Context (eqd : forall x y : question (E := E), {x = y} + {x <> y}) (good : list nat -> bool) (cs : list (coin (E := E))).
Context (Hcs : forall c, In c cs -> length (fst c) = len) (Hl : (4 + r <= length cs)%nat).
Let coin_at (n : nat) : coin (E := E) := nth n cs ([], []).
Local Notation segment := (segment a kr nb).

(** The tape that the replies to the first questions make up. *)
Definition joined (n : nat) : list E := concat (map (fun j => segment j (fst (coin_at j))) (seq 0 n)).
Definition tape : list E := joined (4 + r).

Lemma coin_length n : (n < length cs)%nat -> length (fst (coin_at n)) = len.
Proof using Hcs. intro H. apply Hcs. now apply nth_In. Qed.
Lemma segment_length j t : (j < 4 + r)%nat -> length t = len -> length (segment j t) = (start (S j) - start j)%nat.
Proof using Hcs Hl.
  intros Hj Ht. unfold Oracle.segment, part. rewrite firstn_length, skipn_length, Ht. pose proof (start_mono (S j) (4 + r) ltac:(lia)) as M. rewrite start_end in M. lia.
Qed.
Lemma joined_S n : joined (S n) = joined n ++ segment n (fst (coin_at n)).
Proof using. unfold joined. rewrite seq_S, map_app, concat_app. cbn [map concat]. now rewrite app_nil_r. Qed.
Lemma joined_length n : (n <= 4 + r)%nat -> length (joined n) = start n.
Proof using Hcs Hl.
  induction n as [|n IH]; intro Hn; [reflexivity|]. rewrite joined_S, app_length, IH, segment_length by (try apply coin_length; lia). pose proof (start_le a kr nb n). lia.
Qed.
Lemma tape_split n : (n <= 4 + r)%nat -> exists rest, tape = joined n ++ rest.
Proof using Hcs Hl.
  intro Hn. unfold tape. assert (G : forall m, exists rest, joined (n + m) = joined n ++ rest).
  { induction m as [|m [rest IH]]; [exists []; now rewrite Nat.add_0_r, app_nil_r|]. replace (n + S m)%nat with (S (n + m)) by lia. rewrite joined_S, IH. rewrite <- app_assoc. eauto. }
  destruct (G (4 + r - n)%nat) as (rest & R). exists rest. rewrite <- R. f_equal. lia.
Qed.
Lemma tape_prefix n : (n <= 4 + r)%nat -> firstn (start n) tape = joined n.
Proof using Hcs Hl.
  intro Hn. destruct (tape_split n Hn) as (rest & ->). rewrite <- (joined_length n Hn), firstn_app, Nat.sub_diag, firstn_O, app_nil_r. apply firstn_all.
Qed.
Lemma tape_len : length tape = len.
Proof using Hcs Hl. unfold tape. rewrite joined_length by lia. apply start_end. Qed.
Lemma tape_segment j : (j < 4 + r)%nat -> segment j tape = segment j (fst (coin_at j)).
Proof using Hcs Hl.
  intro Hj. destruct (tape_split (S j) ltac:(lia)) as (rest & ->). rewrite joined_S. unfold Oracle.segment at 1, part.
  rewrite <- app_assoc, skipn_app, skipn_all2, joined_length, Nat.sub_diag by (rewrite ?joined_length; lia). cbn [app skipn].
  rewrite firstn_app. pose proof (segment_length j (fst (coin_at j)) Hj (coin_length j ltac:(lia))) as L. rewrite L, Nat.sub_diag, firstn_O, app_nil_r. rewrite <- L. apply firstn_all.
Qed.

Definition asked (n : nat) : question (E := E) := if (n <? 4 + r)%nat then (speech tape (S n), firstn (start n) tape) else (whole tape (n - (4 + r)), tape).
Definition entry (n : nat) : question (E := E) * reply (E := E) := (asked n, reply_to a kr nb r (asked n) (coin_at n)).
Definition entries (n : nat) := rev (map entry (seq 0 n)).

Lemma asked_inj i j : asked i = asked j -> i = j.
Proof using Hcs Hl.
  unfold asked. intro Q. destruct (Nat.ltb_spec i (4 + r)) as [Hi|Hi], (Nat.ltb_spec j (4 + r)) as [Hj|Hj]; pose proof (f_equal (fun q => length (fst q)) Q) as L; cbn [fst] in L;
    rewrite ?speech_length, ?whole_length in L; try lia.
  apply (f_equal (fun q => nth_error (fst q) (4 + r))) in Q. cbn [fst] in Q. rewrite !whole_last in Q. injection Q as Q. lia.
Qed.
Lemma entry_first j : (j < 4 + r)%nat -> snd (entry j) = (segment j tape, []).
Proof using Hcs Hl.
  intro Hj. unfold entry, reply_to, asked. rewrite (proj2 (Nat.ltb_lt _ _) Hj). cbn [snd fst]. rewrite speech_length. cbn [pred]. rewrite (proj2 (Nat.ltb_lt _ _) Hj). now rewrite tape_segment.
Qed.
Lemma entry_later j : (4 + r <= j)%nat -> snd (entry j) = ([], snd (coin_at j)).
Proof using Hcs Hl.
  intro Hj. unfold entry, reply_to, asked. rewrite (proj2 (Nat.ltb_ge _ _) Hj). cbn [snd fst]. rewrite whole_length. replace (pred (5 + r)) with (4 + r)%nat by lia. now rewrite (proj2 (Nat.ltb_ge _ _) (le_n (4 + r))).
Qed.
Lemma entries_S n : entries (S n) = entry n :: entries n.
Proof using Hcs Hl. unfold entries. rewrite seq_S, map_app, rev_app_distr. reflexivity. Qed.
Lemma entries_lookup j n : lookup eqd (asked j) (entries n) = if (j <? n)%nat then Some (snd (entry j)) else None.
Proof using Hcs Hl.
  induction n as [|n IH]; [reflexivity|]. rewrite entries_S. unfold lookup. cbn [find]. destruct (eqd (fst (entry n)) (asked j)) as [Q|Q].
  - apply asked_inj in Q. subst j. now rewrite (proj2 (Nat.ltb_lt n (S n))) by lia.
  - unfold lookup in IH. rewrite IH. assert (Nq : n <> j) by (intros ->; now apply Q).
    destruct (Nat.ltb_spec j n) as [C|C]; [now rewrite (proj2 (Nat.ltb_lt j (S n))) by lia|now rewrite (proj2 (Nat.ltb_ge j (S n))) by lia].
Qed.
Lemma entries_told n : concat (map (fun j => fst (snd (entry j))) (seq 0 n)) = joined (Nat.min n (4 + r)).
Proof using Hcs Hl.
  induction n as [|n IH]; [reflexivity|]. rewrite seq_S, map_app, concat_app, IH. cbn [map concat Nat.add]. rewrite app_nil_r.
  destruct (Nat.lt_ge_cases n (4 + r)) as [C|C].
  - rewrite entry_first by exact C. cbn [fst]. rewrite !Nat.min_l by lia. now rewrite joined_S, tape_segment.
  - rewrite entry_later by exact C. cbn [fst]. rewrite app_nil_r. f_equal. lia.
Qed.
Lemma entries_challenges n : challenges_in (entries n) = joined (Nat.min n (4 + r)).
Proof using Hcs Hl. rewrite <- entries_told. unfold challenges_in, entries. rewrite rev_involutive. f_equal. exact (map_map entry (fun e => fst (snd e)) (seq 0 n)). Qed.
Lemma retrying_asks n : ask (retrying a kr nb r s enc c0 good) (entries n) = asked n.
Proof using Hcs Hl.
  unfold retrying. cbn [ask]. rewrite entries_challenges. unfold asked, entries. rewrite rev_length, map_length, seq_length. destruct (Nat.ltb_spec n (4 + r)) as [C|C].
  - rewrite Nat.min_l, <- tape_prefix by lia. now rewrite speech_cut by lia.
  - rewrite Nat.min_r by exact C. reflexivity.
Qed.
Lemma retrying_table n : (n <= length cs)%nat -> table a kr nb r eqd (retrying a kr nb r s enc c0 good) (firstn n cs) = entries n.
Proof using Hcs Hl.
  induction n as [|n IH]; intro Hn; [reflexivity|].
  assert (Q : firstn (S n) cs = firstn n cs ++ [coin_at n]).
  { unfold coin_at. clear -Hn. revert n Hn. induction cs as [|x l IH]; intros [|n] Hn; cbn in *; try lia; [reflexivity|]. f_equal. apply IH. lia. }
  rewrite Q, table_snoc, IH by lia. rewrite entries_S. unfold turn. rewrite retrying_asks, entries_lookup, (proj2 (Nat.ltb_ge n n)) by lia. reflexivity.
Qed.

(** One good reply is enough. *)
Lemma retrying_forges d w (lost : commitment -> Prop) n c : well_formed a s -> lost c0 -> nth_error cs n = Some c -> (4 + r <= n)%nat -> good (snd c) = true ->
  (forall j c, nth_error cs j = Some c -> (4 + r <= j)%nat -> good (snd c) = true -> wins a kr nb r pick s d w tape (snd c)) ->
  forges a kr nb r pick eqd (retrying a kr nb r s enc c0 good) wo d w lost cs.
Proof using Hcs Hl Hdec.
  intros Hwf Hlost Hn Hge Hg Hw. unfold forges. cbv zeta.
  pose proof (retrying_table (length cs) (le_n _)) as T. rewrite firstn_all in T. rewrite T. clear T.
  cbn [retrying claim]. rewrite entries_challenges, Nat.min_r by exact Hl. fold tape.
  assert (Ln : (n < length cs)%nat) by (apply nth_error_Some; congruence).
  match goal with |- context [find ?f ?l] => destruct (find f l) as [e|] eqn:F end.
  2:{ exfalso. assert (I : In (entry n) (entries (length cs))) by (unfold entries; apply -> in_rev; apply in_map, in_seq; lia).
      pose proof (find_none _ _ F _ I) as Z. cbn beta in Z.
      assert (Qn : fst (entry n) = (whole tape (n - (4 + r)), tape)) by (unfold entry, asked; now rewrite (proj2 (Nat.ltb_ge _ _) Hge)).
      apply andb_false_iff in Z. destruct Z as [Z|Z].
      - assert (Z' : (length (fst (fst (entry n))) =? 5 + r)%nat = false) by exact Z. rewrite Qn in Z'. cbn [fst] in Z'. rewrite whole_length, Nat.eqb_refl in Z'. discriminate Z'.
      - assert (Z' : good (snd (snd (entry n))) = false) by exact Z. rewrite (entry_later n Hge) in Z'. cbn [snd] in Z'. unfold coin_at in Z'. rewrite (nth_error_nth _ _ _ Hn), Hg in Z'. discriminate Z'. }
  apply find_some in F. destruct F as [F1 F2]. unfold entries in F1. apply in_rev, in_map_iff in F1. destruct F1 as (i & <- & Hi). apply in_seq in Hi.
  apply andb_true_iff in F2. destruct F2 as [F2 F3]. apply Nat.eqb_eq in F2.
  assert (Hi4 : (4 + r <= i)%nat).
  { destruct (Nat.lt_ge_cases i (4 + r)) as [C|C]; [|exact C]. exfalso. unfold entry, asked in F2. rewrite (proj2 (Nat.ltb_lt _ _) C) in F2. cbn [fst] in F2. rewrite speech_length in F2. lia. }
  assert (Qa : asked i = (whole tape (i - (4 + r)), tape)) by (unfold asked; now rewrite (proj2 (Nat.ltb_ge _ _) Hi4)).
  assert (Qe : entry i = ((whole tape (i - (4 + r)), tape), ([], snd (coin_at i)))).
  { rewrite (surjective_pairing (entry i)), (entry_later i Hi4). f_equal. exact Qa. }
  rewrite Qe in F3 |- *. cbn [fst snd] in F3 |- *.
  split; [apply whole_length|]. split; [apply tape_len|]. split; [|split; [|split; [|split]]].
  - intros j Hj. rewrite whole_prefix by lia.
    assert (Qj : asked j = (speech tape (S j), firstn (start j) tape)) by (unfold asked; now rewrite (proj2 (Nat.ltb_lt _ _) Hj)).
    rewrite <- Qj. etransitivity; [apply entries_lookup|]. rewrite (proj2 (Nat.ltb_lt j (length cs))) by lia. f_equal. now apply entry_first.
  - rewrite <- Qa. etransitivity; [exact (entries_lookup i (length cs))|]. rewrite (proj2 (Nat.ltb_lt i (length cs))) by lia. f_equal. now apply entry_later.
  - now apply committed_formed.
  - unfold root_at. now rewrite whole_nth by lia.
  - apply committed_plays; [apply tape_len|]. apply (Hw i); [|exact Hi4|exact F3]. unfold coin_at. apply nth_error_nth'. lia.
Qed.
End Table.
End Retry.

(** ** Counting the replies that lose *)
Lemma Forall2_part {A B} (R : A -> B -> Prop) o l : forall t ls, Forall2 R t ls -> Forall2 R (part o l t) (part o l ls).
Proof.
  unfold part. induction o as [|o IH]; intros t ls H; cbn [skipn].
  - revert l. induction H as [|x y t ls Hx H IH]; intros [|l]; cbn [firstn]; constructor; auto.
  - destruct H as [|x y t ls Hx H]; [destruct l; constructor|]. apply IH. exact H.
Qed.
Lemma joined_in {E : env} (a : air E) kr nb r cs (samples : list (list E)) : (4 + r <= length cs)%nat -> (forall c, In c cs -> In (fst c) (product samples)) ->
  length samples = tape_length a kr nb r -> In (tape a kr nb r cs) (product samples).
Proof.
  intros Hl Hc Hs. apply in_product. unfold tape.
  assert (G : forall n, (n <= 4 + r)%nat -> Forall2 (fun x l => In x l) (joined a kr nb cs n) (firstn (start a kr nb n) samples)).
  { induction n as [|n IH]; intro Hn; [constructor|]. rewrite joined_S. pose proof (start_le a kr nb n) as S1.
    replace (firstn (start a kr nb (S n)) samples) with (firstn (start a kr nb n) samples ++ part (start a kr nb n) (start a kr nb (S n) - start a kr nb n) samples).
    - apply Forall2_app; [apply IH; lia|]. unfold segment. apply Forall2_part. apply in_product. apply Hc. apply nth_In. exact (Nat.le_trans _ _ _ Hn Hl).
    - unfold part. rewrite <- (firstn_skipn (start a kr nb n) (firstn (start a kr nb (S n)) samples)) at 1. rewrite firstn_firstn, Nat.min_l by exact S1.
      f_equal. rewrite firstn_skipn_comm. do 2 f_equal. lia. }
  specialize (G (4 + r)%nat (le_n _)). rewrite (start_end a kr nb r), <- Hs, firstn_all in G. exact G.
Qed.

Lemma pairs_length {A B} (T : list A) (V : list B) : length (flat_map (fun t => map (pair t) V) T) = (length T * length V)%nat.
Proof. induction T as [|t T IH]; [reflexivity|]. cbn [flat_map length]. rewrite app_length, map_length, IH. reflexivity. Qed.
Lemma pairs_in {A B} (T : list A) (V : list B) x : In x (flat_map (fun t => map (pair t) V) T) <-> In (fst x) T /\ In (snd x) V.
Proof.
  rewrite in_flat_map. split.
  - intros (t & Ht & H). apply in_map_iff in H. destruct H as (v & <- & Hv). now split.
  - intros [H1 H2]. exists (fst x). split; [exact H1|]. apply in_map_iff. exists (snd x). split; [now destruct x|exact H2].
Qed.
Lemma lists_in2 {A} (l : list A) v n : length v = n -> incl v l -> Forall2 (fun x l => In x l) v (repeat l n).
Proof. intros <- H. apply in_product. now apply lists_in. Qed.

(** All vectors of [q] positions. *)
Definition positions (m q : nat) : list (list nat) := product (repeat (seq 0 (2 ^ m)) q).
Lemma in_positions m q v : In v (positions m q) <-> length v = q /\ forall i, In i v -> (i < 2 ^ m)%nat.
Proof.
  unfold positions. split.
  - intro H. split; [apply product_width in H; now rewrite repeat_length in H|]. intros i Hi. apply in_product in H.
    remember (repeat (seq 0 (2 ^ m)) q) as ls eqn:R. revert q R Hi. induction H as [|x l v ls Hx Hv IH]; intros q R Hi; [destruct Hi|].
    destruct q; [discriminate R|]. cbn in R. injection R as -> ->. destruct Hi as [<-|Hi]; [apply in_seq in Hx; lia|]. exact (IH q eq_refl Hi).
  - intros [<- H]. apply lists_in. intros i Hi. apply in_seq. specialize (H i Hi). lia.
Qed.

(** A strategy that wins with every tape when the positions are [good], played with [N] nonces: the replies for which it fails to forge
    a proof contain [N] vectors of positions that are not good. *)
Theorem C85_retrying_loses_rarely :
  forall (E : env) (a : air E) kr nb r b pick d w (s : strategy (E := E)) enc dec c0 (lost : commitment -> Prop) samples q eqd good N L,
  (forall u, dec (enc u) = u) -> well_formed a s -> lost c0 -> length samples = tape_length a kr nb r ->
  (forall t v, In t (product samples) -> In v (positions (r + b) q) -> good v = true -> wins a kr nb r pick s d w t v) ->
  NoDup L -> (forall cs, In cs L -> length cs = (4 + r + N)%nat /\ Forall (fresh r b q samples) cs /\
    ~ forges a kr nb r pick eqd (retrying a kr nb r s enc c0 good) (named_words s dec) d w lost cs) ->
  (length L <= (volume samples * length (positions (r + b) q)) ^ (4 + r) * (volume samples * length (filter (fun v => negb (good v)) (positions (r + b) q))) ^ N)%nat.
Proof.
  intros E a kr nb r b pick d w s enc dec c0 lost samples q eqd good N L Hdec Hwf Hlost Hs Hwin HN HL.
  set (full := flat_map (fun t => map (pair t) (positions (r + b) q)) (product samples) : list (coin (E := E))).
  set (bad := flat_map (fun t => map (pair t) (filter (fun v => negb (good v)) (positions (r + b) q))) (product samples) : list (coin (E := E))).
  assert (I : incl L (product (repeat full (4 + r) ++ repeat bad N))).
  { intros cs Hcs. destruct (HL cs Hcs) as (H1 & H2 & H3). rewrite Forall_forall in H2. apply in_product.
    assert (F : forall c, In c cs -> In (fst c) (product samples) /\ In (snd c) (positions (r + b) q)).
    { intros c Hc. destruct (H2 c Hc) as (F1 & F2 & F3). split; [exact F1|]. apply in_positions. now split. }
    rewrite <- (firstn_skipn (4 + r) cs). apply Forall2_app; apply lists_in2.
    - rewrite firstn_length. lia.
    - intros c Hc. apply pairs_in. apply F. rewrite <- (firstn_skipn (4 + r) cs). apply in_or_app. now left.
    - rewrite skipn_length. lia.
    - intros c Hc. apply pairs_in. assert (Hc' : In c cs) by (rewrite <- (firstn_skipn (4 + r) cs); apply in_or_app; now right).
      split; [apply (F c Hc')|]. apply filter_In. split; [apply (F c Hc')|]. destruct (good (snd c)) eqn:G; [exfalso|reflexivity]. apply H3.
      apply In_nth_error in Hc. destruct Hc as (n & Hn).
      assert (Lc : forall c, In c cs -> length (fst c) = tape_length a kr nb r) by (intros c1 Hc1; rewrite (product_width _ _ (proj1 (F c1 Hc1))); exact Hs).
      assert (Hlen : (4 + r <= length cs)%nat) by lia.
      assert (Hn' : nth_error cs (4 + r + n) = Some c).
      { rewrite <- (firstn_skipn (4 + r) cs), nth_error_app2; rewrite firstn_length, Nat.min_l by lia; [|lia]. replace (4 + r + n - (4 + r))%nat with n by lia. exact Hn. }
      apply (retrying_forges a kr nb r pick s enc dec Hdec c0 eqd good cs Lc Hlen d w lost (4 + r + n) c Hwf Hlost Hn' ltac:(lia) G).
      intros j c1 Hj _ G1. apply nth_error_In in Hj. apply Hwin; [|apply (F c1 Hj)|exact G1].
      apply joined_in; [exact Hlen|intros c2 Hc2; apply (F c2 Hc2)|exact Hs]. }
  etransitivity; [exact (NoDup_incl_length HN I)|]. rewrite product_length, volume_app, !volume_repeat.
  assert (E1 : length full = (volume samples * length (positions (r + b) q))%nat) by (rewrite <- (product_length samples); exact (pairs_length (product samples) _)).
  assert (E2 : length bad = (volume samples * length (filter (fun v => negb (good v)) (positions (r + b) q)))%nat) by (rewrite <- (product_length samples); exact (pairs_length (product samples) _)).
  rewrite E1, E2. apply le_n.
Qed.
Print Assumptions C85_retrying_loses_rarely.

(** ** Guessing multiples of the blowup factor, once per nonce *)
Definition all_multiples (b : nat) (v : list nat) : bool := forallb (fun i => (i mod 2 ^ b =? 0)%nat) v.
Lemma filter_split {A} (f : A -> bool) l : (length (filter f l) + length (filter (fun x => negb (f x)) l) = length l)%nat.
Proof. induction l as [|x l IH]; [reflexivity|]. cbn [filter length]. destruct (f x); cbn [negb length]; lia. Qed.
Lemma positions_length m q : length (positions m q) = ((2 ^ m) ^ q)%nat.
Proof. unfold positions. now rewrite product_length, volume_repeat, seq_length. Qed.
Lemma multiples_many r b q : ((2 ^ r) ^ q <= length (filter (all_multiples b) (positions (r + b) q)))%nat.
Proof.
  set (S := map (fun j => (2 ^ b * j)%nat) (seq 0 (2 ^ r))). assert (Pb : (0 < 2 ^ b)%nat) by (apply Nat.neq_0_lt_0, Nat.pow_nonzero; lia).
  assert (NS : NoDup S) by (apply nodup_map; [|apply seq_NoDup]; intros x y H; apply Nat.mul_cancel_l in H; [exact H|lia]).
  assert (LS : length (product (repeat S q)) = ((2 ^ r) ^ q)%nat) by (rewrite product_length, volume_repeat; unfold S; now rewrite map_length, seq_length).
  rewrite <- LS. apply NoDup_incl_length; [apply nodup_product; intros l Hl; apply repeat_spec in Hl; now subst l|].
  intros v Hv. assert (Lv : length v = q) by (apply product_width in Hv; now rewrite repeat_length in Hv).
  assert (HS : forall i, In i v -> In i S).
  { intros i Hi. apply in_product in Hv. clear Lv LS. remember (repeat S q) as ls eqn:R. revert q R Hi. induction Hv as [|x l v ls Hx Hv IH]; intros q R Hi; [destruct Hi|].
    destruct q; [discriminate R|]. cbn in R. injection R as -> ->. destruct Hi as [<-|Hi]; [exact Hx|]. exact (IH q eq_refl Hi). }
  apply filter_In. split.
  - apply in_positions. split; [exact Lv|]. intros i Hi. specialize (HS i Hi). apply in_map_iff in HS. destruct HS as (j & <- & Hj). apply in_seq in Hj.
    rewrite Nat.pow_add_r, Nat.mul_comm. apply Nat.mul_lt_mono_pos_r; [exact Pb|]. lia.
  - apply forallb_forall. intros i Hi. specialize (HS i Hi). apply in_map_iff in HS. destruct HS as (j & <- & _). apply Nat.eqb_eq. rewrite Nat.mul_comm. apply Nat.mod_mul. lia.
Qed.

(** Whatever it commits to, a prover that asks for positions with [N] nonces fails for at most a fraction of [(1 - 2^(-b*q))^N] of all replies. *)
Theorem C85_retrying_guesses_wins :
  forall (E : env) (a : air E) kr nb r b pick d w e (cols : list E -> nat -> E -> E) (even odd : list E -> E -> E) enc dec c0 (lost : commitment -> Prop) samples q eqd,
  env_ok E -> playable a nb r b e d w -> (forall u, dec (enc u) = u) -> lost c0 ->
  length samples = tape_length a kr nb r ->
  (forall z, In z (nth (at_point a kr nb) samples []) -> fpow z (2 ^ r) <> 1) ->
  (forall xs, In xs (product (firstn kr samples)) -> exists bcs, a_boundary a (pick xs) = Ok bcs) ->
  exists s, s_columns s = cols /\ s_even s = even /\ s_odd s = odd /\ well_formed a s /\
  let adv := retrying a kr nb r s enc c0 (all_multiples b) in
  forall N L, NoDup L -> (forall cs, In cs L -> length cs = (4 + r + N)%nat /\ Forall (fresh r b q samples) cs /\
    ~ forges a kr nb r pick eqd adv (named_words s dec) d w lost cs) ->
  (2 ^ (b * q * N) * length L <= (2 ^ (b * q) - 1) ^ N * (volume samples * (2 ^ (r + b)) ^ q) ^ (4 + r + N))%nat.
Proof.
  intros E a kr nb r b pick d w e cols even odd enc dec c0 lost samples q eqd HE PL Hdec Hlost Hs Hz Hb.
  destruct (C80_guessed_positions_win E a kr nb r b pick d w e cols even odd HE PL) as (s & S1 & S2 & S3 & S4 & Hwin).
  exists s. do 4 (split; [assumption|]). intros adv N L HN HL.
  assert (Hw : forall t v, In t (product samples) -> In v (positions (r + b) q) -> all_multiples b v = true -> wins a kr nb r pick s d w t v).
  { intros t v Ht Hv Hg. pose proof (product_width _ _ Ht) as Lt. apply in_product in Ht. apply Hwin; [congruence| | |].
    - apply Hb. apply in_product. clear -Ht. revert kr. induction Ht as [|x l t ls Hx Ht IH]; intro kr; destruct kr; cbn [firstn]; constructor; [exact Hx|apply IH].
    - apply Hz. assert (Hp : (at_point a kr nb < length samples)%nat) by (rewrite Hs; unfold tape_length, at_folding, at_terms; lia).
      clear -Ht Hp. revert Hp. generalize (at_point a kr nb). induction Ht as [|x l t ls Hx Ht IH]; intros i Hp; cbn [length] in Hp; [lia|].
      destruct i; cbn [nth]; [exact Hx|]. apply IH. lia.
    - intros i Hi. split; [exact (proj2 (proj1 (in_positions _ _ _) Hv) i Hi)|]. unfold all_multiples in Hg. rewrite forallb_forall in Hg.
      apply Nat.mod_divide; [apply Nat.pow_nonzero; lia|]. apply Nat.eqb_eq. exact (Hg i Hi). }
  pose proof (C85_retrying_loses_rarely E a kr nb r b pick d w s enc dec c0 lost samples q eqd (all_multiples b) N L Hdec S4 Hlost Hs Hw HN HL) as B.
  pose proof (filter_split (all_multiples b) (positions (r + b) q)) as F. pose proof (multiples_many r b q) as G. rewrite positions_length in *.
  set (bad := length (filter (fun v => negb (all_multiples b v)) (positions (r + b) q))) in *. set (V := volume samples) in *. set (T := ((2 ^ (r + b)) ^ q)%nat) in *.
  assert (ET : T = (2 ^ (b * q) * (2 ^ r) ^ q)%nat).
  { unfold T. rewrite Nat.pow_mul_r, <- Nat.pow_mul_l. f_equal. rewrite Nat.pow_add_r. apply Nat.mul_comm. }
  assert (HB : (2 ^ (b * q) * bad <= (2 ^ (b * q) - 1) * T)%nat).
  { assert (bad + (2 ^ r) ^ q <= T)%nat by lia. rewrite Nat.mul_sub_distr_r, Nat.mul_1_l. rewrite ET at 2.
    pose proof (Nat.mul_le_mono_l _ _ (2 ^ (b * q))%nat H) as M. rewrite Nat.mul_add_distr_l in M. lia. }
  pose proof (Nat.mul_le_mono_l _ _ (2 ^ (b * q * N))%nat B) as M. etransitivity; [exact M|].
  rewrite (Nat.pow_mul_r 2 (b * q) N), (Nat.pow_add_r _ (4 + r) N). set (X := (2 ^ (b * q))%nat) in *. set (Y := ((V * T) ^ (4 + r))%nat) in *.
  transitivity (Y * (V * (X * bad)) ^ N)%nat.
  - rewrite !Nat.pow_mul_l. lia.
  - transitivity (Y * (V * ((X - 1) * T)) ^ N)%nat.
    + apply Nat.mul_le_mono_l, Nat.pow_le_mono_l, Nat.mul_le_mono_l. exact HB.
    + rewrite !Nat.pow_mul_l. lia.
Qed.
Print Assumptions C85_retrying_guesses_wins.

(** Options with blowup factor two and one query, which are accepted as offering any provable level from three bits on (C39): whatever column is
    committed to, [N] nonces fail for at most one reply in [2^N]. *)
Theorem C85_checked_level_refuted :
  forall (E : env) m (a0 a1 : E) bits offset target r d w e (cols : nat -> E -> E) samples (enc : list E -> commitment) dec eqd, (3 <= target)%N -> (target + 40 < bits)%N ->
  exists opts, new_with_checked_provable_security m bits 2 1 offset 0 target = Ok opts /\
  let a := fibonacci_air E a0 a1 opts (2 ^ r) in
  (env_ok E -> usable_options E opts r 1 -> (2 <= r)%nat -> (r + 1 <= two_adicity E)%nat -> domain_new a = Ok d -> primitive_root (r + 1) = Some w ->
   (3 * e + 2 ^ r <= 2 ^ (r + 1))%nat -> length samples = tape_length a 0 2 r -> (forall u, dec (enc u) = u) ->
   (forall z, In z (nth (at_point a 0 2) samples []) -> fpow z (2 ^ r) <> 1) ->
   (forall f, near_poly (points (d_coset_offset d) w (2 ^ (r + 1))) e (2 ^ r + 1) (cols 0%nat) f ->
      map (fun i => peval f (fpow (trace_primitive_root d) i)) (seq 0 (2 ^ r)) <> fibs a0 a1 (2 ^ r)) ->
   exists adv wo, (forall c c', w_columns wo c c' = cols) /\
   forall N L, NoDup L -> (forall cs, In cs L -> length cs = (4 + r + N)%nat /\ Forall (fresh r 1 (fri_number_of_queries opts) samples) cs /\
     ~ forges a 0 2 r (fun _ => tt) eqd adv wo d w (no_fibonacci a0 a1 r 1 e d w wo) cs) ->
   (2 ^ N * length L <= (volume samples * 2 ^ (r + 1)) ^ (4 + r + N))%nat).
Proof.
  intros E m a0 a1 bits offset target r d w e cols samples enc dec eqd H3 Hbits.
  exists (mk_options 2 1 offset 0). split.
  { unfold new_with_checked_provable_security, check_field_security. rewrite N.mul_1_r, (proj2 (N.leb_gt _ _) Hbits). cbn [obind].
    change (u8_leading_zeros 2) with 6%N. replace (usize_arith m (Z.of_N 6 * Z.of_N 1)) with (Ok 6%N) by (destruct m; reflexivity). cbn [obind].
    replace (usize_arith m (Z.of_N 0 + Z.of_N (6 / 2))) with (Ok 3%N) by (destruct m; reflexivity). cbn [obind].
    rewrite (proj2 (N.ltb_ge _ _) H3). reflexivity. }
  intros a HE Hu Hr Ht Hd Hw He Hs Hdec Hz Hno.
  assert (PL : playable a 2 r 1 e d w) by now apply (fibonacci_playable HE a0 a1 (mk_options 2 1 offset 0) r 1 e d w Hu Hr Ht Hd Hw).
  destruct (C85_retrying_guesses_wins E a 0 2 r 1 (fun _ => tt) d w e (fun _ => cols) (fun _ _ => 0) (fun _ _ => 0) enc dec []
    (fun _ => True) samples 1 eqd HE PL Hdec I Hs Hz) as (s & S1 & _ & _ & _ & HB).
  { intros xs _. eexists. reflexivity. }
  exists (retrying a 0 2 r s enc [] (all_multiples 1)), (named_words s dec). split; [intros c c'; cbn; now rewrite S1|].
  intros N L HN HL. cbv zeta in HB. specialize (HB N L HN).
  replace (1 * 1 * N)%nat with N in HB by lia. change (2 ^ (1 * 1) - 1)%nat with 1%nat in HB. rewrite Nat.pow_1_l, Nat.mul_1_l, Nat.pow_1_r in HB. apply HB. intros cs Hcs. destruct (HL cs Hcs) as (L1 & L2 & L3).
  split; [exact L1|]. split; [exact L2|]. intro F. apply L3. unfold forges in *. cbv zeta in *.
  destruct (claim _ _) as [[ms t] v]. destruct F as (F1 & F2 & F3 & F4 & F5 & _ & F7). do 5 (split; [assumption|]). split; [|exact F7].
  intros c1 f Hf. apply Hno. cbn in Hf. rewrite S1 in Hf. exact Hf.
Qed.
Print Assumptions C85_checked_level_refuted.

(** ** Examples: the zero column over [F_97], four rows on eight points. *)
Definition toy_enc (u : list toy) : commitment := map (fun x : toy => byte_of (Z.to_N (zval x))) u.
Definition toy_dec (c : commitment) : list toy := map (fun y => f97 (Z.of_N (bval y)) : toy) c.
Lemma toy_named u : toy_dec (toy_enc u) = u.
Proof.
  unfold toy_dec, toy_enc. rewrite map_map. etransitivity; [|apply map_id]. apply map_ext. intro x. pose proof (zval_bound 97 x) as B.
  rewrite bval_byte_of, N.mod_small by lia. rewrite Z2N.id by lia. apply zp_eq. apply zval_mod. lia.
Qed.

Definition zero_opts : proof_options := mk_options 2 1 5 0.
Definition zero_coins : list (coin (E := toy)) := repeat (cheat_tape, [1%nat]) 6 ++ [(cheat_tape, [3%nat]); (cheat_tape, [7%nat]); (cheat_tape, [4%nat])].
Lemma zero_far (f : poly toy) : near_poly (points (d_coset_offset ood_domain) honest_w (2 ^ (2 + 1))) 1 (2 ^ 2 + 1) (fun _ : toy => (0 : toy)) f ->
  map (fun i => peval f (fpow (trace_primitive_root ood_domain) i)) (seq 0 (2 ^ 2)) <> fibs (f97 1 : toy) (f97 1 : toy) (2 ^ 2).
Proof. exact (proj2 (proj2 (proj2 (proj2 (proj2 (proj2 (proj2 (proj2 C77_cheating_example))))))) f). Qed.
Example C85_example : forall eqd,
  let a := fibonacci_air toy (f97 1) (f97 1) zero_opts 4 in
  new_with_checked_provable_security Release 252 2 1 5 0 128 = Ok zero_opts /\
  exists adv wo, (forall c c', w_columns wo c c' = fun _ _ => (0 : toy)) /\
  forall N L, NoDup L -> (forall cs, In cs L -> length cs = (6 + N)%nat /\ Forall (fresh 2 1 1 cheat_samples) cs /\
    ~ forges a 0 2 2 (fun _ => tt) eqd adv wo ood_domain honest_w (no_fibonacci (f97 1 : toy) (f97 1 : toy) 2 1 1 ood_domain honest_w wo) cs) ->
  (2 ^ N * length L <= 8 ^ (6 + N))%nat.
Proof.
  intros eqd a.
  destruct (C85_checked_level_refuted toy Release (f97 1) (f97 1) 252 5 128 2 ood_domain honest_w 1 (fun _ _ => 0) cheat_samples toy_enc toy_dec eqd ltac:(lia) ltac:(lia)) as (opts & Ho & H).
  assert (Q : opts = zero_opts) by (apply ok_inj; rewrite <- Ho; reflexivity). subst opts. split; [reflexivity|]. cbv zeta in H.
  exact (H toy_ok toy_usable (le_n 2) ltac:(cbn; lia) ood_domain_ok honest_root ltac:(cbn; lia) eq_refl toy_named cheat_offdomain zero_far).
Qed.

(** A run with three nonces: the third reply consists of multiples of two. *)
Example C85_forging_example : forall eqd,
  exists s, s_columns s = (fun _ _ _ => (0 : toy)) /\ Forall (fresh 2 1 1 cheat_samples) zero_coins /\
  forges (fibonacci_air toy (f97 1) (f97 1) zero_opts 4) 0 2 2 (fun _ => tt) eqd (retrying (fibonacci_air toy (f97 1) (f97 1) zero_opts 4) 0 2 2 s toy_enc [] (all_multiples 1)) (named_words s toy_dec) ood_domain honest_w
    (no_fibonacci (f97 1 : toy) (f97 1 : toy) 2 1 1 ood_domain honest_w (named_words s toy_dec)) zero_coins.
Proof.
  intro eqd. set (a := fibonacci_air toy (f97 1) (f97 1) zero_opts 4).
  assert (PL : playable a 2 2 1 1 ood_domain honest_w) by exact (fibonacci_playable toy_ok (f97 1) (f97 1) zero_opts 2 1 1 ood_domain honest_w toy_usable (le_n 2) ltac:(cbn; lia) ood_domain_ok honest_root ltac:(cbn; lia)).
  destruct (C80_guessed_positions_win toy a 0 2 2 1 (fun _ => tt) ood_domain honest_w 1 (fun _ _ _ => 0) (fun _ _ => 0) (fun _ _ => 0) toy_ok PL) as (s & S1 & _ & _ & S4 & Hw).
  exists s. split; [exact S1|].
  assert (Hc : forall c, In c zero_coins -> fst c = cheat_tape /\ length (snd c) = 1%nat /\ forall i, In i (snd c) -> (i < 8)%nat).
  { intros c Hc. cbn [zero_coins repeat app In] in Hc. repeat (destruct Hc as [<-|Hc]; [cbn; split; [reflexivity|]; split; [reflexivity|]; intros i [<-|[]]; lia|]). destruct Hc. }
  assert (Ht : In cheat_tape (product cheat_samples)) by (apply in_product; unfold cheat_samples, cheat_tape; repeat constructor).
  split; [apply Forall_forall; intros c H; destruct (Hc c H) as (H1 & H2 & H3); split; [rewrite H1; exact Ht|split; [exact H2|exact H3]]|].
  assert (Hl : (4 + 2 <= length zero_coins)%nat) by (vm_compute; lia).
  apply (retrying_forges a 0 2 2 (fun _ => tt) s toy_enc toy_dec toy_named [] eqd (all_multiples 1) zero_coins
    ltac:(intros c H; rewrite (proj1 (Hc c H)); reflexivity) Hl ood_domain honest_w _ 8 (cheat_tape, [4%nat]) S4); [|reflexivity|lia|reflexivity|].
  - intros c1 f Hf. apply zero_far. cbn in Hf. rewrite S1 in Hf. exact Hf.
  - assert (Hin : In (tape a 0 2 2 zero_coins) (product cheat_samples)).
    { apply joined_in; [exact Hl| |reflexivity]. intros c H. rewrite (proj1 (Hc c H)). exact Ht. }
    intros j c Hj _ Hg. apply nth_error_In in Hj. destruct (Hc c Hj) as (_ & _ & H3).
    pose proof (product_width _ _ Hin) as Lt. apply Hw; [exact Lt|eexists; reflexivity| |].
    + apply cheat_offdomain. apply in_product in Hin. assert (Hp : (at_point a 0 2 < length cheat_samples)%nat) by (vm_compute; lia).
      change (at_point ood_air 0 2) with (at_point a 0 2). clear -Hin Hp. revert Hp. generalize (at_point a 0 2). induction Hin as [|x l t ls Hx Ht IH]; intros i Hp; cbn [length] in Hp; [lia|].
      destruct i; cbn [nth]; [exact Hx|]. apply IH. lia.
    + intros i Hi. split; [exact (H3 i Hi)|]. unfold all_multiples in Hg. rewrite forallb_forall in Hg. apply Nat.mod_divide; [cbn; lia|]. apply Nat.eqb_eq. exact (Hg i Hi).
Qed.
