(** C80: what a prover wins by guessing positions, whatever it commits to. *)
From Coq Require Import List Arith Lia Bool NArith ZArith.
From Verif.Base Require Import Outcome Bytes Field Poly Zp.
From Verif.Model Require Import Codec PublicInputs Trace Merkle Air Transcript Domain Options Fri Prover Verifier ExampleAirs CairoAir.
From Verif.Spec Require Import AirSpec CairoSpec CairoColumns ExampleSpec ProvingSpec VerifierSpec LowDegree FriTree OodSpec StarkTree Proximity Rounds Game.
From Verif.Proofs Require Import OutcomeFacts FieldFacts PolyFacts FFTFacts DomainFacts ExampleFacts VerifierTotal OodFacts LowDegreeFacts LineFacts CountFacts TapeFacts GambleFacts.
From Verif.Examples Require Import Toy.
From Verif.Properties Require Import ExampleProperties StarkProperties OodProperties OptionsProperties LowDegreeProperties
  StarkSoundnessProperties RoundProperties GameProperties GameAirProperties.
Import ListNotations.
Local Open Scope felt_scope.

Lemma nodup_flat_map {A B} (f : A -> list B) : (forall x, NoDup (f x)) -> (forall x y z, In z (f x) -> In z (f y) -> x = y) ->
  forall l, NoDup l -> NoDup (flat_map f l).
Proof.
  intros Hf Hd l. induction l as [|x l IH]; intros Hn; cbn; [constructor|]. inversion Hn as [|? ? Hx Hl]; subst.
  apply nodup_app_intro; [apply Hf|now apply IH|]. intros z H1 H2. apply in_flat_map in H2. destruct H2 as (y & Hy & H2).
  rewrite (Hd x y z H1 H2) in Hx. contradiction.
Qed.
Lemma nodup_map {A B} (f : A -> B) : (forall x y, f x = f y -> x = y) -> forall l, NoDup l -> NoDup (map f l).
Proof. intros Hf l Hn. induction Hn as [|x l Hx Hn IH]; cbn; constructor; [|exact IH]. intro H. apply in_map_iff in H. destruct H as (y & E & Hy). now rewrite (Hf _ _ E) in Hy. Qed.
Lemma nodup_product {A} (ls : list (list A)) : (forall l, In l ls -> NoDup l) -> NoDup (product ls).
Proof.
  induction ls as [|l ls IH]; intro H; cbn [product]; [constructor; [intros []|constructor]|].
  apply nodup_flat_map; [| |apply H; now left].
  - intro x. apply nodup_map; [congruence|]. apply IH. intros l' Hl. apply H. now right.
  - intros x y z H1 H2. apply in_map_iff in H1. apply in_map_iff in H2. destruct H1 as (u & <- & _). destruct H2 as (v & E & _). congruence.
Qed.
Lemma volume_repeat {A} (l : list A) q : volume (repeat l q) = (length l ^ q)%nat.
Proof. induction q as [|q IH]; [reflexivity|]. cbn [repeat volume map fold_right Nat.pow] in *. unfold volume in IH. rewrite IH. reflexivity. Qed.

(** For all words that a prover may commit to, there are stated values and FRI layers such that it wins, whatever the tape, if the positions are
    all multiples of the blowup factor; the boundary constraints must be computable, and the point outside the trace domain. *)
Theorem C80_guessed_positions_win :
  forall (E : env) (a : air E) kr nb r b pick d w e (cols : list E -> nat -> E -> E) (even odd : list E -> E -> E), env_ok E ->
  playable a nb r b e d w ->
  exists s, s_columns s = cols /\ s_even s = even /\ s_odd s = odd /\ well_formed a s /\
  forall t v, length t = tape_length a kr nb r -> (exists bcs, a_boundary a (pick (firstn kr t)) = Ok bcs) ->
    fpow (nth (at_point a kr nb) t 0) (2 ^ r) <> 1 ->
    (forall i, In i v -> (i < 2 ^ (r + b))%nat /\ Nat.divide (2 ^ b) i) ->
    wins a kr nb r pick s d w t v.
Proof.
  intros E a kr nb r b pick d w e cols even odd HE PL. pose proof (fft_field_ok _ (e_fft_ok E HE)) as HK.
  exists (gamble a kr nb r pick d cols even odd). split; [reflexivity|]. split; [reflexivity|]. split; [reflexivity|]. split; [apply gamble_formed|].
  intros t v Ht Hb Hz Hv. apply (gamble_wins HE a kr nb r b pick d w e PL cols even odd t v Ht).
  - unfold tape_rap, part. cbn [skipn]. exact Hb.
  - intro H. apply Hz. exact (proj1 (sub_zero HK _ _) H).
  - intros i Hi. destruct (Hv i Hi) as [Hi1 [j ->]]. exists j. split; [|apply Nat.mul_comm].
    rewrite Nat.pow_add_r in Hi1. apply Nat.mul_lt_mono_pos_r in Hi1; [exact Hi1|]. apply pow2_pos.
Qed.
Print Assumptions C80_guessed_positions_win.

(** Counting: whatever the words, there is a strategy that wins with a fraction of [2^(-b*q)] of all challenges and positions. *)
Theorem C80_winning_runs_exist :
  forall (E : env) (a : air E) kr nb r b pick d w e (cols : list E -> nat -> E -> E) (even odd : list E -> E -> E) samples q, env_ok E ->
  playable a nb r b e d w ->
  length samples = tape_length a kr nb r -> (forall l, In l samples -> NoDup l) ->
  (forall z, In z (nth (at_point a kr nb) samples []) -> fpow z (2 ^ r) <> 1) ->
  (forall xs, In xs (product (firstn kr samples)) -> exists bcs, a_boundary a (pick xs) = Ok bcs) ->
  exists s W, s_columns s = cols /\ s_even s = even /\ s_odd s = odd /\ well_formed a s /\ winning a kr nb r pick s d w b q samples W /\
    (2 ^ (b * q) * length W)%nat = (volume samples * (2 ^ (r + b)) ^ q)%nat.
Proof.
  intros E a kr nb r b pick d w e cols even odd samples q HE PL Hl Hnd Hz Hb.
  destruct (C80_guessed_positions_win E a kr nb r b pick d w e cols even odd HE PL) as (s & S1 & S2 & S3 & S4 & Hs).
  set (S := map (fun j => (2 ^ b * j)%nat) (seq 0 (2 ^ r))).
  set (V := product (repeat S q)).
  exists s, (flat_map (fun t => map (pair t) V) (product samples)). do 4 (split; [assumption|]).
  assert (LS : length S = (2 ^ r)%nat) by (unfold S; now rewrite map_length, seq_length).
  assert (Pb := pow2_pos b).
  assert (NS : NoDup S).
  { unfold S. apply nodup_map; [|apply seq_NoDup]. intros x y H. apply Nat.mul_cancel_l in H; [exact H|lia]. }
  assert (HV : forall v, In v V -> length v = q /\ forall i, In i v -> (i < 2 ^ (r + b))%nat /\ Nat.divide (2 ^ b) i).
  { intros v Hv. split; [apply product_width in Hv; now rewrite repeat_length in Hv|]. intros i Hi. apply in_product in Hv.
    assert (Hi' : In i S).
    { clear -Hv Hi. remember (repeat S q) as ls eqn:R. revert q R. induction Hv as [|x l v ls Hx Hv IH]; intros q R; [destruct Hi|].
      destruct q; [discriminate R|]. cbn in R. injection R as -> ->. destruct Hi as [<-|Hi]; [exact Hx|]. exact (IH Hi q eq_refl). }
    apply in_map_iff in Hi'. destruct Hi' as (j & <- & Hj). apply in_seq in Hj. split; [|exists j; apply Nat.mul_comm].
    rewrite Nat.pow_add_r, Nat.mul_comm. apply Nat.mul_lt_mono_pos_r; [exact Pb|]. lia. }
  split.
  - split.
    + apply nodup_flat_map; [| |now apply nodup_product].
      * intro t. apply nodup_map; [congruence|]. apply nodup_product. intros l Hin. apply repeat_spec in Hin. now subst l.
      * intros x y [z1 z2] H1 H2. apply in_map_iff in H1. apply in_map_iff in H2. destruct H1 as (? & H1 & _). destruct H2 as (? & H2 & _). congruence.
    + intros t v Hin. apply in_flat_map in Hin. destruct Hin as (t' & Ht & Hin). apply in_map_iff in Hin. destruct Hin as (v' & Eq & Hv).
      injection Eq as -> ->. destruct (HV v Hv) as [V1 V2]. split; [exact Ht|]. split; [exact V1|]. split; [intros i Hi; exact (proj1 (V2 i Hi))|].
      pose proof (product_width _ _ Ht) as Lt. apply in_product in Ht. apply Hs; [congruence| | |exact V2].
      * apply Hb. apply in_product. clear -Ht. revert kr. induction Ht as [|x l t ls Hx Ht IH]; intro kr; destruct kr; cbn [firstn]; constructor; [exact Hx|apply IH].
      * apply Hz. assert (Hp : (at_point a kr nb < length samples)%nat) by (rewrite Hl; unfold tape_length, at_folding, at_terms; lia).
        clear -Ht Hp. revert Hp. generalize (at_point a kr nb). induction Ht as [|x l t ls Hx Ht IH]; intros i Hp; cbn [length] in Hp; [lia|].
        destruct i; cbn [nth]; [exact Hx|]. apply IH. lia.
  - assert (L : forall T : list (list E), length (flat_map (fun t => map (pair t) V) T) = (length T * length V)%nat).
    { induction T as [|t T IH]; [reflexivity|]. cbn [flat_map length]. rewrite app_length, map_length, IH. reflexivity. }
    rewrite L, product_length. unfold V. rewrite product_length, volume_repeat, LS, Nat.pow_mul_r.
    rewrite Nat.mul_assoc, (Nat.mul_comm _ (volume samples)), <- Nat.mul_assoc. f_equal.
    rewrite <- Nat.pow_mul_l. f_equal. rewrite Nat.pow_add_r. apply Nat.mul_comm.
Qed.
Print Assumptions C80_winning_runs_exist.

(** A constructor that checks the provable security level accepts one query with blowup two, at every level from three bits on (C39). With
    these options half of all runs can be won whatever column is committed to, although none of them need be the Fibonacci sequence. *)
Theorem C80_checked_level_refuted :
  forall (E : env) m (a0 a1 : E) bits offset target r d w (cols : list E -> nat -> E -> E) samples, (3 <= target)%N -> (target + 40 < bits)%N ->
  exists opts, new_with_checked_provable_security m bits 2 1 offset 0 target = Ok opts /\
  let a := fibonacci_air E a0 a1 opts (2 ^ r) in let q := fri_number_of_queries opts in
  (env_ok E -> usable_options E opts r 1 -> (2 <= r)%nat -> (r + 1 <= two_adicity E)%nat -> domain_new a = Ok d -> primitive_root (r + 1) = Some w ->
   length samples = tape_length a 0 2 r -> (forall l, In l samples -> NoDup l) ->
   (forall z, In z (nth (at_point a 0 2) samples []) -> fpow z (2 ^ r) <> 1) ->
   exists s W, s_columns s = cols /\ well_formed a s /\ winning a 0 2 r (fun _ => tt) s d w 1 q samples W /\
     (2 * length W)%nat = (volume samples * (2 ^ (r + 1)) ^ q)%nat).
Proof.
  intros E m a0 a1 bits offset target r d w cols samples H3 Hbits.
  exists (mk_options 2 1 offset 0). split.
  { unfold new_with_checked_provable_security, check_field_security. rewrite N.mul_1_r, (proj2 (N.leb_gt _ _) Hbits). cbn [obind].
    change (u8_leading_zeros 2) with 6%N. replace (usize_arith m (Z.of_N 6 * Z.of_N 1)) with (Ok 6%N) by (destruct m; reflexivity). cbn [obind].
    replace (usize_arith m (Z.of_N 0 + Z.of_N (6 / 2))) with (Ok 3%N) by (destruct m; reflexivity). cbn [obind].
    rewrite (proj2 (N.ltb_ge _ _) H3). reflexivity. }
  intros a q HE Hu Hr Ht Hd Hw Hl Hnd Hz.
  assert (PL : playable a 2 r 1 0 d w).
  { apply (fibonacci_playable HE a0 a1 (mk_options 2 1 offset 0) r 1 0 d w Hu Hr Ht Hd Hw). rewrite Nat.pow_add_r. cbn. lia. }
  destruct (C80_winning_runs_exist E a 0 2 r 1 (fun _ => tt) d w 0 cols (fun _ _ => 0) (fun _ _ => 0) samples q HE PL Hl Hnd Hz) as (s & W & S1 & _ & _ & S4 & HW & L).
  { intros xs _. eexists. reflexivity. }
  exists s, W. split; [exact S1|]. split; [exact S4|]. split; [exact HW|]. exact L.
Qed.
Print Assumptions C80_checked_level_refuted.

(** ** Examples: the zero column over [F_97], four rows on eight points, with two queries: sixteen of the sixty-four pairs of positions win,
    although no column near it satisfies the constraints. *)
Lemma cheat_offdomain z : In z (nth (at_point ood_air 0 2) cheat_samples []) -> fpow z (2 ^ 2) <> 1.
Proof. intro Hz. change (In z [cheat_point]) in Hz. destruct Hz as [<-|[]]. intro H. apply (f_equal (@zval 97)) in H. vm_compute in H. discriminate H. Qed.
Lemma cheat_nodup l : In l cheat_samples -> NoDup l.
Proof. exact (fun H => proj1 (fa_size _ _ _ _ _ _ _ cheat_fair l H)). Qed.

Example C80_example :
  exists s W, s_columns s = (fun _ _ _ => (0 : toy)) /\ well_formed ood_air s /\ winning ood_air 0 2 2 (fun _ => tt) s ood_domain honest_w 1 2 cheat_samples W /\
    length W = 16%nat /\ volume cheat_samples = 1%nat /\ ~ commits_to_solution ood_air 2 (fun _ => tt) s ood_domain 1 1 honest_w [].
Proof.
  assert (PL := fibonacci_playable toy_ok (f97 1) (f97 1) toy_opts 2 1 1 ood_domain honest_w toy_usable (le_n 2) ltac:(cbn; lia) ood_domain_ok honest_root ltac:(cbn; lia)).
  destruct (C80_winning_runs_exist toy ood_air 0 2 2 1 (fun _ => tt) ood_domain honest_w 1 (fun _ _ _ => 0) (fun _ _ => 0) (fun _ _ => 0) cheat_samples 2 toy_ok PL eq_refl
    cheat_nodup cheat_offdomain) as (s & W & S1 & _ & _ & S4 & HW & L).
  { intros xs _. eexists. reflexivity. }
  exists s, W. split; [exact S1|]. split; [exact S4|]. split; [exact HW|]. split; [change (volume cheat_samples) with 1%nat in L; change (4 * length W = 64)%nat in L; lia|]. split; [reflexivity|].
  intros (polys & Hl & Hp & Hsat). cbn in Hl. destruct polys as [|f [|? ?]]; try discriminate Hl.
  refine (proj2 (proj2 (proj2 (proj2 (proj2 (proj2 (proj2 (proj2 C77_cheating_example))))))) f _ _).
  - pose proof (Hp 0%nat ltac:(cbn; lia)) as Q. rewrite S1 in Q. exact Q.
  - apply (fibonacci_characterised toy_ok (f97 1) (f97 1) toy_opts 4); [lia|reflexivity|]. exact Hsat.
Qed.

(** Options accepted as offering 128 bits of provable security, in the same field: four of the eight positions win. *)
Definition checked_opts : proof_options := mk_options 2 1 5 0.
Example C80_example_checked :
  new_with_checked_provable_security Release 252 2 1 5 0 128 = Ok checked_opts /\
  let a := fibonacci_air toy (f97 1) (f97 1) checked_opts 4 in
  exists s W, s_columns s = (fun _ _ _ => (0 : toy)) /\ well_formed a s /\ winning a 0 2 2 (fun _ => tt) s ood_domain honest_w 1 1 cheat_samples W /\ length W = 4%nat.
Proof.
  destruct (C80_checked_level_refuted toy Release (f97 1) (f97 1) 252 5 128 2 ood_domain honest_w (fun _ _ _ => 0) cheat_samples ltac:(lia) ltac:(lia)) as (opts & Ho & H).
  assert (Q : opts = checked_opts) by (apply ok_inj; rewrite <- Ho; reflexivity). subst opts. split; [reflexivity|]. intro a. cbv zeta in H.
  destruct (H toy_ok toy_usable (le_n 2) ltac:(cbn; lia) ood_domain_ok honest_root eq_refl cheat_nodup cheat_offdomain) as (s & W & S1 & S2 & HW & L).
  exists s, W. split; [exact S1|]. split; [exact S2|]. split; [exact HW|]. change (2 * length W = 8)%nat in L. lia.
Qed.
