(** C82: accepted proofs are forgeries, and the error for the two airs. *)
From Coq Require Import List Arith Lia Bool NArith ZArith.
From Verif.Base Require Import Outcome Bytes Field Poly Zp.
From Verif.Model Require Import Codec PublicInputs Trace Merkle Air Transcript Domain Options Fri Prover Verifier ExampleAirs CairoDecode CairoTrace CairoAir.
From Verif.Spec Require Import AirSpec CairoSpec CairoColumns ExampleSpec ProvingSpec Forgery VerifierSpec HashSpec LowDegree FriTree OodSpec StarkTree Proximity Rounds Game Oracle.
From Verif.Proofs Require Import OutcomeFacts FieldFacts PolyFacts FFTFacts MultisetFacts TraceFacts DomainFacts ExampleFacts PolyAir CpuFacts CairoAirFacts CairoAdmissible
  VerifierTotal OodFacts LowDegreeFacts RoundFacts RoundSoundness CountFacts TapeFacts OracleCount.
From Verif.Examples Require Import Toy Stark252 MiniRun Calm.
From Verif.Properties Require Import ExampleProperties StarkProperties OodProperties CairoMemoryProperties CairoSoundnessProperties CairoForgeryProperties LowDegreeProperties
  StarkSoundnessProperties RoundProperties GameProperties GameAirProperties OracleProperties.
Import ListNotations.
Local Open Scope felt_scope.

Definition question_dec {E : env} (HE : env_ok E) (x y : question (E := E)) : {x = y} + {x <> y}.
Proof.
  pose (dec := feq_dec (fft_field_ok E (e_fft_ok E HE))). decide equality; [apply (list_eq_dec dec)|]. apply list_eq_dec. intros m m'. decide equality.
  - apply (list_eq_dec Byte.byte_eq_dec).
  - apply (list_eq_dec (list_eq_dec dec)).
  - apply N.eq_dec.
Defined.

Lemma layer_roots_length {E : env} : forall (ws : list (E -> E)) m (h w : E), length (layer_roots m h w ws) = length ws.
Proof. induction ws as [|f ws IH]; intros; cbn [layer_roots length]; [reflexivity|]. now rewrite IH. Qed.
Lemma messages_length {E : env} rows (p : stark_proof E) : length (messages rows p) = (5 + length (fri_layers_merkle_roots p))%nat.
Proof. unfold messages. rewrite !app_length, map_length. cbn [length]. lia. Qed.
Lemma messages_layer {E : env} rows (p : stark_proof E) l : root_at (4 + l) (messages rows p) = nth l (fri_layers_merkle_roots p) [].
Proof.
  unfold root_at, messages. cbn [Nat.add app nth_error]. generalize (fri_layers_merkle_roots p). intro rs. revert l. induction rs as [|c rs IH]; intros [|l]; cbn; try reflexivity; [now destruct l|apply IH].
Qed.
Lemma messages_last {E : env} r rows (p : stark_proof E) : length (fri_layers_merkle_roots p) = r -> last_at r (messages rows p) = fri_last_value p.
Proof.
  intros <-. unfold last_at, messages. cbn [Nat.add app nth_error]. rewrite nth_error_app2 by (rewrite map_length; lia). now rewrite map_length, Nat.sub_diag.
Qed.

(** A proof that the verifier accepts is a forgery, if the challenges that the verifier derives are what the oracle replied and the main
    columns are lost. *)
Theorem C82_accepted_proofs_forge :
  forall (E : env) fuel (mk : nat -> air E) opts (p : stark_proof E) kr nb r b pick d w e wo rows xs c t' eqd adv (lost : commitment -> Prop) cs, env_ok E ->
  let a := mk (trace_length p) in let ms := messages rows p in let t := tape_of a xs c in
  playable a nb r b e d w -> verify E fuel mk opts p = Ok true -> step_1 E fuel a p d tr_new = Ok (c, t') -> length xs = kr -> c_rap E a c = pick xs ->
  trace_ood_frame_evaluations p = mk_frame (concat rows) (trace_columns (a_context a)) ->
  length rows = length (transition_offsets (a_context a)) -> Forall (fun row => length row = trace_columns (a_context a)) rows ->
  let layers := map (fun l => w_layer wo l (nth l (fri_layers_merkle_roots p) [])) (seq 0 r) in
  fri_layers_merkle_roots p = layer_roots (r + b) (d_coset_offset d) w layers ->
  truthful p c (r + b) (d_coset_offset d) w (w_columns wo (nth 0 (lde_trace_merkle_roots p) []) (nth 1 (lde_trace_merkle_roots p) []))
    (w_even wo (composition_poly_root p)) (w_odd wo (composition_poly_root p)) layers ->
  lost (nth 0 (lde_trace_merkle_roots p) []) ->
  let tbl := table a kr nb r eqd adv cs in
  claim adv tbl = (ms, t, c_iotas E a c) ->
  (forall j, (j < 4 + r)%nat -> lookup eqd (firstn (S j) ms, firstn (start a kr nb j) t) tbl = Some (segment a kr nb j t, [])) ->
  lookup eqd (ms, t) tbl = Some ([], c_iotas E a c) ->
  forges a kr nb r pick eqd adv wo d w lost cs.
Proof.
  intros E fuel mk opts p kr nb r b pick d w e wo rows xs c t' eqd adv lost cs HE a ms t PL Hv Hc Hx Hrap Hfr Hrl Hrw layers Hly Htr Hlost tbl Hcl Hseg Hpos.
  assert (Lr : length (fri_layers_merkle_roots p) = r) by (rewrite Hly, layer_roots_length; unfold layers; now rewrite map_length, seq_length).
  assert (Wf : well_formed a (committed a r wo ms)) by (intro u; cbn; split; [exact Hrl|exact Hrw]).
  assert (Wd : play_words a kr nb r (committed a r wo ms) t = layers).
  { unfold play_words, layers. apply map_ext. intro l. cbn [committed s_layer]. f_equal. apply (messages_layer rows p l). }
  destruct (C77_accepted_proofs_win E fuel mk opts p kr nb r b pick d w e (committed a r wo ms) xs c t' HE PL Wf Hv Hc Hx Hrap) as (H1 & _ & _ & _ & H5).
  - split; [exact Hfr|]. split; [reflexivity|]. split; [reflexivity|]. split; [symmetry; exact (messages_last r rows p Lr)|]. exact (eq_ind_r (fun ws => fri_layers_merkle_roots p = layer_roots (r + b) (d_coset_offset d) w ws) Hly Wd).
  - exact (eq_ind_r (fun ws => truthful p c (r + b) (d_coset_offset d) w _ _ _ ws) Htr Wd).
  - unfold forges. fold tbl. cbv zeta. rewrite Hcl. split; [unfold ms; now rewrite messages_length, Lr|]. split; [exact H1|]. split; [exact Hseg|]. split; [exact Hpos|].
    split; [exact Wf|]. split; [exact Hlost|exact H5].
Qed.
Print Assumptions C82_accepted_proofs_forge.

(** ** The Fibonacci air: a root is lost if no column that can be decoded from it is the Fibonacci sequence. *)
Definition no_fibonacci {E : env} (a0 a1 : E) (r b e : nat) (d : domain E) (w : E) (wo : words (E := E)) (c0 : commitment) : Prop :=
  forall c1 (f : poly E), near_poly (points (d_coset_offset d) w (2 ^ (r + b))) e (2 ^ r + 1) (w_columns wo c0 c1 0%nat) f ->
    map (fun i => peval f (fpow (trace_primitive_root d) i)) (seq 0 (2 ^ r)) <> fibs a0 a1 (2 ^ r).
Theorem C82_fibonacci_forgeries :
  forall (E : env) (a0 a1 : E) opts r b e d w wo samples size q eqd adv Q m M W, let a := fibonacci_air E a0 a1 opts (2 ^ r) in
  env_ok E -> usable_options E opts r b -> (2 <= r)%nat -> (r + b <= two_adicity E)%nat -> domain_new a = Ok d -> primitive_root (r + b) = Some w ->
  (3 * e + 2 ^ r <= 2 ^ (r + b))%nat -> fair a 0 2 r d size samples ->
  (Nat.max (3 * 2 ^ r + 3) (5 * (e + 1)) * M <= m * size)%nat -> ((2 ^ (r + b) - e - 1) ^ q * M <= m * (2 ^ (r + b)) ^ q)%nat ->
  NoDup W -> (forall cs, In cs W -> length cs = Q /\ Forall (fresh r b q samples) cs /\
    forges a 0 2 r (fun _ => tt) eqd adv wo d w (no_fibonacci a0 a1 r b e d w wo) cs) ->
  (M * length W <= Q * m * (volume samples * (2 ^ (r + b)) ^ q) ^ Q)%nat.
Proof.
  intros E a0 a1 opts r b e d w wo samples size q eqd adv Q m M W a HE Hu Hr Ht Hd Hw He Hfa Hm1 Hm2 HN HW.
  assert (PL : playable a 2 r b e d w) by now apply fibonacci_playable.
  apply (C82_forgeries_are_few E a 0 2 r b (fun _ => tt) d w e wo (no_fibonacci a0 a1 r b e d w wo) samples size 0 q eqd adv); try assumption.
  - intros c0 X Hlost _ HX. destruct X as [|xs X]; [cbn; lia|]. exfalso. destruct (HX xs (or_introl eq_refl)) as (_ & c1 & polys & Hl & Hp & Hsat).
    cbn in Hl. destruct polys as [|f [|? ?]]; try discriminate Hl. apply (Hlost c1 f); [exact (Hp 0%nat ltac:(cbn; lia))|].
    assert (H4 : (4 <= 2 ^ r)%nat) by (change 4%nat with (2 ^ 2)%nat; apply Nat.pow_le_mono_r; lia).
    apply (fibonacci_characterised HE a0 a1 opts (2 ^ r)); [lia|now rewrite map_length, seq_length|]. exact Hsat.
  - etransitivity; [|exact Hm1]. apply Nat.mul_le_mono_r. unfold worst, stark_bound, ood_bound.
    change (num_transition_constraints (a_context a)) with 1%nat. change (trace_columns (a_context a) * length (transition_offsets (a_context a)))%nat with 3%nat.
    change (a_degree_bound a) with (2 ^ r)%nat. lia.
Qed.
Print Assumptions C82_fibonacci_forgeries.

(** ** The Cairo air: a root is lost if the columns behind it stand for a trace that does not describe a run of the program, and stand for it
    whatever is committed to later; as in C77 only completions that keep the equation of the first row are considered. *)
Definition no_run {C : cairo_env} (pi : public_inputs C) (opts : proof_options) (r b e : nat) (d : domain C) (w : C) (samples : list (list C)) (wo : words (E := C)) (c0 : commitment) : Prop :=
  let a := cairo_air pi opts (2 ^ r) in
  let pts := points (d_coset_offset d) w (2 ^ (r + b)) in
  let limit := (PERMUTATION_ARGUMENT_COL_0 - builtin_offset pi)%nat in
  exists base : list (list C), length base = trace_columns (a_context a) /\
  (forall i, (i + 1 < num_steps pi)%nat -> cell base i FRAME_SELECTOR = 1) /\
  (forall c1 j f, (j < limit)%nat -> near_poly pts e (2 ^ r + 1) (w_columns wo c0 c1 j) f ->
     nth j base [] = map (fun i => peval f (fpow (trace_primitive_root d) i)) (seq 0 (2 ^ r))) /\
  (forall c1 c1' j x, (j < limit)%nat -> In x pts -> w_columns wo c0 c1 j x = w_columns wo c0 c1' j x) /\
  (forall c1 xs polys, In xs (product (firstn 3 samples)) -> length polys = trace_columns (a_context a) -> near_polys pts e (2 ^ r + 1) (w_columns wo c0 c1) polys ->
     first_row_equation pi (CairoAir.mk_challenges (nth 0 xs fzero) (nth 1 xs fzero) (nth 2 xs fzero)) (domain_columns polys (trace_primitive_root d) (2 ^ r))) /\
  ~ describes_run pi base (2 ^ r).
Theorem C82_cairo_forgeries :
  forall (C : cairo_env) p, cairo_ok C p -> sampling_ok C ->
  forall (pi : public_inputs C) opts r b e d w lo hi wo samples size q eqd adv Q m M W,
  let a := cairo_air pi opts (2 ^ r) in
  usable_options C opts r b -> (r + b <= two_adicity C)%nat -> domain_new a = Ok d -> primitive_root (r + b) = Some w ->
  (3 * e + 2 ^ r <= 2 ^ (r + b))%nat -> (N.of_nat (4 * 2 ^ r) < 2 ^ 64)%N ->
  range_check_min pi = Some lo -> range_check_max pi = Some hi -> (lo < 2 ^ 16)%N -> (hi < 2 ^ 16)%N -> (1 <= num_steps pi <= 2 ^ r)%nat ->
  fair a 3 8 r d size samples ->
  let n := (4 * 2 ^ r + length (public_memory pi))%nat in
  (worst a 8 r (2 * n * (2 * n) + 2 * n + 3 * 2 ^ r) e * M <= m * size)%nat -> ((2 ^ (r + b) - e - 1) ^ q * M <= m * (2 ^ (r + b)) ^ q)%nat ->
  NoDup W -> (forall cs, In cs W -> length cs = Q /\ Forall (fresh r b q samples) cs /\
    forges a 3 8 r (fun xs => CairoAir.mk_challenges (nth 0 xs fzero) (nth 1 xs fzero) (nth 2 xs fzero)) eqd adv wo d w (no_run pi opts r b e d w samples wo) cs) ->
  (M * length W <= Q * m * (volume samples * (2 ^ (r + b)) ^ q) ^ Q)%nat.
Proof.
  intros C p HC HS pi opts r b e d w lo hi wo samples size q eqd adv Q m M W a Hu Ht Hd Hw He Hn64 Hlo Hhi Hlo16 Hhi16 Hst Hfa n Hm1 Hm2 HN HW.
  pose proof (co_env _ _ HC) as HE.
  apply (C82_forgeries_are_few C a 3 8 r b (fun xs => CairoAir.mk_challenges (nth 0 xs fzero) (nth 1 xs fzero) (nth 2 xs fzero) : a_rap a) d w e wo (no_run pi opts r b e d w samples wo) samples size (2 * n * (2 * n) + 2 * n + 3 * 2 ^ r) q eqd adv Q m M W HE); try assumption.
  - now apply cairo_playable.
  - intros c0 X (base & Hbw & Hsel & Hbase & Hfix & Hfirst & Hno) HX HXs.
    apply (cairo_rap_few C p HC pi opts r b e d w lo hi (w_columns wo c0 []) base samples size X); try assumption.
    + intros j f Hj. now apply Hbase.
    + intros xs Hi. destruct (HXs xs Hi) as (Hp & c1 & polys & Hl & Hn & Hsat). split; [exact Hp|]. exists (w_columns wo c0 c1), polys.
      split; [intros j x Hj Hx; now apply Hfix|]. split; [exact Hl|]. split; [exact Hn|]. split; [exact Hsat|]. exact (Hfirst c1 xs polys Hp Hl Hn).
Qed.
Print Assumptions C82_cairo_forgeries.

(** ** A prover with a fixed script: it asks once after every message, and succeeds if the oracle's reply to each question is the one it hopes for. *)
Section Script.
Context {E : env} (a : air E) (kr nb r : nat) (pick : list E -> a_rap a) (ms : list (message E)) (c : coin (E := E)).
Definition told (e : question (E := E) * reply (E := E)) : list E := fst (snd e).
Definition heard (tbl : list (question (E := E) * reply (E := E))) : list E := concat (map told (rev tbl)).
Definition scripted : adversary (E := E) := mk_adversary
  (fun tbl => (firstn (S (length tbl)) ms, heard tbl))
  (fun tbl => (ms, heard tbl, match tbl with (_, (_, v)) :: _ => v | [] => [] end)).
Definition entry (j : nat) : question (E := E) * reply (E := E) :=
  let q := (firstn (S j) ms, firstn (start a kr nb j) (fst c)) in (q, reply_to a kr nb r q c).
Definition entries (n : nat) : list (question (E := E) * reply (E := E)) := rev (map entry (seq 0 n)).
Lemma entries_S n : entries (S n) = entry n :: entries n.
Proof using Type. unfold entries. rewrite seq_S, map_app, rev_app_distr. reflexivity. Qed.
Context (Hm : length ms = (5 + r)%nat).
Lemma entry_reply j : (j < 4 + r)%nat -> snd (entry j) = (segment a kr nb j (fst c), []).
Proof using Hm.
  intro H. unfold entry, reply_to. cbn [snd fst]. rewrite firstn_length, Hm. replace (pred (Nat.min (S j) (5 + r))) with j by lia. now rewrite (proj2 (Nat.ltb_lt _ _) H).
Qed.
Lemma entry_last : snd (entry (4 + r)) = ([], snd c).
Proof using Hm.
  unfold entry, reply_to. cbn [snd fst]. rewrite firstn_length, Hm. replace (pred (Nat.min (S (4 + r)) (5 + r))) with (4 + r)%nat by lia. now rewrite (proj2 (Nat.ltb_ge (4 + r) (4 + r))) by lia.
Qed.
Lemma entry_lookup eqd j n : (j < 5 + r)%nat -> (n <= 5 + r)%nat -> lookup eqd (fst (entry j)) (entries n) = if (j <? n)%nat then Some (snd (entry j)) else None.
Proof using Hm.
  intros Hj. induction n as [|n IH]; intro Hn; [reflexivity|]. rewrite entries_S. unfold lookup. cbn [find]. destruct (eqd (fst (entry n)) (fst (entry j))) as [Q|Q].
  - apply (f_equal (fun q => length (fst q))) in Q. cbn [entry fst] in Q. rewrite !firstn_length, Hm in Q.
    assert (n = j) by lia. subst n. now rewrite (proj2 (Nat.ltb_lt j (S j))) by lia.
  - unfold lookup in IH. rewrite IH by lia. assert (Nq : n <> j) by (intros ->; now apply Q).
    destruct (j <? n)%nat eqn:C1; [apply Nat.ltb_lt in C1; now rewrite (proj2 (Nat.ltb_lt j (S n))) by lia|apply Nat.ltb_ge in C1; now rewrite (proj2 (Nat.ltb_ge j (S n))) by lia].
Qed.
Lemma heard_entries n : (n <= 4 + r)%nat -> heard (entries n) = firstn (start a kr nb n) (fst c).
Proof using Hm.
  unfold heard, entries. rewrite rev_involutive. induction n as [|n IH]; intro Hn; [reflexivity|]. rewrite seq_S, !map_app, concat_app, IH by lia. cbn [map concat Nat.add]. unfold told at 1. rewrite app_nil_r, entry_reply by lia.
  cbn [fst]. unfold segment, part. pose proof (start_le a kr nb n) as Sl. rewrite firstn_skipn_comm. replace (start a kr nb n + (start a kr nb (S n) - start a kr nb n))%nat with (start a kr nb (S n)) by lia.
  rewrite <- (firstn_skipn (start a kr nb n) (firstn (start a kr nb (S n)) (fst c))) at 2. f_equal. now rewrite firstn_firstn, Nat.min_l by lia.
Qed.
Lemma start_end : start a kr nb (4 + r) = tape_length a kr nb r.
Proof using Type. reflexivity. Qed.
Lemma scripted_asks n : (n <= 4 + r)%nat -> ask scripted (entries n) = fst (entry n).
Proof using Hm.
  intro Hn. cbn [scripted ask entry fst]. rewrite heard_entries by exact Hn. unfold entries. now rewrite rev_length, map_length, seq_length.
Qed.
Lemma scripted_table eqd n : (n <= 5 + r)%nat -> table a kr nb r eqd scripted (repeat c n) = entries n.
Proof using Hm.
  induction n as [|n IH]; intro Hn; [reflexivity|]. replace (S n) with (n + 1)%nat at 1 by lia. rewrite repeat_app. cbn [repeat]. rewrite table_snoc, IH by lia.
  rewrite entries_S. unfold turn. rewrite scripted_asks by lia. rewrite entry_lookup by lia. now rewrite (proj2 (Nat.ltb_ge n n)) by lia.
Qed.
Lemma scripted_claim : length (fst c) = tape_length a kr nb r -> claim scripted (entries (5 + r)) = (ms, fst c, snd c).
Proof using Hm.
  intro Ht. change (5 + r)%nat with (S (4 + r)). cbn [scripted claim]. f_equal.
  - f_equal. rewrite entries_S. unfold heard. cbn [rev]. rewrite map_app, concat_app. fold (heard (entries (4 + r))). rewrite heard_entries, start_end by lia. cbn [map concat]. unfold told.
    rewrite entry_last. cbn [fst]. rewrite !app_nil_r. rewrite <- Ht. apply firstn_all.
  - rewrite entries_S. pose proof entry_last as Q. destruct (entry (4 + r)) as [q [x v]]. cbn [snd] in Q. now injection Q.
Qed.
End Script.

Theorem C82_scripted_prover :
  forall (E : env) (a : air E) kr nb r pick ms (c : coin (E := E)) wo d w (lost : commitment -> Prop) eqd, length ms = (5 + r)%nat -> length (fst c) = tape_length a kr nb r ->
  well_formed a (committed a r wo ms) -> lost (root_at 0 ms) -> wins a kr nb r pick (committed a r wo ms) d w (fst c) (snd c) ->
  forges a kr nb r pick eqd (scripted ms) wo d w lost (repeat c (5 + r)).
Proof.
  intros E a kr nb r pick ms c wo d w lost eqd Hm Ht Hwf Hl Hwin. unfold forges. cbv zeta.
  rewrite (scripted_table a kr nb r ms c Hm eqd (5 + r) (le_n _)), (scripted_claim a kr nb r ms c Hm Ht).
  split; [exact Hm|]. split; [exact Ht|]. split; [|split; [|split; [exact Hwf|split; [exact Hl|exact Hwin]]]].
  - intros j Hj. etransitivity; [exact (entry_lookup a kr nb r ms c Hm eqd j (5 + r) ltac:(lia) (le_n _))|]. rewrite (proj2 (Nat.ltb_lt j (5 + r))) by lia. now rewrite entry_reply.
  - pose proof (entry_lookup a kr nb r ms c Hm eqd (4 + r) (5 + r) ltac:(lia) (le_n _)) as L. rewrite (proj2 (Nat.ltb_lt (4 + r) (5 + r))), entry_last in L by (lia || assumption).
    cbn [entry fst snd] in L. rewrite start_end, <- Ht, firstn_all, firstn_all2 in L by lia. exact L.
Qed.
Print Assumptions C82_scripted_prover.

(** ** Examples: the cheating prover of C77, when the oracle's tapes and positions are those it wins with. *)
Definition cheat_words : words (E := toy) :=
  mk_words (fun _ _ _ _ => 0) (fun _ _ => 0) (fun _ _ => 0) (fun l _ => match l with O => cheat_layer | S _ => fun _ => cheat_last end).
Definition cheat_messages : list (message toy) := [Root []; Root []; Root []; Values cheat_value 0 [[0]; [0]; [0]]; Root []; Root []; Last cheat_last 0%N].
Definition cheat_coins : list (coin (E := toy)) := repeat (cheat_tape, [0; 4]%nat) 7.
Lemma cheat_lost : no_fibonacci (f97 1 : toy) (f97 1 : toy) 2 1 1 ood_domain honest_w cheat_words [].
Proof. intros c1. exact (proj2 (proj2 (proj2 (proj2 (proj2 (proj2 (proj2 (proj2 C77_cheating_example)))))))). Qed.
Example C82_forgery_example : forall eqd,
  playable ood_air 2 2 1 1 ood_domain honest_w /\ fair ood_air 0 2 2 ood_domain 1 cheat_samples /\ Forall (fresh 2 1 2 cheat_samples) cheat_coins /\
  forges ood_air 0 2 2 (fun _ => tt) eqd (scripted cheat_messages) cheat_words ood_domain honest_w (no_fibonacci (f97 1 : toy) (f97 1 : toy) 2 1 1 ood_domain honest_w cheat_words) cheat_coins.
Proof.
  intro eqd. split; [apply (fibonacci_playable toy_ok (f97 1) (f97 1) toy_opts 2 1 1 ood_domain honest_w toy_usable (le_n 2) ltac:(cbn; lia) ood_domain_ok honest_root ltac:(cbn; lia))|].
  split; [exact cheat_fair|]. split.
  - apply Forall_forall. intros c Hc. apply repeat_spec in Hc. subst c. split; [apply in_product; unfold cheat_samples, cheat_tape; repeat constructor|].
    split; [reflexivity|]. intros i [<-|[<-|[]]]; cbn; lia.
  - apply (C82_scripted_prover toy ood_air 0 2 2 (fun _ => tt) cheat_messages (cheat_tape, [0; 4]%nat) cheat_words ood_domain honest_w _ eqd eq_refl eq_refl).
    + intro u. split; [reflexivity|repeat constructor].
    + exact cheat_lost.
    + exact cheat_wins.
Qed.

(** The honest proof of C77, claimed by a scripted prover. *)
Definition honest_words : words (E := toy) :=
  mk_words (fun _ _ j => peval (nth j ood_polys [])) (fun _ => peval (fst honest_halves)) (fun _ => peval (snd honest_halves)) (fun l _ => nth l query_words (fun x => x)).
Example C82_accepted_example : forall eqd,
  let p := honest_proof in let ms := messages honest_rows p in let t := tape_of ood_air [] honest_challenges in let v := c_iotas toy ood_air honest_challenges in
  let adv := scripted ms in let cs := repeat (t, v) 7 in let tbl := table ood_air 0 2 2 eqd adv cs in
  trace_ood_frame_evaluations p = mk_frame (concat honest_rows) 1 /\
  fri_layers_merkle_roots p = layer_roots 3 (d_coset_offset ood_domain) honest_w (map (fun l => w_layer honest_words l (nth l (fri_layers_merkle_roots p) [])) (seq 0 2)) /\
  truthful p honest_challenges 3 (d_coset_offset ood_domain) honest_w (w_columns honest_words (nth 0 (lde_trace_merkle_roots p) []) (nth 1 (lde_trace_merkle_roots p) []))
    (w_even honest_words (composition_poly_root p)) (w_odd honest_words (composition_poly_root p)) (map (fun l => w_layer honest_words l (nth l (fri_layers_merkle_roots p) [])) (seq 0 2)) /\
  claim adv tbl = (ms, t, v) /\
  (forall j, (j < 6)%nat -> lookup eqd (firstn (S j) ms, firstn (start ood_air 0 2 j) t) tbl = Some (segment ood_air 0 2 j t, [])) /\
  lookup eqd (ms, t) tbl = Some ([], v).
Proof.
  intros eqd p ms t v adv cs tbl. destruct C77_accepted_example as (PL & Wf & Hv & Hc & (P1 & P2 & P3 & P4 & P5) & Htr).
  assert (Lm : length ms = 7%nat) by (unfold ms; rewrite messages_length; unfold p; rewrite P5, layer_roots_length; reflexivity).
  destruct (C77_accepted_proofs_win toy 20 query_air toy_opts honest_proof 0 2 2 1 (fun _ => tt) ood_domain honest_w 1 honest [] honest_challenges (snd honest_step) toy_ok PL Wf Hv Hc eq_refl ltac:(now destruct (c_rap toy ood_air honest_challenges))
    (conj P1 (conj P2 (conj P3 (conj P4 P5)))) Htr) as (Lt & _).
  split; [exact P1|]. split; [exact P5|]. split; [exact Htr|].
  assert (Tb : tbl = entries ood_air 0 2 2 ms (t, v) 7) by exact (scripted_table ood_air 0 2 2 ms (t, v) Lm eqd 7 (le_n _)). rewrite Tb.
  split; [exact (scripted_claim ood_air 0 2 2 ms (t, v) Lm Lt)|]. split.
  - intros j Hj. etransitivity; [exact (entry_lookup ood_air 0 2 2 ms (t, v) Lm eqd j 7 ltac:(lia) (le_n _))|]. rewrite (proj2 (Nat.ltb_lt j 7)) by lia. now rewrite (entry_reply ood_air 0 2 2 ms (t, v) Lm j Hj).
  - pose proof (entry_lookup ood_air 0 2 2 ms (t, v) Lm eqd (4 + 2) 7 ltac:(lia) (le_n _)) as L. change (4 + 2 <? 7)%nat with true in L. cbv iota in L. rewrite (entry_last ood_air 0 2 2 ms (t, v) Lm) in L.
    cbn [snd] in L. etransitivity; [|exact L]. apply (f_equal (fun q => lookup eqd q (entries ood_air 0 2 2 ms (t, v) 7))). unfold entry. cbn [fst].
    rewrite (firstn_all2 ms) by (rewrite Lm; lia). now rewrite (firstn_all2 t) by exact (Nat.eq_le_incl _ _ Lt).
Qed.
