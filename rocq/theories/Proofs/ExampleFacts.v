(** The example AIRs: trace builders, meaning of the constraints, admissibility. *)
From Coq Require Import List Arith Lia Bool.
From Verif.Base Require Import Outcome Field Poly.
From Verif.Model Require Import Codec Trace Air Transcript ExampleAirs Prover Verifier.
From Verif.Spec Require Import AirSpec ExampleSpec.
From Verif.Proofs Require Import OutcomeFacts FieldFacts PolyFacts FFTFacts TraceFacts PolyAir Completeness.
Import ListNotations.
Local Open Scope felt_scope.

(** A loop that pushes the next element of a sequence. *)
Lemma push_loop {A} (f : list A -> nat -> outcome (list A)) (F : nat -> A) s m :
  (forall i, (s <= i)%nat -> f (map F (seq 0 i)) i = Ok (map F (seq 0 (i + 1)))) ->
  ofold f (seq s m) (map F (seq 0 s)) = Ok (map F (seq 0 (s + m))).
Proof.
  revert s. induction m as [|m IH]; intros s H; cbn [seq ofold].
  - now rewrite Nat.add_0_r.
  - rewrite H by lia. cbn [obind]. rewrite Nat.add_1_r. rewrite IH by (intros; apply H; lia).
    do 3 f_equal. lia.
Qed.

Lemma map_seq_snoc {A} (F : nat -> A) i : map F (seq 0 (i + 1)) = map F (seq 0 i) ++ [F i].
Proof. rewrite seq_app, map_app. reflexivity. Qed.

Lemma idx_map_seq {A} (F : nat -> A) n i : (i < n)%nat -> idx (map F (seq 0 n)) i = Ok (F i).
Proof. intro H. rewrite (idx_nth _ i (F 0%nat)) by (now rewrite map_length, seq_length). now rewrite nth_map_seq. Qed.

Lemma new_from_cols_has {E : env} (cols : list (list E)) n t :
  cols <> [] -> (forall c, In c cols -> length c = n) -> tt_new_from_cols cols = Ok t -> has_columns t n cols /\ (tt_n_rows t = n).
Proof.
  intros Hne Hl H. destruct cols as [|c0 cols]; [easy|].
  assert (L0 : length c0 = n) by (apply Hl; now left).
  rewrite (new_from_cols_ok c0 cols 0) in H.
  2:{ intros c Hc. rewrite L0, (Hl c); [lia|now right]. }
  apply ok_inj in H. subst t. rewrite L0. split.
  - split; [reflexivity|]. split; [exact Hl|]. reflexivity.
  - pose proof (transpose_table (c0 :: cols) n 0 Hne) as T. rewrite (table_n_rows _ _ T). unfold transpose. now rewrite map_length, seq_length.
Qed.

Lemma new_from_cols_total {A} (d : A) (cols : list (list A)) n : cols <> [] -> (forall c, In c cols -> length c = n) ->
  exists t, tt_new_from_cols cols = Ok t.
Proof.
  intros Hne Hl. destruct cols as [|c0 cols]; [easy|]. eexists. apply (new_from_cols_ok c0 cols d).
  intros c Hc. rewrite (Hl c0), (Hl c); [lia|now right|now left].
Qed.

Section Fib.
Context {E : env} (HK : field_ok E).
Add Field Kfield14 : (fld_th E HK).

Lemma fib_step (a0 a1 : E) i : fib a0 a1 (S (S i)) = fib a0 a1 (S i) + fib a0 a1 i.
Proof using HK. unfold fib. cbn. destruct (fib_pair a0 a1 i). cbn. ring. Qed.

Lemma push_fib_ok (a0 a1 : E) n : (2 <= n)%nat ->
  ofold (push_fib E) (seq 2 (n - 2)) [a0; a1] = Ok (fibs a0 a1 n).
Proof using HK.
  intros Hn. pose proof (push_loop (push_fib E) (fib a0 a1) 2 (n - 2)) as P.
  replace (2 + (n - 2))%nat with n in P by lia. apply P. intros i Hi.
  unfold push_fib. rewrite !idx_map_seq by lia. cbn [obind]. rewrite map_seq_snoc. do 3 f_equal.
  destruct i as [|[|i]]; [lia|lia|]. replace (S (S i) - 1)%nat with (S i) by lia. replace (S (S i) - 2)%nat with i by lia.
  symmetry. apply fib_step.
Qed.

Lemma fibs_length (a0 a1 : E) n : length (fibs a0 a1 n) = n.
Proof using. unfold fibs. now rewrite map_length, seq_length. Qed.
Lemma fibs_nth (a0 a1 : E) n i : (i < n)%nat -> nth i (fibs a0 a1 n) 0 = fib a0 a1 i.
Proof using. intros H. unfold fibs. now rewrite nth_map_seq. Qed.

(** A list is the Fibonacci sequence as soon as it starts right and satisfies the recurrence. *)
Lemma fib_characterised (a0 a1 : E) c n m : length c = n -> (2 <= m <= n)%nat ->
  nth 0 c 0 = a0 -> nth 1 c 0 = a1 ->
  (forall i, (i + 2 < m)%nat -> nth (i + 2) c 0 = nth (i + 1) c 0 + nth i c 0) ->
  forall i, (i < m)%nat -> nth i c 0 = fib a0 a1 i.
Proof using HK.
  intros Hl Hm H0 H1 Hs. induction i as [i IH] using lt_wf_ind. intros Hi.
  destruct i as [|[|i]]; [exact H0|exact H1|].
  specialize (Hs i ltac:(lia)). replace (i + 2)%nat with (S (S i)) in Hs by lia. replace (i + 1)%nat with (S i) in Hs by lia.
  rewrite Hs, fib_step, !IH by lia. reflexivity.
Qed.

Lemma list_eq_fibs (a0 a1 : E) c n : length c = n -> (forall i, (i < n)%nat -> nth i c 0 = fib a0 a1 i) -> c = fibs a0 a1 n.
Proof using.
  intros Hl H. apply (nth_ext _ _ 0 0); [now rewrite fibs_length|]. intros i Hi. rewrite fibs_nth by lia. apply H. lia.
Qed.

Lemma sub_sub_zero (x y z : E) : x - y - z = 0 <-> x = y + z.
Proof using HK.
  split; intro H.
  - apply (proj1 (sub_zero HK _ _)) in H. rewrite <- H. ring.
  - rewrite H. ring.
Qed.
End Fib.

Lemma pow2_ge2 r : (1 <= r)%nat -> (2 <= 2 ^ r)%nat.
Proof. intros H. destruct r; [lia|]. cbn. pose proof (pow2_pos r). lia. Qed.

(** A valid main trace without auxiliary columns. *)
Lemma valid_no_aux {E : env} (a : air E) r mt mcols :
  mcols <> [] -> has_columns mt (2 ^ r) mcols -> length mcols = trace_columns (a_context a) ->
  (forall mt rap, a_build_aux a mt rap = Ok (tt_empty E)) ->
  (forall rap, trace_satisfies a rap mcols (2 ^ r)) -> valid_trace a r mt.
Proof.
  intros Hne Hc Hl Ha Hs. exists mcols. split; [exact Hne|]. split; [exact Hc|].
  intros t rap t' aux _ Haux. rewrite Ha in Haux. apply ok_inj in Haux. subst aux.
  exists []. rewrite app_nil_r. split; [|split; [exact Hl|apply Hs]].
  split; [reflexivity|]. split; [intros c []|]. cbn. symmetry. induction (seq 0 (2 ^ r)); [reflexivity|exact IHl].
Qed.

Ltac frames := cbn [a_transition fibonacci_air fibonacci_2_cols_air quadratic_air dummy_air fibonacci_rap_air
  a_context transition_offsets transition_exemptions map concat app length fr_get_row fr_data fr_row_width Nat.mul Nat.add
  slice Nat.ltb Nat.leb Nat.sub firstn skipn obind idx nth_error unwrap].

Section FibonacciAir.
Context {E : env} (HE : env_ok E) (a0 a1 : E) (opts : proof_options).
Let HK := fft_field_ok _ (e_fft_ok E HE).
Add Field Kfield15 : (fld_th E (fft_field_ok _ (e_fft_ok E HE))).
Notation air_ := (fibonacci_air E a0 a1 opts).

Lemma fibonacci_satisfies n : (2 <= n)%nat -> trace_satisfies (air_ n) tt [fibs a0 a1 n] n.
Proof using HE.
  intros Hn. constructor.
  - intros bcs bc Hb Hin. cbn in Hb. apply ok_inj in Hb. subst bcs.
    destruct Hin as [<-|[<-|[]]]; cbn [bc_step bc_col bc_value length nth]; (split; [lia|]; split; [lia|]); rewrite fibs_nth by lia; reflexivity.
  - intros i Hi. eexists. split; [frames; reflexivity|].
    intros [|[|j]] e He Hie; cbn in He; [|discriminate|discriminate]. injection He as <-.
    cbn [nth]. rewrite !Nat.mod_small by lia. rewrite !fibs_nth by lia. apply (sub_sub_zero HK).
    rewrite Nat.add_0_r. replace (i + 2)%nat with (S (S i)) by lia. replace (i + 1)%nat with (S i) by lia. apply (fib_step HK).
Qed.

Lemma fibonacci_characterised n c : (2 <= n)%nat -> length c = n -> trace_satisfies (air_ n) tt [c] n -> c = fibs a0 a1 n.
Proof using HE.
  intros Hn Hl [Hb Ht]. apply list_eq_fibs; [exact Hl|].
  apply (fib_characterised HK a0 a1 c n n Hl ltac:(lia)).
  - now destruct (Hb _ (mk_bc 0%nat 0%nat a0) eq_refl (or_introl eq_refl)) as [_ [_ H]].
  - now destruct (Hb _ (mk_bc 0%nat 1%nat a1) eq_refl (or_intror (or_introl eq_refl))) as [_ [_ H]].
  - intros i Hi. destruct (Ht i ltac:(lia)) as [evals [He Hz]]. revert He; frames; intro He. apply ok_inj in He. subst evals.
    specialize (Hz 0%nat 2%nat eq_refl ltac:(lia)). cbn [nth] in Hz. rewrite !Nat.mod_small in Hz by lia.
    rewrite Nat.add_0_r in Hz. now apply (sub_sub_zero HK) in Hz.
Qed.

Lemma fibonacci_admissible r b : usable_options E opts r b -> admissible (air_ (2 ^ r)) r b 3.
Proof using HE.
  intros [Hr [Hb [Hbl Hco]]]. pose proof (pow2_ge2 r Hr).
  constructor; try assumption; try reflexivity; cbn; try lia; try easy.
  - intros [|[|j]] e deg He Hd; cbn in *; try discriminate. injection He as <-. injection Hd as <-. lia.
  - intros g Hg. apply (transition_polynomial_exprs HK _ _ _ (fun _ => [Sub (Sub (Cell 2 0) (Cell 1 0)) (Cell 0 0)])); [lia| |].
    + intros rap polys x Hp. cbn [a_transition fibonacci_air a_context transition_offsets].
      rewrite !shifted_frame_row by (cbn; lia). cbn [obind]. cbn in Hp. rewrite !shifted_row_cell by lia. reflexivity.
    + intros rap [|j] H1 H2; cbn in *; lia.
Qed.

Lemma fibonacci_trace_ok n : (2 <= n)%nat ->
  exists mt, fibonacci_trace E a0 a1 n = Ok mt /\ has_columns mt n [fibs a0 a1 n] /\ tt_n_rows mt = n.
Proof using HE.
  intros Hn. unfold fibonacci_trace. rewrite (push_fib_ok HK) by exact Hn. cbn [obind].
  assert (Hc : forall c, In c [fibs a0 a1 n] -> length c = n) by (intros c [<-|[]]; apply fibs_length).
  destruct (new_from_cols_total (0 : E) [fibs a0 a1 n] n ltac:(easy) Hc) as [mt Hmt]. exists mt. split; [exact Hmt|].
  now apply new_from_cols_has.
Qed.

Lemma fibonacci_valid r mt : (1 <= r)%nat -> fibonacci_trace E a0 a1 (2 ^ r) = Ok mt ->
  tt_n_rows mt = (2 ^ r)%nat /\ valid_trace (air_ (2 ^ r)) r mt.
Proof using HE.
  intros Hr H. pose proof (pow2_ge2 r Hr) as H2. destruct (fibonacci_trace_ok (2 ^ r) H2) as [mt' [H' [Hc Hn]]].
  rewrite H in H'. apply ok_inj in H'. subst mt'. split; [exact Hn|].
  apply (valid_no_aux _ r mt [fibs a0 a1 (2 ^ r)]); try easy.
  intros []. apply fibonacci_satisfies. exact H2.
Qed.
End FibonacciAir.

Section Fibonacci2Air.
Context {E : env} (HE : env_ok E) (a0 a1 : E) (opts : proof_options).
Let HK := fft_field_ok _ (e_fft_ok E HE).
Add Field Kfield16 : (fld_th E (fft_field_ok _ (e_fft_ok E HE))).
Notation air_ := (fibonacci_2_cols_air E a0 a1 opts).

Definition fib_even (n : nat) : list E := map (fun i => fib a0 a1 (2 * i)) (seq 0 n).
Definition fib_odd (n : nat) : list E := map (fun i => fib a0 a1 (2 * i + 1)) (seq 0 n).

Lemma fib2_step0 i : fib a0 a1 (2 * (i + 1)) = fib a0 a1 (2 * i) + fib a0 a1 (2 * i + 1).
Proof using HE. replace (2 * (i + 1))%nat with (S (S (2 * i))) by lia. rewrite (fib_step HK). replace (2*i+1)%nat with (S (2 * i)) by lia. ring. Qed.
Lemma fib2_step1 i : fib a0 a1 (2 * (i + 1) + 1) = fib a0 a1 (2 * (i + 1)) + fib a0 a1 (2 * i + 1).
Proof using HE. replace (2 * (i + 1) + 1)%nat with (S (S (2 * i + 1))) by lia. rewrite (fib_step HK). replace (2*(i+1))%nat with (S (2 * i + 1)) by lia. reflexivity. Qed.

Lemma fibonacci2_satisfies n : (1 <= n)%nat -> trace_satisfies (air_ n) tt [fib_even n; fib_odd n] n.
Proof using HE.
  intros Hn. constructor.
  - intros bcs bc Hb Hin. cbn in Hb. apply ok_inj in Hb. subst bcs.
    destruct Hin as [<-|[<-|[]]]; cbn [bc_step bc_col bc_value length nth]; (split; [lia|]; split; [lia|]);
      unfold fib_even, fib_odd; rewrite nth_map_seq by lia; reflexivity.
  - intros i Hi. eexists. split; [frames; reflexivity|].
    intros j e He Hie. destruct j as [|[|[|j]]]; cbn in He; try discriminate; injection He as <-;
    cbn [nth]; rewrite !Nat.mod_small by lia; unfold fib_even, fib_odd; rewrite !nth_map_seq by lia; apply (sub_sub_zero HK);
    rewrite Nat.add_0_r, ?fib2_step1, ?fib2_step0; ring.
Qed.

Lemma fibonacci2_characterised n c d : (1 <= n)%nat -> length c = n -> length d = n ->
  trace_satisfies (air_ n) tt [c; d] n -> c = fib_even n /\ d = fib_odd n.
Proof using HE.
  intros Hn Hc Hd [Hb Ht].
  assert (B0 : nth 0 c 0 = a0) by (now destruct (Hb _ (mk_bc 0%nat 0%nat a0) eq_refl (or_introl eq_refl)) as [_ [_ H]]).
  assert (B1 : nth 0 d 0 = a1) by (now destruct (Hb _ (mk_bc 1%nat 0%nat a1) eq_refl (or_intror (or_introl eq_refl))) as [_ [_ H]]).
  assert (S : forall i, (i + 1 < n)%nat -> nth (i + 1) c 0 = nth i c 0 + nth i d 0 /\ nth (i + 1) d 0 = nth i d 0 + nth (i + 1) c 0).
  { intros i Hi. destruct (Ht i ltac:(lia)) as [evals [He Hz]]. revert He; frames; intro He. apply ok_inj in He. subst evals.
    pose proof (Hz 0%nat 1%nat eq_refl ltac:(lia)) as Z0. pose proof (Hz 1%nat 1%nat eq_refl ltac:(lia)) as Z1.
    cbn [nth] in Z0, Z1. rewrite !Nat.mod_small in Z0, Z1 by lia. rewrite Nat.add_0_r in Z0, Z1.
    apply (sub_sub_zero HK) in Z0. apply (sub_sub_zero HK) in Z1. now split. }
  assert (A : forall i, (i < n)%nat -> nth i c 0 = fib a0 a1 (2 * i) /\ nth i d 0 = fib a0 a1 (2 * i + 1)).
  { induction i as [|i IH]; intros Hi; [now split|]. destruct (S i ltac:(lia)) as [S0 S1]. destruct (IH ltac:(lia)) as [I0 I1].
    replace (Datatypes.S i) with (i + 1)%nat by lia. rewrite fib2_step1, fib2_step0, S1, S0, I0, I1. split; ring. }
  split; apply (nth_ext _ _ 0 0); unfold fib_even, fib_odd; rewrite ?map_length, ?seq_length; try lia;
    intros i Hi; rewrite nth_map_seq by lia; apply A; lia.
Qed.

Lemma fibonacci2_admissible r b : usable_options E opts r b -> admissible (air_ (2 ^ r)) r b 2.
Proof using HE.
  intros [Hr [Hb [Hbl Hco]]]. pose proof (pow2_ge2 r Hr).
  constructor; try assumption; try reflexivity; cbn; try lia; try easy.
  - intros [|[|[|j]]] e deg He Hd; cbn in *; try discriminate; injection He as <-; injection Hd as <-; lia.
  - intros g Hg. apply (transition_polynomial_exprs HK _ _ _ (fun _ => [Sub (Sub (Cell 1 0) (Cell 0 0)) (Cell 0 1);
      Sub (Sub (Cell 1 1) (Cell 0 1)) (Cell 1 0)])); [lia| |].
    + intros rap polys x Hp. cbn [a_transition fibonacci_2_cols_air a_context transition_offsets].
      rewrite !shifted_frame_row by (cbn; lia). cbn [obind]. cbn in Hp. rewrite !shifted_row_cell by lia. reflexivity.
    + intros rap [|[|j]] H1 H2; cbn in *; lia.
Qed.

Lemma fibonacci2_trace_ok n : (1 <= n)%nat ->
  exists mt, fibonacci_trace_2_columns E a0 a1 n = Ok mt /\ has_columns mt n [fib_even n; fib_odd n] /\ tt_n_rows mt = n.
Proof using HE.
  intros Hn. unfold fibonacci_trace_2_columns.
  match goal with |- context [ofold ?f _ _] => assert (L : forall m s, (1 <= s)%nat -> ofold f (seq s m) (fib_even s, fib_odd s) = Ok (fib_even (s + m), fib_odd (s + m))) end.
  { induction m as [|m IH]; intros s Hs; cbn [seq ofold]; [now rewrite Nat.add_0_r|].
    unfold fib_even at 1 2, fib_odd at 1 2. rewrite !idx_map_seq by lia. cbn [obind].
    replace (s + S m)%nat with (S s + m)%nat by lia. rewrite <- IH by lia. f_equal.
    replace (S s) with (s + 1)%nat by lia. unfold fib_even, fib_odd. rewrite !map_seq_snoc.
    pose proof (fib2_step0 (s - 1)) as F0. pose proof (fib2_step1 (s - 1)) as F1. replace (s - 1 + 1)%nat with s in F0, F1 by lia.
    rewrite F1, F0. reflexivity. }
  specialize (L (n - 1)%nat 1%nat ltac:(lia)). change (fib_even 1) with [a0] in L. change (fib_odd 1) with [a1] in L.
  rewrite L. cbn [obind]. replace (1 + (n - 1))%nat with n by lia.
  assert (Hc : forall c, In c [fib_even n; fib_odd n] -> length c = n).
  { intros c [<-|[<-|[]]]; unfold fib_even, fib_odd; now rewrite map_length, seq_length. }
  destruct (new_from_cols_total (0 : E) [fib_even n; fib_odd n] n ltac:(easy) Hc) as [mt Hmt]. exists mt. split; [exact Hmt|].
  now apply new_from_cols_has.
Qed.

Lemma fibonacci2_valid r mt : (1 <= r)%nat -> fibonacci_trace_2_columns E a0 a1 (2 ^ r) = Ok mt ->
  tt_n_rows mt = (2 ^ r)%nat /\ valid_trace (air_ (2 ^ r)) r mt.
Proof using HE.
  intros Hr H. pose proof (pow2_ge2 r Hr) as H2. destruct (fibonacci2_trace_ok (2 ^ r) ltac:(lia)) as [mt' [H' [Hc Hn]]].
  rewrite H in H'. apply ok_inj in H'. subst mt'. split; [exact Hn|].
  apply (valid_no_aux _ r mt [fib_even (2 ^ r); fib_odd (2 ^ r)]); try easy.
  intros []. apply fibonacci2_satisfies. lia.
Qed.
End Fibonacci2Air.

Section QuadraticAir.
Context {E : env} (HE : env_ok E) (a0 : E) (opts : proof_options).
Let HK := fft_field_ok _ (e_fft_ok E HE).
Add Field Kfield17 : (fld_th E (fft_field_ok _ (e_fft_ok E HE))).
Notation air_ := (quadratic_air E a0 opts).

Definition quads (n : nat) : list E := map (squaring a0) (seq 0 n).
Lemma squaring_step i : squaring a0 (i + 1) = squaring a0 i * squaring a0 i.
Proof using HE. unfold squaring. rewrite Nat.add_1_r. rewrite Nat.pow_succ_r', <- (fpow_add HK). f_equal. lia. Qed.
Lemma squaring_0 : squaring a0 0 = a0.
Proof using HE. unfold squaring. cbn. ring. Qed.

Lemma quadratic_satisfies n : (1 <= n)%nat -> trace_satisfies (air_ n) tt [quads n] n.
Proof using HE.
  intros Hn. constructor.
  - intros bcs bc Hb Hin. cbn in Hb. apply ok_inj in Hb. subst bcs.
    destruct Hin as [<-|[]]; cbn [bc_step bc_col bc_value length nth]; (split; [lia|]; split; [lia|]); unfold quads; rewrite nth_map_seq by lia.
    apply squaring_0.
  - intros i Hi. eexists. split; [frames; reflexivity|].
    intros [|[|j]] e He Hie; cbn in He; try discriminate. injection He as <-.
    cbn [nth]. rewrite !Nat.mod_small by lia. unfold quads. rewrite !nth_map_seq by lia. rewrite Nat.add_0_r, squaring_step. ring.
Qed.

Lemma quadratic_characterised n c : (1 <= n)%nat -> length c = n -> trace_satisfies (air_ n) tt [c] n -> c = quads n.
Proof using HE.
  intros Hn Hl [Hb Ht]. apply (nth_ext _ _ 0 0); [unfold quads; now rewrite map_length, seq_length|].
  rewrite Hl. intro i. induction i as [|i IH]; intros Hi; unfold quads; rewrite nth_map_seq by lia.
  - rewrite squaring_0. now destruct (Hb _ (mk_bc 0%nat 0%nat a0) eq_refl (or_introl eq_refl)) as [_ [_ H]].
  - destruct (Ht i ltac:(lia)) as [evals [He Hz]]. revert He; frames; intro He. apply ok_inj in He. subst evals.
    specialize (Hz 0%nat 1%nat eq_refl ltac:(lia)). cbn [nth] in Hz. rewrite !Nat.mod_small in Hz by lia.
    rewrite Nat.add_0_r in Hz. apply (proj1 (sub_zero HK _ _)) in Hz. rewrite <- Nat.add_1_r, squaring_step, Hz.
    rewrite IH by lia. unfold quads. now rewrite nth_map_seq by lia.
Qed.

Lemma quadratic_admissible r b : usable_options E opts r b -> admissible (air_ (2 ^ r)) r b 2.
Proof using HE.
  intros [Hr [Hb [Hbl Hco]]]. pose proof (pow2_ge2 r Hr).
  constructor; try assumption; try reflexivity; cbn; try lia; try easy.
  - intros [|[|j]] e deg He Hd; cbn in *; try discriminate; injection He as <-; injection Hd as <-; lia.
  - intros g Hg. apply (transition_polynomial_exprs HK _ _ _ (fun _ => [Sub (Cell 1 0) (Mul (Cell 0 0) (Cell 0 0))])); [lia| |].
    + intros rap polys x Hp. cbn [a_transition quadratic_air a_context transition_offsets].
      rewrite !shifted_frame_row by (cbn; lia). cbn [obind]. cbn in Hp. rewrite !shifted_row_cell by lia. reflexivity.
    + intros rap [|j] H1 H2; cbn in *; lia.
Qed.

Lemma quadratic_trace_ok n : (1 <= n)%nat ->
  exists mt, quadratic_trace E a0 n = Ok mt /\ has_columns mt n [quads n] /\ tt_n_rows mt = n.
Proof using HE.
  intros Hn. unfold quadratic_trace.
  match goal with |- context [ofold ?f _ _] => pose proof (push_loop f (squaring a0) 1 (n - 1)) as L end.
  cbn [seq map] in L. rewrite squaring_0 in L. replace (1 + (n - 1))%nat with n in L by lia. rewrite L.
  2:{ intros i Hi. rewrite !idx_map_seq by lia. cbn [obind]. rewrite map_seq_snoc. do 3 f_equal.
      rewrite <- squaring_step. f_equal. lia. }
  cbn [obind]. fold (quads n).
  assert (Hc : forall c, In c [quads n] -> length c = n) by (intros c [<-|[]]; unfold quads; now rewrite map_length, seq_length).
  destruct (new_from_cols_total (0 : E) [quads n] n ltac:(easy) Hc) as [mt Hmt]. exists mt. split; [exact Hmt|].
  now apply new_from_cols_has.
Qed.

Lemma quadratic_valid r mt : (1 <= r)%nat -> quadratic_trace E a0 (2 ^ r) = Ok mt ->
  tt_n_rows mt = (2 ^ r)%nat /\ valid_trace (air_ (2 ^ r)) r mt.
Proof using HE.
  intros Hr H. pose proof (pow2_ge2 r Hr) as H2. destruct (quadratic_trace_ok (2 ^ r) ltac:(lia)) as [mt' [H' [Hc Hn]]].
  rewrite H in H'. apply ok_inj in H'. subst mt'. split; [exact Hn|].
  apply (valid_no_aux _ r mt [quads (2 ^ r)]); try easy.
  intros []. apply quadratic_satisfies. lia.
Qed.
End QuadraticAir.

Section DummyAir.
Context {E : env} (HE : env_ok E) (opts : proof_options).
Let HK := fft_field_ok _ (e_fft_ok E HE).
Add Field Kfield18 : (fld_th E (fft_field_ok _ (e_fft_ok E HE))).
Notation air_ := (dummy_air E opts).

Lemma dummy_satisfies n flags : (2 <= n)%nat -> length flags = n -> (forall x, In x flags -> x = 0 \/ x = 1) ->
  trace_satisfies (air_ n) tt [flags; fibs 1 1 n] n.
Proof using HE.
  intros Hn Hl Hf. constructor.
  - intros bcs bc Hb Hin. cbn in Hb. apply ok_inj in Hb. subst bcs.
    destruct Hin as [<-|[<-|[]]]; cbn [bc_step bc_col bc_value length nth]; (split; [lia|]; split; [lia|]); rewrite fibs_nth by lia; reflexivity.
  - intros i Hi. eexists. split; [frames; reflexivity|].
    intros [|[|[|j]]] e He Hie; cbn in He; try discriminate; injection He as <-; cbn [nth].
    + rewrite Nat.add_0_r, Nat.mod_small by lia. destruct (Hf (nth i flags 0)) as [-> | ->]; [apply nth_In; lia| |]; ring.
    + rewrite !Nat.mod_small by lia. rewrite !fibs_nth by lia. apply (sub_sub_zero HK).
      rewrite Nat.add_0_r. replace (i + 2)%nat with (S (S i)) by lia. replace (i + 1)%nat with (S i) by lia. apply (fib_step HK).
Qed.

Lemma dummy_characterised n flags c : (2 <= n)%nat -> length flags = n -> length c = n ->
  trace_satisfies (air_ n) tt [flags; c] n -> c = fibs 1 1 n /\ forall x, In x flags -> x = 0 \/ x = 1.
Proof using HE.
  intros Hn Hf Hl [Hb Ht]. split.
  - apply list_eq_fibs; [exact Hl|].
    apply (fib_characterised HK 1 1 c n n Hl ltac:(lia)).
    + now destruct (Hb _ (mk_bc 1%nat 0%nat 1) eq_refl (or_introl eq_refl)) as [_ [_ H]].
    + now destruct (Hb _ (mk_bc 1%nat 1%nat 1) eq_refl (or_intror (or_introl eq_refl))) as [_ [_ H]].
    + intros i Hi. destruct (Ht i ltac:(lia)) as [evals [He Hz]]. revert He; frames; intro He. apply ok_inj in He. subst evals.
      specialize (Hz 1%nat 2%nat eq_refl ltac:(lia)). cbn [nth] in Hz. rewrite !Nat.mod_small in Hz by lia.
      rewrite Nat.add_0_r in Hz. now apply (sub_sub_zero HK) in Hz.
  - intros x Hx. destruct (In_nth flags x 0 Hx) as [i [Hi <-]]. rewrite Hf in Hi.
    destruct (Ht i Hi) as [evals [He Hz]]. revert He; frames; intro He. apply ok_inj in He. subst evals.
    specialize (Hz 0%nat 0%nat eq_refl ltac:(lia)). cbn [nth] in Hz. rewrite Nat.add_0_r, Nat.mod_small in Hz by lia.
    apply (mul_zero HK) in Hz. destruct Hz as [Hz|Hz]; [now left|right]. now apply (proj1 (sub_zero HK _ _)) in Hz.
Qed.

Lemma dummy_admissible r b : usable_options E opts r b -> admissible (air_ (2 ^ r)) r b 3.
Proof using HE.
  intros [Hr [Hb [Hbl Hco]]]. pose proof (pow2_ge2 r Hr).
  constructor; try assumption; try reflexivity; cbn; try lia; try easy.
  - intros [|[|[|j]]] e deg He Hd; cbn in *; try discriminate; injection He as <-; injection Hd as <-; lia.
  - intros g Hg. apply (transition_polynomial_exprs HK _ _ _ (fun _ => [Mul (Cell 0 0) (Sub (Cell 0 0) (Const 1));
      Sub (Sub (Cell 2 1) (Cell 1 1)) (Cell 0 1)])); [lia| |].
    + intros rap polys x Hp. cbn [a_transition dummy_air a_context transition_offsets].
      rewrite !shifted_frame_row by (cbn; lia). cbn [obind]. cbn in Hp. rewrite !shifted_row_cell by lia. reflexivity.
    + intros rap [|[|j]] H1 H2; cbn in *; lia.
Qed.

Lemma dummy_trace_ok n : (2 <= n)%nat ->
  exists mt, dummy_trace E n = Ok mt /\ has_columns mt n [repeat 1 n; fibs 1 1 n] /\ tt_n_rows mt = n.
Proof using HE.
  intros Hn. unfold dummy_trace. rewrite (push_fib_ok HK) by exact Hn. cbn [obind].
  assert (Hc : forall c : list E, In c [repeat (1 : E) n; fibs 1 1 n] -> length c = n).
  { intros c [<-|[<-|[]]]; [apply repeat_length|apply fibs_length]. }
  destruct (new_from_cols_total (0 : E) [repeat 1 n; fibs 1 1 n] n ltac:(easy) Hc) as [mt Hmt]. exists mt. split; [exact Hmt|].
  now apply new_from_cols_has.
Qed.

Lemma dummy_valid r mt : (1 <= r)%nat -> dummy_trace E (2 ^ r) = Ok mt ->
  tt_n_rows mt = (2 ^ r)%nat /\ valid_trace (air_ (2 ^ r)) r mt.
Proof using HE.
  intros Hr H. pose proof (pow2_ge2 r Hr) as H2. destruct (dummy_trace_ok (2 ^ r) H2) as [mt' [H' [Hc Hn]]].
  rewrite H in H'. apply ok_inj in H'. subst mt'. split; [exact Hn|].
  apply (valid_no_aux _ r mt [repeat 1 (2 ^ r); fibs 1 1 (2 ^ r)]); try easy.
  intros []. apply dummy_satisfies; [exact H2|apply repeat_length|]. intros x Hx. right. now apply repeat_spec in Hx.
Qed.
End DummyAir.

Section RapAir.
Context {E : env} (HE : env_ok E) (opts : proof_options).
Let HK := fft_field_ok _ (e_fft_ok E HE).
Add Field Kfield19 : (fld_th E (fft_field_ok _ (e_fft_ok E HE))).
Notation air_ steps := (fibonacci_rap_air E steps opts).

(** The running quotients. *)
Fixpoint quotients (gamma : E) (A B : list E) (z : E) (n : nat) : list E :=
  match n with
  | O => []
  | S m => z :: quotients gamma (tl A) (tl B) (z * ((hd 0 A + gamma) * finv (hd 0 B + gamma))) m
  end.

Definition is_quotient (gamma : E) (A B Z : list E) (n : nat) : Prop :=
  length Z = n /\ nth 0 Z 0 = 1 /\
  forall i, (i + 1 < n)%nat -> nth (i + 1) Z 0 * (nth i B 0 + gamma) = nth i Z 0 * (nth i A 0 + gamma).

Lemma quotients_length gamma A B z n : length (quotients gamma A B z n) = n.
Proof using. revert A B z. induction n; intros; cbn; [reflexivity|]. now rewrite IHn. Qed.

Lemma quotients_step gamma n : forall A B z, (forall i, (i + 1 < n)%nat -> nth i B 0 + gamma <> 0) ->
  (0 < n)%nat -> nth 0 (quotients gamma A B z n) 0 = z /\
  forall i, (i + 1 < n)%nat -> nth (i + 1) (quotients gamma A B z n) 0 * (nth i B 0 + gamma) = nth i (quotients gamma A B z n) 0 * (nth i A 0 + gamma).
Proof using HE.
  induction n as [|n IH]; intros A B z Hb Hn; [lia|]. cbn [quotients nth]. split; [reflexivity|].
  intros i Hi. destruct (IH (tl A) (tl B) (z * ((hd 0 A + gamma) * finv (hd 0 B + gamma)))) as [I0 I1].
  { intros j Hj. specialize (Hb (S j) ltac:(lia)). destruct B; cbn in *; [destruct j|]; exact Hb. }
  { lia. }
  destruct i as [|i].
  - cbn [Nat.add nth]. rewrite I0. specialize (Hb 0%nat ltac:(lia)).
    replace (nth 0 A 0) with (hd 0 A) by (now destruct A). replace (nth 0 B 0) with (hd 0 B) in * by (now destruct B).
    field. exact Hb.
  - cbn [Nat.add nth]. specialize (I1 i ltac:(lia)).
    replace (nth (S i) A 0) with (nth i (tl A) 0) by (destruct A; [now destruct i|reflexivity]).
    replace (nth (S i) B 0) with (nth i (tl B) 0) by (destruct B; [now destruct i|reflexivity]). exact I1.
Qed.

Lemma quotients_ok gamma A B n : (0 < n)%nat -> (forall i, (i + 1 < n)%nat -> nth i B 0 + gamma <> 0) ->
  is_quotient gamma A B (quotients gamma A B 1 n) n.
Proof using HE.
  intros Hn Hb. split; [apply quotients_length|]. exact (quotients_step gamma n A B 1 Hb Hn).
Qed.

Lemma rap_satisfies steps n gamma A B Z : (2 <= steps <= n)%nat -> length A = n -> length B = n ->
  (forall i, (i < steps)%nat -> nth i A 0 = fib 1 1 i) -> is_quotient gamma A B Z n ->
  trace_satisfies (air_ steps n) gamma [A; B; Z] n.
Proof using HE.
  intros Hs HA HB Hf [HZ [Z0 Zs]]. constructor.
  - intros bcs bc Hb Hin. cbn in Hb. apply ok_inj in Hb. subst bcs.
    destruct Hin as [<-|[<-|[<-|[]]]]; cbn [bc_step bc_col bc_value length nth]; (split; [lia|]; split; [lia|]);
      try (rewrite Hf by lia; reflexivity). exact Z0.
  - intros i Hi. eexists. split; [frames; reflexivity|].
    intros [|[|[|j]]] e He Hie; cbn [transition_exemptions a_context fibonacci_rap_air nth_error] in He; try discriminate; cbn [nth].
    + assert (e = 3 + n - steps - 1)%nat by congruence. rewrite !Nat.mod_small by lia. rewrite !Hf by lia. apply (sub_sub_zero HK).
      rewrite Nat.add_0_r. replace (i + 2)%nat with (S (S i)) by lia. replace (i + 1)%nat with (S i) by lia. apply (fib_step HK).
    + assert (e = 1)%nat by congruence. rewrite !Nat.mod_small by lia. rewrite Nat.add_0_r, Zs by lia. ring.
Qed.

Lemma rap_characterised steps n gamma A B Z : (2 <= steps <= n)%nat -> length A = n -> length B = n -> length Z = n ->
  trace_satisfies (air_ steps n) gamma [A; B; Z] n ->
  (forall i, (i < steps)%nat -> nth i A 0 = fib 1 1 i) /\ is_quotient gamma A B Z n.
Proof using HE.
  intros Hs HA HB HZ [Hb Ht]. split.
  - apply (fib_characterised HK 1 1 A n steps HA ltac:(lia)).
    + now destruct (Hb _ (mk_bc 0%nat 0%nat 1) eq_refl (or_introl eq_refl)) as [_ [_ H]].
    + now destruct (Hb _ (mk_bc 0%nat 1%nat 1) eq_refl (or_intror (or_introl eq_refl))) as [_ [_ H]].
    + intros i Hi. destruct (Ht i ltac:(lia)) as [evals [He Hz]]. revert He; frames; intro He. apply ok_inj in He. subst evals.
      specialize (Hz 0%nat _ eq_refl ltac:(lia)). cbn [nth] in Hz. rewrite !Nat.mod_small in Hz by lia.
      rewrite Nat.add_0_r in Hz. now apply (sub_sub_zero HK) in Hz.
  - split; [exact HZ|]. split.
    + now destruct (Hb _ (mk_bc 2%nat 0%nat 1) eq_refl (or_intror (or_intror (or_introl eq_refl)))) as [_ [_ H]].
    + intros i Hi. destruct (Ht i ltac:(lia)) as [evals [He Hz]]. revert He; frames; intro He. apply ok_inj in He. subst evals.
      specialize (Hz 1%nat _ eq_refl ltac:(lia)). cbn [nth] in Hz. rewrite !Nat.mod_small in Hz by lia.
      rewrite Nat.add_0_r in Hz. now apply (proj1 (sub_zero HK _ _)) in Hz.
Qed.

Lemma rap_admissible steps r b : usable_options E opts r b -> (2 <= steps <= 2 ^ r)%nat -> admissible (air_ steps (2 ^ r)) r b 3.
Proof using HE.
  intros [Hr [Hb [Hbl Hco]]] Hs. pose proof (pow2_ge2 r Hr).
  constructor; try assumption; try reflexivity;
    cbn [fibonacci_rap_air a_context a_n_aux a_degree_bound transition_exemptions transition_degrees trace_columns num_transition_exemptions]; try lia; try easy.
  - intros e [<-|[<-|[]]]; lia.
  - intros [|[|[|j]]] e deg He Hd; cbn [nth_error] in *; try discriminate; try (destruct j; discriminate).
    + assert (e = 3 + 2 ^ r - steps - 1)%nat by congruence. assert (deg = 1)%nat by congruence. lia.
    + assert (e = 1)%nat by congruence. assert (deg = 2)%nat by congruence. lia.
  - intros g Hg. apply (transition_polynomial_exprs HK (air_ steps (2 ^ r)) _ _ (fun gamma : E => [Sub (Sub (Cell 2 0) (Cell 1 0)) (Cell 0 0);
      Sub (Mul (Cell 1 2) (Add (Cell 0 1) (Const gamma))) (Mul (Cell 0 2) (Add (Cell 0 0) (Const gamma)))])); [lia| |].
    + intros rap polys x Hp. cbn [a_transition fibonacci_rap_air a_context transition_offsets].
      rewrite !shifted_frame_row by (cbn; lia). cbn [obind]. cbn in Hp. rewrite !shifted_row_cell by lia. reflexivity.
    + intros rap [|[|j]] H1 H2; cbn in *; lia.
Qed.

Lemma has_columns_table (t : trace_table E) n cols : cols <> [] -> has_columns t n cols -> tt_cols t = Ok cols /\ tt_n_rows t = n.
Proof using.
  intros Hne [H1 [H2 H3]]. assert (t = mk_trace (concat (transpose cols n 0)) (length cols)) as ->.
  { destruct t as [tb nc]. cbn in *. subst. reflexivity. }
  split; [now apply transpose_cols|]. pose proof (transpose_table cols n 0 Hne) as T. rewrite (table_n_rows _ _ T).
  unfold transpose. now rewrite map_length, seq_length.
Qed.

(** What the auxiliary builder returns when it does not divide by zero. *)
Lemma rap_aux_ok main gamma aux n A B : (0 < n)%nat -> has_columns main n [A; B] ->
  fibonacci_rap_aux E main gamma = Ok aux ->
  exists Z, has_columns aux n [Z] /\ is_quotient gamma A B Z n.
Proof using HE.
  intros Hn Hc H. destruct (has_columns_table main n [A; B] ltac:(easy) Hc) as [Hcols Hrows].
  unfold fibonacci_rap_aux in H. rewrite Hcols, Hrows in H. cbn [obind idx nth_error unwrap] in H.
  apply obind_ok in H. destruct H as [Z [HZ Haux]].
  match type of HZ with ofold ?f _ _ = _ => assert (L : forall m s acc, length acc = s ->
     (forall i, (i + 1 < s)%nat -> nth (i + 1) acc 0 * (nth i B 0 + gamma) = nth i acc 0 * (nth i A 0 + gamma)) ->
     ((0 < s)%nat -> nth 0 acc 0 = 1) -> ofold f (seq s m) acc = Ok Z ->
     length Z = (s + m)%nat /\ ((0 < s + m)%nat -> nth 0 Z 0 = 1) /\
     (forall i, (i + 1 < s + m)%nat -> nth (i + 1) Z 0 * (nth i B 0 + gamma) = nth i Z 0 * (nth i A 0 + gamma))) end.
  { induction m as [|m IH]; intros s acc Hl Hi H0 Ho; cbn [seq ofold] in Ho.
    - apply ok_inj in Ho. subst Z. rewrite Nat.add_0_r. auto.
    - apply obind_ok in Ho. destruct Ho as [acc' [Hs Ho]]. replace (s + S m)%nat with (S s + m)%nat by lia.
      apply (IH (S s) acc'); [| | |exact Ho]; destruct s as [|s].
      + apply ok_inj in Hs. subst acc'. rewrite app_length, Hl. reflexivity.
      + apply obind_ok in Hs. destruct Hs as [zi [Hzi Hs]]. apply obind_ok in Hs. destruct Hs as [np [Hnp Hs]].
        apply obind_ok in Hs. destruct Hs as [pp [Hpp Hs]]. apply obind_ok in Hs. destruct Hs as [q [Hq Hs]].
        apply ok_inj in Hs. subst acc'. rewrite app_length, Hl. cbn. lia.
      + intros i Hi'. lia.
      + apply obind_ok in Hs. destruct Hs as [zi [Hzi Hs]]. apply obind_ok in Hs. destruct Hs as [np [Hnp Hs]].
        apply obind_ok in Hs. destruct Hs as [pp [Hpp Hs]]. apply obind_ok in Hs. destruct Hs as [q [Hq Hs]].
        apply ok_inj in Hs. subst acc'. intros i Hi'. destruct (Nat.eq_dec (i + 1) (S s)) as [Heq|Hne].
        * assert (i = s) as -> by lia. rewrite (app_nth2 _ _ _ (n := s + 1)) by lia. replace (s + 1 - length acc)%nat with 0%nat by lia. cbn [nth].
          rewrite app_nth1 by lia. cbn [Nat.sub] in Hzi, Hnp, Hpp. rewrite Nat.sub_0_r in Hzi, Hnp, Hpp.
          rewrite (idx_val _ _ _ 0 Hzi). rewrite (idx_val _ _ _ 0 Hnp), (idx_val _ _ _ 0 Hpp).
          unfold div_o in Hq. apply obind_ok in Hq. destruct Hq as [iv [Hiv Hq]]. apply ok_inj in Hq. subst q.
          apply (inv_o_ok HK) in Hiv. destruct Hiv as [Hnz ->]. field. exact Hnz.
        * rewrite !app_nth1 by lia. apply Hi. lia.
      + intros _. apply ok_inj in Hs. subst acc'. destruct acc; [reflexivity|discriminate].
      + intros _. apply obind_ok in Hs. destruct Hs as [zi [Hzi Hs]]. apply obind_ok in Hs. destruct Hs as [np [Hnp Hs]].
        apply obind_ok in Hs. destruct Hs as [pp [Hpp Hs]]. apply obind_ok in Hs. destruct Hs as [q [Hq Hs]].
        apply ok_inj in Hs. subst acc'. rewrite app_nth1 by lia. apply H0. lia. }
  destruct (L n 0%nat [] eq_refl ltac:(intros; lia) ltac:(lia) HZ) as [LZ [Z0 Zs]].
  exists Z. split.
  - apply (new_from_cols_has [Z] n aux); [easy| |exact Haux]. intros c [<-|[]]. exact LZ.
  - split; [exact LZ|]. split; [apply Z0; lia|exact Zs].
Qed.

Lemma resize_pow2_length (c : list E) : length (resize_pow2 E c) = next_pow2 (length c).
Proof using. unfold resize_pow2. rewrite app_length, repeat_length. unfold next_pow2. pose proof (Nat.log2_log2_up_spec) as _.
  destruct (Nat.eq_dec (length c) 0) as [H|H]; [rewrite H; cbn; lia|]. destruct (Nat.eq_dec (length c) 1) as [H'|H']; [rewrite H'; cbn; lia|].
  pose proof (Nat.log2_up_spec (length c) ltac:(lia)). lia. Qed.

Lemma set_at_ok (l : list E) i x : (i < length l)%nat -> exists l', set_at E l i x = Ok l' /\ length l' = length l.
Proof using.
  intros H. unfold set_at. destruct (Nat.ltb_spec i (length l)); [|lia]. eexists. split; [reflexivity|].
  rewrite app_length, firstn_length. cbn [length]. rewrite skipn_length. lia.
Qed.

Lemma rap_trace_ok (a0 a1 : E) steps : (2 <= steps)%nat ->
  exists mt A B, fibonacci_rap_trace E a0 a1 steps = Ok mt /\ has_columns mt (next_pow2 (steps + 1)) [A; B] /\
    tt_n_rows mt = next_pow2 (steps + 1) /\ forall i, (i < steps)%nat -> nth i A 0 = fib a0 a1 i.
Proof using HE.
  intros Hs. unfold fibonacci_rap_trace. rewrite (push_fib_ok HK) by exact Hs. cbn [obind].
  rewrite usub_ok by lia. cbn [obind]. rewrite (idx_nth _ _ 0) by (rewrite fibs_length; lia). cbn [obind].
  destruct (set_at_ok (fibs a0 a1 steps) 0%nat (nth (steps - 1) (fibs a0 a1 steps) 0)) as [l1 [E1 L1]]; [rewrite fibs_length; lia|].
  rewrite E1. cbn [obind]. rewrite fibs_length in L1.
  destruct (set_at_ok l1 (steps - 1)%nat a0) as [l2 [E2 L2]]; [lia|]. rewrite E2. cbn [obind].
  set (A := resize_pow2 E (fibs a0 a1 steps ++ [0])). set (B := resize_pow2 E (l2 ++ [0])).
  assert (LA : length A = next_pow2 (steps + 1)) by (unfold A; rewrite resize_pow2_length, app_length, fibs_length; reflexivity).
  assert (LB : length B = next_pow2 (steps + 1)) by (unfold B; rewrite resize_pow2_length, app_length, L2, L1; reflexivity).
  assert (Hc : forall c, In c [A; B] -> length c = next_pow2 (steps + 1)) by (intros c [<-|[<-|[]]]; assumption).
  destruct (new_from_cols_total (0 : E) [A; B] _ ltac:(easy) Hc) as [mt Hmt]. exists mt, A, B. split; [exact Hmt|].
  destruct (new_from_cols_has [A; B] _ mt ltac:(easy) Hc Hmt) as [H1 H2]. split; [exact H1|]. split; [exact H2|].
  intros i Hi. unfold A, resize_pow2. rewrite app_nth1 by (rewrite app_length, fibs_length; lia).
  rewrite app_nth1 by (rewrite fibs_length; lia). apply fibs_nth. exact Hi.
Qed.

Lemma rap_valid steps r mt : (2 <= steps)%nat -> next_pow2 (steps + 1) = (2 ^ r)%nat ->
  fibonacci_rap_trace E 1 1 steps = Ok mt -> tt_n_rows mt = (2 ^ r)%nat /\ valid_trace (air_ steps (2 ^ r)) r mt.
Proof using HE.
  intros Hs Hr H. destruct (rap_trace_ok 1 1 steps Hs) as [mt' [A [B [H' [Hc [Hn Hf]]]]]].
  rewrite H in H'. apply ok_inj in H'. subst mt'. rewrite Hr in Hc, Hn. split; [exact Hn|].
  assert (Hle : (steps <= 2 ^ r)%nat).
  { rewrite <- Hr. unfold next_pow2. pose proof (Nat.log2_up_spec (steps + 1) ltac:(lia)). lia. }
  exists [A; B]. split; [easy|]. split; [exact Hc|]. intros t rap t' aux _ Haux. cbn [a_build_aux fibonacci_rap_air] in Haux.
  destruct (rap_aux_ok mt rap aux (2 ^ r) A B (pow2_pos r) Hc Haux) as [Z [HZ Hq]].
  exists [Z]. split; [exact HZ|]. split; [reflexivity|]. destruct Hc as [_ [Hc _]].
  apply rap_satisfies; [lia|apply Hc; now left|apply Hc; right; now left|exact Hf|exact Hq].
Qed.
End RapAir.
