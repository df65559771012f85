(** Tapes of challenges: what does not depend on one of the entries. *)
From Coq Require Import List Arith Lia Bool NArith.
From Verif.Base Require Import Outcome Bytes Field Poly.
From Verif.Model Require Import Codec Trace Air Domain Verifier.
From Verif.Spec Require Import AirSpec VerifierSpec LowDegree OodSpec StarkTree Proximity Rounds Game.
Import ListNotations.
Local Open Scope felt_scope.

Section Lists.
Context {A : Type} (d : A).
Lemma nth_firstn_in (l : list A) o i : (i < o)%nat -> nth i (firstn o l) d = nth i l d.
Proof. revert o i. induction l as [|x l IH]; intros [|o] [|i] H; cbn; try lia; try reflexivity. apply IH. lia. Qed.
Lemma nth_skipn_in (l : list A) o i : nth i (skipn o l) d = nth (o + i) l d.
Proof. revert o. induction l as [|x l IH]; intros [|o]; cbn; try reflexivity; [now destruct i|]. apply IH. Qed.
Lemma nth_part (t : list A) o l i : (i < l)%nat -> nth i (part o l t) d = nth (o + i) t d.
Proof. intro H. unfold part. rewrite nth_firstn_in by exact H. apply nth_skipn_in. Qed.
Lemma part_length (t : list A) o l : (o + l <= length t)%nat -> length (part o l t) = l.
Proof. intro H. unfold part. rewrite firstn_length, skipn_length. lia. Qed.
Lemma part_same (t u : list A) o l : length t = length u -> (forall j, (o <= j < o + l)%nat -> nth j t d = nth j u d) -> part o l t = part o l u.
Proof.
  intros HL H. apply (nth_ext _ _ d d); [unfold part; rewrite !firstn_length, !skipn_length; lia|]. intros i Hi.
  assert (i < l)%nat by (unfold part in Hi; rewrite firstn_length in Hi; lia). rewrite !nth_part by assumption. apply H. lia.
Qed.
Lemma firstn_same (t u : list A) o : length t = length u -> (forall j, (j < o)%nat -> nth j t d = nth j u d) -> firstn o t = firstn o u.
Proof. intros HL H. change (part 0 o t = part 0 o u). apply part_same; [exact HL|]. intros j Hj. apply H. lia. Qed.
Lemma skipn_same (t u : list A) o : length t = length u -> (forall j, (o <= j)%nat -> nth j t d = nth j u d) -> skipn o t = skipn o u.
Proof. intros HL H. apply (nth_ext _ _ d d); [rewrite !skipn_length; lia|]. intros i _. rewrite !nth_skipn_in. apply H. lia. Qed.
Lemma set_nth_length (l : list A) i x : (i < length l)%nat -> length (set_nth i x l) = length l.
Proof. intro H. unfold set_nth. rewrite app_length. cbn [length]. rewrite firstn_length, skipn_length. lia. Qed.
Lemma set_nth_at (l : list A) i x : (i < length l)%nat -> nth i (set_nth i x l) d = x.
Proof. intro H. unfold set_nth. rewrite app_nth2 by (rewrite firstn_length; lia). rewrite firstn_length, Nat.min_l, Nat.sub_diag by lia. reflexivity. Qed.
Lemma set_nth_off (l : list A) i x j : (i < length l)%nat -> j <> i -> nth j (set_nth i x l) d = nth j l d.
Proof.
  intros H Hj. unfold set_nth. destruct (lt_dec j i) as [L|L].
  - rewrite app_nth1 by (rewrite firstn_length; lia). now apply nth_firstn_in.
  - rewrite app_nth2 by (rewrite firstn_length; lia). rewrite firstn_length, Nat.min_l by lia. destruct (j - i)%nat as [|m] eqn:Em; [lia|]. cbn [nth].
    rewrite nth_skipn_in. f_equal. lia.
Qed.
Lemma set_nth_same (l l' : list A) i x : length l = length l' -> (forall j, j <> i -> nth j l d = nth j l' d) -> set_nth i x l = set_nth i x l'.
Proof. intros HL H. unfold set_nth. f_equal; [apply firstn_same; [exact HL|intros; apply H; lia]|]. f_equal. apply skipn_same; [exact HL|intros; apply H; lia]. Qed.
End Lists.

Section Pairs.
Context {E : env}.
Lemma with_beta_ext j (x : E) A A' B B' : length A = length A' -> length B = length B' -> length A = length B -> A = A' ->
  (forall i, i <> j -> nth i B 0 = nth i B' 0) -> with_beta j x (combine A B) = with_beta j x (combine A' B').
Proof.
  intros H1 H2 H3 <- HB. unfold with_beta.
  assert (Q : forall i, i <> j -> nth i (combine A B) (0, 0) = nth i (combine A B') (0, 0)) by (intros i Hi; rewrite !combine_nth by lia; now rewrite HB).
  assert (L : length (combine A B) = length (combine A B')) by (rewrite !combine_length; lia). f_equal; [apply (firstn_same (0, 0)); [exact L|intros; apply Q; lia]|].
  f_equal; [|apply (skipn_same (0, 0)); [exact L|intros; apply Q; lia]]. rewrite !combine_nth by lia. reflexivity.
Qed.
Lemma deep_ext (p p' : stark_proof E) {a : air E} (c c' : challenges E a) g rows op x :
  fr_num_columns (trace_ood_frame_evaluations p) = fr_num_columns (trace_ood_frame_evaluations p') ->
  composition_poly_even_ood_evaluation p = composition_poly_even_ood_evaluation p' -> composition_poly_odd_ood_evaluation p = composition_poly_odd_ood_evaluation p' ->
  c_z E a c = c_z E a c' -> c_trace_term_coeffs E a c = c_trace_term_coeffs E a c' -> c_gamma_even E a c = c_gamma_even E a c' -> c_gamma_odd E a c = c_gamma_odd E a c' ->
  deep_word p c g rows op x = deep_word p' c' g rows op x.
Proof. intros H1 H2 H3 H4 H5 H6 H7. unfold deep_word, deep_value. now rewrite H1, H2, H3, H4, H5, H6, H7. Qed.
Lemma hides_ext (pt : E -> E) D e n u v u' v' gamma : (forall x, u x = u' x) -> (forall x, v x = v' x) -> hides pt D e n u v gamma -> hides pt D e n u' v' gamma.
Proof.
  intros Hu Hv (A & H1 & (q & L & H2) & H3). exists A. split; [exact H1|]. split; [exists q; split; [exact L|]; intros i Hi; rewrite <- Hu, <- Hv; now apply H2|].
  intros [(q1 & L1 & F1) (q2 & L2 & F2)]. apply H3. split; [exists q1; split; [exact L1|]; intros i Hi; rewrite Hu; now apply F1|exists q2; split; [exact L2|]; intros i Hi; rewrite Hv; now apply F2].
Qed.
Lemma few_mono (B : nat) (P Q : E -> Prop) : few B P -> (forall x, Q x -> P x) -> few B Q.
Proof. intros H HQ l Hn Hl. apply H; [exact Hn|]. intros x Hx. now apply HQ, Hl. Qed.
End Pairs.

(** Cutting concatenations. *)
Lemma part_here {A} (u v t : list A) o l : length u = o -> length v = l -> part o l (u ++ v ++ t) = v.
Proof. intros <- <-. unfold part. rewrite skipn_app, skipn_all, Nat.sub_diag. cbn [skipn app]. now rewrite firstn_app, firstn_all, Nat.sub_diag, app_nil_r. Qed.
Lemma nth_here {A} (u t : list A) x o d : length u = o -> nth o (u ++ x :: t) d = x.
Proof. intros <-. now rewrite app_nth2, Nat.sub_diag by lia. Qed.
Lemma combine_fst_snd {A B} (l : list (A * B)) : combine (map fst l) (map snd l) = l.
Proof. induction l as [|[x y] l IH]; [reflexivity|]. cbn. now rewrite IH. Qed.
Lemma concat_rows {A} (d : list A) (ms : list (list A)) k : Forall (fun l => length l = k) ms -> forall u t o, length u = o ->
  map (fun col => part (o + col * k) k (u ++ concat ms ++ t)) (seq 0 (length ms)) = ms.
Proof.
  induction 1 as [|m ms Hm Hms IH]; intros u t o Hu; [reflexivity|]. cbn [length seq map concat]. f_equal.
  - rewrite Nat.mul_0_l, Nat.add_0_r, <- app_assoc. now apply part_here.
  - rewrite <- seq_shift, map_map. rewrite <- (IH (u ++ m) t (o + k)%nat) at 2 by (rewrite app_length; lia). apply map_ext. intro col.
    rewrite <- !app_assoc. f_equal. lia.
Qed.
Lemma concat_uniform {A} (ms : list (list A)) k : Forall (fun l => length l = k) ms -> length (concat ms) = (length ms * k)%nat.
Proof. induction 1 as [|m ms Hm Hms IH]; [reflexivity|]. cbn [concat length]. rewrite app_length, IH, Hm. lia. Qed.
