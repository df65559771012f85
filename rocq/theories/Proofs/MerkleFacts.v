(** Honest Merkle openings verify, and openings bind up to a collision. *)
From Coq Require Import List Arith Lia Bool.
From Verif.Base Require Import Outcome Bytes Poly.
From Verif.Model Require Import Codec Merkle.
From Verif.Proofs Require Import OutcomeFacts FFTFacts.
Import ListNotations.

Section MerkleFacts.
Context (node : commitment -> commitment -> commitment).

Lemma list_byte_eqb_spec a b : list_byte_eqb a b = true <-> a = b.
Proof. unfold list_byte_eqb. destruct (list_eq_dec Byte.byte_eq_dec a b); split; congruence. Qed.

Lemma list_pair_ind2 {A} (P : list A -> Prop) :
  P [] -> (forall a : A, P [a]) -> (forall (a b : A) l, P l -> P (a :: b :: l)) -> forall l, P l.
Proof. intros H0 H1 H2. fix IH 1. intros [|a [|b l]]; [exact H0|apply H1|apply H2, IH]. Qed.

Lemma pair_up_length l k : length l = 2 * k -> length (pair_up node l) = k.
Proof.
  revert k; induction l as [|a|a b l IH] using list_pair_ind2; intros k H; cbn in *; [lia|lia|].
  destruct k; [lia|]. rewrite (IH k) by lia. reflexivity.
Qed.

Lemma pair_up_nth l j : 2 * j + 1 < length l ->
  nth j (pair_up node l) [] = node (nth (2 * j) l []) (nth (2 * j + 1) l []).
Proof.
  revert j; induction l as [|a|a b l IH] using list_pair_ind2; intros j H; cbn [length] in H; [lia|lia|].
  destruct j; [reflexivity|]. cbn [pair_up nth]. rewrite IH by lia.
  replace (2 * S j) with (S (S (2 * j))) by lia. replace (S (S (2 * j)) + 1) with (S (S (2 * j + 1))) by lia. reflexivity.
Qed.

Lemma mt_path_length k l pos : length (mt_path node k l pos) = k.
Proof. revert l pos; induction k; intros; cbn; auto. Qed.

Lemma fold_path_honest k l pos : length l = 2 ^ k -> pos < 2 ^ k ->
  fold_path node (mt_path node k l pos) pos (nth pos l []) = mt_root node k l.
Proof.
  revert l pos; induction k as [|k IH]; intros l pos Hl Hp.
  - cbn in *. assert (pos = 0) by lia. subst. destruct l; reflexivity.
  - cbn [mt_path fold_path mt_root]. change (2 ^ S k) with (2 * 2 ^ k) in *.
    rewrite <- IH with (pos := Nat.div2 pos).
    + f_equal. unfold sibling. destruct (Nat.even pos) eqn:Ev.
      * apply Nat.even_spec in Ev. destruct Ev as [j ->]. rewrite Nat.div2_double.
        rewrite pair_up_nth by lia. replace (2 * j + 1) with (S (2 * j)) by lia. reflexivity.
      * assert (Od : Nat.odd pos = true) by (rewrite <- Nat.negb_even, Ev; reflexivity).
        apply Nat.odd_spec in Od. destruct Od as [j ->]. replace (2 * j + 1) with (S (2 * j)) by lia.
        rewrite Nat.div2_succ_double. rewrite pair_up_nth by lia. cbn [pred].
        replace (2 * j + 1) with (S (2 * j)) by lia. reflexivity.
    + apply pair_up_length. lia.
    + destruct (Nat.Even_or_Odd pos) as [[j ->]|[j ->]].
      * rewrite Nat.div2_double. lia.
      * replace (2 * j + 1) with (S (2 * j)) by lia. rewrite Nat.div2_succ_double. lia.
Qed.

Lemma div2_mod i n : Nat.div2 (i mod (2 * n)) = Nat.div2 i mod n.
Proof.
  destruct n as [|n]; [now rewrite Nat.mul_0_r|].
  rewrite !Nat.div2_div. rewrite Nat.mod_mul_r by lia.
  rewrite (Nat.mul_comm 2 (i / 2 mod S n)), Nat.div_add by lia.
  rewrite (Nat.div_small (i mod 2) 2); [reflexivity|]. apply Nat.mod_upper_bound. lia.
Qed.

Lemma even_mod i n : n <> 0 -> Nat.even (i mod (2 * n)) = Nat.even i.
Proof.
  intro Hn. rewrite (Nat.div_mod i (2 * n)) at 2 by lia. rewrite Nat.even_add, !Nat.even_mul. cbn.
  now destruct (Nat.even (i mod (n + (n + 0)))).
Qed.

Lemma fold_path_mod path i h : fold_path node path i h = fold_path node path (i mod 2 ^ length path) h.
Proof.
  revert i h; induction path as [|s path IH]; intros i h; [reflexivity|].
  cbn [fold_path length]. change (2 ^ S (length path)) with (2 * 2 ^ length path).
  rewrite even_mod by (apply Nat.pow_nonzero; lia). rewrite div2_mod. apply IH.
Qed.

(** The opening of position [pos] verifies at every index congruent to [pos]. *)
Theorem honest_opening_verifies k l pos i :
  length l = 2 ^ k -> pos < 2 ^ k -> i mod 2 ^ k = pos ->
  path_verify node (mt_path node k l pos) (mt_root node k l) i (nth pos l []) = true.
Proof.
  intros Hl Hp Hi. unfold path_verify. apply list_byte_eqb_spec.
  rewrite fold_path_mod, mt_path_length, Hi. symmetry. now apply fold_path_honest.
Qed.

(** Padding to a power of two. *)
Lemma next_pow2_ge n : n <= next_pow2 n.
Proof.
  unfold next_pow2. destruct n as [|[|n]]; [lia|cbn; lia|].
  apply Nat.log2_up_spec. lia.
Qed.

Lemma complete_pow2_length l : length (complete_pow2 l) = next_pow2 (length l).
Proof.
  unfold complete_pow2. rewrite app_length, repeat_length. pose proof (next_pow2_ge (length l)). lia.
Qed.

Lemma complete_pow2_id l k : length l = 2 ^ k -> complete_pow2 l = l.
Proof.
  intro H. unfold complete_pow2. unfold next_pow2. rewrite H, Nat.log2_up_pow2 by lia.
  rewrite Nat.sub_diag. cbn. apply app_nil_r.
Qed.

Lemma tree_depth_pow2 l t : merkle_build l = Ok t -> length (tree_leaves t) = 2 ^ tree_depth t.
Proof.
  destruct l as [|a l]; unfold merkle_build; [discriminate|]. intro H. apply ok_inj in H. subst. unfold tree_depth.
  cbn [tree_leaves]. rewrite complete_pow2_length. unfold next_pow2. now rewrite Nat.log2_pow2 by lia.
Qed.

(** Every opening produced by a built tree verifies against its root. *)
Theorem build_path_verify l t pos path i :
  merkle_build l = Ok t -> tree_path node t pos = Some path -> pos < length l ->
  i mod 2 ^ tree_depth t = pos ->
  path_verify node path (tree_root node t) i (nth pos l []) = true.
Proof.
  intros Hb Hp Hpos Hi. pose proof (tree_depth_pow2 l t Hb) as Hd.
  unfold tree_path in Hp. destruct (Nat.ltb_spec pos (length (tree_leaves t))) as [L|L]; [|discriminate].
  assert (path = mt_path node (tree_depth t) (tree_leaves t) pos) by congruence. subst path.
  assert (Hn : nth pos l [] = nth pos (tree_leaves t) []).
  { destruct l as [|a l]; unfold merkle_build in Hb; [discriminate|]. apply ok_inj in Hb. subst t. cbn [tree_leaves].
    unfold complete_pow2. now rewrite app_nth1. }
  rewrite Hn. unfold tree_root. apply honest_opening_verifies; [exact Hd|lia|exact Hi].
Qed.

(** ** Binding *)
Definition node_collision : Prop :=
  exists a b c d, (a, b) <> (c, d) /\ node a b = node c d.

Theorem fold_path_binding p1 p2 i h1 h2 :
  length p1 = length p2 -> fold_path node p1 i h1 = fold_path node p2 i h2 ->
  (h1 = h2 /\ p1 = p2) \/ node_collision.
Proof.
  revert p2 i h1 h2; induction p1 as [|s1 p1 IH]; intros [|s2 p2] i h1 h2 Hl H; try discriminate.
  - left. auto.
  - cbn [fold_path] in H. cbn [length] in Hl. apply IH in H; [|lia]. destruct H as [[H Hp]|H]; [|now right].
    destruct (Nat.even i).
    + destruct (list_eq_dec Byte.byte_eq_dec h1 h2) as [E|E].
      * destruct (list_eq_dec Byte.byte_eq_dec s1 s2) as [E2|E2]; [left; split; congruence|].
        right. exists h1, s1, h2, s2. split; [congruence|exact H].
      * right. exists h1, s1, h2, s2. split; [congruence|exact H].
    + destruct (list_eq_dec Byte.byte_eq_dec h1 h2) as [E|E].
      * destruct (list_eq_dec Byte.byte_eq_dec s1 s2) as [E2|E2]; [left; split; congruence|].
        right. exists s1, h1, s2, h2. split; [congruence|exact H].
      * right. exists s1, h1, s2, h2. split; [congruence|exact H].
Qed.

Theorem path_verify_binding p1 p2 root i h1 h2 :
  length p1 = length p2 ->
  path_verify node p1 root i h1 = true -> path_verify node p2 root i h2 = true ->
  h1 = h2 \/ node_collision.
Proof.
  unfold path_verify. rewrite !list_byte_eqb_spec. intros Hl H1 H2.
  destruct (fold_path_binding p1 p2 i h1 h2 Hl) as [[H _]|H]; [congruence|now left|now right].
Qed.
End MerkleFacts.
