(** Openings of every length bind to the committed leaves, up to coincidences among the hashes evaluated. *)
From Coq Require Import List Arith Lia Bool.
From Verif.Base Require Import Outcome Bytes Poly.
From Verif.Model Require Import Codec Merkle.
From Verif.Spec Require Import HashSpec.
From Verif.Proofs Require Import OutcomeFacts FFTFacts MerkleFacts.
Import ListNotations.

Section Binding.
Context (node : commitment -> commitment -> commitment).
Notation fold_path := (fold_path node).
Notation path_calls := (path_calls node).
Notation tree_calls := (tree_calls node).
Notation mt_root := (mt_root node).
Notation pair_up := (pair_up node).
Definition call_hash (x : commitment * commitment) : commitment := node (fst x) (snd x).

Lemma fold_path_cons s path i h : fold_path (s :: path) i h = fold_path path (Nat.div2 i) (call_hash (if Nat.even i then (h, s) else (s, h))).
Proof. cbn [Merkle.fold_path]. unfold call_hash. destruct (Nat.even i); reflexivity. Qed.

Lemma clash_incl c c' : incl c c' -> node_clash node c -> node_clash node c'.
Proof. intros H (x & y & Hx & Hy & R). exists x, y. split; [now apply H|]. split; [now apply H|exact R]. Qed.

Lemma level_calls_in l j : 2 * j + 1 < length l -> In (nth (2 * j) l [], nth (2 * j + 1) l []) (level_calls l).
Proof.
  revert j; induction l as [|a|a b l IH] using list_pair_ind2; intros j H; cbn [length] in H; [lia|lia|].
  destruct j; [now left|]. cbn [level_calls]. right.
  replace (2 * S j) with (S (S (2 * j))) by lia. replace (S (S (2 * j)) + 1) with (S (S (2 * j + 1))) by lia. cbn [nth]. apply IH. lia.
Qed.

Definition pair_dec (x y : commitment * commitment) : {x = y} + {x <> y}.
Proof. decide equality; apply (list_eq_dec Byte.byte_eq_dec). Defined.

(** Openings as long as the tree is deep. *)
Lemma fold_path_same k : forall l path i h, length l = 2 ^ k -> length path = k -> fold_path path i h = mt_root k l ->
  h = nth (i mod 2 ^ k) l [] \/ node_clash node (path_calls path i h ++ tree_calls k l).
Proof.
  induction k as [|k IH]; intros l path i h Hl Hp H.
  - destruct path; [|discriminate]. left. cbn in H. rewrite H. change (2 ^ 0) with 1. rewrite Nat.mod_1_r. destruct l; reflexivity.
  - destruct path as [|s path]; [discriminate|]. rewrite fold_path_cons in H. cbn [Merkle.mt_root] in H. cbn [length] in Hp.
    set (x := if Nat.even i then (h, s) else (s, h)) in *. change (2 ^ S k) with (2 * 2 ^ k) in *.
    assert (P := pow2_pos k).
    destruct (IH (pair_up l) path (Nat.div2 i) (call_hash x)) as [E|C]; [apply pair_up_length; lia|lia|exact H| |].
    + set (j := Nat.div2 i mod 2 ^ k) in *. assert (Lj : j < 2 ^ k) by (apply Nat.mod_upper_bound; lia).
      assert (Lj2 : 2 * j + 1 < length l) by lia.
      rewrite pair_up_nth in E by exact Lj2.
      assert (Ei : i mod (2 * 2 ^ k) = if Nat.even i then 2 * j else 2 * j + 1).
      { unfold j. rewrite <- div2_mod. pose proof (even_mod i (2 ^ k) ltac:(lia)) as Ev.
        rewrite <- Ev. generalize (i mod (2 * 2 ^ k)). intro X. pose proof (Nat.div2_odd X) as O. rewrite <- Nat.negb_even in O.
        destruct (Nat.even X); cbn [negb Nat.b2n] in O; lia. }
      destruct (pair_dec x (nth (2 * j) l [], nth (2 * j + 1) l [])) as [X|X].
      * left. rewrite Ei. unfold x in X. destruct (Nat.even i); injection X; congruence.
      * right. exists x, (nth (2 * j) l [], nth (2 * j + 1) l []). split; [now left|]. split; [|split; [exact X|exact E]].
        apply in_or_app. right. cbn [HashSpec.tree_calls]. apply in_or_app. left. apply level_calls_in. exact Lj2.
    + right. revert C. apply clash_incl. intros y Hy. apply in_app_or in Hy. apply in_or_app. destruct Hy as [Hy|Hy].
      * left. right. exact Hy.
      * right. cbn [HashSpec.tree_calls]. apply in_or_app. now right.
Qed.

(** Levels of a tree. *)
Fixpoint lift (a : nat) (l : list commitment) : list commitment := match a with O => l | S a' => lift a' (pair_up l) end.
Lemma lift_root a : forall b l, mt_root (a + b) l = mt_root b (lift a l).
Proof. induction a; intros b l; cbn; auto. Qed.
Lemma lift_calls a : forall b l, incl (tree_calls b (lift a l)) (tree_calls (a + b) l).
Proof.
  induction a as [|a IH]; intros b l; [apply incl_refl|]. cbn [lift Nat.add HashSpec.tree_calls].
  apply incl_appr. apply IH.
Qed.
Lemma lift_length a : forall b l, length l = 2 ^ (a + b) -> length (lift a l) = 2 ^ b.
Proof.
  induction a as [|a IH]; intros b l H; [exact H|]. cbn [lift]. apply IH. apply pair_up_length. rewrite H. reflexivity.
Qed.
Lemma lift_is_call a : forall b l j, length l = 2 ^ (S a + b) -> j < 2 ^ b ->
  exists x, In x (tree_calls (S a + b) l) /\ nth j (lift (S a) l) [] = call_hash x.
Proof.
  induction a as [|a IH]; intros b l j H Hj.
  - cbn [lift]. change (1 + b) with (S b) in *. change (2 ^ S b) with (2 * 2 ^ b) in H.
    assert (Lj : 2 * j + 1 < length l) by lia.
    rewrite pair_up_nth by exact Lj. exists (nth (2 * j) l [], nth (2 * j + 1) l []). split; [|reflexivity].
    cbn [HashSpec.tree_calls]. apply in_or_app. left. apply level_calls_in. exact Lj.
  - destruct (IH b (pair_up l) j) as (x & Hx & E); [|exact Hj|].
    + apply pair_up_length. rewrite H. reflexivity.
    + exists x. split; [|exact E]. change (S (S a) + b) with (S (S a + b)). cbn [HashSpec.tree_calls]. apply in_or_app. now right.
Qed.

Lemma fold_path_app p1 : forall p2 i h, fold_path (p1 ++ p2) i h = fold_path p2 (i / 2 ^ length p1) (fold_path p1 i h).
Proof.
  induction p1 as [|s p1 IH]; intros p2 i h.
  - cbn [app length]. change (2 ^ 0) with 1. rewrite Nat.div_1_r. reflexivity.
  - cbn [app]. rewrite !fold_path_cons, IH. f_equal. cbn [length]. change (2 ^ S (length p1)) with (2 * 2 ^ length p1).
    rewrite Nat.div2_div, Nat.div_div; [reflexivity|lia|apply Nat.pow_nonzero; lia].
Qed.
Lemma path_calls_app p1 : forall p2 i h, path_calls (p1 ++ p2) i h = path_calls p1 i h ++ path_calls p2 (i / 2 ^ length p1) (fold_path p1 i h).
Proof.
  induction p1 as [|s p1 IH]; intros p2 i h.
  - cbn [app length]. change (2 ^ 0) with 1. rewrite Nat.div_1_r. reflexivity.
  - cbn [app HashSpec.path_calls]. rewrite IH, fold_path_cons. f_equal. f_equal. cbn [length]. change (2 ^ S (length p1)) with (2 * 2 ^ length p1).
    rewrite Nat.div2_div, Nat.div_div; [reflexivity|lia|apply Nat.pow_nonzero; lia].
Qed.
Lemma fold_path_is_call p : forall i h, p <> [] -> exists x, In x (path_calls p i h) /\ fold_path p i h = call_hash x.
Proof.
  induction p as [|s p IH]; intros i h H; [contradiction|]. rewrite fold_path_cons. cbn [HashSpec.path_calls].
  destruct p as [|s' p].
  - eexists. split; [left; reflexivity|]. reflexivity.
  - destruct (IH (Nat.div2 i) (call_hash (if Nat.even i then (h, s) else (s, h)))) as (x & Hx & E); [discriminate|].
    exists x. split; [right; exact Hx|exact E].
Qed.

(** Openings of any length. *)
Theorem opening_binds k l path i h : length l = 2 ^ k -> fold_path path i h = mt_root k l ->
  (length path = k /\ h = nth (i mod 2 ^ k) l []) \/
  node_clash node (path_calls path i h ++ tree_calls k l) \/ leaf_clash node (path_calls path i h ++ tree_calls k l) (h :: l).
Proof.
  intros Hl H. destruct (Nat.lt_trichotomy (length path) k) as [L|[Q|L]].
  - remember (k - length path - 1) as a eqn:Ha. assert (Hk : k = S a + length path) by lia.
    rewrite Hk in H, Hl. rewrite lift_root in H.
    destruct (fold_path_same (length path) (lift (S a) l) path i h (lift_length _ _ _ Hl) eq_refl H) as [E|C].
    + destruct (lift_is_call a (length path) l (i mod 2 ^ length path) Hl) as (x & Hx & Ex).
      { apply Nat.mod_upper_bound, Nat.pow_nonzero. lia. }
      right; right. exists x. rewrite <- Hk in Hx. split; [apply in_or_app; now right|]. left. rewrite E. exact Ex.
    + right; left. revert C. apply clash_incl. apply incl_app; [apply incl_appl, incl_refl|]. apply incl_appr. rewrite Hk. apply lift_calls.
  - destruct (fold_path_same k l path i h Hl Q H) as [E|C]; [left|right; left]; auto.
  - remember (length path - k) as a eqn:Ha. rewrite <- (firstn_skipn a path) in H |- *.
    set (p1 := firstn a path) in *. set (p2 := skipn a path) in *.
    assert (L1 : length p1 = a) by (unfold p1; rewrite firstn_length; lia).
    assert (L2 : length p2 = k) by (unfold p2; rewrite skipn_length; lia).
    rewrite fold_path_app in H.
    destruct (fold_path_is_call p1 i h) as (x & Hx & Ex); [intro N; rewrite N in L1; cbn in L1; lia|].
    destruct (fold_path_same k l p2 _ _ Hl L2 H) as [E|C].
    + right; right. exists x. rewrite path_calls_app. split; [apply in_or_app; left; apply in_or_app; now left|].
      right. fold (call_hash x). rewrite <- Ex, E. apply nth_In. rewrite Hl. apply Nat.mod_upper_bound, Nat.pow_nonzero. lia.
    + right; left. revert C. rewrite path_calls_app. apply clash_incl. apply incl_app; [|apply incl_appr, incl_refl].
      apply incl_appl, incl_appr, incl_refl.
Qed.

(** Two openings of one root, of one length. *)
Theorem openings_agree p1 : forall p2 i h1 h2, length p1 = length p2 -> fold_path p1 i h1 = fold_path p2 i h2 ->
  h1 = h2 \/ exists x y, In x (path_calls p1 i h1) /\ In y (path_calls p2 i h2) /\ x <> y /\ call_hash x = call_hash y.
Proof.
  induction p1 as [|s1 p1 IH]; intros [|s2 p2] i h1 h2 Hl H; try discriminate; [now left|].
  rewrite !fold_path_cons in H. cbn [length] in Hl. apply IH in H; [|lia]. cbn [HashSpec.path_calls].
  set (x1 := if Nat.even i then (h1, s1) else (s1, h1)) in *. set (x2 := if Nat.even i then (h2, s2) else (s2, h2)) in *.
  destruct H as [H|(x & y & Hx & Hy & R)].
  - destruct (pair_dec x1 x2) as [E|E]; [left|right].
    + unfold x1, x2 in E. destruct (Nat.even i); injection E; congruence.
    + exists x1, x2. split; [now left|]. split; [now left|]. split; [exact E|exact H].
  - right. exists x, y. split; [now right|]. split; [now right|exact R].
Qed.
End Binding.

(** ** Deciding coincidences *)
Section Decide.
Context (node : commitment -> commitment -> commitment).
Definition node_clashb (calls : list (commitment * commitment)) : bool :=
  existsb (fun x => existsb (fun y => if pair_dec x y then false else list_byte_eqb (node (fst x) (snd x)) (node (fst y) (snd y))) calls) calls.
Definition leaf_clashb (calls : list (commitment * commitment)) (leaves : list commitment) : bool :=
  existsb (fun x => existsb (list_byte_eqb (node (fst x) (snd x))) leaves) calls.
Lemma node_clashb_false calls : node_clashb calls = false -> ~ node_clash node calls.
Proof.
  intros H (x & y & Hx & Hy & Hne & He). apply not_true_iff_false in H. apply H. apply existsb_exists. exists x. split; [exact Hx|].
  apply existsb_exists. exists y. split; [exact Hy|]. destruct (pair_dec x y); [contradiction|]. now apply list_byte_eqb_spec.
Qed.
Lemma leaf_clashb_false calls leaves : leaf_clashb calls leaves = false -> ~ leaf_clash node calls leaves.
Proof.
  intros H (x & Hx & Hi). apply not_true_iff_false in H. apply H. apply existsb_exists. exists x. split; [exact Hx|].
  apply existsb_exists. eexists. split; [exact Hi|]. now apply list_byte_eqb_spec.
Qed.
End Decide.
