(** C30 and C48, continued: the tables made from boundary constraints, and the padding of Merkle trees. *)
From Coq Require Import List Arith Lia Bool ZArith.
From Verif.Base Require Import Outcome Bytes Field Poly Zp.
From Verif.Model Require Import Codec Trace Merkle Air.
From Verif.Proofs Require Import OutcomeFacts FieldFacts MerkleFacts.
From Verif.Examples Require Import Toy.
Import ListNotations.
Local Open Scope felt_scope.

Lemma nth_repeat_lt {A} (x d : A) m : forall i, (i < m)%nat -> nth i (repeat x m) d = x.
Proof. induction m as [|m IH]; intros [|i] H; cbn; try lia; [reflexivity|]. apply IH. lia. Qed.
Lemma uniq_from_spec l : forall seen, NoDup (uniq_from seen l) /\ forall x, In x (uniq_from seen l) <-> In x l /\ ~ In x seen.
Proof.
  induction l as [|y l IH]; intro seen; cbn [uniq_from]; [split; [constructor|intro x; cbn; tauto]|].
  destruct (existsb (Nat.eqb y) seen) eqn:Hy.
  - apply existsb_exists in Hy. destruct Hy as (z & Hz & Q). apply Nat.eqb_eq in Q. subst z. destruct (IH seen) as [N I].
    split; [exact N|]. intro x. rewrite I. cbn. split; [tauto|]. intros [[->|H] H']; tauto.
  - assert (Hs : ~ In y seen).
    { intro H. rewrite (proj2 (existsb_exists _ _)) in Hy; [discriminate|]. exists y. split; [exact H|apply Nat.eqb_refl]. }
    destruct (IH (y :: seen)) as [N I]. split.
    + constructor; [|exact N]. rewrite I. cbn. tauto.
    + intro x. cbn. rewrite I. cbn. destruct (Nat.eq_dec y x) as [->|H]; tauto.
Qed.

(** The steps and the columns with boundary constraints, each once. *)
Theorem C30_steps_and_columns :
  forall (K : field_ops) (bcs : list (boundary_constraint K)),
    (NoDup (bc_steps_for_boundary bcs) /\ forall s, In s (bc_steps_for_boundary bcs) <-> exists bc, In bc bcs /\ bc_step bc = s) /\
    (NoDup (bc_cols_for_boundary bcs) /\ forall c, In c (bc_cols_for_boundary bcs) <-> exists bc, In bc bcs /\ bc_col bc = c).
Proof.
  intros K bcs.
  assert (G : forall f : boundary_constraint K -> nat, NoDup (uniq (map f bcs)) /\ forall s, In s (uniq (map f bcs)) <-> exists bc, In bc bcs /\ f bc = s).
  { intro f. destruct (uniq_from_spec (map f bcs) []) as [N I]. split; [exact N|]. intro s. unfold uniq. rewrite I, in_map_iff. split.
    - intros [(bc & H1 & H2) _]. eauto.
    - intros (bc & H1 & H2). split; [eauto|intros []]. }
  split; apply G.
Qed.
Print Assumptions C30_steps_and_columns.

(** The points and values to interpolate belong together: for every list of columns, a family of polynomials meets the boundary
    constraints on these columns exactly when its values at the generated points are the listed values. *)
Theorem C30_points_and_values :
  forall (K : field_ops) (bcs : list (boundary_constraint K)) (g : K) cols (ps : nat -> poly K),
    map (length (A := K)) (bc_roots_of_unity bcs g cols) = map (length (A := K)) (bc_values bcs cols) /\
    (map (fun '(c, xs) => map (peval (ps c)) xs) (combine cols (bc_roots_of_unity bcs g cols)) = bc_values bcs cols <->
     forall bc, In bc bcs -> In (bc_col bc) cols -> peval (ps (bc_col bc)) (fpow g (bc_step bc)) = bc_value bc).
Proof.
  intros K bcs g cols ps. unfold bc_roots_of_unity, bc_values, bc_steps. split.
  - rewrite !map_map. apply map_ext. intro c. now rewrite !map_length.
  - induction cols as [|c cols IH]; [cbn; tauto|]. cbn [map combine].
    assert (One : forall l : list (boundary_constraint K),
      map (peval (ps c)) (map (fun s => fpow g s) (map bc_step (filter (fun b => bc_col b =? c) l))) = map bc_value (filter (fun b => bc_col b =? c) l) <->
      forall bc, In bc l -> bc_col bc = c -> peval (ps c) (fpow g (bc_step bc)) = bc_value bc).
    { induction l as [|b l IHl]; [cbn; split; [intros _ ? []|reflexivity]|]. cbn [filter]. destruct (Nat.eqb_spec (bc_col b) c) as [Hb|Hb].
      - cbn [map]. split.
        + intro H. injection H as H1 H2. intros bc [<-|Hin] Hc; [exact H1|]. now apply IHl.
        + intro H. f_equal; [apply H; [now left|exact Hb]|]. apply IHl. intros bc Hin. apply H. now right.
      - rewrite IHl. split; intros H bc.
        + intros [<-|Hin] Hc; [contradiction|now apply H].
        + intros Hin. apply H. now right. }
    split.
    + intro H. injection H as H1 H2. intros bc Hin [Q|Hc]; [|now apply IH]. rewrite <- Q. exact (proj1 (One bcs) H1 bc Hin (eq_sym Q)).
    + intro H. f_equal; [apply (proj2 (One bcs)); intros bc Hin Hc; rewrite <- Hc; apply H; [exact Hin|left; now symmetry]|].
      apply IH. intros bc Hin Hc. apply H; [exact Hin|now right].
Qed.
Print Assumptions C30_points_and_values.

Example C30_tables_example : let bcs := [mk_bc 0 1 (f97 3); mk_bc 1 2 (f97 5); mk_bc 0 3 (f97 4)]%nat in
  map (map (@zval 97)) (bc_roots_of_unity (K := toy) bcs (f97 22) [0; 1]%nat) = [[22; 75]; [96]]%Z /\
  map (map (@zval 97)) (bc_values (K := toy) bcs [0; 1]%nat) = [[3; 4]; [5]]%Z.
Proof. split; vm_compute; reflexivity. Qed.

(** ** C48 *)

(** A tree over any number of leaves can be opened at every position below the next power of two, and the positions
    behind the leaves open the last of them. *)
Theorem C48_padding_repeats_the_last_leaf :
  forall node leaves tree pos, merkle_build leaves = Ok tree -> (length leaves <= pos < next_pow2 (length leaves))%nat ->
    exists path, tree_path node tree pos = Some path /\ path_verify node path (tree_root node tree) pos (last leaves []) = true.
Proof.
  intros node leaves tree pos Hb Hpos. pose proof (tree_depth_pow2 leaves tree Hb) as Hd. assert (Ht : tree = mk_tree (complete_pow2 leaves)).
  { destruct leaves; [discriminate|]. unfold merkle_build in Hb. apply ok_inj in Hb. now symmetry. }
  subst tree. cbn [tree_leaves] in Hd. pose proof (complete_pow2_length leaves) as Hl.
  exists (mt_path node (tree_depth (mk_tree (complete_pow2 leaves))) (complete_pow2 leaves) pos). split.
  - unfold tree_path. cbn [tree_leaves]. rewrite Hl. now rewrite (proj2 (Nat.ltb_lt _ _) (proj2 Hpos)).
  - assert (Hn : nth pos (complete_pow2 leaves) [] = last leaves []).
    { unfold complete_pow2. rewrite app_nth2 by lia. apply nth_repeat_lt. lia. }
    rewrite <- Hn. apply honest_opening_verifies; [exact Hd|rewrite <- Hd; lia|]. apply Nat.mod_small. rewrite <- Hd. lia.
Qed.
Print Assumptions C48_padding_repeats_the_last_leaf.

(** Three leaves: the fourth position opens the third leaf. *)
Example C48_padding_example :
  let leaves := [[Byte.x01]; [Byte.x02]; [Byte.x03]] in
  (length leaves <= 3 < next_pow2 (length leaves))%nat /\
  match merkle_build leaves with
  | Ok tree => option_map (fun path => (path_verify (e_node toy) path (tree_root (e_node toy) tree) 3 [Byte.x03],
      path_verify (e_node toy) path (tree_root (e_node toy) tree) 3 [Byte.x01])) (tree_path (e_node toy) tree 3) = Some (true, false)
  | _ => False
  end.
Proof. split; [cbn; lia|]. vm_compute. reflexivity. Qed.
