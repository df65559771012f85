(** The memory and range-check constraints as statements about the columns read row by row. *)
From Coq Require Import List Arith NArith Bool Lia Permutation.
From Verif.Base Require Import Outcome Field Poly.
From Verif.Model Require Import Codec PublicInputs Trace Air CairoDecode CairoTrace CairoAir.
From Verif.Spec Require Import CairoSpec AirSpec CairoColumns.
From Verif.Proofs Require Import FieldFacts FFTFacts OutcomeFacts TraceFacts CpuFacts CairoAirFacts.
Import ListNotations.

Section SortedFacts.
Context {C : cairo_env} (HE : env_ok C).
Let HK : field_ok C := fft_field_ok _ (e_fft_ok _ HE).
Add Field Kfield33 : (fld_th C HK).
Local Open Scope felt_scope.

Lemma offset_le pi : (builtin_offset (C:=C) pi <= 9)%nat.
Proof using Type. unfold builtin_offset, BUILTIN_OFFSET. destruct (has_rc_builtin pi); lia. Qed.

Lemma flat_at (cols : list (list C)) base w i r : (r < w)%nat -> flat cols base w (w * i + r) = cell cols i (base + r).
Proof using Type.
  intro H. unfold flat. f_equal.
  - rewrite (Nat.mul_comm w i), Nat.div_add_l, (Nat.div_small r) by lia. lia.
  - rewrite (Nat.mul_comm w i), (Nat.add_comm (i * w)), Nat.mod_add, Nat.mod_small by lia. reflexivity.
Qed.
Lemma flat_next (cols : list (list C)) base w i : (0 < w)%nat -> flat cols base w (w * i + w) = cell cols (i + 1) base.
Proof using Type.
  intro H. replace (w * i + w)%nat with (w * (i + 1) + 0)%nat by lia. rewrite flat_at by lia. now rewrite Nat.add_0_r.
Qed.
Lemma quot_rem k w : (0 < w)%nat -> exists i r, (k = w * i + r)%nat /\ (r < w)%nat.
Proof using Type. intro H. exists (k / w)%nat, (k mod w)%nat. split; [apply Nat.div_mod; lia|apply Nat.mod_upper_bound; lia]. Qed.

Section Rows.
Context (pi : public_inputs C) (ch : cairo_challenges C) (cols : list (list C)) (n : nat).
Let a := sorted_addr pi cols. Let v := sorted_value pi cols. Let q := mem_product pi cols.
Let oa := access_addr cols. Let ov := access_value cols.
Let c := sorted_offset pi cols. Let g := rc_product pi cols. Let oc := offset_cell cols.

Lemma rest_zero i j : holds pi ch cols n (31 + j) -> (i < n - exempt (31 + j))%nat -> (j < 18)%nat ->
  nth j (rest_formulas pi ch (crow cols i) (crow cols ((i + 1) mod n))) 0 = 0.
Proof using Type. intros Ht Hi Hj. rewrite <- rest_constraint by exact Hj. now apply Ht. Qed.

Local Ltac row_eq Ht i j H :=
  let Hx := fresh "Hx" in
  assert (Hx := rest_zero i j); cbn [plus] in Hx; specialize (Hx (Ht (31 + j)%nat ltac:(lia)) ltac:(cbn [exempt existsb Nat.eqb orb]; cbv [exempt existsb Nat.eqb orb]; lia) ltac:(lia));
  unfold rest_formulas in Hx; cbn [nth] in Hx; rewrite !crow_nth in Hx;
  rename Hx into H.

Lemma sub_shift b k : (9 <= b)%nat -> (b + k - builtin_offset pi = b - builtin_offset pi + k)%nat.
Proof using Type. pose proof (offset_le pi). lia. Qed.

Lemma memory_step k : (forall j, (31 <= j < 39)%nat -> holds pi ch cols n j) -> (k + 1 < 4 * n)%nat ->
  (a k - a (k + 1)%nat) * (a (k + 1)%nat - a k - 1) = 0 /\ (v k - v (k + 1)%nat) * (a (k + 1)%nat - a k - 1) = 0.
Proof using Type.
  intros Ht Hk. destruct (quot_rem k 4 ltac:(lia)) as (i & r & -> & Hr).
  unfold a, v, sorted_addr, sorted_value, MEMORY_ADDR_SORTED_0, MEMORY_VALUES_SORTED_0.
  destruct r as [|[|[|[|r]]]]; [| | | |lia].
  - rewrite <- !Nat.add_assoc. cbn [Nat.add]. rewrite !flat_at by lia.
    split; [row_eq Ht i 0%nat H|row_eq Ht i 4%nat H]; rewrite !sub_shift in H by lia; exact H.
  - rewrite <- !Nat.add_assoc. cbn [Nat.add]. rewrite !flat_at by lia.
    split; [row_eq Ht i 1%nat H|row_eq Ht i 5%nat H]; rewrite !sub_shift in H by lia; exact H.
  - rewrite <- !Nat.add_assoc. cbn [Nat.add]. rewrite !flat_at by lia.
    split; [row_eq Ht i 2%nat H|row_eq Ht i 6%nat H]; rewrite !sub_shift in H by lia; exact H.
  - rewrite <- !Nat.add_assoc. cbn [Nat.add]. rewrite !flat_next, !flat_at by lia.
    split; [row_eq Ht i 3%nat H|row_eq Ht i 7%nat H]; rewrite !sub_shift in H by lia; rewrite !Nat.add_0_r in H; rewrite (Nat.mod_small (i + 1) n) in H by lia; exact H.
Qed.

Let z := z_memory ch. Let al := alpha_memory ch. Let zr := z_range_check ch.
Lemma memory_product_step k : (forall j, (39 <= j < 43)%nat -> holds pi ch cols n j) -> (k + 1 < 4 * n)%nat ->
  (z - (a (k + 1)%nat + al * v (k + 1)%nat)) * q (k + 1)%nat - (z - (oa (k + 1)%nat + al * ov (k + 1)%nat)) * q k = 0.
Proof using Type.
  intros Ht Hk. destruct (quot_rem k 4 ltac:(lia)) as (i & r & -> & Hr).
  unfold a, v, q, oa, ov, z, al, sorted_addr, sorted_value, mem_product, access_addr, access_value, MEMORY_ADDR_SORTED_0, MEMORY_VALUES_SORTED_0, PERMUTATION_ARGUMENT_COL_0, FRAME_PC, FRAME_INST.
  destruct r as [|[|[|[|r]]]]; [| | | |lia]; rewrite <- !Nat.add_assoc; cbn [Nat.add]; rewrite ?flat_next, ?flat_at by lia; cbn [Nat.add].
  - row_eq Ht i 8%nat H; rewrite !sub_shift in H by lia; exact H.
  - row_eq Ht i 9%nat H; rewrite !sub_shift in H by lia; exact H.
  - row_eq Ht i 10%nat H; rewrite !sub_shift in H by lia; exact H.
  - row_eq Ht i 11%nat H; rewrite !sub_shift in H by lia; rewrite !Nat.add_0_r in H; rewrite (Nat.mod_small (i + 1) n) in H by lia; exact H.
Qed.

Lemma offset_step k : (forall j, (43 <= j < 46)%nat -> holds pi ch cols n j) -> (k + 1 < 3 * n)%nat -> (c k - c (k + 1)%nat) * (c (k + 1)%nat - c k - 1) = 0.
Proof using Type.
  intros Ht Hk. destruct (quot_rem k 3 ltac:(lia)) as (i & r & -> & Hr).
  unfold c, sorted_offset, RANGE_CHECK_COL_1.
  destruct r as [|[|[|r]]]; [| | |lia]; rewrite <- !Nat.add_assoc; cbn [Nat.add]; rewrite ?flat_next, ?flat_at by lia; cbn [Nat.add].
  - row_eq Ht i 12%nat H; rewrite !sub_shift in H by lia; exact H.
  - row_eq Ht i 13%nat H; rewrite !sub_shift in H by lia; exact H.
  - row_eq Ht i 14%nat H; rewrite !sub_shift in H by lia; rewrite !Nat.add_0_r in H; rewrite (Nat.mod_small (i + 1) n) in H by lia; exact H.
Qed.

Lemma offset_product_step k : (forall j, (46 <= j < 49)%nat -> holds pi ch cols n j) -> (k < 3 * n)%nat ->
  (zr - c ((k + 1) mod (3 * n))%nat) * g ((k + 1) mod (3 * n))%nat - (zr - oc ((k + 1) mod (3 * n))%nat) * g k = 0.
Proof using Type.
  intros Ht Hk. destruct (quot_rem k 3 ltac:(lia)) as (i & r & -> & Hr).
  unfold c, g, oc, zr, sorted_offset, rc_product, offset_cell, RANGE_CHECK_COL_1, PERMUTATION_ARGUMENT_RANGE_CHECK_COL_1, OFF_DST.
  destruct r as [|[|[|r]]]; [| | |lia]; rewrite <- !Nat.add_assoc; cbn [Nat.add].
  - rewrite Nat.mod_small by lia. rewrite ?flat_at by lia. cbn [Nat.add].
    row_eq Ht i 15%nat H; rewrite !sub_shift in H by lia; exact H.
  - rewrite Nat.mod_small by lia. rewrite ?flat_at by lia. cbn [Nat.add].
    row_eq Ht i 16%nat H; rewrite !sub_shift in H by lia; exact H.
  - replace ((3 * i + 3) mod (3 * n))%nat with (3 * ((i + 1) mod n) + 0)%nat
      by (rewrite Nat.add_0_r, <- Nat.mul_mod_distr_l by lia; f_equal; lia).
    rewrite !flat_at by lia. rewrite !Nat.add_0_r. row_eq Ht i 17%nat H. rewrite !sub_shift in H by lia; rewrite !Nat.add_0_r in H. exact H.
Qed.
End Rows.
End SortedFacts.

(** ** Building columns *)
Section Build.
Context {C : cairo_env}.
Local Open Scope felt_scope.

(** The [w] columns of [n] rows whose entries, row by row, are [f 0], [f 1], ... *)
Definition unflat (n w : nat) (f : nat -> C) : list (list C) :=
  map (fun j => map (fun i => f (w * i + j)%nat) (seq 0 n)) (seq 0 w).
Lemma unflat_length n w f : length (unflat n w f) = w.
Proof. unfold unflat. now rewrite map_length, seq_length. Qed.
Lemma unflat_rows n w f c : In c (unflat n w f) -> length c = n.
Proof. unfold unflat. intro H. apply in_map_iff in H. destruct H as (j & <- & _). now rewrite map_length, seq_length. Qed.
Lemma unflat_cell n w f i j : (i < n)%nat -> (j < w)%nat -> cell (unflat n w f) i j = f (w * i + j)%nat.
Proof.
  intros Hi Hj. unfold cell, unflat. rewrite (nth_map_seq (fun j => map (fun i => f (w * i + j)%nat) (seq 0 n))) by exact Hj.
  now rewrite (nth_map_seq (fun i => f (w * i + j)%nat)) by exact Hi.
Qed.
Lemma cell_app_l (a b : list (list C)) i j : (j < length a)%nat -> cell (a ++ b) i j = cell a i j.
Proof. intro H. unfold cell. now rewrite app_nth1. Qed.
Lemma cell_app_r (a b : list (list C)) i j : cell (a ++ b) i (length a + j) = cell b i j.
Proof. unfold cell. rewrite app_nth2 by lia. do 2 f_equal. lia. Qed.
Lemma flat_unflat (a b : list (list C)) n w f k : (k < w * n)%nat -> flat (a ++ unflat n w f ++ b) (length a) w k = f k.
Proof.
  intro Hk. assert (Hw : w <> 0%nat) by lia. unfold flat. rewrite cell_app_r, cell_app_l
    by (rewrite unflat_length; apply Nat.mod_upper_bound; lia).
  rewrite unflat_cell; [|apply Nat.div_lt_upper_bound; lia|apply Nat.mod_upper_bound; lia].
  f_equal. symmetry. now apply Nat.div_mod.
Qed.

(** Overwriting the [w] columns from [base] on. *)
Definition overwrite (cols : list (list C)) (base n w : nat) (f : nat -> C) : list (list C) :=
  firstn base cols ++ unflat n w f ++ skipn (base + w) cols.
Lemma overwrite_length cols base n w f : (base + w <= length cols)%nat -> length (overwrite cols base n w f) = length cols.
Proof. intro H. unfold overwrite. rewrite !app_length, firstn_length, skipn_length, unflat_length. lia. Qed.
Lemma overwrite_other cols base n w f j : (base + w <= length cols)%nat -> (j < base \/ base + w <= j)%nat ->
  nth j (overwrite cols base n w f) [] = nth j cols [].
Proof.
  intros Hl [H|H]; unfold overwrite.
  - rewrite app_nth1 by (rewrite firstn_length; lia). rewrite <- (firstn_skipn base cols) at 2. rewrite app_nth1; [reflexivity|].
    rewrite firstn_length. lia.
  - rewrite app_nth2 by (rewrite firstn_length; lia). rewrite app_nth2 by (rewrite firstn_length, unflat_length; lia).
    rewrite firstn_length, unflat_length. rewrite Nat.min_l by lia.
    transitivity (nth (j - (base + w)) (skipn (base + w) cols) []); [f_equal; lia|].
    rewrite <- (firstn_skipn (base + w) cols) at 2. rewrite app_nth2 by (rewrite firstn_length; lia).
    f_equal. rewrite firstn_length. lia.
Qed.
Lemma overwrite_flat cols base n w f k : (base + w <= length cols)%nat -> (k < w * n)%nat ->
  flat (overwrite cols base n w f) base w k = f k.
Proof.
  intros Hl Hk. unfold overwrite. replace base with (length (firstn base cols)) at 3 by (rewrite firstn_length; lia).
  now apply flat_unflat.
Qed.
Lemma overwrite_rows cols base n w f : (forall c, In c cols -> length c = n) ->
  forall c, In c (overwrite cols base n w f) -> length c = n.
Proof.
  intros H c Hc. unfold overwrite in Hc. apply in_app_or in Hc. destruct Hc as [Hc|Hc].
  - apply H. rewrite <- (firstn_skipn base cols). apply in_or_app. now left.
  - apply in_app_or in Hc. destruct Hc as [Hc|Hc]; [now apply unflat_rows in Hc|].
    apply H. rewrite <- (firstn_skipn (base + w) cols). apply in_or_app. now right.
Qed.
Lemma flat_other (cols cols' : list (list C)) base w k : (0 < w)%nat ->
  (forall j, (base <= j < base + w)%nat -> nth j cols' [] = nth j cols []) -> flat cols' base w k = flat cols base w k.
Proof. intros Hw H. unfold flat, cell. pose proof (Nat.mod_upper_bound k w). rewrite H by lia. reflexivity. Qed.
End Build.

(** ** The constraints from their meaning *)
Section Converse.
Context {C : cairo_env}.
Local Open Scope felt_scope.
Context (pi : public_inputs C) (ch : cairo_challenges C) (cols : list (list C)) (n : nat).

Lemma holds_rest j : (j < 18)%nat ->
  (forall i, (i < n - exempt (31 + j))%nat -> nth j (rest_formulas pi ch (crow cols i) (crow cols ((i + 1) mod n))) 0 = 0) ->
  holds pi ch cols n (31 + j).
Proof. intros Hj H i Hi. rewrite rest_constraint by exact Hj. now apply H. Qed.

Local Ltac holds_eq j k Hx := 
  apply (holds_rest j); [lia|]; intros i Hi;
  let e := eval vm_compute in (exempt (31 + j)) in change (exempt (31 + j)) with e in Hi;
  unfold rest_formulas; cbn [nth]; rewrite !crow_nth, !sub_shift by lia.

Let a := sorted_addr pi cols. Let v := sorted_value pi cols. Let q := mem_product pi cols.
Let oa := access_addr cols. Let ov := access_value cols.
Let c := sorted_offset pi cols. Let g := rc_product pi cols. Let oc := offset_cell cols.
Let z := z_memory ch. Let al := alpha_memory ch. Let zr := z_range_check ch.

Lemma steps_memory :
  (forall k, (k + 1 < 4 * n)%nat -> (a k - a (k + 1)%nat) * (a (k + 1)%nat - a k - 1) = 0) ->
  (forall k, (k + 1 < 4 * n)%nat -> (v k - v (k + 1)%nat) * (a (k + 1)%nat - a k - 1) = 0) ->
  forall j, (31 <= j < 39)%nat -> holds pi ch cols n j.
Proof.
  unfold a, v, sorted_addr, sorted_value, MEMORY_ADDR_SORTED_0, MEMORY_VALUES_SORTED_0. intros H1 H2 j Hj.
  replace j with (31 + (j - 31))%nat by lia. remember (j - 31)%nat as j' eqn:Ej.
  assert (Hj' : (j' < 8)%nat) by lia. clear Ej Hj j.
  destruct j' as [|[|[|[|[|[|[|[|j']]]]]]]]; [| | | | | | | |lia].
  1-4: pose proof H1 as H. 5-8: pose proof H2 as H.
  1: holds_eq 0%nat 0%nat H; specialize (H (4 * i + 0)%nat ltac:(lia)).
  2: holds_eq 1%nat 0%nat H; specialize (H (4 * i + 1)%nat ltac:(lia)).
  3: holds_eq 2%nat 0%nat H; specialize (H (4 * i + 2)%nat ltac:(lia)).
  4: holds_eq 3%nat 0%nat H; specialize (H (4 * i + 3)%nat ltac:(lia)).
  5: holds_eq 4%nat 0%nat H; specialize (H (4 * i + 0)%nat ltac:(lia)).
  6: holds_eq 5%nat 0%nat H; specialize (H (4 * i + 1)%nat ltac:(lia)).
  7: holds_eq 6%nat 0%nat H; specialize (H (4 * i + 2)%nat ltac:(lia)).
  8: holds_eq 7%nat 0%nat H; specialize (H (4 * i + 3)%nat ltac:(lia)).
  all: rewrite <- !Nat.add_assoc in H; cbn [Nat.add] in H; rewrite ?flat_next, ?flat_at in H by lia.
  all: rewrite ?(Nat.mod_small (i + 1) n) by lia; rewrite ?Nat.add_0_r in *; exact H.
Qed.

Lemma steps_product :
  (forall k, (k + 1 < 4 * n)%nat ->
     (z - (a (k + 1)%nat + al * v (k + 1)%nat)) * q (k + 1)%nat - (z - (oa (k + 1)%nat + al * ov (k + 1)%nat)) * q k = 0) ->
  forall j, (39 <= j < 43)%nat -> holds pi ch cols n j.
Proof.
  unfold a, v, q, oa, ov, z, al, sorted_addr, sorted_value, mem_product, access_addr, access_value, MEMORY_ADDR_SORTED_0,
    MEMORY_VALUES_SORTED_0, PERMUTATION_ARGUMENT_COL_0, FRAME_PC, FRAME_INST. intros H j Hj.
  replace j with (31 + (j - 31))%nat by lia. remember (j - 39)%nat as j' eqn:Ej.
  replace (j - 31)%nat with (8 + j')%nat by lia. assert (Hj' : (j' < 4)%nat) by lia. clear Ej Hj j.
  destruct j' as [|[|[|[|j']]]]; [| | | |lia]; cbn [Nat.add].
  1: holds_eq 8%nat 0%nat H; specialize (H (4 * i + 0)%nat ltac:(lia)).
  2: holds_eq 9%nat 0%nat H; specialize (H (4 * i + 1)%nat ltac:(lia)).
  3: holds_eq 10%nat 0%nat H; specialize (H (4 * i + 2)%nat ltac:(lia)).
  4: holds_eq 11%nat 0%nat H; specialize (H (4 * i + 3)%nat ltac:(lia)).
  all: rewrite <- !Nat.add_assoc in H; cbn [Nat.add] in H; rewrite ?flat_next, ?flat_at in H by lia; cbn [Nat.add] in H.
  all: rewrite ?(Nat.mod_small (i + 1) n) by lia; rewrite ?Nat.add_0_r in *; exact H.
Qed.

Lemma steps_offset :
  (forall k, (k + 1 < 3 * n)%nat -> (c k - c (k + 1)%nat) * (c (k + 1)%nat - c k - 1) = 0) ->
  forall j, (43 <= j < 46)%nat -> holds pi ch cols n j.
Proof.
  unfold c, sorted_offset, RANGE_CHECK_COL_1. intros H j Hj.
  replace j with (31 + (j - 31))%nat by lia. remember (j - 43)%nat as j' eqn:Ej.
  replace (j - 31)%nat with (12 + j')%nat by lia. assert (Hj' : (j' < 3)%nat) by lia. clear Ej Hj j.
  destruct j' as [|[|[|j']]]; [| | |lia]; cbn [Nat.add].
  1: holds_eq 12%nat 0%nat H; specialize (H (3 * i + 0)%nat ltac:(lia)).
  2: holds_eq 13%nat 0%nat H; specialize (H (3 * i + 1)%nat ltac:(lia)).
  3: holds_eq 14%nat 0%nat H; specialize (H (3 * i + 2)%nat ltac:(lia)).
  all: rewrite <- !Nat.add_assoc in H; cbn [Nat.add] in H; rewrite ?flat_next, ?flat_at in H by lia; cbn [Nat.add] in H.
  all: rewrite ?(Nat.mod_small (i + 1) n) by lia; rewrite ?Nat.add_0_r in *; exact H.
Qed.

Lemma steps_offset_product :
  (forall k, (k < 3 * n)%nat ->
    (zr - c ((k + 1) mod (3 * n))%nat) * g ((k + 1) mod (3 * n))%nat - (zr - oc ((k + 1) mod (3 * n))%nat) * g k = 0) ->
  forall j, (46 <= j < 49)%nat -> holds pi ch cols n j.
Proof.
  unfold c, g, oc, zr, sorted_offset, rc_product, offset_cell, RANGE_CHECK_COL_1, PERMUTATION_ARGUMENT_RANGE_CHECK_COL_1, OFF_DST.
  intros H j Hj.
  replace j with (31 + (j - 31))%nat by lia. remember (j - 46)%nat as j' eqn:Ej.
  replace (j - 31)%nat with (15 + j')%nat by lia. assert (Hj' : (j' < 3)%nat) by lia. clear Ej Hj j.
  destruct j' as [|[|[|j']]]; [| | |lia]; cbn [Nat.add].
  1: holds_eq 15%nat 0%nat H; specialize (H (3 * i + 0)%nat ltac:(lia)); rewrite Nat.mod_small in H by lia.
  2: holds_eq 16%nat 0%nat H; specialize (H (3 * i + 1)%nat ltac:(lia)); rewrite Nat.mod_small in H by lia.
  3: holds_eq 17%nat 0%nat H; specialize (H (3 * i + 2)%nat ltac:(lia));
     replace ((3 * i + 2 + 1) mod (3 * n))%nat with (3 * ((i + 1) mod n) + 0)%nat in H
      by (rewrite Nat.add_0_r, <- Nat.mul_mod_distr_l by lia; f_equal; lia).
  all: rewrite <- ?Nat.add_assoc in H; cbn [Nat.add] in H; rewrite ?flat_at in H by lia; cbn [Nat.add] in H.
  all: rewrite ?Nat.add_0_r in *; exact H.
Qed.
End Converse.
