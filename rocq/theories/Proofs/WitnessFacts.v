(** Interpolation, and what equal roots say about the committed rows. *)
From Coq Require Import List Arith NArith Lia Field Bool.
From Verif.Base Require Import Outcome Bytes Field Poly.
From Verif.Model Require Import Codec Trace Merkle Air Transcript Domain Verifier.
From Verif.Spec Require Import AirSpec HashSpec OodSpec Rounds Openings Witness.
From Verif.Proofs Require Import OutcomeFacts FieldFacts PolyFacts FFTFacts TraceFacts MerkleFacts DomainFacts.
Import ListNotations.
Local Open Scope felt_scope.

Section Interpolation.
Context {K : field_ops} (HK : field_ok K).
Add Field Kfield78 : (fld_th K HK).

Lemma zero_poly_length (l : list K) : (length (zero_poly l) <= S (length l))%nat.
Proof using HK.
  induction l as [|a l IH]; [cbn; lia|]. cbn [zero_poly length]. change (S (S (length l))) with (S (1 + length l)).
  apply pmul_raw_length_le; [cbn; lia|exact IH].
Qed.

Lemma zero_poly_eval (l : list K) x : peval (zero_poly l) x = vanish l x.
Proof using HK.
  induction l as [|a l IH]; [cbn; ring|]. cbn [zero_poly]. rewrite (peval_pmul_raw HK), IH. unfold vanish. cbn [map fprod fold_right peval]. unfold fprod. ring.
Qed.

Lemma vanish_in (l : list K) x : In x l -> vanish l x = 0.
Proof using HK.
  unfold vanish. induction l as [|a l IH]; [intros []|]. intros [->|H]; cbn [map fprod fold_right]; [ring|].
  unfold fprod in IH. rewrite (IH H). ring.
Qed.

Lemma vanish_out (l : list K) x : ~ In x l -> vanish l x <> 0.
Proof using HK.
  unfold vanish. induction l as [|a l IH]; intros H; cbn [map fprod fold_right]; [exact (one_neq_zero HK)|].
  intro C. apply (mul_zero HK) in C. destruct C as [C|C]; [apply (proj1 (sub_zero HK _ _)) in C; subst; destruct (H (or_introl eq_refl))|]. apply IH; [|exact C]. intro; apply H; now right.
Qed.

Lemma through_length (pts : list (K * K)) : (length (through pts) <= length pts)%nat.
Proof using HK.
  induction pts as [|[x y] r IH]; [cbn; lia|]. cbn [through length]. rewrite padd_raw_length, pscale_raw_length.
  pose proof (zero_poly_length (map fst r)) as Z. rewrite map_length in Z. lia.
Qed.

Lemma through_points (pts : list (K * K)) : NoDup (map fst pts) -> forall x y, In (x, y) pts -> peval (through pts) x = y.
Proof using HK.
  induction pts as [|[x0 y0] r IH]; intros Hn x y Hin; [destruct Hin|]. cbn [map fst] in Hn. apply NoDup_cons_iff in Hn. destruct Hn as [N1 N2].
  cbn [through]. rewrite (peval_padd_raw HK), (peval_pscale_raw HK), !zero_poly_eval. destruct Hin as [Q|Hin].
  - injection Q as -> ->. pose proof (vanish_out _ _ N1). field. exact H.
  - rewrite (IH N2 x y Hin), (vanish_in (map fst r) x); [ring|]. exact (in_map fst _ _ Hin).
Qed.

Lemma distinct_incl (pts : list (K * K)) q : In q (distinct pts) -> In q pts.
Proof using Type.
  induction pts as [|[x y] r IH]; [tauto|]. cbn [distinct]. destruct (existsb _ r); [intro H; right; now apply IH|intros [H|H]; [now left|right; now apply IH]].
Qed.
Lemma distinct_fst (pts : list (K * K)) x : In x (map fst pts) -> In x (map fst (distinct pts)).
Proof using HK.
  induction pts as [|[x0 y] r IH]; [tauto|]. cbn [distinct map fst]. intros [->|H].
  - destruct (existsb _ r) eqn:Q; [|now left]. apply existsb_exists in Q. destruct Q as (q & Q1 & Q2). apply (feqb_spec K HK) in Q2. apply IH. rewrite <- Q2. now apply in_map.
  - destruct (existsb _ r); [now apply IH|right; now apply IH].
Qed.
Lemma distinct_nodup (pts : list (K * K)) : NoDup (map fst (distinct pts)).
Proof using HK.
  induction pts as [|[x y] r IH]; [constructor|]. cbn [distinct]. destruct (existsb _ r) eqn:Q; [exact IH|]. cbn [map fst]. constructor; [|exact IH].
  intro C. apply in_map_iff in C. destruct C as (q & Q1 & Q2). apply distinct_incl in Q2. enough (existsb (fun q => feqb (fst q) x) r = true) by congruence.
  apply existsb_exists. exists q. split; [exact Q2|]. apply (feqb_spec K HK). exact Q1.
Qed.

(** Points of a polynomial of which enough are different determine its values. *)
Lemma through_exact (pts : list (K * K)) (q : poly K) n (xs : list K) x :
  (forall y, In y pts -> snd y = peval q (fst y)) -> (length q <= n)%nat -> NoDup xs -> (n <= length xs)%nat -> incl xs (map fst pts) ->
  peval (through (distinct pts)) x = peval q x.
Proof using HK.
  intros Hq Hl Hx Hn Hi. set (ds := distinct pts).
  assert (L : (length xs <= length ds)%nat).
  { rewrite <- (map_length fst ds). apply NoDup_incl_length; [exact Hx|]. intros y Hy. apply distinct_fst. exact (Hi y Hy). }
  apply (agree_eval HK (map fst ds)).
  - apply distinct_nodup.
  - intros y Hy. apply in_map_iff in Hy. destruct Hy as ((u & v) & <- & Hy). cbn [fst].
    rewrite (through_points ds (distinct_nodup pts) u v Hy). exact (Hq (u, v) (distinct_incl _ _ Hy)).
  - rewrite map_length. apply through_length.
  - rewrite map_length. lia.
Qed.
End Interpolation.

Section Roots.
Context (node : commitment -> commitment -> commitment) (calls : list (commitment * commitment)) (Hnode : ~ node_clash node calls).

Lemma pair_up_inj k : forall l l', length l = (2 * k)%nat -> length l' = (2 * k)%nat -> incl (level_calls l) calls -> incl (level_calls l') calls ->
  pair_up node l = pair_up node l' -> l = l'.
Proof using Hnode.
  induction k as [|k IH]; intros l l' Hl Hl' I I' H.
  - destruct l; [|discriminate Hl]. destruct l'; [reflexivity|discriminate Hl'].
  - destruct l as [|a [|b l]]; [discriminate Hl|cbn in Hl; lia|]. destruct l' as [|a' [|b' l']]; [discriminate Hl'|cbn in Hl'; lia|].
    cbn [pair_up] in H. injection H as H1 H2. cbn [level_calls] in I, I'.
    assert (Q : (a, b) = (a', b')).
    { destruct (list_eq_dec Byte.byte_eq_dec a a') as [->|Na]; [destruct (list_eq_dec Byte.byte_eq_dec b b') as [->|Nb]; [reflexivity|]|];
        exfalso; apply Hnode; eexists (_, b), (_, b'); (split; [apply I; now left|]; split; [apply I'; now left|]; split; [congruence|exact H1]). }
    injection Q as -> ->. f_equal. f_equal.
    apply IH; [cbn in Hl; lia|cbn in Hl'; lia| | |exact H2]; intros x Hx; [apply I|apply I']; now right.
Qed.

Lemma mt_root_inj m : forall l l', length l = (2 ^ m)%nat -> length l' = (2 ^ m)%nat -> incl (tree_calls node m l) calls -> incl (tree_calls node m l') calls ->
  mt_root node m l = mt_root node m l' -> l = l'.
Proof using Hnode.
  induction m as [|m IH]; intros l l' Hl Hl' I I' H.
  - destruct l as [|a [|]]; try discriminate Hl. destruct l' as [|a' [|]]; try discriminate Hl'. cbn in H. now subst.
  - cbn [mt_root] in H. cbn [Nat.pow] in Hl, Hl'. cbn [tree_calls] in I, I'. apply incl_app_inv in I, I'. destruct I as [I1 I2], I' as [I1' I2'].
    apply (pair_up_inj (2 ^ m)); [lia|lia|exact I1|exact I1'|]. apply IH; [apply pair_up_length; lia|apply pair_up_length; lia|exact I2|exact I2'|exact H].
Qed.
End Roots.
