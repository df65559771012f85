(** Fermat's little theorem in the field of a Cairo environment, and cosets without squares. *)
From Coq Require Import List Arith NArith ZArith Lia Permutation.
From Verif.Base Require Import Outcome Field Poly.
From Verif.Model Require Import Codec Trace Air PublicInputs CairoDecode CairoTrace.
From Verif.Spec Require Import CairoSpec.
From Verif.Proofs Require Import FieldFacts PolyFacts FFTFacts DecodeFacts RunnerFacts.
Import ListNotations.
Local Open Scope felt_scope.

Section Fermat.
Context {C : cairo_env} {p : N} (HC : cairo_ok C p).
Let HK : field_ok C := fft_field_ok _ (e_fft_ok _ (co_env _ _ HC)).
Add Field Kfield46 : (fld_th C HK).

Definition units : list C := map (e_u64 C) (nrange 1 p).
Lemma units_length : length units = (N.to_nat p - 1)%nat.
Proof using Type. unfold units. rewrite map_length, nrange_length. lia. Qed.
Lemma units_in x : In x units <-> x <> 0.
Proof using HC.
  unfold units. rewrite in_map_iff. split.
  - intros (n & <- & Hn) E. apply nrange_in in Hn. rewrite <- (co_zero _ _ HC) in E. apply (u64_inj HC) in E; lia.
  - intro Hx. exists (ce_repr x). split; [apply (co_u64_repr _ _ HC)|]. apply nrange_in. pose proof (co_repr_lt _ _ HC x).
    destruct (N.eq_dec (ce_repr x) 0) as [E|E]; [|lia]. exfalso. apply Hx. rewrite <- (co_u64_repr _ _ HC x), E. apply (co_zero _ _ HC).
Qed.
Lemma units_nodup : NoDup units.
Proof using HC.
  unfold units. assert (H : forall l, (forall n, In n l -> (n < p)%N) -> NoDup l -> NoDup (map (e_u64 C) l)).
  { induction l as [|n l IH]; intros Hl Hd; [constructor|]. inversion Hd as [|? ? H1 H2]; subst. cbn [map]. constructor.
    - intro Hin. apply in_map_iff in Hin. destruct Hin as (k & Ek & Hk). apply (u64_inj HC) in Ek; [subst; contradiction| |]; apply Hl; cbn [In]; auto.
    - apply IH; [|exact H2]. intros k Hk. apply Hl. now right. }
  apply H; [intros n Hn; apply nrange_in in Hn; lia|apply nrange_nodup].
Qed.
Lemma fprod_scaled y (l : list C) : fprod (map (fmul y) l) = fpow y (length l) * fprod l.
Proof using HC. induction l as [|x l IH]; unfold fprod in *; cbn [map fold_right length fpow]; [ring|]. rewrite IH. ring. Qed.
Lemma fprod_nonzero (l : list C) : (forall x, In x l -> x <> 0) -> fprod l <> 0.
Proof using HC.
  induction l as [|x l IH]; intro H; unfold fprod in *; cbn [fold_right]; [exact (F_1_neq_0 (fld_th C HK))|].
  intro E. apply (mul_zero HK) in E. destruct E as [E|E]; [exact (H x (or_introl eq_refl) E)|]. apply IH in E; [exact E|]. intros z Hz. apply H. now right.
Qed.
Lemma fprod_perm (l l' : list C) : Permutation l l' -> fprod l = fprod l'.
Proof using HC. induction 1; unfold fprod in *; cbn [fold_right]; congruence || ring. Qed.
Theorem fermat (y : C) : y <> 0 -> fpow y (N.to_nat p - 1) = 1.
Proof using HC.
  intro Hy. assert (P : Permutation (map (fmul y) units) units).
  { apply NoDup_Permutation_bis.
    - assert (G : forall l : list C, NoDup l -> NoDup (map (fmul y) l)).
      { induction l as [|x l IH]; intro Hd; [constructor|]. inversion Hd as [|? ? H1 H2]; subst. cbn [map]. constructor; [|now apply IH].
        intro Hin. apply in_map_iff in Hin. destruct Hin as (k & Ek & Hk). apply (mul_cancel_l HK y) in Ek; [subst; contradiction|exact Hy]. }
      apply G, units_nodup.
    - now rewrite map_length.
    - intros x Hx. apply in_map_iff in Hx. destruct Hx as (k & <- & Hk). apply units_in in Hk. apply units_in. intro E. apply (mul_zero HK) in E. tauto. }
  apply fprod_perm in P. rewrite fprod_scaled, units_length in P.
  assert (N0 : fprod units <> 0) by (apply fprod_nonzero; intros x Hx; now apply units_in).
  apply (mul_cancel_l HK (fprod units)); [exact N0|]. transitivity (fpow y (N.to_nat p - 1) * fprod units); [ring|]. rewrite P. ring.
Qed.
(** Euler's criterion, one direction. *)
Lemma nonsquare (h : C) k : (N.to_nat p - 1 = 2 * k)%nat -> h <> 0 -> fpow h k <> 1 -> forall y, y * y <> h.
Proof using HC.
  intros Hk Hh Hp y E. apply Hp. rewrite <- E, <- (fpow_2 HK), <- (fpow_mul HK), <- Hk. apply fermat. intro Z. apply Hh. rewrite <- E, Z. ring.
Qed.
(** A coset of a proper subgroup of the two-power roots, by a non-square, contains no square. *)
Lemma coset_without_squares (h : C) r : (forall y : C, y * y <> h) -> (1 <= r)%nat -> (r < two_adicity C)%nat ->
  forall (y w : C) i, primitive_root r = Some w -> y * y <> h * fpow w i.
Proof using HC.
  intros Hh Hr Hlt y w i Hw E. pose proof (e_fft_ok _ (co_env _ _ HC)) as HF.
  destruct (primitive_root_some (K := C) (r + 1) ltac:(lia)) as (v & Hv).
  pose proof (primitive_root_pow HF r 1 w v Hr Hw Hv) as P. change (2 ^ 1)%nat with 2%nat in P.
  assert (Vn : v <> 0).
  { intro Z. rewrite Z in P. rewrite (fpow_zero HK) in P by discriminate. pose proof (proj1 (primitive_root_prim HF r w Hr Hw)) as Q.
    apply (prim_nonzero HK) in Q; [now apply Q|]. apply Nat.neq_0_lt_0, Nat.pow_nonzero. discriminate. }
  assert (Fn : fpow v i <> 0) by (apply (fpow_nonzero HK); exact Vn).
  apply (Hh (y * finv (fpow v i))). transitivity (y * y * finv (fpow v i * fpow v i)); [field; exact Fn|].
  rewrite E, <- P, <- (fpow_mul HK), Nat.mul_comm, (fpow_mul HK), (fpow_2 HK). field. exact Fn.
Qed.
End Fermat.
