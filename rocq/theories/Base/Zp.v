(** Prime fields: an implementation of the field interface, used for the concrete instances. *)
From Coq Require Import ZArith Znumtheory Lia Bool Eqdep_dec List.
From Verif.Base Require Import Outcome Field Poly.
Import ListNotations.
Local Open Scope Z_scope.

(** Extended Euclid: [eg f a b = (u, v)] with [u a + v b = gcd a b] for enough fuel. *)
Fixpoint eg (f : nat) (a b : Z) : Z * Z :=
  match f with
  | O => (1, 0)
  | S f' => if b =? 0 then (1, 0) else let '(u, v) := eg f' b (a mod b) in (v, u - (a / b) * v)
  end.

Lemma eg_correct f : forall a b, 0 <= b < a -> b < 2 ^ Z.of_nat f ->
  let '(u, v) := eg (S (f + f)) a b in u * a + v * b = Z.gcd a b.
Proof.
  induction f as [|f IH]; intros a b Hb Hlt.
  - change (2 ^ Z.of_nat 0) with 1 in Hlt. assert (b = 0) by lia. subst b. cbn [eg Nat.add]. rewrite Z.eqb_refl, Z.gcd_0_r. lia.
  - replace (S f + S f)%nat with (S (S (f + f))) by lia. remember (S (f + f)) as ff.
    cbn [eg]. destruct (Z.eqb_spec b 0) as [->|Hnz]; [rewrite Z.gcd_0_r; lia|].
    pose proof (Z.mod_pos_bound a b ltac:(lia)) as Hr. pose proof (Z.div_mod a b Hnz) as Hdm.
    destruct (Z.eqb_spec (a mod b) 0) as [E|Hr0].
    + assert (G : Z.gcd a b = b).
      { rewrite Z.gcd_comm, <- (Z.gcd_mod a b Hnz), E, Z.gcd_0_l. lia. }
      rewrite G. lia.
    + pose proof (Z.mod_pos_bound b (a mod b) ltac:(lia)) as Hr2. pose proof (Z.div_mod b (a mod b) Hr0) as Hdm2.
      assert (Hq : 1 <= b / (a mod b)) by (apply Z.div_le_lower_bound; lia).
      assert (Hhalf : b mod (a mod b) < 2 ^ Z.of_nat f).
      { rewrite Nat2Z.inj_succ, Z.pow_succ_r in Hlt by lia. nia. }
      specialize (IH (a mod b) (b mod (a mod b)) ltac:(lia) Hhalf).
      destruct (eg ff (a mod b) (b mod (a mod b))) as [u v].
      assert (G : Z.gcd a b = Z.gcd (a mod b) (b mod (a mod b))).
      { transitivity (Z.gcd b a); [apply Z.gcd_comm|]. transitivity (Z.gcd (a mod b) b); [symmetry; now apply Z.gcd_mod|].
        transitivity (Z.gcd (b mod (a mod b)) (a mod b)); [symmetry; now apply Z.gcd_mod|apply Z.gcd_comm]. }
      rewrite G, <- IH. set (r1 := a mod b) in *. set (r2 := b mod r1) in *.
      rewrite Hdm at 1. replace r2 with (b - r1 * (b / r1)) by lia. ring_simplify.
      replace (b * (a / b)) with (a - r1) by lia. ring.
Qed.

Section Zp.
Context (p : Z).

Definition in_range (x : Z) : bool := (0 <=? x) && (x <? p).
Record zp := mk_zp { zval : Z; zrange : in_range zval = true }.

Lemma zp_eq (x y : zp) : zval x = zval y -> x = y.
Proof.
  destruct x as [x Hx], y as [y Hy]. cbn. intros <-. f_equal. apply (UIP_dec bool_dec).
Qed.

Context (Hp : 1 < p).
Lemma mod_range x : in_range (x mod p) = true.
Proof using Hp. unfold in_range. pose proof (Z.mod_pos_bound x p ltac:(lia)). apply andb_true_intro. split; [apply Z.leb_le|apply Z.ltb_lt]; lia. Qed.
Definition zp_of (x : Z) : zp := mk_zp (x mod p) (mod_range x).

Lemma zval_mod x : zval x mod p = zval x.
Proof using Hp. destruct x as [x Hx]. cbn. apply andb_prop in Hx. destruct Hx as [H1 H2]. apply Z.leb_le in H1. apply Z.ltb_lt in H2. now apply Z.mod_small. Qed.
Lemma zval_bound x : 0 <= zval x < p.
Proof using Type. destruct x as [x Hx]. cbn. apply andb_prop in Hx. destruct Hx as [H1 H2]. apply Z.leb_le in H1. apply Z.ltb_lt in H2. lia. Qed.

Definition zp_inv (x : zp) : zp := zp_of (snd (eg (S (2 * Z.to_nat (Z.log2 p + 1))) p (zval x))).

Definition zp_ops : field_ops := {|
  carrier := zp;
  fzero := zp_of 0; fone := zp_of 1;
  fadd := fun x y => zp_of (zval x + zval y);
  fmul := fun x y => zp_of (zval x * zval y);
  fsub := fun x y => zp_of (zval x - zval y);
  fopp := fun x => zp_of (- zval x);
  finv := zp_inv;
  feqb := fun x y => zval x =? zval y
|}.

Lemma zval_inj_mod (x y : zp) : zval x mod p = zval y mod p -> x = y.
Proof using Hp. intro H. apply zp_eq. now rewrite !zval_mod in H. Qed.

Context (Hprime : prime p).
Lemma zp_inv_ok (x : zp) : zval x <> 0 -> (zval x * zval (zp_inv x)) mod p = 1.
Proof using Hp Hprime.
  intro Hx. pose proof (zval_bound x) as Hb. unfold zp_inv. cbn [zp_of zval].
  set (f := Z.to_nat (Z.log2 p + 1)).
  assert (Hf : Z.of_nat f = Z.log2 p + 1) by (unfold f; rewrite Z2Nat.id; [reflexivity|pose proof (Z.log2_nonneg p); lia]).
  pose proof (eg_correct f p (zval x) ltac:(lia)) as H. rewrite Hf in H.
  specialize (H ltac:(pose proof (Z.log2_spec p ltac:(lia)); change (Z.log2 p + 1) with (Z.succ (Z.log2 p)); lia)).
  replace (S (2 * f)) with (S (f + f)) by lia. destruct (eg (S (f + f)) p (zval x)) as [u v]. cbn [snd].
  assert (G : Z.gcd p (zval x) = 1).
  { apply Zgcd_1_rel_prime. apply prime_rel_prime; [exact Hprime|]. intros [q Hq]. assert (q <> 0) by (intro; subst; lia). nia. }
  rewrite G in H. rewrite Z.mul_mod_idemp_r by lia. rewrite Z.mul_comm.
  replace (v * zval x) with (1 + (- u) * p) by lia. rewrite Z.mod_add by lia. apply Z.mod_small. lia.
Qed.

Theorem zp_field_ok : field_ok zp_ops.
Proof using Hp Hprime.
  assert (M : forall a b, a mod p = b mod p -> zp_of a = zp_of b) by (intros; apply zp_eq; assumption).
  assert (I : forall x, zp_of (zval x) = x) by (intro; apply zp_eq; apply zval_mod).
  split.
  - constructor.
    + constructor; cbn; intros; apply zval_inj_mod; cbn [zp_of zval]; rewrite ?Z.mod_mod by lia;
        repeat (rewrite ?Z.add_mod_idemp_l, ?Z.add_mod_idemp_r, ?Z.mul_mod_idemp_l, ?Z.mul_mod_idemp_r by lia);
        try (f_equal; ring).
    + intro H. apply (f_equal zval) in H. cbn in H. rewrite !Z.mod_small in H by lia. discriminate.
    + reflexivity.
    + intros x Hx. cbn. rewrite Z.mul_comm. apply zp_eq. cbn [zval zp_of].
      rewrite (Z.mod_small 1 p) by lia. apply zp_inv_ok. intro H. apply Hx. apply zp_eq. cbn. exact H.
  - intros a b. cbn. rewrite Z.eqb_eq. split; [apply zp_eq|congruence].
Qed.
End Zp.
Arguments zval {p}.
