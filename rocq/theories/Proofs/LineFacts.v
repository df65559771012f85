(** Lines of words: when a combination of two words is almost everywhere a polynomial, so are the two, for all but few coefficients. *)
From Coq Require Import List Arith NArith Bool Lia.
From Verif.Base Require Import Outcome Field Poly.
From Verif.Model Require Import Codec Trace Air Domain Verifier.
From Verif.Spec Require Import AirSpec VerifierSpec LowDegree Proximity.
From Verif.Proofs Require Import FieldFacts PolyFacts FFTFacts OutcomeFacts MultisetFacts OodFacts.
Import ListNotations.

Section Line.
Context {E : env} (HE : env_ok E).
Let HF : fft_ok E := e_fft_ok E HE.
Let HK : field_ok E := fft_field_ok E HF.
Add Field Kfield63 : (fld_th E HK).
Local Open Scope felt_scope.

Definition isin (A : list E) (x : E) : bool := if in_dec (feq_dec HK) x A then true else false.
Lemma isin_true A x : isin A x = true <-> In x A.
Proof using Type. unfold isin. destruct (in_dec _ x A); split; congruence || tauto. Qed.
Lemma isin_false A x : isin A x = false <-> ~ In x A.
Proof using Type. unfold isin. destruct (in_dec _ x A); split; congruence || tauto. Qed.

Lemma filter_split {T} (f : T -> bool) l : (length (filter f l) + length (filter (fun x => negb (f x)) l))%nat = length l.
Proof using Type. induction l as [|x l IH]; [reflexivity|]. cbn [filter length]. destruct (f x); cbn [negb length]; lia. Qed.

(** The points of [S] outside [A] are few when [A] misses few of the points [D]. *)
Lemma outside_few e D A S : NoDup D -> all_but e D A -> NoDup S -> incl S D -> (length (filter (fun x => negb (isin A x)) S) <= e)%nat.
Proof using Type.
  intros HD (HA & I & L) HS IS.
  assert (L1 : (length (filter (fun x => negb (isin A x)) S) <= length (filter (fun x => negb (isin A x)) D))%nat).
  { apply NoDup_incl_length; [now apply NoDup_filter|]. intros x Hx. apply filter_In in Hx. apply filter_In. split; [apply IS|]; tauto. }
  assert (L2 : (length A <= length (filter (isin A) D))%nat).
  { apply NoDup_incl_length; [exact HA|]. intros x Hx. apply filter_In. split; [now apply I|now apply isin_true]. }
  pose proof (filter_split (isin A) D). lia.
Qed.

Lemma nodup_sub (pt : E -> E) D S : NoDup (map pt D) -> NoDup S -> incl S D -> NoDup (map pt S).
Proof using Type.
  intros HD HS I.
  assert (Inj : forall x y, In x D -> In y D -> pt x = pt y -> x = y).
  { clear S HS I. induction D as [|a D IH]; cbn [map] in HD; [easy|]. inversion HD as [|? ? Hn Hd]; subst.
    intros x y [->|Hx] [->|Hy] Hp; [reflexivity| | |now apply IH].
    - exfalso. apply Hn. rewrite Hp. now apply in_map.
    - exfalso. apply Hn. rewrite <- Hp. now apply in_map. }
  induction S as [|a S IH]; cbn [map]; constructor.
  - rewrite in_map_iff. intros (y & Hy & Hi). inversion HS; subst.
    assert (y = a) by (apply Inj; [apply I; now right|apply I; now left|exact Hy]). congruence.
  - inversion HS; subst. apply IH; [assumption|]. intros y Hy. apply I. now right.
Qed.

(** ** Interpolation decides whether a word fits *)
Lemma interpolates (pt : E -> E) (f : E -> E) L : NoDup (map pt L) ->
  exists q : poly E, (length q <= length L)%nat /\ forall i, In i L -> f i = peval q (pt i).
Proof using HE.
  induction L as [|a L IH]; intro H; [exists []; split; [apply le_n|easy]|].
  cbn [map] in H. inversion H as [|? ? Hn Hd]; subst. destruct (IH Hd) as (q & Lq & Eq).
  assert (Nz : vanish (map pt L) (pt a) <> 0) by (intro Z; now apply (vanish_zero HK) in Z).
  exists (padd_raw q (pscale_raw ((f a - peval q (pt a)) * finv (vanish (map pt L) (pt a))) (vanish_poly (map pt L)))).
  split.
  - rewrite padd_raw_length, pscale_raw_length. pose proof (vanish_poly_length (map pt L)) as V. rewrite map_length in V. cbn [length]. lia.
  - intros i Hi. rewrite (peval_padd_raw HK), (peval_pscale_raw HK), (peval_vanish_poly HK). destruct Hi as [<-|Hi].
    + field. exact Nz.
    + assert (Z : vanish (map pt L) (pt i) = 0) by (apply (vanish_zero HK), in_map, Hi). rewrite Z, <- Eq by exact Hi. ring.
Qed.

Lemma forall_or_not (P : E -> Prop) A : (forall i, {P i} + {~ P i}) -> (forall i, In i A -> P i) \/ ~ (forall i, In i A -> P i).
Proof using Type.
  intro D. induction A as [|a A IH]; [left; easy|]. destruct (D a) as [Ha|Ha].
  - destruct IH as [IH|IH]; [left|right].
    + intros i [<-|Hi]; auto.
    + intro H. apply IH. intros i Hi. apply H. now right.
  - right. intro H. apply Ha, H. now left.
Qed.

Lemma fits_dec (pt : E -> E) A f d : NoDup (map pt A) -> fits pt A f d \/ ~ fits pt A f d.
Proof using HE.
  intro H. destruct (le_lt_dec (length A) d) as [Le|Lt].
  - left. destruct (interpolates pt f A H) as (q & Lq & Eq). exists q. split; [lia|exact Eq].
  - assert (HL : NoDup (map pt (firstn d A))).
    { rewrite <- firstn_map. rewrite <- (firstn_skipn d (map pt A)) in H. revert H. generalize (firstn d (map pt A)) (skipn d (map pt A)).
      induction l as [|x l IH]; intros l' H; [constructor|]. cbn [app] in H. inversion H; subst. constructor.
      - intro Hx. match goal with N : ~ In x _ |- _ => apply N end. apply in_or_app. now left.
      - eapply IH. eassumption. }
    destruct (interpolates pt f (firstn d A) HL) as (q & Lq & Eq). rewrite firstn_length_le in Lq by lia.
    destruct (forall_or_not (fun i => f i = peval q (pt i)) A (fun i => feq_dec HK _ _)) as [Y|N].
    + left. exists q. split; [exact Lq|exact Y].
    + right. intros (p & Lp & Ep). apply N. intros i Hi. rewrite (Ep i Hi).
      apply (agree_eval HK (map pt (firstn d A))).
      * exact HL.
      * intros x Hx. apply in_map_iff in Hx. destruct Hx as (j & <- & Hj). rewrite <- (Eq j Hj). symmetry. apply Ep.
        rewrite <- (firstn_skipn d A). apply in_or_app. now left.
      * rewrite map_length, firstn_length_le; lia.
      * rewrite map_length, firstn_length_le; lia.
Qed.

(** ** The line lemma *)
Lemma flat_map_least {T U} (Z : T -> list U) l t : (forall x, In x l -> t <= length (Z x))%nat -> (length l * t <= length (flat_map Z l))%nat.
Proof using Type.
  induction l as [|x l IH]; intro H; [cbn; lia|]. cbn [flat_map length]. rewrite app_length.
  assert (t <= length (Z x))%nat by (apply H; now left). assert (length l * t <= length (flat_map Z l))%nat by (apply IH; intros; apply H; now right). lia.
Qed.
Lemma nodup_app_intro {T} (a b : list T) : NoDup a -> NoDup b -> (forall x, In x a -> ~ In x b) -> NoDup (a ++ b).
Proof using Type.
  intros Ha Hb H. induction a as [|x a IH]; [exact Hb|]. inversion Ha; subst. cbn [app]. constructor.
  - rewrite in_app_iff. intros [?|?]; [contradiction|]. now apply (H x (or_introl eq_refl)).
  - apply IH; [assumption|]. intros y Hy. apply H. now right.
Qed.
Lemma flat_map_nodup {T U} (Z : T -> list U) l : NoDup l -> (forall x, In x l -> NoDup (Z x)) ->
  (forall x y i, In x l -> In y l -> In i (Z x) -> In i (Z y) -> x = y) -> NoDup (flat_map Z l).
Proof using Type.
  induction l as [|x l IH]; intros Hl HZ HD; [constructor|]. inversion Hl as [|? ? Hn Hd]; subst. cbn [flat_map]. apply nodup_app_intro.
  - apply HZ. now left.
  - apply IH; [exact Hd|intros; apply HZ; now right|]. intros. eapply HD; [now right|now right|eassumption|assumption].
  - intros i Hi Hj. apply in_flat_map in Hj. destruct Hj as (y & Hy & Hiy). apply Hn.
    rewrite (HD x y i); [exact Hy|now left|now right|exact Hi|exact Hiy].
Qed.

Theorem line_few (pt : E -> E) D e d u v : NoDup (map pt D) -> (3 * e + d <= length D)%nat -> few (e + 1) (hides pt D e d u v).
Proof using HE.
  intros HDp Hn l Hl Hb.
  assert (HD : NoDup D) by (eapply NoDup_map_inv; exact HDp).
  destruct (le_lt_dec (length l) (e + 1)) as [?|Long]; [assumption|exfalso].
  destruct l as [|g1 [|g2 l']]; cbn [length] in Long; [lia|lia|]. set (l := g1 :: g2 :: l') in *.
  assert (Ne : g1 - g2 <> 0).
  { intro Z. apply (proj1 (sub_zero HK _ _)) in Z. inversion Hl as [|? ? Hni _]; subst. apply Hni. now left. }
  destruct (Hb g1) as (A1 & B1 & (q1 & L1 & E1) & _); [now left|].
  destruct (Hb g2) as (A2 & B2 & (q2 & L2 & E2) & _); [right; now left|].
  set (qv := pscale_raw (finv (g1 - g2)) (pdiff q1 q2) : poly E).
  set (qu := pdiff q1 (pscale_raw g1 qv) : poly E).
  assert (Lv : (length qv <= d)%nat) by (unfold qv; rewrite pscale_raw_length; now apply pdiff_length).
  assert (Lu : (length qu <= d)%nat) by (unfold qu; apply pdiff_length; [exact L1|now rewrite pscale_raw_length]).
  assert (Vv : forall x, peval qv x = finv (g1 - g2) * (peval q1 x - peval q2 x)).
  { intro x. unfold qv. now rewrite (peval_pscale_raw HK), (pdiff_eval HE). }
  assert (Vu : forall x, peval qu x = peval q1 x - g1 * peval qv x).
  { intro x. unfold qu. now rewrite (pdiff_eval HE), (peval_pscale_raw HK). }
  set (us := fun i => u i - peval qu (pt i)). set (vs := fun i => v i - peval qv (pt i)).
  assert (Both : forall i, In i A1 -> In i A2 -> us i = 0 /\ vs i = 0).
  { intros i H1 H2. apply E1 in H1. apply E2 in H2. unfold us, vs. rewrite Vu, Vv, <- H1, <- H2. split; field; exact Ne. }
  set (ok := fun i => feqb (us i) 0 && feqb (vs i) 0).
  assert (Ok_spec : forall i, ok i = true <-> us i = 0 /\ vs i = 0).
  { intro i. unfold ok. rewrite andb_true_iff, !(feqb_spec E HK). reflexivity. }
  set (S := filter (fun i => negb (ok i)) D).
  assert (HS : NoDup S) by (now apply NoDup_filter). assert (IS : incl S D) by (intros i Hi; apply filter_In in Hi; tauto).
  assert (SL : (length S <= 2 * e)%nat).
  { pose proof (outside_few e D A1 S HD B1 HS IS) as O1. pose proof (outside_few e D A2 S HD B2 HS IS) as O2.
    pose proof (filter_split (isin A1) S) as F.
    assert (length (filter (isin A1) S) <= length (filter (fun x => negb (isin A2 x)) S))%nat; [|lia].
    apply NoDup_incl_length; [now apply NoDup_filter|]. intros i Hi. apply filter_In in Hi. destruct Hi as [Hi H1].
    apply filter_In. split; [exact Hi|]. destruct (isin A2 i) eqn:H2; [|reflexivity]. exfalso.
    apply isin_true in H1, H2. apply filter_In in Hi. destruct Hi as [_ Hi]. rewrite (proj2 (Ok_spec i) (Both i H1 H2)) in Hi. discriminate. }
  (* every combination on the line is the line of polynomials *)
  assert (Zero : forall g A, all_but e D A -> fits pt A (fun i => u i + g * v i) d -> forall i, In i A -> us i + g * vs i = 0).
  { intros g A BA (q & Lq & Eq).
    assert (Same : forall x, peval q x = peval (padd_raw qu (pscale_raw g qv)) x).
    { intro x. destruct BA as (NA & IA & CA). set (L := filter (fun i => negb (isin S i)) A).
      assert (NL : NoDup L) by (now apply NoDup_filter).
      assert (CL : (d <= length L)%nat).
      { pose proof (filter_split (isin S) A) as F. fold L in F.
        assert (length (filter (isin S) A) <= length S)%nat; [|lia].
        apply NoDup_incl_length; [now apply NoDup_filter|]. intros i Hi. apply filter_In in Hi. now apply isin_true. }
      apply (agree_eval HK (map pt L)).
      - apply (nodup_sub pt D); [exact HDp|exact NL|]. intros i Hi. apply filter_In in Hi. apply IA. tauto.
      - intros y Hy. apply in_map_iff in Hy. destruct Hy as (i & <- & Hi). apply filter_In in Hi. destruct Hi as [HiA HiS].
        rewrite <- (Eq i HiA), (peval_padd_raw HK), (peval_pscale_raw HK).
        assert (O : ok i = true).
        { destruct (ok i) eqn:O; [reflexivity|]. exfalso. apply negb_true_iff in HiS. apply isin_false in HiS. apply HiS.
          apply filter_In. split; [now apply IA|now rewrite O]. }
        apply Ok_spec in O. destruct O as [Ou Ov]. unfold us, vs in Ou, Ov. apply (proj1 (sub_zero HK _ _)) in Ou, Ov. now rewrite Ou, Ov.
      - rewrite map_length. lia.
      - rewrite map_length, padd_raw_length, pscale_raw_length. lia. }
    intros i Hi. specialize (Eq i Hi). rewrite Same, (peval_padd_raw HK), (peval_pscale_raw HK) in Eq. unfold us, vs.
    transitivity ((u i + g * v i) - (peval qu (pt i) + g * peval qv (pt i))); [ring|]. rewrite Eq. ring. }
  set (Z := fun g => filter (fun i => feqb (us i + g * vs i) 0) S).
  assert (Zin : forall g i, In i (Z g) <-> In i S /\ us i + g * vs i = 0).
  { intros g i. unfold Z. rewrite filter_In, (feqb_spec E HK). reflexivity. }
  assert (Total : (length (flat_map Z l) <= length S)%nat).
  { apply NoDup_incl_length.
    - apply flat_map_nodup; [exact Hl|intros; now apply NoDup_filter|]. intros x y i _ _ Hx Hy.
      apply Zin in Hx, Hy. destruct Hx as [Hi Hx], Hy as [_ Hy]. destruct (feq_dec HK x y) as [?|Nxy]; [assumption|exfalso].
      assert (P : (x - y) * vs i = 0) by (transitivity ((us i + x * vs i) - (us i + y * vs i)); [ring|rewrite Hx, Hy; ring]).
      apply (mul_zero HK) in P. destruct P as [P|P]; [apply (proj1 (sub_zero HK _ _)) in P; contradiction|].
      rewrite P in Hx. assert (us i = 0) by (rewrite <- Hx; ring). apply filter_In in Hi. destruct Hi as [_ Hi].
      rewrite (proj2 (Ok_spec i)) in Hi by tauto. discriminate.
    - intros i Hi. apply in_flat_map in Hi. destruct Hi as (g & _ & Hi). apply Zin in Hi. tauto. }
  assert (Meet : forall g A, all_but e D A -> fits pt A (fun i => u i + g * v i) d -> incl (filter (isin A) S) (Z g)).
  { intros g A BA FA i Hi. apply filter_In in Hi. destruct Hi as [Hi HA]. apply Zin. split; [exact Hi|].
    apply (Zero g A BA FA), isin_true, HA. }
  assert (Big : forall g, In g l -> (length S - e <= length (Z g))%nat).
  { intros g Hg. destruct (Hb g Hg) as (A & BA & FA & _).
    pose proof (outside_few e D A S HD BA HS IS) as O. pose proof (filter_split (isin A) S) as F.
    assert (length (filter (isin A) S) <= length (Z g))%nat by (apply NoDup_incl_length; [now apply NoDup_filter|exact (Meet g A BA FA)]). lia. }
  assert (One : forall g, In g l -> (1 <= length (Z g))%nat).
  { intros g Hg. destruct (Hb g Hg) as (A & BA & FA & N).
    destruct (filter (isin A) S) as [|i r] eqn:Fi.
    - exfalso. apply N.
      assert (O : forall i, In i A -> us i = 0 /\ vs i = 0).
      { intros i Hi. apply Ok_spec. destruct (ok i) eqn:O; [reflexivity|]. exfalso.
        assert (In i (filter (isin A) S)); [|rewrite Fi in *; contradiction].
        apply filter_In. split; [|now apply isin_true]. apply filter_In. split; [now apply (proj1 (proj2 BA))|now rewrite O]. }
      split; [exists qu|exists qv]; (split; [assumption|]); intros i Hi; destruct (O i Hi) as [Ou Ov]; unfold us, vs in Ou, Ov;
        apply (proj1 (sub_zero HK _ _)); assumption.
    - assert (Hi : In i (Z g)) by (apply (Meet g A BA FA); rewrite Fi; now left). destruct (Z g); [contradiction|cbn; lia]. }
  pose proof (flat_map_least Z l _ Big) as G1. pose proof (flat_map_least Z l _ One) as G2.
  assert (Ll : (e + 2 <= length l)%nat) by (unfold l; cbn [length]; lia).
  assert (length S <= e)%nat; [|lia].
  destruct (le_lt_dec (length S) e) as [?|Gt]; [assumption|exfalso].
  assert ((e + 2) * (length S - e) <= length l * (length S - e))%nat by (apply Nat.mul_le_mono_r; exact Ll). nia.
Qed.

(** A combination with a word that is a polynomial hides nothing. *)
Lemma never_hides (pt : E -> E) D e d u v gamma : fits pt D v d -> ~ hides pt D e d u v gamma.
Proof using HE.
  intros (qv & Lv & Ev) (S & BS & (q & Lq & Eq) & No). apply No. split.
  - exists (pdiff q (pscale_raw gamma qv)). split; [apply pdiff_length; [exact Lq|now rewrite pscale_raw_length]|]. intros x Hx.
    rewrite (pdiff_eval HE), (peval_pscale_raw HK), <- (Eq x Hx), <- (Ev x) by (apply (proj1 (proj2 BS)), Hx). ring.
  - exists qv. split; [exact Lv|]. intros x Hx. apply Ev, (proj1 (proj2 BS)), Hx.
Qed.

Lemma quotient_line D (q : poly E) y n : (length q <= n + 1)%nat -> (forall x, In x D -> x <> y) ->
  fits (fun x => x) D (fun x => (peval q x - peval q y) * finv (x - y)) n.
Proof using HE.
  intros Lq Hy. exists (ruffini q y). split; [rewrite ruffini_length; lia|]. intros x Hx.
  rewrite (ruffini_spec HK q y x). field. intro H0. apply (Hy x Hx). exact (proj1 (sub_zero HK _ _) H0).
Qed.
End Line.
