(** Soundness of the out-of-domain check for fixed polynomials. *)
From Coq Require Import List Arith NArith Bool Lia.
From Verif.Base Require Import Outcome Field Poly.
From Verif.Model Require Import Codec Trace Air Domain Verifier.
From Verif.Spec Require Import AirSpec CairoColumns VerifierSpec OodSpec.
From Verif.Proofs Require Import FieldFacts PolyFacts FFTFacts OutcomeFacts TraceFacts DomainFacts ComposeFacts VerifierFacts.
Import ListNotations.

Lemma nth_error_combine_some {X Y} (l : list X) (m : list Y) j x y :
  nth_error l j = Some x -> nth_error m j = Some y -> nth_error (combine l m) j = Some (x, y).
Proof.
  revert m j; induction l as [|u l IH]; intros [|v m] [|j] Hx Hy; cbn in *; try discriminate.
  - congruence.
  - now apply IH.
Qed.

Section Ood.
Context {E : env} (HE : env_ok E).
Let HF : fft_ok E := e_fft_ok E HE.
Let HK : field_ok E := fft_field_ok E HF.
Add Field Kfield53 : (fld_th E HK).
Local Open Scope felt_scope.

(** ** Sums of weighted terms *)
Lemma fsum_update {X Y} (F : X * Y -> E) : forall j (xs : list X) (ys : list Y) x y y',
  nth_error xs j = Some x -> nth_error ys j = Some y ->
  fsum (map F (combine xs (firstn j ys ++ y' :: skipn (S j) ys))) = fsum (map F (combine xs ys)) + (F (x, y') - F (x, y)).
Proof using HE.
  induction j as [|j IH]; intros [|x0 xs] [|y0 ys] x y y' Hx Hy; try discriminate.
  - cbn in Hx, Hy. injection Hx as <-. injection Hy as <-. cbn [firstn skipn app combine map]. rewrite !fsum_cons. ring.
  - cbn [nth_error] in Hx, Hy. cbn [firstn app]. change (skipn (S (S j)) (y0 :: ys)) with (skipn (S j) ys).
    cbn [combine map]. rewrite !fsum_cons, (IH xs ys x y y' Hx Hy). ring.
Qed.

(** ** Interleaving the halves of the composition polynomial *)
Fixpoint spread (p : poly E) : poly E := match p with [] => [] | c :: p' => c :: 0 :: spread p' end.
Lemma spread_length p : length (spread p) = (2 * length p)%nat.
Proof using Type. induction p; cbn [spread length]; lia. Qed.
Lemma spread_eval p x : peval (spread p) x = peval p (x * x).
Proof using HE. induction p as [|c p IH]; cbn [spread peval]; [reflexivity|]. rewrite IH. ring. Qed.
Definition halves (h1 h2 : poly E) : poly E := padd_raw (spread h1) (0 :: spread h2).
Lemma halves_eval h1 h2 x : peval (halves h1 h2) x = peval h1 (x * x) + x * peval h2 (x * x).
Proof using HE. unfold halves. rewrite (peval_padd_raw HK). cbn [peval]. rewrite !spread_eval. ring. Qed.
Lemma halves_length h1 h2 h : (length h1 <= h)%nat -> (length h2 <= h)%nat -> (length (halves h1 h2) <= 2 * h + 1)%nat.
Proof using Type. intros H1 H2. unfold halves. rewrite padd_raw_length. cbn [length]. rewrite !spread_length. lia. Qed.

Section Shape.
Context {a : air E} {d : domain E} {r b : nat} {g W : E}.
Context (D : domain_shape d r b (e_u64 E (coset_offset (a_options a))) g W).
Let n := (2 ^ r)%nat.
Context (Hn : a_trace_length a = n) (Hb : a_blowup a = (2 ^ b)%nat) (Hb1 : (1 <= b)%nat).
Notation ctx := (a_context a).
Notation DB := (a_degree_bound a).
Context (rap : a_rap a) (polys cs : list (poly E)) (bcs : list (boundary_constraint E)).
Context (m : nat) (Hm1 : (1 <= m)%nat) (Hmn : (m <= n + 1)%nat).
Context (Hpl : Forall (fun p => (length p <= m)%nat) polys).
Context (Hdb : (n <= DB)%nat).
Context (Hdeg : forall deg, In deg (transition_degrees ctx) -> (1 <= deg /\ n * (deg - 1) <= DB)%nat).
Context (Hex : forall e, In e (transition_exemptions ctx) -> (e <= n)%nat).
Context (Hoff : hd_error (transition_offsets ctx) = Some 0%nat).
Context (Hcs : forall c deg, In (c, deg) (combine cs (transition_degrees ctx)) -> (length c <= deg * (m - 1) + 1)%nat).
Context (Htr : forall x, a_transition a (shifted_frame polys (transition_offsets ctx) g x) rap = Ok (map (fun c => peval c x) cs)).
Context (Hbc : a_boundary a rap = Ok bcs).

Let Hg : is_prim g n := ds_gprim _ _ _ _ _ _ D.
Let npos : (0 < n)%nat := pow2_pos r.

Lemma deg_gap deg : (1 <= deg)%nat -> (deg * (m - 1) + n <= n * (deg - 1) + n + (m - 1))%nat.
Proof using Hmn. clear -Hmn. clearbody n. intro H. destruct deg as [|deg]; [lia|]. replace (S deg - 1)%nat with deg by lia. nia. Qed.
Definition zer : poly E := padd_raw (xpow n) [- (1)].
Lemma zer_eval x : peval zer x = fpow x n - 1.
Proof using HE. unfold zer. rewrite (peval_padd_raw HK), (peval_xpow HK). cbn [peval]. ring. Qed.
Lemma zer_length : length zer = S n.
Proof using Type. unfold zer. rewrite padd_raw_length, xpow_length. cbn [length]. apply Nat.max_l. apply le_n_S, Nat.le_0_l. Qed.

Definition comp_at (bco tco : list (E * E)) (x : E) : E :=
  composition_value a n g x bcs bco (map (fun p => peval p x) polys) (map (fun c => peval c x) cs) tco.

Let off (x : E) : Prop := fpow x n - 1 <> 0.

(** The check passes only off the trace domain and only where the identity holds. *)
Lemma passes_identity bco tco h1 h2 z : passes_at a d rap polys bco tco h1 h2 z ->
  off z /\ peval (halves h1 h2) z = comp_at bco tco z.
Proof using D HE Hb Hb1 Hbc Hex Hn Hoff Htr.
  intros (p & c & H & Hfr & He & Ho & Hz & Hr & Hbco & Htco).
  assert (Hoffz : off z).
  { pose proof H as H0. unfold step_2 in H0. ok_as H0 bcs0 Hb0. ok_as H0 adj Hadj. ok_as H0 bo Hbo. ok_as H0 evals Hev. ok_as H0 lr Hlr. ok_as H0 tv Htv.
    rewrite (last_trace_root HE D Hn) in Hlr. cbn [unwrap] in Hlr. apply ok_inj in Hlr. subst lr.
    destruct (transition_ood_inv HE a evals _ g n _ _ Hn Hg npos Hex Htv) as [_ K]. rewrite Hz in K. exact K. }
  split; [exact Hoffz|].
  apply (step_2_exact HE D Hn p c true Hex) in H. destruct H as [H _]. destruct (H eq_refl) as (bcs' & row0 & evals & Hb' & Hrow & Hev & Heq).
  rewrite Hr in Hb', Hev. rewrite Hbc in Hb'. apply ok_inj in Hb'. subst bcs'.
  rewrite Hfr in Hrow, Hev. rewrite (ds_root _ _ _ _ _ _ D) in Hrow, Hev. rewrite Htr in Hev. apply ok_inj in Hev. subst evals.
  rewrite halves_eval, <- He, <- Ho. rewrite Hz, Hbco, Htco in Heq. rewrite Heq. unfold comp_at. fold n.
  destruct bcs as [|bc bcs'] eqn:Eb; [reflexivity|].
  specialize (Hrow ltac:(discriminate)). rewrite (shifted_row0 HE D Hn Hb Hb1 polys _ z Hoff) in Hrow. apply ok_inj in Hrow. now subst row0.
Qed.

Lemma col_length bc : (length (nth (bc_col (F:=E) bc) polys []) <= m)%nat.
Proof using Hpl.
  destruct (Nat.lt_ge_cases (bc_col bc) (length polys)) as [L|L].
  - rewrite Forall_forall in Hpl. apply Hpl. now apply nth_In.
  - rewrite nth_overflow by exact L. cbn [length]. apply Nat.le_0_l.
Qed.
Lemma nth_row (i : nat) x : nth i (map (fun p => peval p x) polys) 0 = peval (nth i polys []) x.
Proof using Type. change (0 : E) with ((fun p : poly E => peval p x) []). apply map_nth. Qed.

(** The numerator of a boundary quotient. *)
Definition bnum (bc : boundary_constraint E) : poly E := padd_raw (nth (bc_col bc) polys []) [- bc_value bc].
Lemma bnum_eval bc x : peval (bnum bc) x = peval (nth (bc_col bc) polys []) x - bc_value bc.
Proof using HE. unfold bnum. rewrite (peval_padd_raw HK). cbn [peval]. ring. Qed.
Lemma bnum_length bc : (length (bnum bc) <= m)%nat.
Proof using Hm1 Hpl. unfold bnum. rewrite padd_raw_length. apply Nat.max_lub; [apply col_length|exact Hm1]. Qed.

(** The numerator of a transition quotient. *)
Definition tnum (c : poly E) (e : nat) : poly E := pmul_raw c (exemption_poly_prover g n e).
Lemma tnum_eval c e x : peval (tnum c e) x = peval c x * vanish (last_roots g n e) x.
Proof using HE. unfold tnum. now rewrite (peval_pmul_raw HK), (exemption_poly_eval HE). Qed.
Lemma tnum_length c e : (length (tnum c e) <= length c + e)%nat.
Proof using D HE Hb Hb1 Hn. apply (pmul_raw_len HE D Hn Hb Hb1). apply exemption_poly_length. Qed.

(** The composition times the zerofier is a polynomial. *)
Lemma comp_poly bco tco : exists P : poly E, (length P <= DB + n + m)%nat /\ forall x, off x -> peval P x = (fpow x n - 1) * comp_at bco tco x.
Proof using D HE Hb Hb1 Hcs Hdb Hdeg Hex Hm1 Hmn Hn Hpl.
  destruct (sum_poly HE D Hn Hb Hb1 off
    (fun x (y : boundary_constraint E * (E * E)) => (fpow x n - 1) * (let '(bc, (alpha, beta)) := y in
         (nth (bc_col bc) (map (fun p => peval p x) polys) 0 - bc_value bc) * finv (x - fpow g (bc_step bc)) *
         (alpha * fpow x (DB - n) + beta))) (DB + n + m) (combine bcs bco)) as (P1 & L1 & E1).
  { intros [bc [al be]] _. exists (pmul_raw (pmul_raw (bnum bc) (ruffini zer (fpow g (bc_step bc)))) (adj_poly (DB - n) al be)). split.
    - etransitivity; [apply (pmul_raw_len HE D Hn Hb Hb1 _ _ (DB - n)), (adj_poly_length HE D Hn Hb Hb1)|].
      assert ((length (pmul_raw (bnum bc) (ruffini zer (fpow g (bc_step bc)))) <= length (bnum bc) + n)%nat) as H.
      { apply (pmul_raw_len HE D Hn Hb Hb1). rewrite ruffini_length, zer_length. lia. }
      pose proof (bnum_length bc). lia.
    - intros x Hx. rewrite !(peval_pmul_raw HK), (adj_poly_eval HE D Hn Hb Hb1), bnum_eval, nth_row.
      pose proof (ruffini_root HK zer (fpow g (bc_step bc)) x) as R. rewrite !zer_eval in R.
      rewrite R. 2:{ rewrite <- (fpow_mul HK), Nat.mul_comm, (fpow_mul HK). rewrite (proj1 Hg), (fpow_one HK). ring. }
      pose proof (root_not_domain HE D Hn Hb Hb1 x (bc_step bc) Hx). field. assumption. }
  destruct (sum_poly HE D Hn Hb Hb1 off
    (fun x (y : poly E * nat * nat * (E * E)) => (fpow x n - 1) * (let '(c, deg, e, (alpha, beta)) := y in
         peval c x * finv (fpow x n - 1) * (alpha * fpow x (DB - n * (deg - 1)) + beta) *
         fprod (map (fun k => x - fpow g (n - k)) (seq 1 e)))) (DB + n + m)
    (combine (combine (combine cs (transition_degrees ctx)) (transition_exemptions ctx)) tco)) as (P2 & L2 & E2).
  { intros [[[c deg] e] [al be]] Hin. apply in_combine_l in Hin. pose proof (in_combine_r _ _ _ _ Hin) as He. apply in_combine_l in Hin.
    pose proof (Hcs _ _ Hin) as Hcl. apply in_combine_r in Hin. destruct (Hdeg _ Hin) as [Hd1 Hd2]. apply Hex in He.
    exists (pmul_raw (tnum c e) (adj_poly (DB - n * (deg - 1)) al be)). split.
    - etransitivity; [apply (pmul_raw_len HE D Hn Hb Hb1 _ _ (DB - n * (deg - 1))), (adj_poly_length HE D Hn Hb Hb1)|].
      pose proof (tnum_length c e). pose proof npos.
      assert (deg * (m - 1) + n <= n * (deg - 1) + n + (m - 1))%nat by (exact (deg_gap deg Hd1)). lia.
    - intros x Hx. rewrite (peval_pmul_raw HK), (adj_poly_eval HE D Hn Hb Hb1), tnum_eval.
      unfold vanish, last_roots. rewrite map_map. field. exact Hx. }
  exists (padd_raw P1 P2). split; [rewrite padd_raw_length; lia|].
  intros x Hx. rewrite (peval_padd_raw HK), (E1 x Hx), (E2 x Hx), !(fsum_scale HK). unfold comp_at, composition_value.
  rewrite !combine_map_l, !map_map.
  match goal with |- _ * ?A + _ * ?B = _ * (?A' + ?B') => replace B' with B; [ring|] end.
  f_equal. apply map_ext. intros [[[c deg] e] [al be]]. reflexivity.
Qed.

(** Often passing means that the identity holds everywhere off the domain. *)
Lemma often_identity bco tco h1 h2 h : (length h1 <= h)%nat -> (length h2 <= h)%nat ->
  passes_often a d rap polys bco tco h1 h2 (ood_bound a n m h) ->
  forall x, off x -> peval (halves h1 h2) x = comp_at bco tco x.
Proof using D HE Hb Hb1 Hbc Hcs Hdb Hdeg Hex Hm1 Hmn Hn Hoff Hpl Htr.
  intros H1 H2 (zs & Hnd & Hlen & Hzs) x Hx. destruct (comp_poly bco tco) as (P & HP & EP).
  assert (Hl : (length (pmul_raw (halves h1 h2) zer) <= 2 * h + 1 + n)%nat).
  { etransitivity; [apply (pmul_raw_len HE D Hn Hb Hb1 _ _ n); rewrite zer_length; lia|]. pose proof (halves_length h1 h2 h H1 H2). lia. }
  unfold ood_bound in Hlen.
  assert (A : peval (pmul_raw (halves h1 h2) zer) x = peval P x).
  { apply (agree_eval HK zs); [exact Hnd| |lia|lia]. intros z Hz. destruct (passes_identity _ _ _ _ _ (Hzs z Hz)) as [Hoz Ez].
    rewrite (peval_pmul_raw HK), zer_eval, (EP z Hoz), Ez. ring. }
  rewrite (peval_pmul_raw HK), zer_eval, (EP x Hx) in A.
  apply (mul_cancel_l HK (fpow x n - 1)); [exact Hx|]. rewrite <- A. ring.
Qed.

Lemma nth_pair j (l : list (E * E)) al be : nth_error l j = Some (al, be) -> fst (nth j l (0, 0)) = al.
Proof using Type. intro H. now rewrite (nth_error_nth _ _ _ H). Qed.

(** Two values of one transition coefficient. *)
Lemma comp_transition bco tco j c deg e al be beta beta' x :
  nth_error cs j = Some c -> nth_error (transition_degrees ctx) j = Some deg -> nth_error (transition_exemptions ctx) j = Some e ->
  nth_error tco j = Some (al, be) -> off x ->
  comp_at bco (with_beta j beta tco) x - comp_at bco (with_beta j beta' tco) x =
  (beta - beta') * (peval (tnum c e) x * finv (fpow x n - 1)).
Proof using HE.
  intros Hc Hd He Ht Hx. unfold comp_at, composition_value, with_beta. rewrite (nth_pair _ _ _ _ Ht).
  assert (Hx' : nth_error (combine (combine (map (fun c => peval c x) cs) (transition_degrees ctx)) (transition_exemptions ctx)) j = Some (peval c x, deg, e)).
  { apply nth_error_combine_some; [|exact He]. apply nth_error_combine_some; [|exact Hd]. now rewrite nth_error_map, Hc. }
  rewrite !(fsum_update _ j _ tco _ _ _ Hx' Ht), tnum_eval. unfold vanish, last_roots. rewrite map_map. ring.
Qed.
Lemma comp_boundary bco tco j bc al be beta beta' x :
  nth_error bcs j = Some bc -> nth_error bco j = Some (al, be) ->
  comp_at (with_beta j beta bco) tco x - comp_at (with_beta j beta' bco) tco x =
  (beta - beta') * (peval (bnum bc) x * finv (x - fpow g (bc_step bc))).
Proof using HE.
  intros Hc Ht. unfold comp_at, composition_value, with_beta. rewrite (nth_pair _ _ _ _ Ht).
  rewrite !(fsum_update _ j _ bco _ _ _ Hc Ht), bnum_eval, nth_row. ring.
Qed.

(** Points off the domain, as many as the bound. *)
Lemma often_points bco tco h1 h2 l : passes_often a d rap polys bco tco h1 h2 l ->
  exists zs, NoDup zs /\ (l < length zs)%nat /\ forall z, In z zs -> off z.
Proof using D HE Hb Hb1 Hbc Hex Hn Hoff Htr.
  intros (zs & H1 & H2 & H3). exists zs. split; [exact H1|]. split; [exact H2|]. intros z Hz. exact (proj1 (passes_identity _ _ _ _ _ (H3 z Hz))).
Qed.

Definition pdiff (p q : poly E) : poly E := padd_raw p (pscale_raw (- (1)) q).
Lemma pdiff_eval p q x : peval (pdiff p q) x = peval p x - peval q x.
Proof using HE. unfold pdiff. rewrite (peval_padd_raw HK), (peval_pscale_raw HK). ring. Qed.
Lemma pdiff_length p q l : (length p <= l)%nat -> (length q <= l)%nat -> (length (pdiff p q) <= l)%nat.
Proof using Type. intros H1 H2. unfold pdiff. rewrite padd_raw_length, pscale_raw_length. now apply Nat.max_lub. Qed.

Theorem transition_sound bco tco j c deg e beta beta' h h1 h2 h1' h2' :
  nth_error cs j = Some c -> nth_error (transition_degrees ctx) j = Some deg -> nth_error (transition_exemptions ctx) j = Some e ->
  (j < length tco)%nat -> beta <> beta' ->
  (length h1 <= h)%nat -> (length h2 <= h)%nat -> (length h1' <= h)%nat -> (length h2' <= h)%nat ->
  passes_often a d rap polys bco (with_beta j beta tco) h1 h2 (ood_bound a n m h) ->
  passes_often a d rap polys bco (with_beta j beta' tco) h1' h2' (ood_bound a n m h) ->
  forall i, (i < n - e)%nat -> peval c (fpow g i) = 0.
Proof using D HE Hb Hb1 Hbc Hcs Hdb Hdeg Hex Hm1 Hmn Hn Hoff Hpl Htr.
  intros Hc Hd He Hj Hbb L1 L2 L3 L4 P1 P2 i Hi.
  destruct (nth_error tco j) as [[al be]|] eqn:Ht; [|apply nth_error_None in Ht; lia].
  pose proof (often_identity _ _ _ _ h L1 L2 P1) as I1. pose proof (often_identity _ _ _ _ h L3 L4 P2) as I2.
  destruct (often_points _ _ _ _ _ P1) as (zs & Hnd & Hlen & Hzs). unfold ood_bound in Hlen.
  assert (Hcl : (length c <= deg * (m - 1) + 1)%nat).
  { apply Hcs. apply (nth_error_In _ j). now apply nth_error_combine_some. }
  destruct (Hdeg deg (nth_error_In _ _ Hd)) as [Hd1 Hd2]. pose proof (Hex e (nth_error_In _ _ He)) as He1.
  set (L := pmul_raw (pdiff (halves h1 h2) (halves h1' h2')) zer). set (R := pscale_raw (beta - beta') (tnum c e)).
  assert (HL : (length L <= 2 * h + 1 + n)%nat).
  { unfold L. etransitivity; [apply (pmul_raw_len HE D Hn Hb Hb1 _ _ n); rewrite zer_length; lia|].
    pose proof (pdiff_length _ _ _ (halves_length h1 h2 h L1 L2) (halves_length h1' h2' h L3 L4)). lia. }
  assert (HR : (length R <= DB + n + m)%nat).
  { unfold R. rewrite pscale_raw_length. pose proof (tnum_length c e). pose proof npos.
    assert (deg * (m - 1) + n <= n * (deg - 1) + n + (m - 1))%nat by (exact (deg_gap deg Hd1)). lia. }
  assert (A : peval L (fpow g i) = peval R (fpow g i)).
  { apply (agree_eval HK zs); [exact Hnd| |lia|lia]. intros z Hz. specialize (Hzs z Hz).
    unfold L, R. rewrite (peval_pmul_raw HK), (peval_pscale_raw HK), zer_eval, pdiff_eval, (I1 z Hzs), (I2 z Hzs).
    rewrite (comp_transition bco tco j c deg e al be beta beta' z Hc Hd He Ht Hzs). field. exact Hzs. }
  unfold L, R in A. rewrite (peval_pmul_raw HK), (peval_pscale_raw HK), zer_eval, tnum_eval in A.
  assert (E0 : fpow (fpow g i) n - 1 = 0) by (rewrite <- (fpow_mul HK), Nat.mul_comm, (fpow_mul HK), (proj1 Hg), (fpow_one HK); ring).
  rewrite E0 in A. assert (A' : (beta - beta') * (peval c (fpow g i) * vanish (last_roots g n e) (fpow g i)) = 0) by (rewrite <- A; ring).
  apply (mul_zero HK) in A'. destruct A' as [A'|A']; [apply (proj1 (sub_zero HK _ _)) in A'; contradiction|].
  apply (mul_zero HK) in A'. destruct A' as [A'|A']; [exact A'|exfalso].
  apply (vanish_zero HK) in A'. apply (last_roots_in HE g n e i Hg He1 ltac:(lia)) in A'. lia.
Qed.

Theorem boundary_sound bco tco j bc beta beta' h h1 h2 h1' h2' :
  nth_error bcs j = Some bc -> (j < length bco)%nat -> beta <> beta' ->
  (length h1 <= h)%nat -> (length h2 <= h)%nat -> (length h1' <= h)%nat -> (length h2' <= h)%nat ->
  passes_often a d rap polys (with_beta j beta bco) tco h1 h2 (ood_bound a n m h) ->
  passes_often a d rap polys (with_beta j beta' bco) tco h1' h2' (ood_bound a n m h) ->
  peval (nth (bc_col bc) polys []) (fpow g (bc_step bc)) = bc_value bc.
Proof using D HE Hb Hb1 Hbc Hcs Hdb Hdeg Hex Hm1 Hmn Hn Hoff Hpl Htr.
  intros Hc Hj Hbb L1 L2 L3 L4 P1 P2.
  destruct (nth_error bco j) as [[al be]|] eqn:Ht; [|apply nth_error_None in Ht; lia].
  pose proof (often_identity _ _ _ _ h L1 L2 P1) as I1. pose proof (often_identity _ _ _ _ h L3 L4 P2) as I2.
  destruct (often_points _ _ _ _ _ P1) as (zs & Hnd & Hlen & Hzs). unfold ood_bound in Hlen. pose proof npos.
  set (L := pmul_raw (pdiff (halves h1 h2) (halves h1' h2')) [- fpow g (bc_step bc); 1]). set (R := pscale_raw (beta - beta') (bnum bc)).
  assert (HL : (length L <= 2 * h + 1 + n)%nat).
  { unfold L. etransitivity; [apply (pmul_raw_len HE D Hn Hb Hb1 _ _ 1); cbn [length]; lia|].
    pose proof (pdiff_length _ _ _ (halves_length h1 h2 h L1 L2) (halves_length h1' h2' h L3 L4)). lia. }
  assert (HR : (length R <= DB + n + m)%nat).
  { unfold R. rewrite pscale_raw_length. pose proof (bnum_length bc). lia. }
  assert (A : peval L (fpow g (bc_step bc)) = peval R (fpow g (bc_step bc))).
  { apply (agree_eval HK zs); [exact Hnd| |lia|lia]. intros z Hz. specialize (Hzs z Hz).
    unfold L, R. rewrite (peval_pmul_raw HK), (peval_pscale_raw HK), pdiff_eval, (I1 z Hzs), (I2 z Hzs).
    rewrite (comp_boundary bco tco j bc al be beta beta' z Hc Ht). cbn [peval].
    pose proof (root_not_domain HE D Hn Hb Hb1 z (bc_step bc) Hzs). field. assumption. }
  unfold L, R in A. rewrite (peval_pmul_raw HK), (peval_pscale_raw HK), bnum_eval in A. cbn [peval] in A.
  assert (A' : (beta - beta') * (peval (nth (bc_col bc) polys []) (fpow g (bc_step bc)) - bc_value bc) = 0) by (rewrite <- A; ring).
  apply (mul_zero HK) in A'. destruct A' as [A'|A']; apply (proj1 (sub_zero HK _ _)) in A'; [contradiction|exact A'].
Qed.

(** ** The columns the polynomials stand for *)
Lemma domain_columns_nth j i : (i < n)%nat -> nth i (nth j (domain_columns polys g n) []) 0 = peval (nth j polys []) (fpow g i).
Proof using Type.
  intros Hi. unfold domain_columns. destruct (Nat.lt_ge_cases j (length polys)) as [L|L].
  - set (F := fun p : poly E => map (fun i => peval p (fpow g i)) (seq 0 n)).
    rewrite (nth_indep (map F polys) [] (F [])) by (now rewrite map_length). rewrite (map_nth F). unfold F. clear F.
    rewrite (nth_indep _ 0 (peval (nth j polys []) (fpow g 0))) by (now rewrite map_length, seq_length).
    rewrite (map_nth (fun i => peval (nth j polys []) (fpow g i))). now rewrite seq_nth.
  - rewrite (nth_overflow polys) by exact L. rewrite (nth_overflow (map _ polys)) by (now rewrite map_length). now destruct i.
Qed.
Lemma domain_columns_frame i : (i < n)%nat ->
  mk_frame (concat (map (fun o => map (fun c => nth ((i + o) mod n) c 0) (domain_columns polys g n)) (transition_offsets ctx)))
    (length (domain_columns polys g n)) = shifted_frame polys (transition_offsets ctx) g (fpow g i).
Proof using D HE.
  intros Hi. unfold shifted_frame, shifted_rows. f_equal; [|unfold domain_columns; apply map_length].
  f_equal. apply map_ext. intro o. unfold domain_columns. rewrite map_map. apply map_ext. intro p.
  assert (Hm : ((i + o) mod n < n)%nat) by (apply Nat.mod_upper_bound; exact (proj2 (Nat.neq_0_lt_0 n) npos)).
  rewrite (nth_indep _ 0 (peval p (fpow g 0))) by (now rewrite map_length, seq_length).
  rewrite (map_nth (fun i => peval p (fpow g i))), seq_nth by exact Hm. f_equal.
  rewrite Nat.add_0_l, (prim_pow_mod HK g n _ npos Hg). apply (fpow_add HK).
Qed.
End Shape.
End Ood.
