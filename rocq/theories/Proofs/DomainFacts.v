(** Domains, evaluation on the LDE coset, exemption polynomials and boundary zerofiers. *)
From Coq Require Import List Arith Lia Bool NArith.
From Verif.Base Require Import Outcome Field Poly.
From Verif.Model Require Import Codec Trace Air Domain Evaluator.
From Verif.Proofs Require Import OutcomeFacts FieldFacts PolyFacts FFTFacts TraceFacts.
Import ListNotations.
Local Open Scope felt_scope.

Section EvalLde.
Context {K : fft_ops} (HF : fft_ok K).
Let HK : field_ok K := fft_field_ok K HF.
Add Field Kfield7 : (fld_th K HK).

Lemma every_map {A B} (f : A -> B) s k l : every s k (map f l) = map f (every s k l).
Proof using Type.
  revert k; induction l as [|a l IH]; intros [|k]; cbn [every map]; try reflexivity; [f_equal|]; apply IH.
Qed.

Lemma every_1 {A} (l : list A) : every 1 0 l = l.
Proof using Type. induction l as [|a l IH]; [reflexivity|]. cbn. f_equal. exact IH. Qed.

Lemma pow2_split s r : r <= s -> (2 ^ s = 2 ^ r * 2 ^ (s - r))%nat.
Proof using Type. intro H. rewrite <- Nat.pow_add_r. f_equal. lia. Qed.

(** Whatever the degree of the polynomial, the LDE evaluation is the list of its values on the coset. *)
Theorem eval_lde_ok (p : poly K) r b h W l :
  1 <= r -> primitive_root (r + b) = Some W ->
  evaluate_polynomial_on_lde_domain p (2 ^ b) (2 ^ r) h = Ok l ->
  l = map (fun i => peval p (h * fpow W i)) (seq 0 (2 ^ (r + b))).
Proof using HF.
  intros Hr HW H. unfold evaluate_polynomial_on_lde_domain in H. ok_step H. rename v into evs.
  unfold evaluate_offset_fft in Hv.
  set (s := Nat.log2_up (Nat.max (length p) (2 ^ r))) in *.
  assert (Hs : r <= s). { transitivity (Nat.log2_up (2 ^ r)); [rewrite Nat.log2_up_pow2; lia|]. apply Nat.log2_up_le_mono. apply Nat.le_max_r. }
  assert (El : (next_pow2 (Nat.max (length p) (2 ^ r)) * 2 ^ b = 2 ^ (s + b))%nat).
  { unfold next_pow2. fold s. now rewrite Nat.pow_add_r. }
  rewrite El in Hv.
  assert (Hp2 : is_pow2 (2 ^ (s + b)) = true) by (apply is_pow2_spec; eauto).
  rewrite Hp2, Nat.log2_pow2 in Hv by lia.
  destruct (primitive_root (s + b)) as [w'|] eqn:Hw'; [|discriminate]. apply ok_inj in Hv.
  assert (Hlen : length evs = (2 ^ (s + b))%nat) by (rewrite <- Hv, map_length, seq_length; reflexivity).
  assert (Htot : (2 ^ r * 2 ^ b = 2 ^ (r + b))%nat) by (now rewrite Nat.pow_add_r).
  rewrite Htot, Hlen in H. pose proof (pow2_pos (r + b)) as Hpos.
  destruct (Nat.eqb_spec (2 ^ (r + b)) 0); [lia|].
  assert (Hsplit : (2 ^ (s + b) = 2 ^ (r + b) * 2 ^ (s - r))%nat).
  { rewrite <- Nat.pow_add_r. f_equal. lia. }
  assert (Hstep : (2 ^ (s + b) / 2 ^ (r + b) = 2 ^ (s - r))%nat).
  { rewrite Hsplit, Nat.mul_comm. now apply Nat.div_mul. }
  rewrite Hstep in H.
  assert (Hw : fpow w' (2 ^ (s - r)) = W).
  { apply (primitive_root_pow HF (r + b) (s - r)); [lia|exact HW|].
    replace (r + b + (s - r))%nat with (s + b)%nat by lia. exact Hw'. }
  assert (Hev : every (2 ^ (s - r)) 0 evs = map (fun i => peval p (h * fpow W i)) (seq 0 (2 ^ (r + b)))).
  { rewrite <- Hv, every_map, Hsplit, every_nat_seq by apply pow2_pos. rewrite map_map. apply map_ext.
    intro i. do 2 f_equal. cbn [Nat.add]. rewrite <- Hw, <- (fpow_mul HK), Nat.mul_comm. reflexivity. }
  pose proof (pow2_pos (s - r)) as Hpos2.
  destruct (2 ^ (s - r))%nat as [|[|q]] eqn:Eq; [lia| |].
  - apply ok_inj in H. subst l. rewrite <- Hev, <- Hv, every_map.
    f_equal. symmetry. apply every_1.
  - unfold step_by in H. apply ok_inj in H. congruence.
Qed.

(** It succeeds as long as the (possibly enlarged) FFT domain is supported. *)
Theorem eval_lde_succeeds (p : poly K) r b h :
  1 <= r -> (r + b <= two_adicity K)%nat -> length p <= (2 ^ r)%nat ->
  exists l, evaluate_polynomial_on_lde_domain p (2 ^ b) (2 ^ r) h = Ok l.
Proof using HF.
  intros Hr Ha Hp. unfold evaluate_polynomial_on_lde_domain, evaluate_offset_fft.
  rewrite next_pow2_le by exact Hp. rewrite <- Nat.pow_add_r.
  assert (Hp2 : is_pow2 (2 ^ (r + b)) = true) by (apply is_pow2_spec; eauto).
  rewrite Hp2, Nat.log2_pow2 by lia.
  destruct (primitive_root_some (K := K) (r + b)) as [w Hw]; [lia|]. rewrite Hw. cbn [obind].
  rewrite map_length, seq_length. pose proof (pow2_pos (r + b)).
  destruct (Nat.eqb_spec (2 ^ (r + b)) 0); [lia|]. rewrite Nat.div_same by lia. eauto.
Qed.
End EvalLde.

Section Domain.
Context {E : env} (HE : env_ok E).
Let HF : fft_ok E := e_fft_ok E HE.
Let HK : field_ok E := fft_field_ok E HF.
Add Field Kfield8 : (fld_th E HK).

(** The shape of a domain for power-of-two sizes. *)
Record domain_shape (d : domain E) (r b : nat) (h g W : E) : Prop := {
  ds_r : 1 <= r;
  ds_g : primitive_root r = Some g;
  ds_W : primitive_root (r + b) = Some W;
  ds_root_order : root_order d = r;
  ds_lde_order : lde_root_order d = (r + b)%nat;
  ds_root : trace_primitive_root d = g;
  ds_trace : trace_roots_of_unity d = map (fun i => fpow g i * 1) (seq 0 (2 ^ r));
  ds_lde : lde_roots_of_unity_coset d = map (fun i => fpow W i * h) (seq 0 (2 ^ (r + b)));
  ds_offset : d_coset_offset d = h;
  ds_blowup : d_blowup_factor d = (2 ^ b)%nat;
  ds_size : interpolation_domain_size d = (2 ^ r)%nat;
  ds_gW : fpow W (2 ^ b) = g;
  ds_gprim : is_prim g (2 ^ r);
  ds_Wprim : is_prim W (2 ^ (r + b))
}.

Lemma domain_new_shape (a : air E) d r b :
  domain_new a = Ok d -> a_trace_length a = (2 ^ r)%nat -> a_blowup a = (2 ^ b)%nat -> 1 <= r ->
  exists g W, domain_shape d r b (e_u64 E (coset_offset (a_options a))) g W.
Proof using HE.
  unfold domain_new. intros H Hn Hb Hr. unfold a_blowup in Hb. rewrite Hb, Hn in H.
  rewrite tz_pos_pow2, <- Nat.pow_add_r, tz_pos_pow2 in H.
  ok_step H. rename v into g. apply unwrap_ok in Hv. ok_step H. apply unwrap_r_ok in Hv0. ok_step H. apply unwrap_r_ok in Hv1.
  apply ok_inj in H. subst d. unfold powers_coset in *. rewrite Hv in Hv0.
  destruct (primitive_root (r + b)) as [W|] eqn:HW; [|discriminate].
  apply ok_inj in Hv0, Hv1. exists g, W. constructor; cbn; try easy.
  - now apply (primitive_root_pow HF r b g W Hr).
  - now apply (primitive_root_prim HF r g Hr).
  - apply (primitive_root_prim HF (r + b) W); [lia|exact HW].
Qed.

Lemma domain_new_ok (a : air E) r b :
  a_trace_length a = (2 ^ r)%nat -> a_blowup a = (2 ^ b)%nat -> 1 <= r -> (r + b <= two_adicity E)%nat ->
  exists d, domain_new a = Ok d.
Proof using Type.
  intros Hn Hb Hr Ha. unfold domain_new. unfold a_blowup in Hb. rewrite Hb, Hn, <- Nat.pow_add_r, !tz_pos_pow2.
  destruct (primitive_root_some (K := E) r) as [g Hg]; [lia|].
  destruct (primitive_root_some (K := E) (r + b)) as [W HW]; [lia|].
  unfold powers_coset. rewrite Hg, HW. cbn. eauto.
Qed.

Section WithShape.
Context {d : domain E} {r b : nat} {h g W : E} (D : domain_shape d r b h g W).

Lemma shape_lde_coset : lde_roots_of_unity_coset d = coset W h (2 ^ (r + b)).
Proof using D HE. rewrite (ds_lde _ _ _ _ _ _ D). unfold coset. apply map_ext. intro. ring. Qed.

Lemma shape_trace_coset : trace_roots_of_unity d = coset g 1 (2 ^ r).
Proof using D HE. rewrite (ds_trace _ _ _ _ _ _ D). unfold coset. apply map_ext. intro. ring. Qed.

Lemma shape_lde_length : length (lde_roots_of_unity_coset d) = (2 ^ (r + b))%nat.
Proof using D HE. rewrite shape_lde_coset. apply coset_length. Qed.

Lemma shape_g_nonzero : g <> 0.
Proof using D HE. apply (prim_nonzero HK g (2 ^ r)); [apply pow2_pos|exact (ds_gprim _ _ _ _ _ _ D)]. Qed.

Lemma shape_W_nonzero : W <> 0.
Proof using D HE. apply (prim_nonzero HK W (2 ^ (r + b))); [apply pow2_pos|exact (ds_Wprim _ _ _ _ _ _ D)]. Qed.

Lemma shape_gpow k : fpow g k = fpow W (k * 2 ^ b).
Proof using D HE. rewrite <- (ds_gW _ _ _ _ _ _ D), <- (fpow_mul HK). f_equal. lia. Qed.

Lemma shape_trace_in k : In (fpow g k) (trace_roots_of_unity d).
Proof using D HE.
  rewrite shape_trace_coset. apply (root_of_unity_in HK); [apply pow2_pos|exact (ds_gprim _ _ _ _ _ _ D)|].
  rewrite <- (fpow_mul HK), Nat.mul_comm, (fpow_mul HK). destruct (ds_gprim _ _ _ _ _ _ D) as [-> _].
  apply (fpow_one HK).
Qed.

Lemma shape_lde_mul x k : In x (lde_roots_of_unity_coset d) -> In (x * fpow g k) (lde_roots_of_unity_coset d).
Proof using D HE.
  rewrite shape_lde_coset, !coset_in. intros (i & Hi & ->). rewrite shape_gpow.
  exists ((i + k * 2 ^ b) mod 2 ^ (r + b))%nat. split; [apply Nat.mod_upper_bound; pose proof (pow2_pos (r + b)); lia|].
  rewrite (prim_pow_mod HK) by (apply pow2_pos || exact (ds_Wprim _ _ _ _ _ _ D)). rewrite (fpow_add HK). ring.
Qed.

Lemma shape_lde_unmul x k : In (x * fpow g k) (lde_roots_of_unity_coset d) -> In x (lde_roots_of_unity_coset d).
Proof using D HE.
  intro H. pose proof (pow2_pos r) as Hp.
  apply (shape_lde_mul _ (2 ^ r * k - k)) in H.
  replace (x * fpow g k * fpow g (2 ^ r * k - k)) with x in H; [exact H|].
  transitivity (x * (fpow g k * fpow g (2 ^ r * k - k))); [|ring].
  rewrite <- (fpow_add HK). replace (k + (2 ^ r * k - k))%nat with (2 ^ r * k)%nat by nia.
  rewrite (fpow_mul HK). destruct (ds_gprim _ _ _ _ _ _ D) as [-> _]. rewrite (fpow_one HK). ring.
Qed.
End WithShape.

(** ** Transition exemptions *)
Definition last_roots (g : E) (n e : nat) : list E := map (fun k => fpow g (n - k)) (seq 1 e).

Lemma x_minus_eval (c x : E) : peval (x_minus c) x = x - c.
Proof using HE. unfold x_minus. rewrite (peval_psub_const HK), (peval_monomial HK). cbn [fpow]. ring. Qed.

Lemma x_minus_length (c : E) : length (x_minus c) <= 2.
Proof using Type.
  unfold x_minus. etransitivity; [apply psub_const_length|]. apply Nat.max_lub; [|lia].
  unfold monomial. etransitivity; [apply trim_length|]. cbn. lia.
Qed.

Lemma monomial0_eval (x : E) : peval (monomial 1 0) x = 1.
Proof using HE. rewrite (peval_monomial HK). cbn [fpow]. ring. Qed.

Lemma fold_pmul_eval {A} (f : A -> E) l (acc : poly E) x :
  peval (fold_left (fun acc r => pmul acc (x_minus (f r))) l acc) x = peval acc x * fprod (map (fun r => x - f r) l).
Proof using HE.
  revert acc; induction l as [|c l IH]; intro acc; cbn [fold_left map fprod fold_right]; [ring|].
  rewrite IH, (peval_pmul HK), x_minus_eval. fold (fprod (map (fun r => x - f r) l)). ring.
Qed.

Lemma fold_pmul_length {A} (f : A -> E) l (acc : poly E) m :
  length acc <= S m -> length (fold_left (fun acc r => pmul acc (x_minus (f r))) l acc) <= S (m + length l).
Proof using Type.
  revert acc m; induction l as [|c l IH]; intros acc m H; cbn [fold_left length].
  - rewrite Nat.add_0_r. exact H.
  - replace (m + S (length l))%nat with ((m + 1) + length l)%nat by lia. apply IH.
    apply pmul_length_le; [exact H|]. apply x_minus_length.
Qed.

Lemma rev_trace_roots (g : E) n e : e <= n ->
  firstn e (rev (map (fun i => fpow g i * 1) (seq 0 n))) = last_roots g n e.
Proof using HE.
  intro He. unfold last_roots. rewrite <- map_rev.
  assert (Hrev : forall n, rev (seq 0 n) = map (fun k => (n - k)%nat) (seq 1 n)).
  { clear. induction n as [|n IH]; [reflexivity|]. rewrite seq_S, rev_app_distr. cbn [rev app Nat.add].
    rewrite IH. cbn [seq map]. f_equal; [lia|]. rewrite <- (seq_shift n 1), map_map. apply map_ext. intro; lia. }
  rewrite Hrev, map_map, firstn_map.
  assert (Hf : forall s n e, e <= n -> firstn e (seq s n) = seq s e).
  { clear. intros s n e. revert s n; induction e as [|e IH]; intros s n H; [reflexivity|].
    destruct n; [lia|]. cbn. f_equal. apply IH. lia. }
  rewrite Hf by exact He. apply map_ext. intro. ring.
Qed.

Definition exemption_poly_prover (g : E) n e : poly E :=
  fold_left (fun acc r => pmul acc (x_minus r)) (last_roots g n e) (monomial 1 0).

Lemma exemption_poly_eval (g : E) n e x : peval (exemption_poly_prover g n e) x = vanish (last_roots g n e) x.
Proof using HE.
  unfold exemption_poly_prover. rewrite (fold_pmul_eval (fun r => r)), monomial0_eval. unfold vanish. ring.
Qed.

Lemma exemption_poly_length (g : E) n e : length (exemption_poly_prover g n e) <= S e.
Proof using Type.
  unfold exemption_poly_prover. rewrite <- (seq_length e 1) at 2.
  change (seq 1 e) with (seq 1 e). rewrite <- (map_length (fun k => fpow g (n - k)) (seq 1 e)).
  apply (fold_pmul_length (fun r => r) _ _ 0). unfold monomial. etransitivity; [apply trim_length|]. cbn. lia.
Qed.

Lemma transition_exemption_polys_ok (a : air E) r g polys :
  a_trace_length a = (2 ^ r)%nat -> primitive_root r = Some g ->
  (forall e, In e (transition_exemptions (a_context a)) -> e <= (2 ^ r)%nat) ->
  transition_exemption_polys a = Ok polys ->
  polys = map (exemption_poly_prover g (2 ^ r)) (filter (fun v => (0 <? v)%nat) (uniq (transition_exemptions (a_context a)))).
Proof using HE.
  unfold transition_exemption_polys. intros Hn Hg He H. rewrite Hn, tz_pos_pow2 in H.
  unfold powers_coset in H. rewrite Hg in H. cbn [unwrap_r obind] in H. apply ok_inj in H. subst polys.
  apply map_ext_in. intros e Hin. unfold exemption_poly_prover. rewrite rev_trace_roots; [reflexivity|].
  apply He. apply filter_In in Hin. destruct Hin as [Hin _]. clear -Hin.
  unfold uniq in Hin. revert Hin. generalize (@nil nat).
  induction (transition_exemptions (a_context a)) as [|x l IH]; intros seen Hin; [destruct Hin|].
  cbn [uniq_from] in Hin. destruct (existsb (Nat.eqb x) seen); [right; eapply IH; exact Hin|].
  destruct Hin as [->|Hin]; [now left|right; eapply IH; exact Hin].
Qed.

(** The verifier's version: [last_root = g^(n-1)], its powers are the last roots. *)
Lemma last_root_pow (g : E) n k : 0 < n -> is_prim g n -> k <= n -> fpow (fpow g (n - 1)) k = fpow g (n - k).
Proof using HE.
  intros Hn Hp Hk. assert (Hg : g <> 0) by now apply (prim_nonzero HK g n).
  apply (mul_cancel_l HK (fpow g k)); [now apply (fpow_nonzero HK)|].
  rewrite <- (fpow_add HK). replace (k + (n - k))%nat with n by lia. destruct Hp as [Hp _]. rewrite Hp.
  rewrite <- (fpow_mul_base HK). replace (g * fpow g (n - 1)) with (fpow g n).
  - rewrite Hp. apply (fpow_one HK).
  - replace n with (S (n - 1)) at 1 by lia. reflexivity.
Qed.

Definition exemption_poly_verifier (last_root : E) e : poly E :=
  fold_left (fun acc k => pmul acc (x_minus (fpow last_root k))) (seq 1 e) (monomial 1 0).

Lemma exemption_poly_verifier_eval (g : E) n e x : 0 < n -> is_prim g n -> e <= n ->
  peval (exemption_poly_verifier (fpow g (n - 1)) e) x = vanish (last_roots g n e) x.
Proof using HE.
  intros Hn Hp He. unfold exemption_poly_verifier. rewrite (fold_pmul_eval (fun k => fpow (fpow g (n - 1)) k)), monomial0_eval.
  unfold vanish, last_roots. rewrite map_map.
  rewrite (map_ext_in (fun r => x - fpow (fpow g (n - 1)) r) (fun k => x - fpow g (n - k))); [ring|].
  intros k Hk. apply in_seq in Hk. now rewrite last_root_pow by (assumption || lia).
Qed.

(** Vanishing exactly on the last [e] rows. *)
Lemma last_roots_in (g : E) n e i : is_prim g n -> e <= n -> i < n ->
  (In (fpow g i) (last_roots g n e) <-> (n - e <= i)%nat).
Proof using HE.
  intros Hp He Hi. unfold last_roots. rewrite in_map_iff. split.
  - intros (k & Ek & Hk). apply in_seq in Hk. apply (prim_inj HK g n) in Ek; try assumption; lia.
  - intro H. exists (n - i)%nat. split; [f_equal; lia|]. apply in_seq. lia.
Qed.

(** ** Boundary zerofiers *)
Lemma bc_zerofier_eval (bcs : list (boundary_constraint E)) (g : E) col x :
  peval (bc_compute_zerofier bcs g col) x = vanish (map (fun s => fpow g s) (bc_steps bcs col)) x.
Proof using HE.
  unfold bc_compute_zerofier, vanish. rewrite map_map.
  assert (G : forall l (acc : poly E), peval (fold_left (fun z s => pmul z (trim [- fpow g s; 1])) l acc) x =
              peval acc x * fprod (map (fun s => x - fpow g s) l)).
  { induction l as [|s l IH]; intro acc; cbn [fold_left map fprod fold_right]; [ring|].
    rewrite IH, (peval_pmul HK), (peval_trim HK). cbn [peval]. fold (fprod (map (fun s => x - fpow g s) l)). ring. }
  rewrite G, monomial0_eval. ring.
Qed.

Lemma bc_steps_in (bcs : list (boundary_constraint E)) col s :
  In s (bc_steps bcs col) <-> exists c, In c bcs /\ bc_col c = col /\ bc_step c = s.
Proof using Type.
  unfold bc_steps. rewrite in_map_iff. split.
  - intros (c & <- & Hc). apply filter_In in Hc. destruct Hc as [Hc Ec]. apply Nat.eqb_eq in Ec. eauto.
  - intros (c & Hc & Ec & <-). exists c. split; [reflexivity|]. apply filter_In. split; [exact Hc|]. now apply Nat.eqb_eq.
Qed.
End Domain.
