(** C99: the constructor of the Fibonacci RAP and the exempted rows. *)
From Coq Require Import List Arith Lia Bool NArith ZArith.
From Verif.Base Require Import Outcome Field Poly Zp.
From Verif.Model Require Import Codec PublicInputs Trace Air Transcript Domain Options Prover Verifier ExampleAirs CairoDecode CairoTrace CairoAir Release RapNew.
From Verif.Spec Require Import AirSpec ExampleSpec CairoSpec ExemptionWork.
From Verif.Proofs Require Import OutcomeFacts FieldFacts PolyFacts DomainFacts.
From Verif.Examples Require Import Toy.
From Verif.Properties Require Import ExampleProperties.
Import ListNotations.
Local Open Scope felt_scope.

Section Monic.
Context {E : env} (HE : env_ok E).
Let HK : field_ok E := fft_field_ok _ (e_fft_ok _ HE).
Add Field Kfield93 : (fld_th E HK).

(** Coefficient 1 at [d] and none above. *)
Definition top_one (p : poly E) (d : nat) : Prop := coef p d = 1 /\ forall i, (d < i)%nat -> coef p i = 0.
Lemma top_one_length p d : top_one p d -> length (trim p) = S d.
Proof using HE.
  intros [H1 H2]. apply Nat.le_antisymm; [apply (trim_length_le HK); intros i Hi; apply H2; lia|].
  destruct (Nat.le_gt_cases (S d) (length (trim p))) as [L|L]; [exact L|]. exfalso. apply (F_1_neq_0 (fld_th E HK)).
  transitivity (coef (trim p) d); [now rewrite (trim_coef HK)|]. unfold coef. apply nth_overflow. lia.
Qed.
Lemma top_one_trim p d : top_one p d -> top_one (trim p) d.
Proof using HE. intros [H1 H2]. split; [now rewrite (trim_coef HK)|]. intros i Hi. rewrite (trim_coef HK). now apply H2. Qed.
Lemma pair_coef (a b : E) i : coef [a; b] i = match i with O => a | S O => b | _ => 0 end.
Proof using Type. unfold coef. destruct i as [|[|[|i]]]; reflexivity. Qed.
Lemma pmul_pair (p : poly E) (a b : E) i : coef (pmul_raw p [a; b]) i = coef p i * a + match i with O => 0 | S j => coef p j * b end.
Proof using HE.
  revert i. induction p as [|c p IH]; intro i; cbn [pmul_raw].
  - unfold coef. destruct i as [|j]; cbn [nth]; [ring|]. destruct j; cbn [nth]; ring.
  - rewrite (padd_raw_coef HK). unfold pscale_raw. cbn [map]. rewrite pair_coef. destruct i as [|j]; [unfold coef; cbn [nth]; ring|].
    change (coef (0 :: pmul_raw p [a; b]) (S j)) with (coef (pmul_raw p [a; b]) j). rewrite IH. change (coef (c :: p) (S j)) with (coef p j).
    destruct j as [|j]; [change (coef (c :: p) 0) with c; ring|]. change (coef (c :: p) (S j)) with (coef p j). ring.
Qed.
Lemma x_minus_pair (r : E) : x_minus r = [0 + - r; 1].
Proof using HE.
  assert (N : feqb (1 : E) 0 = false) by (destruct (feqb (1 : E) 0) eqn:H; [apply (feqb_spec E HK) in H; destruct (F_1_neq_0 (fld_th E HK) H)|reflexivity]).
  unfold x_minus, psub_const, monomial. cbn [repeat app trim]. rewrite N. cbn [padd_raw trim]. now rewrite N.
Qed.
Lemma times_factor p d r : top_one p d -> top_one (pmul p (x_minus r)) (S d).
Proof using HE.
  intros [H1 H2]. unfold pmul. apply top_one_trim. rewrite x_minus_pair. split.
  - rewrite pmul_pair, H1, H2 by lia. ring.
  - intros [|i] Hi; [lia|]. rewrite pmul_pair, !H2 by lia. ring.
Qed.
Lemma factors (f : nat -> E) l : forall p d, top_one p d -> top_one (fold_left (fun acc k => pmul acc (x_minus (f k))) l p) (d + length l).
Proof using HE.
  induction l as [|k l IH]; intros p d H; cbn [fold_left length]; [now rewrite Nat.add_0_r|]. replace (d + S (length l))%nat with (S d + length l)%nat by lia.
  apply IH, times_factor, H.
Qed.
Lemma factors_length (f : nat -> E) l : length (fold_left (fun acc k => pmul acc (x_minus (f k))) l (monomial 1 0)) = S (length l).
Proof using HE.
  assert (T : forall p d, top_one p d -> trim p = p -> length p = S d) by (intros p d H E0; rewrite <- E0; now apply top_one_length).
  assert (H0 : top_one (monomial (1 : E) 0) 0). { unfold monomial. apply top_one_trim. split; [reflexivity|]. intros i Hi. unfold coef. apply nth_overflow. cbn [repeat app length]. lia. }
  destruct l as [|k l'] eqn:El; [cbn [fold_left length]; unfold monomial; apply top_one_length; split; [reflexivity|intros i Hi; unfold coef; apply nth_overflow; cbn [repeat app length]; lia]|].
  rewrite <- El. assert (Hl : l = removelast l ++ [last l 0%nat]) by (apply app_removelast_last; rewrite El; discriminate).
  rewrite Hl, fold_left_app, app_length. cbn [fold_left length]. unfold pmul at 1. apply top_one_length.
  pose proof (factors f (removelast l) _ _ H0) as [H1 H2]. cbn [Nat.add] in H1, H2. rewrite x_minus_pair. split.
  - replace (length (removelast l) + 1)%nat with (S (length (removelast l))) by lia. rewrite pmul_pair, H1, H2 by lia. ring.
  - intros [|i] Hi; [lia|]. rewrite pmul_pair, !H2 by lia. ring.
Qed.
End Monic.

(** ** C99 *)

(** For every air the verifier computes as many polynomials as the largest number of exempted rows says, each from scratch. *)
Theorem C99_exemption_work :
  forall (E : env), env_ok E -> forall (a : air E) root e, list_max_o (transition_exemptions (a_context a)) = Some e ->
  exists polys, transition_exemptions_verifier a root = Ok polys /\ of_degrees_up_to e polys /\ (2 * coefficients polys = e * (e + 3))%nat.
Proof.
  intros E HE a root e Hmax. unfold transition_exemptions_verifier. rewrite Hmax. cbn [unwrap obind]. eexists. split; [reflexivity|].
  assert (L : forall index, length (fold_left (fun acc k => pmul acc (x_minus (fpow root k))) (seq 1 index) (monomial (1 : E) 0)) = S index).
  { intro index. rewrite (factors_length HE (fun k => fpow root k) (seq 1 index)). now rewrite seq_length. }
  split; [split|].
  - now rewrite map_length, seq_length.
  - intros i Hi. set (f := fun index => fold_left (fun acc k => pmul acc (x_minus (fpow root k))) (seq 1 index) (monomial (1 : E) 0)).
    rewrite (nth_indep _ [] (f 0%nat)) by (rewrite map_length, seq_length; exact Hi). rewrite (map_nth f), seq_nth by exact Hi. unfold f. rewrite L. lia.
  - unfold coefficients. rewrite map_map, (map_ext _ S L). clear. induction e as [|e IH]; [reflexivity|]. rewrite seq_S, map_app, list_sum_app. cbn [map list_sum fold_right]. lia.
Qed.
Print Assumptions C99_exemption_work.

(** The constructor subtracts the declared number of steps from the number of rows: with enough rows it is the air of the other
    properties; with fewer it panics, or, without overflow checks, exempts almost 2^64 rows. *)
Theorem C99_constructor :
  forall (E : env) m steps opts n,
  ((steps <= n + 2)%nat -> fibonacci_rap_new m E steps opts n = Ok (fibonacci_rap_air E steps opts n)) /\
  ((n + 2 < steps)%nat -> fibonacci_rap_new Debug E steps opts n = Panic) /\
  ((n + 2 < steps)%nat -> (N.of_nat steps < 2 ^ 64)%N -> exists a e, fibonacci_rap_new Release E steps opts n = Ok a /\
     list_max_o (transition_exemptions (a_context a)) = Some e /\ (N.of_nat e + N.of_nat steps = 2 ^ 64 + 2 + N.of_nat n)%N).
Proof.
  intros E m steps opts n. unfold fibonacci_rap_new, usub_in. split; [|split].
  - intro H. destruct (Nat.ltb_spec (3 + n) steps) as [L|_]; [lia|]. cbn [obind]. destruct (Nat.ltb_spec (3 + n - steps) 1) as [L|_]; [lia|]. reflexivity.
  - intro H. destruct (Nat.ltb_spec (3 + n) steps) as [L|L]; [reflexivity|]. cbn [obind]. destruct (Nat.ltb_spec (3 + n - steps) 1) as [L'|L']; [reflexivity|lia].
  - intros H Hs. destruct (Nat.ltb_spec (3 + n) steps) as [L|L].
    + remember (N.to_nat (2 ^ 64 + N.of_nat (3 + n) - N.of_nat steps)) as s eqn:Es. apply (f_equal N.of_nat) in Es. rewrite N2Nat.id in Es. cbn [obind].
      destruct (Nat.ltb_spec s 1) as [L'|L']; [exfalso; lia|]. cbn [obind]. exists (rap_with E (s - 1) opts n), (s - 1)%nat. split; [reflexivity|]. split; [|lia].
      cbn [rap_with a_context transition_exemptions list_max_o list_max fold_right]. f_equal. lia.
    + cbn [obind]. destruct (Nat.ltb_spec (3 + n - steps) 1) as [_|L']; [|lia]. remember (N.to_nat (2 ^ 64 + N.of_nat (3 + n - steps) - N.of_nat 1)) as s eqn:Es.
      apply (f_equal N.of_nat) in Es. rewrite N2Nat.id in Es. cbn [obind]. exists (rap_with E s opts n), s. split; [reflexivity|]. split; [|lia].
      cbn [rap_with a_context transition_exemptions list_max_o list_max fold_right]. f_equal. lia.
Qed.
Print Assumptions C99_constructor.

(** FINDING. With enough rows the prover and the verifier are those of the other properties; a table or a proof with too few rows for
    the declared number of steps makes them panic. *)
Theorem C99_enough_rows :
  forall (E : env) m fuel steps opts (t : trace_table E) (p : stark_proof E),
  ((steps <= tt_n_rows t + 2)%nat -> prove_rap m E fuel steps opts t = prove E fuel (fibonacci_rap_air E steps opts) t) /\
  ((steps <= trace_length p + 2)%nat -> verify_rap m E fuel steps opts p = verify_in m E fuel (fibonacci_rap_air E steps opts) opts p).
Proof.
  intros E m fuel steps opts t p. split; intro H.
  - unfold prove_rap. rewrite (proj1 (C99_constructor E m steps opts _) H). reflexivity.
  - unfold verify_rap. rewrite (proj1 (C99_constructor E m steps opts _) H). cbn [obind]. unfold verify_in.
    destruct (length (query_list p) <? fri_number_of_queries opts)%nat; reflexivity.
Qed.
Print Assumptions C99_enough_rows.
Theorem C99_short_proof_panics :
  forall (E : env) fuel steps opts (t : trace_table E) (p : stark_proof E),
  ((tt_n_rows t + 2 < steps)%nat -> prove_rap Debug E fuel steps opts t = Panic) /\
  ((trace_length p + 2 < steps)%nat -> (fri_number_of_queries opts <= length (query_list p))%nat -> verify_rap Debug E fuel steps opts p = Panic) /\
  ((length (query_list p) < fri_number_of_queries opts)%nat -> forall m, verify_rap m E fuel steps opts p = Ok false).
Proof.
  intros E fuel steps opts t p. split; [|split; intro H].
  - intro H. unfold prove_rap. now rewrite (proj1 (proj2 (C99_constructor E Debug steps opts _)) H).
  - intro Hq. unfold verify_rap. destruct (Nat.ltb_spec (length (query_list p)) (fri_number_of_queries opts)) as [L|_]; [lia|].
    now rewrite (proj1 (proj2 (C99_constructor E Debug steps opts _)) H).
  - intro m. unfold verify_rap. destruct (Nat.ltb_spec (length (query_list p)) (fri_number_of_queries opts)) as [_|L]; [reflexivity|lia].
Qed.
Print Assumptions C99_short_proof_panics.

(** And a proof with many rows makes the verifier compute a number of coefficients that is quadratic in the rows that are not
    steps; for the Cairo air it is two, whatever the proof. *)
Theorem C99_long_proof_work :
  forall (E : env), env_ok E -> forall steps opts n root, (steps <= n + 1)%nat ->
  exists polys, transition_exemptions_verifier (fibonacci_rap_air E steps opts n) root = Ok polys /\
    (2 * coefficients polys = (n + 2 - steps) * (n + 5 - steps))%nat.
Proof.
  intros E HE steps opts n root H. destruct (C99_exemption_work E HE (fibonacci_rap_air E steps opts n) root (n + 2 - steps)) as (polys & H1 & _ & H2).
  { cbn [fibonacci_rap_air a_context transition_exemptions list_max_o list_max fold_right]. f_equal. lia. }
  exists polys. split; [exact H1|]. replace (n + 5 - steps)%nat with (n + 2 - steps + 3)%nat by lia. exact H2.
Qed.
Print Assumptions C99_long_proof_work.
Theorem C99_cairo_work :
  forall (C : cairo_env) p, cairo_ok C p -> forall (pi : public_inputs C) opts n root,
  exists polys, transition_exemptions_verifier (cairo_air pi opts n) root = Ok polys /\ coefficients polys = 2%nat.
Proof.
  intros C p HC pi opts n root. destruct (C99_exemption_work C (co_env _ _ HC) (cairo_air pi opts n) root 1) as (polys & H1 & _ & H2).
  { cbn [cairo_air a_context cairo_context transition_exemptions]. destruct (has_rc_builtin pi); reflexivity. }
  exists polys. split; [exact H1|lia].
Qed.
Print Assumptions C99_cairo_work.

(** A run of three steps: the proof of the honest table is accepted, and the same proof is a panic for eleven declared steps. *)
Example C99_example : exists t p,
  fibonacci_rap_trace toy (f97 1) (f97 1) 3 = Ok t /\ prove_rap Debug toy 20 3 toy_opts t = Ok p /\ tt_n_rows t = 4%nat /\ trace_length p = 4%nat /\
  verify_rap Debug toy 20 3 toy_opts p = Ok true /\ verify_rap Debug toy 20 11 toy_opts p = Panic.
Proof.
  assert (H : match obind (fibonacci_rap_trace toy (f97 1) (f97 1) 3) (fun t => obind (prove_rap Debug toy 20 3 toy_opts t) (fun p => Ok (t, p))) with
    | Ok (t, p) => (tt_n_rows t =? 4)%nat && (trace_length p =? 4)%nat && match verify_rap Debug toy 20 3 toy_opts p with Ok b => b | _ => false end &&
       match verify_rap Debug toy 20 11 toy_opts p with Panic => true | _ => false end
    | _ => false end = true) by (vm_compute; reflexivity).
  destruct (fibonacci_rap_trace toy (f97 1) (f97 1) 3) as [t| |]; try discriminate H. cbn [obind] in H. destruct (prove_rap Debug toy 20 3 toy_opts t) as [p| |] eqn:Ep; try discriminate H. cbn [obind] in H.
  apply andb_true_iff in H. destruct H as [H H4]. apply andb_true_iff in H. destruct H as [H H3]. apply andb_true_iff in H. destruct H as [H1 H2]. apply Nat.eqb_eq in H1, H2.
  exists t, p. split; [reflexivity|]. split; [exact Ep|]. split; [exact H1|]. split; [exact H2|]. split.
  - destruct (verify_rap Debug toy 20 3 toy_opts p) as [[]| |]; try discriminate H3. reflexivity.
  - destruct (verify_rap Debug toy 20 11 toy_opts p) as [| |]; try discriminate H4. reflexivity.
Qed.
