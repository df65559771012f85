(** The range-check builtin columns of an honestly built trace. *)
From Coq Require Import List Arith NArith ZArith Bool Lia.
From Verif.Base Require Import Outcome Field Poly.
From Verif.Model Require Import Codec PublicInputs Trace Air CairoDecode CairoTrace CairoAir.
From Verif.Spec Require Import CairoSpec CairoColumns CairoRun.
From Verif.Proofs Require Import FieldFacts PolyFacts OutcomeFacts FFTFacts TraceFacts BuildFacts MainTraceFacts SortFacts MainColsFacts DecodeFacts CairoAirFacts StepFacts HonestFacts SortedFacts.
Import ListNotations.
Local Open Scope felt_scope.

Section Builtin.
Context {C : cairo_env} {p : N} (HC : cairo_ok C p).
Let HK : field_ok C := fft_field_ok _ (e_fft_ok _ (co_env _ _ HC)).
Add Field Kfield43 : (fld_th C HK).

(** The eight 16-bit limbs of a 128-bit value. *)
Lemma limbs_value x : (x < 2 ^ 128)%N ->
  let q k := N.shiftr x (16 * k) in
  (N.land x 65535 + N.land (N.shiftr x 16) 65535 * 2 ^ 16 + N.land (N.shiftr (N.shiftr x 16) 16) 65535 * 2 ^ 32
   + N.land (N.shiftr (N.shiftr (N.shiftr x 16) 16) 16) 65535 * 2 ^ 48
   + N.land (N.shiftr (N.shiftr (N.shiftr (N.shiftr x 16) 16) 16) 16) 65535 * 2 ^ 64
   + N.land (N.shiftr (N.shiftr (N.shiftr (N.shiftr (N.shiftr x 16) 16) 16) 16) 16) 65535 * 2 ^ 80
   + N.land (N.shiftr (N.shiftr (N.shiftr (N.shiftr (N.shiftr (N.shiftr x 16) 16) 16) 16) 16) 16) 65535 * 2 ^ 96
   + N.land (N.shiftr (N.shiftr (N.shiftr (N.shiftr (N.shiftr (N.shiftr (N.shiftr x 16) 16) 16) 16) 16) 16) 16) 65535 * 2 ^ 112 = x)%N.
Proof using Type.
  intros Hx _. assert (L : forall y, N.land y 65535 = (y mod 65536)%N) by (intro y; exact (N.land_ones y 16)).
  assert (S : forall y, N.shiftr y 16 = (y / 65536)%N) by (intro y; exact (N.shiftr_div_pow2 y 16)).
  rewrite !L, !S.
  assert (D : forall y, (y = 65536 * (y / 65536) + y mod 65536 /\ y mod 65536 < 65536)%N) by (intro y; split; [now apply N.div_mod|now apply N.mod_lt]).
  change (2 ^ 128)%N with 340282366920938463463374607431768211456%N in Hx.
  change (2 ^ 16)%N with 65536%N. change (2 ^ 32)%N with 4294967296%N. change (2 ^ 48)%N with 281474976710656%N. change (2 ^ 64)%N with 18446744073709551616%N.
  change (2 ^ 80)%N with 1208925819614629174706176%N. change (2 ^ 96)%N with 79228162514264337593543950336%N. change (2 ^ 112)%N with 5192296858534827628530496329220096%N.
  assert (A : forall y k, (y < 65536 ^ (N.succ k) -> y / 65536 < 65536 ^ k)%N).
  { intros y k Hy. apply N.div_lt_upper_bound; [discriminate|]. now rewrite <- N.pow_succ_r'. }
  assert (Z : (x / 65536 / 65536 / 65536 / 65536 / 65536 / 65536 / 65536 < 65536)%N).
  { change 65536%N with (65536 ^ 1)%N at 8. repeat apply A. exact Hx. }
  generalize (D x) (D (x / 65536)%N) (D (x / 65536 / 65536)%N) (D (x / 65536 / 65536 / 65536)%N) (D (x / 65536 / 65536 / 65536 / 65536)%N)
    (D (x / 65536 / 65536 / 65536 / 65536 / 65536)%N) (D (x / 65536 / 65536 / 65536 / 65536 / 65536 / 65536)%N).
  rewrite (N.mod_small _ _ Z). clear Z A D L S Hx.
  generalize (x / 65536 / 65536 / 65536 / 65536 / 65536 / 65536 / 65536)%N. generalize ((x / 65536 / 65536 / 65536 / 65536 / 65536 / 65536) mod 65536)%N.
  generalize (x / 65536 / 65536 / 65536 / 65536 / 65536 / 65536)%N. generalize ((x / 65536 / 65536 / 65536 / 65536 / 65536) mod 65536)%N.
  generalize (x / 65536 / 65536 / 65536 / 65536 / 65536)%N. generalize ((x / 65536 / 65536 / 65536 / 65536) mod 65536)%N.
  generalize (x / 65536 / 65536 / 65536 / 65536)%N. generalize ((x / 65536 / 65536 / 65536) mod 65536)%N.
  generalize (x / 65536 / 65536 / 65536)%N. generalize ((x / 65536 / 65536) mod 65536)%N.
  generalize (x / 65536 / 65536)%N. generalize ((x / 65536) mod 65536)%N. generalize (x / 65536)%N. generalize (x mod 65536)%N. intros.
  repeat match goal with H : _ /\ _ |- _ => destruct H end. subst. lia.
Qed.

Lemma resize_nth n (l : list C) i : (i < n)%nat -> nth i (resize0 n l) 0 = nth i l 0.
Proof using Type.
  intro Hi. unfold resize0. destruct (Nat.lt_ge_cases i (length l)).
  - rewrite app_nth1 by (rewrite firstn_length; lia). rewrite <- (firstn_skipn n l) at 2. rewrite app_nth1 by (rewrite firstn_length; lia). reflexivity.
  - rewrite app_nth2 by (rewrite firstn_length; lia). rewrite (nth_overflow l) by lia. apply nth_repeat.
Qed.

(** Uniform version of [main_row_other]. *)
Lemma main_row_copy w codelen (rows : list (list C)) r : rows <> [] -> Forall (fun r => length r = w) rows -> (34 <= w)%nat -> In r (main_rows w codelen rows) ->
  exists r', In r' (rows ++ rows_rc w rows) /\ forall c, (27 <= c)%nat -> nth c r (0 : C) = nth c r' 0.
Proof using Type.
  intros Hne Hw H34 Hr. pose proof (prefix_width w rows Hne Hw H34) as P.
  assert (Hl : In (last_row (rows ++ rows_rc w rows)) (rows ++ rows_rc w rows)) by (apply last_row_in; now apply app_ne).
  unfold main_rows in Hr. apply in_app_or in Hr. destruct Hr as [Hr|Hr].
  - unfold rows_filled in Hr. rewrite app_assoc in Hr. apply in_app_or in Hr. destruct Hr as [Hr|Hr]; [eauto|].
    exists (last_row (rows ++ rows_rc w rows)). split; [exact Hl|]. intros c Hc. apply mem_hole_row_shape in Hr; [|lia]. apply Hr. lia.
  - apply repeat_spec in Hr. subst r. exists (last_row (rows ++ rows_rc w rows)). split; [exact Hl|]. intros c Hc.
    rewrite zero_mem_cell by (rewrite (last_filled_width w codelen rows Hne Hw H34); lia).
    replace ((19 <=? c)%nat && (c <? 27)%nat)%bool with false by (symmetry; destruct (Nat.leb_spec 19 c), (Nat.ltb_spec c 27); cbn; try reflexivity; lia).
    apply (last_filled_cell w codelen rows Hne Hw H34). now right.
Qed.

Theorem honest_builtin m (ss : list (step_data (C := C))) vals codelen pi ch aux : ss <> [] -> Forall (step_ok m) ss -> has_rc_builtin pi = true ->
  (forall x, In x vals -> (ce_repr x < 2 ^ 128)%N) ->
  let extra := rc_cols (length ss) vals in
  let w := (34 + length extra)%nat in let rows := main_rows w codelen (build_rows ss extra) in
  holds pi ch (cols_of w rows ++ aux) (length rows) 49.
Proof using HC.
  intros Hne Hok Hb Hv extra w rows i Hi.
  assert (Wd := build_rows_width m ss extra Hok). fold w in Wd. assert (Rne := build_rows_ne ss extra Hne).
  assert (W34 : (34 <= w)%nat) by (unfold w; lia).
  assert (Hlen : forall r, In r rows -> length r = w) by (intros r Hr; pose proof (main_rows_width w codelen _ Rne Wd W34) as F; rewrite Forall_forall in F; now apply F).
  rewrite builtin_constraint by exact Hb.
  assert (Hi' : (i < length rows)%nat) by (clear -Hi; lia).
  assert (Hrow : forall c, (c < w)%nat -> nth c (crow (cols_of w rows ++ aux) i) 0 = nth c (nth i rows []) 0).
  { intros c Hc. rewrite crow_nth, cell_app_l by (rewrite cols_of_length; exact Hc). now apply cols_of_cell. }
  assert (We : w = 43%nat) by reflexivity.
  unfold rc_builtin_value. rewrite !Hrow by (rewrite We; lia).
  assert (Hin : In (nth i rows []) rows) by (now apply nth_In).
  destruct (main_row_copy w codelen (build_rows ss extra) (nth i rows []) Rne Wd W34 Hin) as (r' & Hr' & Hc).
  rewrite !Hc by lia. apply in_app_or in Hr'. destruct Hr' as [Hr'|Hr'].
  - unfold build_rows in Hr'. apply in_map_iff in Hr'. destruct Hr' as (k & <- & Hk). apply in_seq in Hk. fold (@sd0 C).
    assert (Hs : step_ok m (nth k ss sd0)) by (rewrite Forall_forall in Hok; apply Hok, nth_In; lia).
    assert (Hx : forall j, nth (34 + j) (step_row (nth k ss sd0) (sel_of (length ss) k) ++ map (fun c => nth k c 0) extra) 0 = nth k (nth j extra []) 0).
    { intro j. rewrite app_nth2 by (rewrite (step_row_length m) by exact Hs; lia). rewrite (step_row_length m) by exact Hs.
      replace (34 + j - 34)%nat with j by lia. destruct (Nat.lt_ge_cases j (length extra)).
      - rewrite (nth_indep _ 0 (nth k [] 0)) by (rewrite map_length; lia). now rewrite (map_nth (fun c => nth k c 0)).
      - rewrite !nth_overflow; [reflexivity| |rewrite map_length; lia]. rewrite nth_overflow by lia. cbn. lia. }
    pose proof (Hx 0%nat) as X0. pose proof (Hx 1%nat) as X1. pose proof (Hx 2%nat) as X2. pose proof (Hx 3%nat) as X3. pose proof (Hx 4%nat) as X4.
    pose proof (Hx 5%nat) as X5. pose proof (Hx 6%nat) as X6. pose proof (Hx 7%nat) as X7. pose proof (Hx 8%nat) as X8. cbn [Nat.add] in X0, X1, X2, X3, X4, X5, X6, X7, X8.
    rewrite X0, X1, X2, X3, X4, X5, X6, X7, X8. clear X0 X1 X2 X3 X4 X5 X6 X7 X8 Hx.
    unfold extra, rc_cols, decompose_rc_values. cbn [decompose_loop map app nth]. rewrite !map_map. rewrite !resize_nth by lia.
    destruct (Nat.lt_ge_cases k (length vals)) as [Lk|Lk].
    2:{ rewrite !(nth_overflow (map _ vals)) by (rewrite map_length; lia). rewrite (nth_overflow vals) by lia. ring. }
    assert (Hn : forall f : C -> C, nth k (map f vals) 0 = f (nth k vals 0)).
    { intro f. rewrite (nth_indep _ 0 (f 0)) by (rewrite map_length; lia). apply map_nth. }
    rewrite !Hn. set (x := ce_repr (nth k vals 0)).
    assert (Hx : (x < 2 ^ 128)%N) by (apply Hv, nth_In; lia).
    pose proof (limbs_value x Hx) as E. cbv zeta in E. apply (f_equal (e_u64 C)) in E. rewrite !(co_add _ _ HC), !(co_mul _ _ HC) in E.
    unfold x in E at 9. rewrite (co_u64_repr _ _ HC) in E. rewrite E. ring.
  - rewrite !(rc_row_cell ss extra r') by (exact Hr' || lia). ring.
Qed.
End Builtin.
