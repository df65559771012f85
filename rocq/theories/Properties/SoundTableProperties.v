(** C98: which tables the prover's own proofs are accepted for. *)
From Coq Require Import List Arith Lia Bool NArith ZArith Permutation.
From Verif.Base Require Import Outcome Bytes Field Poly Zp.
From Verif.Model Require Import Codec Trace Merkle Air Transcript Domain Options Fri Evaluator Prover Verifier PublicInputs CairoDecode CairoTrace CairoAir CairoRunner.
From Verif.Spec Require Import AirSpec ExampleSpec CairoSpec CairoRun CairoStatement Forgery CairoColumns ProvingSpec ProverLog OodSpec Rounds WrongTable Fitting Contradiction Dropped Offsets SoundTable.
From Verif.Proofs Require Import OutcomeFacts FieldFacts PolyFacts FFTFacts TraceFacts MultisetFacts WalkFacts CpuFacts SortFacts SortedFacts MainTraceFacts MainColsFacts AuxFacts HonestAux HonestAccess HonestRun CairoAirFacts CairoForge CairoAdmissible LooseFacts StarkFieldFacts ComposeFacts DomainFacts ExampleFacts.
From Verif.Examples Require Import Stark252 MiniRun Calm.
From Verif.Properties Require Import StarkProperties OodProperties WitnessProperties CairoForgeryProperties WrongTableProperties ContradictionProperties DroppedProperties OffsetProperties.
Import ListNotations.
Local Open Scope felt_scope.

Section Completed.
Context {C : cairo_env} {p : N} (HC : cairo_ok C p).
Let HE : env_ok C := co_env _ _ HC.
Let HK : field_ok C := fft_field_ok _ (e_fft_ok _ HE).
Add Field Kfield92 : (fld_th C HK).

Lemma same_value (x y : C) : ce_repr x = ce_repr y -> x = y.
Proof using HC. intro H. rewrite <- (co_u64_repr _ _ HC x), <- (co_u64_repr _ _ HC y). now rewrite H. Qed.
Lemma gap_low (x y : C) : x = y -> (x - y) * (y - x - 1) = 0.
Proof using HC. intros ->. ring. Qed.
Lemma gap_next (x y u : C) : y = x + 1 -> u * (y - x - 1) = 0.
Proof using HC. intros ->. ring. Qed.
Lemma same_zero (u v w : C) : u = v -> (u - v) * w = 0.
Proof using HC. intros ->. ring. Qed.

Context (pi : public_inputs C) (t : trace_table C) (n : nat) (main : list (list C)) (ch : cairo_challenges C) (aux : trace_table C) (acols : list (list C)).
Context (Hn : (0 < n)%nat) (Hm : has_columns t n main) (Lm : length main = (43 - builtin_offset pi)%nat) (Ha : cairo_build_aux pi t ch = Ok aux) (Hac : has_columns aux n acols).

Lemma sound_memory : ~ two_values pi main n -> ~ skipped_address pi main n -> forall j, (31 <= j < 39)%nat -> holds pi ch (main ++ acols) n j.
Proof using HC Hn Hm Lm Ha Hac.
  intros Ht Hs. destruct (aux_lists HC pi t n main ch aux acols Hm Lm Ha Hac) as (l & Ll & As & Hr & Hin).
  assert (St : forall k, (k + 1 < 4 * n)%nat -> sorted_addr pi (main ++ acols) k = sorted_addr pi (main ++ acols) (k + 1) /\ sorted_value pi (main ++ acols) k = sorted_value pi (main ++ acols) (k + 1) \/
    sorted_addr pi (main ++ acols) (k + 1) = sorted_addr pi (main ++ acols) k + 1).
  { intros k Hk. pose proof (Hr k ltac:(lia)) as E1. pose proof (Hr (k + 1)%nat Hk) as E2.
    assert (U1 : used_cell pi main n (nth k l (0, 0))) by (apply Hin, nth_In; lia). assert (U2 : used_cell pi main n (nth (k + 1) l (0, 0))) by (apply Hin, nth_In; lia).
    pose proof (ascending_nth (fun e : C * C => ce_repr (fst e)) l (0, 0) k (k + 1) As ltac:(lia)) as Hle. cbv beta in Hle.
    set (e := nth k l (0, 0)) in *. set (e' := nth (k + 1) l (0, 0)) in *.
    apply (f_equal fst) in E1 as F1. apply (f_equal snd) in E1 as G1. apply (f_equal fst) in E2 as F2. apply (f_equal snd) in E2 as G2. cbn [fst snd] in F1, F2, G1, G2. rewrite F1, F2, G1, G2.
    destruct (N.eq_dec (ce_repr (fst e)) (ce_repr (fst e'))) as [E|E].
    - left. apply same_value in E. split; [exact E|]. destruct (felt_eq_dec C HE (snd e) (snd e')) as [V|V]; [exact V|]. exfalso. apply Ht. exists (fst e), (snd e), (snd e').
      split; [rewrite <- surjective_pairing; exact U1|]. split; [rewrite E, <- surjective_pairing; exact U2|exact V].
    - right. destruct (N.eq_dec (ce_repr (fst e')) (ce_repr (fst e) + 1)) as [S|S].
      + rewrite <- (co_u64_repr _ _ HC (fst e')), S, (co_add _ _ HC), (co_one _ _ HC), (co_u64_repr _ _ HC). reflexivity.
      + exfalso. apply Hs. exists e, e', (ce_repr (fst e) + 1)%N. split; [exact U1|]. split; [exact U2|]. split; [lia|]. intros u Hu Eu. apply Hin in Hu. apply (In_nth _ _ (0, 0)) in Hu.
        destruct Hu as (m & Hml & <-). destruct (Nat.le_gt_cases m k) as [L|L].
        * pose proof (ascending_nth (fun e : C * C => ce_repr (fst e)) l (0, 0) m k As ltac:(lia)) as G. cbv beta in G. fold e in G. lia.
        * pose proof (ascending_nth (fun e : C * C => ce_repr (fst e)) l (0, 0) (k + 1) m As ltac:(lia)) as G. cbv beta in G. fold e' in G. lia. }
  apply steps_memory; intros k Hk; (destruct (St k Hk) as [[A B]|A]; [|apply gap_next, A]); apply same_zero; assumption.
Qed.

Lemma sound_offsets : ~ missing_value (map low16 (offsets_of main n)) -> forall j, (43 <= j < 46)%nat -> holds pi ch (main ++ acols) n j.
Proof using HC Hn Hm Lm Ha Hac.
  intros Hs. destruct (offset_lists HC pi t n main ch aux acols Hm Lm Ha Hac) as (l & Ll & As & Pl & Hr & _).
  assert (Hin : forall k, (k < 3 * n)%nat -> In (nth k l 0%N) (map low16 (offsets_of main n))) by (intros k Hk; apply (Permutation_in _ Pl), nth_In; lia).
  apply steps_offset. intros k Hk. rewrite !Hr by lia. pose proof (ascending_nth (fun x : N => x) l 0%N k (k + 1) As ltac:(lia)) as Hle. cbv beta in Hle.
  pose proof (Hin k ltac:(lia)) as I1. pose proof (Hin (k + 1)%nat Hk) as I2.
  set (x := nth k l 0%N) in *. set (y := nth (k + 1) l 0%N) in *. destruct (N.eq_dec x y) as [E|E]; [apply same_zero; now rewrite E|].
  destruct (N.eq_dec y (x + 1)) as [S|S]; [apply gap_next; now rewrite S, (co_add _ _ HC), (co_one _ _ HC)|].
  exfalso. apply Hs. exists x, y, (x + 1)%N. split; [exact I1|]. split; [exact I2|]. split; [lia|]. intro Hx. apply (Permutation_in _ (Permutation_sym Pl)) in Hx. apply (In_nth _ _ 0%N) in Hx.
  destruct Hx as (m & Hml & Em). destruct (Nat.le_gt_cases m k) as [L|L].
  - pose proof (ascending_nth (fun x : N => x) l 0%N m k As ltac:(lia)) as G. cbv beta in G. fold x in G. lia.
  - pose proof (ascending_nth (fun x : N => x) l 0%N (k + 1) m As ltac:(lia)) as G. cbv beta in G. fold y in G. lia.
Qed.

Lemma sound_product : public_addresses_agree pi -> forall j, (39 <= j < 43)%nat -> holds pi ch (main ++ acols) n j.
Proof using HC Hn Hm Lm Ha Hac.
  intro Hag. destruct (last_product HC pi t n main ch aux acols Hn Hm Lm Ha Hac Hag) as (_ & _ & Hr). apply steps_product. exact Hr.
Qed.

Lemma sound_offset_product : rc_product pi (main ++ acols) (3 * n - 1) = 1 -> forall j, (46 <= j < 49)%nat -> holds pi ch (main ++ acols) n j.
Proof using HC Hn Hm Lm Ha Hac.
  intro Hlast. destruct (offset_lists HC pi t n main ch aux acols Hm Lm Ha Hac) as (l & _ & _ & _ & _ & Hg). destruct (Hg Hn) as (_ & Hr & H0).
  apply steps_offset_product. intros k Hk. destruct (Nat.eq_dec (k + 1) (3 * n)) as [E|E].
  - rewrite E, Nat.mod_same by lia. replace k with (3 * n - 1)%nat by lia. rewrite Hlast, H0. ring.
  - rewrite Nat.mod_small by lia. apply Hr. lia.
Qed.
End Completed.

(** ** C98 *)

(** The table that the prover completes satisfies all the constraints exactly if the execution columns are sound and for the
    drawn challenges the accesses left out pass as accesses to the cell (0, 0) and the offsets as their low half-words. *)
Theorem C98_completed_table :
  forall (C : cairo_env) p, cairo_ok C p -> forall (pi : public_inputs C) opts n (t : trace_table C) main ch aux acols lo hi,
  has_columns t n main -> length main = (43 - builtin_offset pi)%nat -> public_addresses_agree pi -> (1 <= num_steps pi <= n)%nat ->
  range_check_min pi = Some lo -> range_check_max pi = Some hi -> (lo < 2 ^ 16)%N -> (hi < 2 ^ 16)%N ->
  cairo_build_aux pi t ch = Ok aux -> has_columns aux n acols ->
  (trace_satisfies (cairo_air pi opts n) ch (main ++ acols) n <->
   sound_columns pi opts main n lo hi /\ pass_as_zero (dropped_accesses pi main n) (alpha_memory ch) (z_memory ch) /\ pass_as_low (offsets_of main n) (z_range_check ch)).
Proof.
  intros C p HC pi opts n t main ch aux acols lo hi Hm Lm Hag Hst Elo Ehi Blo Bhi Ha Hac.
  pose proof (fft_field_ok _ (e_fft_ok _ (co_env _ _ HC))) as HK. pose proof (SortedFacts.offset_le pi) as Ho. assert (Hn : (0 < n)%nat) by lia.
  pose proof (cairo_aux_width HC pi n t main ch aux acols Hm Lm Ha Hac) as W.
  assert (La : length acols = 18%nat) by (rewrite app_length, Lm in W; unfold cairo_width in W; lia).
  destruct (last_product HC pi t n main ch aux acols Hn Hm Lm Ha Hac Hag) as (_ & Hz & _).
  assert (Hlist : exists x4, cairo_boundary pi n ch = Ok [mk_bc FRAME_PC 0%nat (pc_init pi); mk_bc FRAME_AP 0%nat (ap_init pi); mk_bc FRAME_PC (num_steps pi - 1)%nat (pc_final pi);
    mk_bc FRAME_AP (num_steps pi - 1)%nat (ap_final pi); mk_bc (PERMUTATION_ARGUMENT_COL_3 - builtin_offset pi)%nat (n - 1)%nat x4;
    mk_bc (PERMUTATION_ARGUMENT_RANGE_CHECK_COL_3 - builtin_offset pi)%nat (n - 1)%nat 1; mk_bc (RANGE_CHECK_COL_1 - builtin_offset pi)%nat 0%nat (e_u64 C lo);
    mk_bc (RANGE_CHECK_COL_3 - builtin_offset pi)%nat (n - 1)%nat (e_u64 C hi)]).
  { assert (Hu : forall x, (1 <= x)%nat -> usub x 1 = Ok (x - 1)%nat) by (intros x Hx; unfold usub; destruct (Nat.ltb_spec x 1); [lia|reflexivity]).
    unfold cairo_boundary. rewrite !Hu by lia. cbn [obind]. rewrite (fold_factor HC), (proj2 (inv_o_ok HK (1 * fprod (map (factor ch) (public_memory pi))) (finv (1 * fprod (map (factor ch) (public_memory pi)))))).
    2:{ split; [|reflexivity]. intro Z. apply (mul_zero HK) in Z. destruct Z as [Z|Z]; [exact (F_1_neq_0 (fld_th C HK) Z)|exact (Hz Z)]. }
    rewrite Elo, Ehi. cbn [obind unwrap]. eexists. reflexivity. }
  destruct Hlist as (x4 & Hlist).
  match type of Hlist with _ = Ok ?l => set (bcs := l) in Hlist end.
  pose proof (C96_product_constraint C p HC pi opts n t main ch aux acols bcs _ Hn Hm Lm Hag Ha Hac Hlist eq_refl) as I4.
  destruct (C97_end_constraints C p HC pi opts n t main ch aux acols bcs lo hi Hn Hm Lm Elo Ehi Blo Bhi Ha Hac Hlist) as (b5 & b6 & b7 & N5 & N6 & N7 & _ & _ & _ & I5 & I6 & I7).
  assert (B5 : In b5 bcs) by exact (nth_error_In _ _ N5). assert (B6 : In b6 bcs) by exact (nth_error_In _ _ N6). assert (B7 : In b7 bcs) by exact (nth_error_In _ _ N7).
  cbv beta in I5, I6, I7.
  assert (Hsame : forall acols', length acols' = 18%nat -> same_main pi (main ++ acols) (main ++ acols')).
  { intros a' La'. split; [rewrite !app_length; lia|]. intros j Hj. rewrite !app_nth1 by (rewrite Lm; exact Hj). reflexivity. }
  assert (Hc : forall j, (j < n_constraints pi)%nat -> constraint_holds (cairo_air pi opts n) ch (main ++ acols) n j <-> holds pi ch (main ++ acols) n j) by (intros j Hj; apply cairo_constraint_holds; assumption).
  rewrite (cairo_satisfies pi opts ch (main ++ acols) n W). split.
  - intros [HB HT]. specialize (fun bc => HB bcs bc Hlist).
    assert (Hh : forall j, (j < n_constraints pi)%nat -> holds pi ch (main ++ acols) n j) by (intros j Hj i Hi; apply HT; assumption).
    assert (Hch : forall j, constraint_holds (cairo_air pi opts n) ch (main ++ acols) n j).
    { intros j. destruct (Nat.lt_ge_cases j (n_constraints pi)) as [Hj|Hj]; [apply Hc; auto|]. intros i e evals _ He _. destruct (exemption_inv pi opts j e He) as [Hx _]. lia. }
    assert (Hfits : main_fits pi opts (main ++ acols) n).
    { constructor.
      - split; [apply (HB (mk_bc FRAME_PC 0%nat (pc_init pi))); now left|apply (HB (mk_bc FRAME_AP 0%nat (ap_init pi))); right; now left].
      - split; [apply (HB (mk_bc FRAME_PC (num_steps pi - 1)%nat (pc_final pi))); do 2 right; now left|apply (HB (mk_bc FRAME_AP (num_steps pi - 1)%nat (ap_final pi))); do 3 right; now left].
      - intros j ch' Hj. apply (main_steps_same pi opts n (main ++ acols) (main ++ acols) W (conj eq_refl (fun _ _ => eq_refl)) ch ch' j Hj). apply Hch. }
    split; [constructor|split].
    + intros a' La'. exact (main_fits_same pi opts n (main ++ acols) (main ++ a') W (Hsame a' La') Hfits).
    + intro Hb. destruct (C95_two_values_violate C p HC pi opts n t main ch aux acols Hm Lm Hb Ha Hac) as (j & _ & Hx). apply Hx, Hch.
    + intro Hb. destruct (C95_skipped_address_violates C p HC pi opts n t main ch aux acols Hm Lm Hb Ha Hac) as (j & _ & Hx). apply Hx, Hch.
    + apply I6. apply (HB b6 B6).
    + apply I7. apply (HB b7 B7).
    + intro Hb. destruct (C97_missing_value_violates C p HC pi opts n t main ch aux acols Hm Lm Hb Ha Hac) as (j & _ & Hx). apply Hx, Hch.
    + apply I4. apply HB. do 4 right. now left.
    + apply I5. apply (HB b5 B5).
  - intros ([Hrows Hv Hs Hle Hgr Hmi] & Hpz & Hpl). destruct (Hrows acols La) as [[F1 F2] [F3 F4] F5].
    split.
    + intros bcs' bc E Hin. rewrite Hlist in E. apply ok_inj in E. subst bcs'.
      assert (Hcol : (bc_step bc < n)%nat /\ (bc_col bc < length (main ++ acols))%nat).
      { rewrite W. unfold cairo_width, FRAME_PC, FRAME_AP, PERMUTATION_ARGUMENT_COL_3, PERMUTATION_ARGUMENT_RANGE_CHECK_COL_3, RANGE_CHECK_COL_1, RANGE_CHECK_COL_3 in *.
        repeat (destruct Hin as [<-|Hin]; [cbn [bc_step bc_col]; lia|]). destruct Hin. }
      split; [apply Hcol|]. split; [apply Hcol|]. clear Hcol.
      destruct Hin as [<-|[<-|[<-|[<-|[<-|[E|[E|[E|[]]]]]]]]]; [exact F1|exact F2|exact F3|exact F4|apply I4; exact Hpz| | |].
      * injection N5 as <-. rewrite <- E. apply I5. exact Hpl.
      * injection N6 as <-. rewrite <- E. apply I6. exact Hle.
      * injection N7 as <-. rewrite <- E. apply I7. exact Hgr.
    + assert (Hg : rc_product pi (main ++ acols) (3 * n - 1) = 1).
      { destruct (offset_lists HC pi t n main ch aux acols Hm Lm Ha Hac) as (l & _ & _ & _ & _ & Hg). apply (proj1 (Hg Hn)). exact Hpl. }
      intros i j Hi Hj.
      assert (Hj50 : (j < 31 \/ 31 <= j < 39 \/ 39 <= j < 43 \/ 43 <= j < 46 \/ 46 <= j < 49 \/ j = 49)%nat) by (unfold n_constraints in Hj; destruct (has_rc_builtin pi); lia).
      destruct Hj50 as [K|[K|[K|[K|[K|K]]]]].
      * apply Hc; [exact Hj| |exact Hi]. apply F5. now left.
      * apply (sound_memory HC pi t n main ch aux acols Hn Hm Lm Ha Hac Hv Hs j K i Hi).
      * apply (sound_product HC pi t n main ch aux acols Hn Hm Lm Ha Hac Hag j K i Hi).
      * apply (sound_offsets HC pi t n main ch aux acols Hn Hm Lm Ha Hac Hmi j K i Hi).
      * apply (sound_offset_product HC pi t n main ch aux acols Hn Hm Lm Ha Hac Hg j K i Hi).
      * apply Hc; [exact Hj| |exact Hi]. apply F5. now right.
Qed.
Print Assumptions C98_completed_table.

(** Of sound columns that end in accesses to the cell (0, 0) and whose offsets are below 2^16, every proof that the prover makes
    is accepted. *)
Theorem C98_sound_table_accepted :
  forall (C : cairo_env) p, cairo_ok C p -> forall (pi : public_inputs C) opts r b (t : trace_table C) main fuel proof lo hi,
  usable_options C opts r b -> has_columns t (2 ^ r) main -> length main = (43 - builtin_offset pi)%nat -> public_addresses_agree pi -> (1 <= num_steps pi <= 2 ^ r)%nat ->
  range_check_min pi = Some lo -> range_check_max pi = Some hi -> (lo < 2 ^ 16)%N -> (hi < 2 ^ 16)%N ->
  sound_columns pi opts main (2 ^ r) lo hi ->
  (forall e, In e (dropped_accesses pi main (2 ^ r)) -> e = (0, 0)) -> (forall x, In x (offsets_of main (2 ^ r)) -> (ce_repr x < 2 ^ 16)%N) ->
  generate_cairo_proof fuel t pi opts = Ok proof -> verify_cairo_proof fuel proof pi opts = Ok true.
Proof.
  intros C p HC pi opts r b t main fuel proof lo hi Hu Hm Lm Hag Hst Elo Ehi Blo Bhi Hs Hd Hx Hp. pose proof (co_env _ _ HC) as HE. pose proof (SortedFacts.offset_le pi) as Ho.
  assert (Hmne : main <> []) by (intros E0; rewrite E0 in Lm; cbn [length] in Lm; lia). destruct (has_columns_table t _ main Hmne Hm) as [_ Hrows].
  pose proof (C33_completeness C (cairo_air pi opts) t r b 2 fuel proof HE) as G. cbv zeta in G. rewrite Hrows in G.
  apply (G (cairo_admissible HE pi opts r b Hu) eq_refl); [|exact Hp]. exists main. split; [exact Hmne|]. split; [exact Hm|]. intros tr ch tr' aux Hb Ha.
  destruct (C94_cairo_tables_are_shaped C p HC pi opts r t main Hm Lm) as (mc & _ & Hmc & K). destruct (K tr ch tr' aux Hb Ha) as (acols & Hac & Hw). exists acols. split; [exact Hac|].
  assert (mc = main) as -> by exact (table_columns_unique t _ _ _ Hmc Hm). split; [exact Hw|].
  apply (C98_completed_table C p HC pi opts (2 ^ r) t main ch aux acols lo hi Hm Lm Hag Hst Elo Ehi Blo Bhi Ha Hac). split; [exact Hs|]. split.
  - unfold pass_as_zero. induction (dropped_accesses pi main (2 ^ r)) as [|e l IH]; [reflexivity|]. cbn [map length]. unfold fprod in *. cbn [fold_right fpow]. rewrite IH by (intros e' He'; apply Hd; now right).
    rewrite (Hd e (or_introl eq_refl)). cbn [fst snd]. rewrite (zero_compress HC), (sub_nothing HC). reflexivity.
  - unfold pass_as_low. f_equal. apply map_ext_in. intros x Hin. unfold low16. rewrite N.mod_small by (apply Hx, Hin). now rewrite (co_u64_repr _ _ HC).
Qed.
Print Assumptions C98_sound_table_accepted.

(** And a proof that the prover makes from some table is accepted only if the columns are sound and the two products agree, or
    if the coefficient of a constraint that is violated and the point are one of the few passing pairs. *)
Theorem C98_accepted_table :
  forall (C : cairo_env) p, cairo_ok C p -> sampling_ok C -> forall (pi : public_inputs C) opts r b (t : trace_table C) main fuel proof lo hi,
  usable_options C opts r b -> (r + b <= two_adicity C)%nat ->
  has_columns t (2 ^ r) main -> length main = (43 - builtin_offset pi)%nat -> public_addresses_agree pi -> (1 <= num_steps pi <= 2 ^ r)%nat ->
  range_check_min pi = Some lo -> range_check_max pi = Some hi -> (lo < 2 ^ 16)%N -> (hi < 2 ^ 16)%N ->
  generate_cairo_proof fuel t pi opts = Ok proof -> verify_cairo_proof fuel proof pi opts = Ok true ->
  let a := cairo_air pi opts (2 ^ r) in
  exists d r1 t1 (c : challenges C a) t2,
    domain_new a = Ok d /\ round_1 C a t d tr_new = Ok (r1, t1) /\ step_1 C fuel a proof d tr_new = Ok (c, t2) /\
    let ch := c_rap C a c in
    let bco := c_boundary_coeffs C a c in let tco := c_transition_coeffs C a c in let B := Nat.max (2 ^ (r + b) + 2 ^ r + 1) (4 * 2 ^ r) in
    (sound_columns pi opts main (2 ^ r) lo hi /\ pass_as_zero (dropped_accesses pi main (2 ^ r)) (alpha_memory ch) (z_memory ch) /\ pass_as_low (offsets_of main (2 ^ r)) (z_range_check ch)) \/
    (exists j, (j < 8)%nat /\ few_pairs (fun beta z => own_passes a d r1 (with_beta j beta bco) tco z) B /\ own_passes a d r1 (with_beta j (snd (nth j bco (0, 0))) bco) tco (c_z C a c)) \/
    (exists j, (j < 50)%nat /\ few_pairs (fun beta z => own_passes a d r1 bco (with_beta j beta tco) z) B /\ own_passes a d r1 bco (with_beta j (snd (nth j tco (0, 0))) tco) (c_z C a c)).
Proof.
  intros C p HC HS pi opts r b t main fuel proof lo hi Hu Hta Hm Lm Hag Hst Elo Ehi Blo Bhi Hp Hv a. pose proof (co_env _ _ HC) as HE. pose proof (SortedFacts.offset_le pi) as Ho.
  destruct (accepted_columns HC HS pi opts r b t main fuel proof Hu Hta Hm Lm Hp Hv) as (d & r1 & t1 & c & t2 & Hd & Hr1 & Hs1 & aux & acols & bcs & Haux & Hac & Hbcs & Htr & Hb).
  exists d, r1, t1, c, t2. do 3 (split; [assumption|]). cbv zeta.
  pose proof (cairo_aux_width HC pi _ t main _ aux acols Hm Lm Haux Hac) as W.
  assert (Hlen : length bcs = 8%nat /\ forall bc, In bc bcs -> (bc_step bc < 2 ^ r)%nat /\ (bc_col bc < length (main ++ acols))%nat).
  { pose proof Hbcs as H. cbn [cairo_air a_boundary] in H. unfold cairo_boundary in H. ok_as H ls Hls. ok_as H fi Hfi. ok_as H cp Hcp. ok_as H mn Hmn. ok_as H mx Hmx. apply ok_inj in H.
    assert (Hsub : forall x y, usub x 1 = Ok y -> (y = x - 1)%nat) by (intros x y E; unfold usub in E; destruct (x <? 1)%nat; [discriminate|apply ok_inj in E; now symmetry]).
    apply Hsub in Hls, Hfi. subst ls fi bcs. split; [reflexivity|]. intros bc Hin. rewrite W.
    unfold cairo_width, MEM_A_TRACE_OFFSET, MEM_P_TRACE_OFFSET, PERMUTATION_ARGUMENT_COL_3, PERMUTATION_ARGUMENT_RANGE_CHECK_COL_3, RANGE_CHECK_COL_1, RANGE_CHECK_COL_3 in *.
    repeat (destruct Hin as [<-|Hin]; [cbn [bc_step bc_col]; lia|]). destruct Hin. }
  destruct Hlen as [Lb Hcol]. set (met := fun bc : boundary_constraint C => nth (bc_step bc) (nth (bc_col bc) (main ++ acols) []) 0 = bc_value bc).
  assert (Hdec : (forall bc, In bc bcs -> met bc) \/ exists j bc, nth_error bcs j = Some bc /\ ~ met bc).
  { clear - HE. induction bcs as [|bc l IH]; [left; intros bc []|]. destruct (felt_eq_dec C HE (nth (bc_step bc) (nth (bc_col bc) (main ++ acols) []) 0) (bc_value bc)) as [E|E].
    - destruct IH as [IH|(j & bc' & E1 & E2)]; [left; intros bc' [<-|Hin]; [exact E|now apply IH]|right; exists (S j), bc'; now split].
    - right. exists 0%nat, bc. now split. }
  destruct Hdec as [Hall|(j & bc & Ej & Hne)].
  2:{ right. left. exists j. split; [rewrite <- Lb; apply nth_error_Some; rewrite Ej; discriminate|]. apply (Hb j bc Ej); [apply Hcol; exact (nth_error_In _ _ Ej)|exact Hne]. }
  assert (Hdec : (forall j, (j < n_constraints pi)%nat -> holds pi (c_rap C a c) (main ++ acols) (2 ^ r) j) \/ exists j, (j < n_constraints pi)%nat /\ ~ holds pi (c_rap C a c) (main ++ acols) (2 ^ r) j).
  { clear - HC. induction (n_constraints pi) as [|m IH]; [left; lia|]. destruct IH as [IH|(j & Hj & Hx)]; [|right; exists j; split; [lia|exact Hx]].
    destruct (holds_dec HC pi (c_rap C a c) (main ++ acols) (2 ^ r) m) as [Hh|Hh]; [left|right; exists m; split; [lia|exact Hh]].
    intros j Hj. destruct (Nat.eq_dec j m) as [->|]; [exact Hh|apply IH; lia]. }
  destruct Hdec as [Hh|(j & Hj & Hx)].
  2:{ right. right. exists j. split; [unfold n_constraints in Hj; destruct (has_rc_builtin pi); lia|]. apply (Htr j Hj). intro Hc. apply Hx. apply (cairo_constraint_holds pi opts _ _ _ j W Hj), Hc. }
  left. apply (C98_completed_table C p HC pi opts (2 ^ r) t main (c_rap C a c) aux acols lo hi Hm Lm Hag Hst Elo Ehi Blo Bhi Haux Hac).
  apply cairo_satisfies; [exact W|]. split.
  - intros bcs' bc E Hin. pose proof (eq_trans (eq_sym E) Hbcs) as E2. apply ok_inj in E2. subst bcs'. destruct (Hcol bc Hin) as [K1 K2]. split; [exact K1|]. split; [exact K2|]. exact (Hall bc Hin).
  - intros i j Hi Hj. exact (Hh j Hj i Hi).
Qed.
Print Assumptions C98_accepted_table.

(** The three-step run: the table that the code builds for it is sound, ends in accesses to the cell (0, 0), and has offsets
    below 2^16. *)
Definition three_args := generate_prover_args (C := calm) mini_regs calm_memory 5 None None.
Definition three_rap : cairo_challenges calm := CairoAir.mk_challenges (f252 5 : calm) (f252 5 : calm) (f252 5 : calm).
Definition is_zero_cell (e : calm * calm) : bool := feqb (fst e) 0 && feqb (snd e) 0.
Definition hit_by (e : calm * calm) : bool := feqb (z_memory three_rap) (fst e + alpha_memory three_rap * snd e).
Definition three_check (pi : public_inputs calm) (m : list (list calm)) : bool :=
  (length m =? 34)%nat && forallb is_zero_cell (dropped_accesses pi m 8) && forallb (fun x => (ce_repr x <? 2 ^ 16)%N) (offsets_of m 8) &&
  forallb (fun e => negb (hit_by e)) (public_memory pi ++ map (fun k => (access_addr m k, access_value m k)) (seq 0 32)) &&
  forallb (fun x => negb (feqb (z_range_check three_rap) x)) (offsets_of m 8).
Definition three_values (l : list calm) : list Z := map (fun x : calm => zval (x : zp stark_p)) l.
Lemma three_checked : match three_args with Ok (t, pi) =>
    range_check_min pi = Some 32766%N /\ range_check_max pi = Some 32769%N /\ num_steps pi = 3%nat /\ builtin_offset pi = 9%nat /\ tt_n_rows t = 8%nat /\
    three_values (map fst (public_memory pi)) = [1; 2; 3; 4; 5]%Z /\ match get_pub_memory_addrs pi with Ok l => three_values l | _ => [] end = [1; 2; 3; 4; 5]%Z /\
    match tt_cols t with Ok m => three_check pi m | _ => false end = true
  | _ => False end.
Proof. vm_compute. tauto. Qed.
Lemma three_values_inj l l' : three_values l = three_values l' -> l = l'.
Proof.
  revert l'. induction l as [|x l IH]; intros [|y l'] H; try discriminate; [reflexivity|]. cbn [three_values map] in H. injection H as H1 H2. f_equal; [|now apply IH].
  exact (zp_eq _ (x : zp stark_p) (y : zp stark_p) H1).
Qed.
Example C98_example : exists t pi main,
  three_args = Ok (t, pi) /\ usable_options calm default_test_options 3 2 /\ has_columns t (2 ^ 3) main /\ length main = (43 - builtin_offset pi)%nat /\ public_addresses_agree pi /\ (1 <= num_steps pi <= 2 ^ 3)%nat /\
  range_check_min pi = Some 32766%N /\ range_check_max pi = Some 32769%N /\ (32766 < 2 ^ 16)%N /\ (32769 < 2 ^ 16)%N /\ sound_columns pi default_test_options main (2 ^ 3) 32766 32769 /\
  (forall e, In e (dropped_accesses pi main (2 ^ 3)) -> e = (0, 0)) /\ (forall x, In x (offsets_of main (2 ^ 3)) -> (ce_repr x < 2 ^ 16)%N) /\
  exists aux acols, cairo_build_aux pi t three_rap = Ok aux /\ has_columns aux (2 ^ 3) acols.
Proof.
  pose proof (fft_field_ok _ (e_fft_ok _ (co_env _ _ calm_ok))) as HK.
  destruct (honest_full calm_ok calm_memory mini_regs 5 None None calm_provable) as (t & pi & r & Hg & Hn & _ & Hlucky & _ & Hval).
  pose proof three_checked as K. change three_args with (generate_prover_args (C := calm) mini_regs calm_memory 5 None None) in K. rewrite Hg in K.
  destruct K as (Kmin & Kmax & Ksteps & Koff & Krows & Kpub & Kaddr & Kcheck).
  rewrite Krows in Hn. assert (r = 3%nat) as -> by (apply (Nat.pow_inj_r 2); [lia|symmetry; exact Hn]).
  destruct (Hval default_test_options) as (main & Hne & Hm & Hsat). destruct (has_columns_table t _ main Hne Hm) as [Hcols _]. rewrite Hcols in Kcheck.
  unfold three_check in Kcheck. apply andb_true_iff in Kcheck. destruct Kcheck as [Kcheck K5]. apply andb_true_iff in Kcheck. destruct Kcheck as [Kcheck K4].
  apply andb_true_iff in Kcheck. destruct Kcheck as [Kcheck K3]. apply andb_true_iff in Kcheck. destruct Kcheck as [K1 K2]. apply Nat.eqb_eq in K1. rewrite forallb_forall in K2, K3, K4, K5.
  assert (Lm : length main = (43 - builtin_offset pi)%nat) by (rewrite Koff, K1; reflexivity).
  assert (Hag : public_addresses_agree pi).
  { destruct (get_pub_memory_addrs pi) as [l| |] eqn:El; try discriminate Kaddr. exists l. split; [exact El|]. split.
    - apply (NoDup_map_inv (fun x : calm => zval (x : zp stark_p))). change (NoDup (three_values l)). rewrite Kaddr. repeat constructor; cbn; intuition discriminate.
    - rewrite <- Kpub in Kaddr. apply three_values_inj in Kaddr. rewrite Kaddr. reflexivity. }
  assert (Hz : forall e, In e (dropped_accesses pi main (2 ^ 3)) -> e = (0, 0)).
  { intros [x y] He. specialize (K2 _ He). apply andb_true_iff in K2. destruct K2 as [E1 E2]. apply (feqb_spec calm HK) in E1, E2. cbn [fst snd] in E1, E2. now rewrite E1, E2. }
  assert (Hx : forall x, In x (offsets_of main (2 ^ 3)) -> (ce_repr x < 2 ^ 16)%N) by (intros x Hin; apply N.ltb_lt; exact (K3 x Hin)).
  assert (Haux : exists aux, cairo_build_aux pi t three_rap = Ok aux).
  { destruct (Hlucky three_rap) as [H|H]; [exact H|]. exfalso. destruct H as (n & main' & Hm' & H).
    assert (Hne' : main' <> []) by (intros ->; destruct Hm as [W _], Hm' as [W' _]; rewrite W in W'; cbn [length] in W'; lia).
    assert (n = 8%nat) as -> by (destruct (has_columns_table t _ main' Hne' Hm') as [_ E]; rewrite <- E; exact Krows).
    assert (main' = main) as -> by exact (table_columns_unique t _ _ _ Hm' Hm).
    destruct H as [(x & y & E & H)|(k & Hk & E)].
    - assert (Hin : In (x, y) (public_memory pi ++ map (fun k => (access_addr main k, access_value main k)) (seq 0 32))).
      { apply in_or_app. destruct H as [H|(k & Hk & -> & ->)]; [now left|right]. apply in_map_iff. exists k. split; [reflexivity|]. apply in_seq. lia. }
      specialize (K4 _ Hin). apply negb_true_iff in K4. apply (feqb_false HK) in K4. exact (K4 E).
    - specialize (K5 (offset_cell main k)). unfold offsets_of in K5. specialize (K5 ltac:(apply in_map, in_seq; lia)). apply negb_true_iff in K5. apply (feqb_false HK) in K5. exact (K5 E). }
  destruct Haux as (aux & Haux).
  destruct (Hsat (tr_new : e_tr calm) three_rap (tr_new : e_tr calm) aux ltac:(reflexivity) Haux) as (acols & Hac & _ & Hts).
  exists t, pi, main. split; [exact Hg|]. split; [apply (default_coset_usable calm_ok); try reflexivity; lia|]. split; [exact Hm|]. split; [exact Lm|]. split; [exact Hag|].
  assert (Hst : (1 <= num_steps pi <= 2 ^ 3)%nat) by (rewrite Ksteps; cbn; lia). split; [exact Hst|]. do 2 (split; [assumption|]). do 2 (split; [reflexivity|]).
  split; [|split; [exact Hz|split; [exact Hx|exists aux, acols; split; assumption]]].
  apply (C98_completed_table calm _ calm_ok pi default_test_options (2 ^ 3) t main three_rap aux acols 32766 32769 Hm Lm Hag Hst Kmin Kmax eq_refl eq_refl Haux Hac). exact Hts.
Qed.
