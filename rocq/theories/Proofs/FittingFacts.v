(** Tables that fit, and tables that satisfy the repaired constraints. *)
From Coq Require Import List Arith NArith Bool Lia Permutation.
From Verif.Base Require Import Outcome Field Poly.
From Verif.Model Require Import Codec PublicInputs Trace Air CairoDecode CairoTrace CairoAir.
From Verif.Spec Require Import CairoSpec AirSpec CairoColumns Fitting.
From Verif.Proofs Require Import FieldFacts PolyFacts FFTFacts OutcomeFacts TraceFacts CpuFacts CairoAirFacts SortedFacts MultisetFacts WalkFacts CairoForge LateColumns RootBound.
From Verif.Properties Require Import CairoMemoryProperties CairoSoundnessProperties.
Import ListNotations.

Section Fits.
Context {C : cairo_env} {p : N} (HC : cairo_ok C p).
Let HK : field_ok C := fft_field_ok _ (e_fft_ok _ (co_env _ _ HC)).
Add Field Kfield86 : (fld_th C HK).
Local Open Scope felt_scope.
Notation "r .[ i ]" := (nth i r (fzero : C)) (at level 2, format "r .[ i ]").

(** Only the execution columns are read by the constraints of single steps, and no challenge. *)
Lemma early_columns_same pi ch ch' (c n c' n' : list C) j : (j < 31 \/ j = 49)%nat -> (j < n_constraints pi)%nat ->
  (forall i, (i < 43 - builtin_offset pi)%nat -> c'.[i] = c.[i]) -> (forall i, (i < 43 - builtin_offset pi)%nat -> n'.[i] = n.[i]) ->
  length c = length c' -> (15 <= length c)%nat ->
  nth j (cairo_constraints pi ch' c' n') 0 = nth j (cairo_constraints pi ch c n) 0.
Proof using Type.
  intros Hj Hjn Hc Hn Hl Hlen. pose proof (offset_le pi) as Ho.
  assert (Hsq : squiggle c' = squiggle c).
  { unfold squiggle. assert (Hf : firstn 15 c' = firstn 15 c); [|now rewrite Hf]. rewrite !firstn_nth_seq by lia. apply map_ext_in. intros i Hi. apply in_seq in Hi. apply Hc. lia. }
  destruct (Nat.lt_ge_cases j 16) as [H1|H1].
  { rewrite !flag_constraint by exact H1. unfold flag_value. now rewrite Hc by lia. }
  destruct (Nat.lt_ge_cases j 31) as [H2|H2].
  { replace j with (16 + (j - 16))%nat by lia. rewrite !cpu_constraint by lia. rewrite (Hc 33%nat) by lia. f_equal.
    unfold cpu_formulas. rewrite Hsq. rewrite !Hc by lia. rewrite !Hn by lia. reflexivity. }
  assert (Hb : has_rc_builtin pi = true) by (unfold n_constraints in Hjn; destruct (has_rc_builtin pi); [reflexivity|lia]).
  assert (Hoff : builtin_offset pi = 0%nat) by (unfold builtin_offset; now rewrite Hb). rewrite Hoff in *.
  assert (j = 49%nat) as -> by lia.
  rewrite !builtin_constraint by exact Hb. unfold rc_builtin_value. rewrite !Hc by lia. reflexivity.
Qed.

Section Two.
Context (pi : public_inputs C) (opts : proof_options) (n : nat) (base cols : list (list C)).
Context (Hw : length base = cairo_width pi) (Hs : same_but_products pi base cols).

Lemma same_width : length cols = cairo_width pi.
Proof using Hw Hs. rewrite <- Hw. apply Hs. Qed.
Lemma same_cell i j : (j < 54 - builtin_offset pi)%nat -> cell cols i j = cell base i j.
Proof using Hs. intro Hj. unfold cell. destruct Hs as [_ H]. now rewrite H. Qed.
Lemma same_flat b w k : (b + w <= 54 - builtin_offset pi)%nat -> (0 < w)%nat -> flat cols b w k = flat base b w k.
Proof using Hs. intros Hb H0. apply (flat_agree base cols b w k _ Hb H0). apply Hs. Qed.
Lemma same_reads k : sorted_addr pi cols k = sorted_addr pi base k /\ sorted_value pi cols k = sorted_value pi base k /\
  access_addr cols k = access_addr base k /\ access_value cols k = access_value base k /\
  sorted_offset pi cols k = sorted_offset pi base k /\ offset_cell cols k = offset_cell base k.
Proof using Hs.
  clear Hw. pose proof (offset_le pi) as Ho. unfold sorted_addr, sorted_value, access_addr, access_value, sorted_offset, offset_cell, MEMORY_ADDR_SORTED_0, MEMORY_VALUES_SORTED_0, FRAME_PC, FRAME_INST, RANGE_CHECK_COL_1, OFF_DST.
  repeat split; apply same_flat; lia.
Qed.
Lemma same_steps ch ch' j : (j < 31 \/ j = 49)%nat ->
  constraint_holds (cairo_air pi opts n) ch cols n j <-> constraint_holds (cairo_air pi opts n) ch' base n j.
Proof using Hw Hs.
  intro Hj. pose proof (offset_le pi) as Ho. destruct (Nat.lt_ge_cases j (n_constraints pi)) as [Hn|Hn].
  - rewrite (cairo_constraint_holds pi opts ch cols n j same_width Hn), (cairo_constraint_holds pi opts ch' base n j Hw Hn). unfold holds.
    assert (Hc : forall i, nth j (cairo_constraints pi ch (crow cols i) (crow cols ((i + 1) mod n))) 0 = nth j (cairo_constraints pi ch' (crow base i) (crow base ((i + 1) mod n))) 0).
    { intro i. apply early_columns_same; [exact Hj|exact Hn| | | |].
      - intros i' Hi'. rewrite !crow_nth. apply same_cell. lia.
      - intros i' Hi'. rewrite !crow_nth. apply same_cell. lia.
      - now rewrite !crow_length, same_width, Hw.
      - rewrite crow_length, Hw. unfold cairo_width. lia. }
    split; intros H i Hi; [rewrite <- Hc|rewrite Hc]; now apply H.
  - split; intros _ i e evals _ He _; destruct (exemption_inv pi opts j e He) as [Hx _]; lia.
Qed.
Lemma same_lists : accessed cols n = accessed base n /\ listed pi cols n = listed pi base n /\
  map (sorted_offset pi cols) (seq 0 (3 * n)) = map (sorted_offset pi base) (seq 0 (3 * n)) /\ map (offset_cell cols) (seq 0 (3 * n)) = map (offset_cell base) (seq 0 (3 * n)).
Proof using Hs.
  unfold accessed, listed. repeat split; apply map_ext; intro k; destruct (same_reads k) as (E1 & E2 & E3 & E4 & E5 & E6); congruence.
Qed.
End Two.

(** ** Running products of a table that fits *)
Definition quot (s o : nat -> C) (z : C) (k : nat) : C := vanish (upto o (S k)) z / vanish (upto s (S k)) z.
Section Quot.
Context (s o : nat -> C) (z : C) (m : nat) (Hz : forall k, (k < m)%nat -> z <> s k).
Lemma vanish_upto_nz k : (k <= m)%nat -> vanish (upto s k) z <> 0.
Proof using HC Hz.
  intros Hk Z. apply (vanish_zero HK) in Z. unfold upto in Z. apply in_map_iff in Z. destruct Z as (i & Ei & Hi). apply in_seq in Hi. apply (Hz i ltac:(lia)). now symmetry.
Qed.
Lemma quot_first : (0 < m)%nat -> (z - s O) * quot s o z O = z - o O.
Proof using HC Hz.
  intro Hm. unfold quot. assert (V := vanish_upto_nz 1 ltac:(lia)). rewrite !(vanish_upto_S HC) in *. unfold upto, vanish in *. cbn [seq map] in *. cbn in V |- *. field.
  intro Z. apply V. rewrite Z. ring.
Qed.
Lemma quot_running : running s o (quot s o z) z m.
Proof using HC Hz.
  intros k Hk. unfold quot. assert (V := vanish_upto_nz (S k) ltac:(lia)). assert (V' := vanish_upto_nz (S (k + 1)) ltac:(lia)).
  rewrite Nat.add_1_r in *. rewrite (vanish_upto_S HC s (S k)) in *. rewrite (vanish_upto_S HC o (S k)). field. split; [exact V|].
  intro Z. apply V'. rewrite Z. ring.
Qed.
End Quot.

Lemma upto_listed (pi : public_inputs C) (cols : list (list C)) n al : upto (fun k => compress al (sorted_addr pi cols k, sorted_value pi cols k)) (4 * n) = map (compress al) (listed pi cols n).
Proof using Type. unfold upto, listed. now rewrite map_map. Qed.
Lemma upto_accessed (cols : list (list C)) n al : upto (fun k => compress al (access_addr cols k, access_value cols k)) (4 * n) = map (compress al) (accessed cols n).
Proof using Type. unfold upto, accessed. now rewrite map_map. Qed.

Section Complete.
Context (pi : public_inputs C) (opts : proof_options) (n : nat) (lo hi : N) (base : list (list C)) (ch : cairo_challenges C).
Context (Hw : length base = cairo_width pi) (Hn : (0 < n)%nat) (Hsteps : (1 <= num_steps pi <= n)%nat).
Context (Hmin : range_check_min pi = Some lo) (Hmax : range_check_max pi = Some hi).
Context (Hmain : main_fits pi opts base n).
Context (Hsorted : forall k, (k + 1 < 4 * n)%nat -> cell_follows (sorted_addr pi base k, sorted_value pi base k) (sorted_addr pi base (k + 1), sorted_value pi base (k + 1))).
Context (Hclimb : climbs (3 * n) (sorted_offset pi base) lo hi).
Let z := z_memory ch. Let al := alpha_memory ch. Let zr := z_range_check ch.
Context (Hzr : ~ In zr (map (sorted_offset pi base) (seq 0 (3 * n)))).
Context (Hprod : vanish (map (sorted_offset pi base) (seq 0 (3 * n))) zr = vanish (map (offset_cell base) (seq 0 (3 * n))) zr).
Let sm k := compress al (sorted_addr pi base k, sorted_value pi base k). Let om k := compress al (access_addr base k, access_value base k).
Let so := sorted_offset pi base. Let oc := offset_cell base.
Let b3 := (54 - builtin_offset pi)%nat. Let b4 := (58 - builtin_offset pi)%nat.
(** Any memory products that go with the steps and end as the boundary constraint says. *)
Context (q : nat -> C) (Hrun : running sm om q z (4 * n)).
Context (Hlast : vanish (map (compress al) (public_memory pi)) z <> 0 ->
  q (4 * n - 1)%nat = fpow z (length (public_memory pi)) * finv (vanish (map (compress al) (public_memory pi)) z)).
Definition completed : list (list C) := overwrite (overwrite base b3 n 4 q) b4 n 3 (quot so oc zr).

Lemma completed_bounds : (b3 + 4 = b4 /\ b4 + 3 = length base /\ 45 <= b3)%nat.
Proof using Hw. clear Hn Hsteps. pose proof (offset_le pi). unfold b3, b4, cairo_width in *. lia. Qed.
Lemma first_length : length (overwrite base b3 n 4 q) = length base.
Proof using Hw. clear Hn Hsteps. pose proof completed_bounds. apply overwrite_length. lia. Qed.
Lemma completed_same : same_but_products pi base completed.
Proof using Hw.
  clear Hn Hsteps. pose proof completed_bounds as B. pose proof first_length as L1. split.
  - unfold completed. rewrite overwrite_length by lia. exact L1.
  - intros j Hj. unfold PERMUTATION_ARGUMENT_COL_0 in Hj. fold b3 in Hj. unfold completed. rewrite overwrite_other by lia. apply overwrite_other; lia.
Qed.
Lemma completed_mem k : (k < 4 * n)%nat -> mem_product pi completed k = q k.
Proof using Hw.
  clear Hn Hsteps. intro Hk. pose proof completed_bounds as B. pose proof first_length as L1. unfold mem_product, PERMUTATION_ARGUMENT_COL_0. fold b3. unfold completed.
  rewrite (flat_other (overwrite base b3 n 4 q)); [apply overwrite_flat; [lia|exact Hk]|lia|]. intros j Hj. apply overwrite_other; lia.
Qed.
Lemma completed_rc k : (k < 3 * n)%nat -> rc_product pi completed k = quot so oc zr k.
Proof using Hw.
  clear Hn Hsteps. intro Hk. pose proof completed_bounds as B. pose proof first_length as L1. unfold rc_product, PERMUTATION_ARGUMENT_RANGE_CHECK_COL_1. fold b4. unfold completed.
  apply overwrite_flat; [lia|exact Hk].
Qed.
Lemma completed_rows : (forall c, In c base -> length c = n) -> forall c, In c completed -> length c = n.
Proof using Type. intro H. unfold completed. apply overwrite_rows. now apply overwrite_rows. Qed.

Lemma so_off k : (k < 3 * n)%nat -> zr <> so k.
Proof using Hzr. clear Hn Hsteps Hw. intros Hk E. apply Hzr. rewrite E. apply in_map. apply in_seq. lia. Qed.
Lemma quot_rc_last : quot so oc zr (3 * n - 1) = 1.
Proof using HC Hn Hzr Hprod.
  clear Hsteps Hw.  unfold quot. replace (S (3 * n - 1)) with (3 * n)%nat by lia. assert (V := vanish_upto_nz so zr (3 * n) so_off (3 * n) ltac:(lia)).
  change (vanish (upto so (3 * n)) zr = vanish (upto oc (3 * n)) zr) in Hprod. rewrite Hprod in *. now field.
Qed.
Lemma completed_satisfies : trace_satisfies (cairo_air pi opts n) ch completed n.
Proof using HC Hw Hn Hsteps Hmin Hmax Hmain Hsorted Hclimb Hzr Hprod Hrun Hlast.
  pose proof (offset_le pi) as Ho. pose proof completed_same as HS. pose proof (same_width pi base completed Hw HS) as W. pose proof (same_reads pi base completed HS) as HR.
  pose proof (same_cell pi base completed HS) as HB.
  apply cairo_satisfies; [exact W|]. split.
  - intros bcs bc E Hin. unfold cairo_boundary in E.
    apply obind_ok in E. destruct E as (ls & Els & E). apply obind_ok in E. destruct E as (fi & Efi & E).
    apply obind_ok in E. destruct E as (cp & Ecp & E). apply obind_ok in E. destruct E as (mn & Emn & E).
    apply obind_ok in E. destruct E as (mx & Emx & E). apply ok_inj in E.
    rewrite Hmin in Emn. apply ok_inj in Emn. rewrite Hmax in Emx. apply ok_inj in Emx. subst mn mx.
    apply usub_inv in Els, Efi. destruct Els as [_ ->]. destruct Efi as [_ ->]. apply (inv_o_ok HK) in Ecp. destruct Ecp as [Hcp ->].
    rewrite (public_product (co_env _ _ HC)) in Hcp, E. fold z al in Hcp. fold z al in E.
    unfold cairo_width in W. destruct Hmain as [[F1 F2] [F3 F4] _]. destruct Hclimb as (_ & F5 & F6).
    subst bcs. unfold MEM_A_TRACE_OFFSET, MEM_P_TRACE_OFFSET, PERMUTATION_ARGUMENT_COL_3, PERMUTATION_ARGUMENT_RANGE_CHECK_COL_3,
      RANGE_CHECK_COL_1, RANGE_CHECK_COL_3 in Hin.
    destruct Hin as [<-|[<-|[<-|[<-|[<-|[<-|[<-|[<-|[]]]]]]]]]; cbn [bc_step bc_col bc_value]; rewrite W;
      (split; [lia|split; [lia|]]).
    + rewrite HB by lia. exact F1.
    + rewrite HB by lia. exact F2.
    + rewrite HB by lia. exact F3.
    + rewrite HB by lia. exact F4.
    + pose proof (completed_mem (4 * (n - 1) + 3) ltac:(lia)) as P. unfold mem_product in P. rewrite flat_at in P by lia.
      unfold PERMUTATION_ARGUMENT_COL_0 in P. replace (54 - builtin_offset pi + 3)%nat with (57 - builtin_offset pi)%nat in P by lia.
      rewrite P. replace (4 * (n - 1) + 3)%nat with (4 * n - 1)%nat by lia. now apply Hlast.
    + pose proof (completed_rc (3 * (n - 1) + 2) ltac:(lia)) as P. unfold rc_product in P. rewrite flat_at in P by lia.
      unfold PERMUTATION_ARGUMENT_RANGE_CHECK_COL_1 in P. replace (58 - builtin_offset pi + 2)%nat with (60 - builtin_offset pi)%nat in P by lia.
      rewrite P. replace (3 * (n - 1) + 2)%nat with (3 * n - 1)%nat by lia. apply quot_rc_last.
    + rewrite HB by lia. rewrite <- F5. symmetry. change 0%nat with (3 * 0 + 0)%nat at 1. unfold sorted_offset. rewrite flat_at by lia. now rewrite Nat.add_0_r.
    + rewrite HB by lia. rewrite <- F6. symmetry. replace (3 * n - 1)%nat with (3 * (n - 1) + 2)%nat by lia. unfold sorted_offset. rewrite flat_at by lia. unfold RANGE_CHECK_COL_1. f_equal. lia.
  - assert (Hall : forall j, (j < n_constraints pi)%nat -> holds pi ch completed n j); [|intros i j Hi Hj; now apply Hall].
    intros j Hj.
    assert (Hearly : (j < 31 \/ j = 49)%nat -> holds pi ch completed n j).
    { intro H. apply (cairo_constraint_holds pi opts ch completed n j W Hj). apply (same_steps pi opts n base completed Hw HS ch ch j H). now apply (main_steps _ _ _ _ Hmain). }
    destruct (Nat.lt_ge_cases j 31) as [H2|H2]; [apply Hearly; now left|].
    destruct (Nat.lt_ge_cases j 39) as [H3|H3].
    { clear Hearly. revert j H2 H3 Hj. enough (G : forall j, (31 <= j < 39)%nat -> holds pi ch completed n j) by (intros; apply G; lia).
      apply steps_memory; intros k Hk; destruct (HR k) as (-> & Ev & _); destruct (HR (k + 1)%nat) as (-> & Ev' & _);
      destruct (Hsorted k Hk) as [E|E]; rewrite ?Ev, ?Ev'.
      - injection E as -> _. ring.
      - cbn [fst] in E. rewrite E. ring.
      - injection E as _ ->. ring.
      - cbn [fst] in E. rewrite E. ring. }
    destruct (Nat.lt_ge_cases j 43) as [H4|H4].
    { clear Hearly. revert j H2 H3 H4 Hj. enough (G : forall j, (39 <= j < 43)%nat -> holds pi ch completed n j) by (intros; apply G; lia).
      apply steps_product. intros k Hk. destruct (HR (k + 1)%nat) as (-> & -> & -> & -> & _). rewrite !completed_mem by lia.
      exact (Hrun k Hk). }
    destruct (Nat.lt_ge_cases j 46) as [H5|H5].
    { clear Hearly. revert j H2 H3 H4 H5 Hj. enough (G : forall j, (43 <= j < 46)%nat -> holds pi ch completed n j) by (intros; apply G; lia).
      apply steps_offset. intros k Hk. destruct (HR k) as (_ & _ & _ & _ & -> & _). destruct (HR (k + 1)%nat) as (_ & _ & _ & _ & -> & _).
      destruct (proj1 Hclimb k Hk) as [->| ->]; ring. }
    destruct (Nat.lt_ge_cases j 49) as [H6|H6].
    { clear Hearly. revert j H2 H3 H4 H5 H6 Hj. enough (G : forall j, (46 <= j < 49)%nat -> holds pi ch completed n j) by (intros; apply G; lia).
      apply steps_offset_product. intros k Hk. destruct (HR ((k + 1) mod (3 * n))%nat) as (_ & _ & _ & _ & -> & ->).
      rewrite !completed_rc by (try exact Hk; apply Nat.mod_upper_bound; lia). fold zr so oc. 
      destruct (Nat.eq_dec (k + 1) (3 * n)) as [E|E].
      - rewrite E, Nat.mod_same by lia. replace k with (3 * n - 1)%nat by lia. rewrite quot_rc_last, (quot_first so oc zr (3 * n) so_off) by lia. ring.
      - rewrite Nat.mod_small by lia. exact (quot_running so oc zr (3 * n) so_off k ltac:(lia)). }
    apply Hearly. right. unfold n_constraints in Hj. destruct (has_rc_builtin pi); lia.
Qed.
End Complete.

(** The products of a table that fits. *)
Section Products.
Context (pi : public_inputs C) (n : nat) (base : list (list C)) (ch : cairo_challenges C).
Let z := z_memory ch. Let al := alpha_memory ch.
Context (Hz : ~ In z (map (compress al) (listed pi base n))).
Let sm k := compress al (sorted_addr pi base k, sorted_value pi base k). Let om k := compress al (access_addr base k, access_value base k).
Lemma sm_off k : (k < 4 * n)%nat -> z <> sm k.
Proof using Hz. intros Hk E. apply Hz. rewrite <- upto_listed, E. unfold upto. apply (in_map sm). apply in_seq. lia. Qed.
Lemma quot_mem_running : running sm om (quot sm om z) z (4 * n).
Proof using HC Hz. exact (quot_running sm om z (4 * n) sm_off). Qed.
Lemma quot_mem_last : (0 < n)%nat -> Permutation (listed pi base n ++ repeat (0, 0) (length (public_memory pi))) (accessed base n ++ public_memory pi) ->
  vanish (map (compress al) (public_memory pi)) z <> 0 ->
  quot sm om z (4 * n - 1) = fpow z (length (public_memory pi)) * finv (vanish (map (compress al) (public_memory pi)) z).
Proof using HC Hz.
  intros Hn HP V2. unfold quot. replace (S (4 * n - 1)) with (4 * n)%nat by lia. assert (V := vanish_upto_nz sm z (4 * n) sm_off (4 * n) ltac:(lia)).
  pose proof (vanish_permutation HK _ _ z (Permutation_map (compress al) HP)) as P.
  rewrite !map_app, !(vanish_app HK), <- upto_listed, <- upto_accessed in P. fold sm om in P.
  replace (vanish (map (compress al) (repeat (0, 0) (length (public_memory pi)))) z) with (fpow z (length (public_memory pi))) in P
    by (rewrite <- (zero_pairs HK z al); unfold vanish; rewrite map_map; reflexivity).
  set (x := vanish (upto om (4 * n)) z) in *. set (y := vanish (upto sm (4 * n)) z) in *. set (u := vanish (map (compress al) (public_memory pi)) z) in *.
  apply (mul_cancel_l HK (y * u)); [intro Z; destruct (mul_zero HK _ _ Z); contradiction|].
  transitivity (x * u); [now field|]. rewrite <- P. now field.
Qed.
Lemma quot_mem_first : length base = cairo_width pi -> (0 < n)%nat -> first_row_equation pi ch (completed pi n base ch (quot sm om z)).
Proof using HC Hz.
  intros Hw Hn. unfold first_row_equation. fold z al. destruct (same_reads pi base _ (completed_same pi n base ch Hw (quot sm om z)) 0) as (-> & -> & -> & -> & _). rewrite completed_mem by (exact Hw || lia).
  exact (quot_first sm om z (4 * n) sm_off ltac:(lia)).
Qed.
End Products.

Section Fit.
Context (pi : public_inputs C) (opts : proof_options) (n : nat) (lo hi : N) (base : list (list C)) (ch : cairo_challenges C).
Context (Hw : length base = cairo_width pi) (Hfit : fitting pi opts base n lo hi) (Hn : (0 < n)%nat) (Hsteps : (1 <= num_steps pi <= n)%nat).
Context (Hmin : range_check_min pi = Some lo) (Hmax : range_check_max pi = Some hi).
Let z := z_memory ch. Let al := alpha_memory ch. Let zr := z_range_check ch.
Context (Hz : ~ In z (map (compress al) (listed pi base n))) (Hzr : ~ In zr (map (sorted_offset pi base) (seq 0 (3 * n)))).
Lemma fitting_completes : exists cols, same_but_products pi base cols /\ ((forall c, In c base -> length c = n) -> forall c, In c cols -> length c = n) /\
  trace_satisfies (cairo_air pi opts n) ch cols n /\ first_row_equation pi ch cols.
Proof using HC Hw Hfit Hn Hsteps Hmin Hmax Hz Hzr.
  pose proof (quot_mem_running pi n base ch Hz) as Hrun. pose proof (fun V => quot_mem_last pi n base ch Hz Hn (fit_memory _ _ _ _ _ _ Hfit) V) as Hlast.
  pose proof (quot_mem_first pi n base ch Hz Hw Hn) as Hfirst.
  eexists. split; [|split; [|split; [|exact Hfirst]]].
  - now apply completed_same.
  - apply completed_rows.
  - destruct Hfit. apply (completed_satisfies pi opts n lo hi base ch Hw Hn Hsteps Hmin Hmax); try assumption.
    + now constructor.
    + split; [assumption|assumption].
    + now apply (vanish_permutation HK).
Qed.
End Fit.

(** ** What a satisfying table shows *)
Section Sound.
Context (pi : public_inputs C) (opts : proof_options) (n : nat) (lo hi : N) (base : list (list C)).
Context (Hw : length base = cairo_width pi) (Hn : (0 < n)%nat) (Hsteps : (1 <= num_steps pi <= n)%nat).
Context (Hmin : range_check_min pi = Some lo) (Hmax : range_check_max pi = Some hi).
Context (ch : cairo_challenges C) (cols : list (list C)) (Hs : same_but_products pi base cols).
Context (Hsat : trace_satisfies (cairo_air pi opts n) ch cols n) (Hfirst : first_row_equation pi ch cols).
Let z := z_memory ch. Let al := alpha_memory ch. Let zr := z_range_check ch.
Context (Hpub : ~ In z (map (compress al) (public_memory pi))).
Let xs := listed pi base n ++ repeat (0, 0) (length (public_memory pi)). Let ys := accessed base n ++ public_memory pi.
Context (Hmem : vanish (map (compress al) xs) z = vanish (map (compress al) ys) z -> Permutation xs ys).
Context (Hoff : vanish (map (sorted_offset pi base) (seq 0 (3 * n))) zr = vanish (map (offset_cell base) (seq 0 (3 * n))) zr ->
  Permutation (map (sorted_offset pi base) (seq 0 (3 * n))) (map (offset_cell base) (seq 0 (3 * n)))).

Lemma boundary_exists : exists bcs, a_boundary (cairo_air pi opts n) ch = Ok bcs.
Proof using HC Hn Hsteps Hmin Hmax Hpub.
  clear Hw Hs.  cbn [cairo_air a_boundary]. unfold cairo_boundary. rewrite Hmin, Hmax.
  unfold usub. destruct (Nat.ltb_spec (num_steps pi) 1); [lia|]. destruct (Nat.ltb_spec n 1); [lia|]. cbn [obind].
  unfold inv_o. destruct (feqb (fold_left _ _ _) 0) eqn:Ef; [exfalso|cbn [obind unwrap]; eauto].
  apply (feqb_spec C HK) in Ef. revert Ef. apply (public_nonzero HC). intros a v Hin E0. apply Hpub.
  apply in_map_iff. exists (a, v). split; [symmetry; exact E0|exact Hin].
Qed.

Lemma satisfied_fits : fitting pi opts base n lo hi.
Proof using HC Hw Hn Hsteps Hmin Hmax Hs Hsat Hfirst Hpub Hmem Hoff.
  pose proof (offset_le pi) as Ho. pose proof (same_width pi base cols Hw Hs) as W. pose proof (same_reads pi base cols Hs) as HR. pose proof (same_cell pi base cols Hs) as HB.
  destruct (same_lists pi n base cols Hs) as (Ea & El & Es & Eo).
  assert (Hwc : length cols = trace_columns (a_context (cairo_air pi opts n))) by (cbn [cairo_air a_context]; now rewrite cairo_width_declared).
  destruct boundary_exists as [bcs Hbcs].
  assert (Hb : forall bc, In bc bcs -> nth (bc_step bc) (nth (bc_col bc) cols []) 0 = bc_value bc) by (intros bc Hin; exact (proj2 (proj2 (ts_boundary _ _ _ _ Hsat bcs bc Hbcs Hin)))).
  destruct (C22_boundary_values C pi opts ch cols n bcs lo hi Hbcs Hb Hmin Hmax) as (B1 & B2 & B3).
  assert (Hheld : forall j, (j < 49)%nat -> holds pi ch cols n j).
  { intros j Hj. apply (cairo_constraint_holds pi opts ch cols n j W); [unfold n_constraints; lia|]. now apply satisfied. }
  assert (Hbd : pc_init pi = cell base 0 FRAME_PC /\ ap_init pi = cell base 0 FRAME_AP /\
                pc_final pi = cell base (num_steps pi - 1) FRAME_PC /\ ap_final pi = cell base (num_steps pi - 1) FRAME_AP).
  { pose proof Hbcs as HBc. cbn [cairo_air a_boundary] in HBc. unfold cairo_boundary in HBc. rewrite Hmin, Hmax in HBc.
    apply obind_ok in HBc. destruct HBc as (ls & Hls & HBc). apply obind_ok in HBc. destruct HBc as (fi & _ & HBc). apply obind_ok in HBc. destruct HBc as (cp & _ & HBc).
    cbn [unwrap obind] in HBc. apply ok_inj in HBc. apply usub_inv in Hls. destruct Hls as [_ ->].
    rewrite <- !(HB _ FRAME_PC), <- !(HB _ FRAME_AP) by (unfold FRAME_PC, FRAME_AP; lia).
    split; [|split; [|split]]; symmetry; [apply (Hb (mk_bc 19 0%nat (pc_init pi)))|apply (Hb (mk_bc 17 0%nat (ap_init pi)))|
      apply (Hb (mk_bc 19 (num_steps pi - 1)%nat (pc_final pi)))|apply (Hb (mk_bc 17 (num_steps pi - 1)%nat (ap_final pi)))]; rewrite <- HBc; cbn; auto. }
  destruct Hbd as (D1 & D2 & D3 & D4).
  constructor.
  - now split.
  - now split.
  - intros j ch' Hj. apply (same_steps pi opts n base cols Hw Hs ch ch' j Hj). now apply satisfied.
  - intros k Hk. destruct (memory_step pi ch cols n k (fun j Hj => Hheld j ltac:(lia)) Hk) as [S1 S2].
    destruct (HR k) as (E1 & E2 & _). destruct (HR (k + 1)%nat) as (E3 & E4 & _). rewrite E1, E3 in S1. rewrite E1, E2, E3, E4 in S2. unfold cell_follows. cbn [fst].
    destruct (mul_zero HK _ _ S1) as [A|A].
    + apply (proj1 (sub_zero HK _ _)) in A. left. destruct (mul_zero HK _ _ S2) as [B|B].
      * apply (proj1 (sub_zero HK _ _)) in B. now rewrite A, B.
      * exfalso. rewrite A in B. apply (F_1_neq_0 (fld_th C HK)). transitivity (0 - (sorted_addr pi base (k + 1) - sorted_addr pi base (k + 1) - 1)); [ring|]. rewrite B. ring.
    + right. transitivity (sorted_addr pi base (k + 1) - sorted_addr pi base k - 1 + (sorted_addr pi base k + 1)); [ring|]. rewrite A. ring.
  - apply Hmem. pose proof (C21_repaired_products_equal C p HC pi opts ch cols n bcs Hwc Hn (fun j _ => satisfied _ _ _ _ j Hsat) Hbcs Hb Hfirst) as HP. cbv zeta in HP.
    change (sorted_entries pi cols n) with (listed pi cols n) in HP. change (accesses cols n) with (accessed cols n) in HP. rewrite El, Ea in HP.
    unfold vanish. rewrite !map_map. exact HP.
  - intros k Hk. pose proof (offset_step pi ch cols n k (fun j Hj => Hheld j ltac:(lia)) Hk) as S1.
    destruct (HR k) as (_ & _ & _ & _ & E1 & _). destruct (HR (k + 1)%nat) as (_ & _ & _ & _ & E2 & _). rewrite E1, E2 in S1.
    destruct (mul_zero HK _ _ S1) as [A|A]; [left|right].
    + apply (proj1 (sub_zero HK _ _)) in A. now symmetry.
    + transitivity (sorted_offset pi base (k + 1) - sorted_offset pi base k - 1 + (sorted_offset pi base k + 1)); [ring|]. rewrite A. ring.
  - destruct (HR 0%nat) as (_ & _ & _ & _ & <- & _). destruct (HR (3 * n - 1)%nat) as (_ & _ & _ & _ & <- & _). now split.
  - apply Hoff. rewrite <- Es, <- Eo. unfold vanish. rewrite !map_map.
    apply (C22_products_are_equal C p HC pi opts ch cols n Hwc Hn (fun j _ => satisfied _ _ _ _ j Hsat)). rewrite <- B3. symmetry.
    unfold rc_product. replace (3 * n - 1)%nat with (3 * (n - 1) + 2)%nat by lia. rewrite flat_at by lia. unfold cell. do 2 f_equal. unfold PERMUTATION_ARGUMENT_RANGE_CHECK_COL_1, PERMUTATION_ARGUMENT_RANGE_CHECK_COL_3. lia.
Qed.
End Sound.

Lemma fitting_single_valued (pi : public_inputs C) opts n lo hi base :
  length base = trace_columns (a_context (cairo_air pi opts n)) -> (N.of_nat (4 * n) <= p)%N -> fitting pi opts base n lo hi ->
  forall e e', In e (listed pi base n) -> In e' (listed pi base n) -> fst e = fst e' -> e = e'.
Proof using HC.
  intros Hw Hp Hfit e e' He He' E.
  apply in_map_iff in He, He'. destruct He as (k & <- & Hk). destruct He' as (k' & <- & Hk'). apply in_seq in Hk, Hk'. cbn [fst] in E.
  enough (V : sorted_value pi base k = sorted_value pi base k') by (now rewrite E, V).
  apply (C20_memory_is_single_valued C p HC pi opts (mk_challenges (0 : C) 0 0) base n Hw Hp); [|lia|lia|exact E].
  assert (G : forall j, (31 <= j < 39)%nat -> holds pi (mk_challenges (0 : C) 0 0) base n j).
  { apply steps_memory; intros i Hi; destruct (fit_sorted _ _ _ _ _ _ Hfit i Hi) as [F|F].
    - injection F as -> _. ring.
    - cbn [fst] in F. rewrite F. ring.
    - injection F as _ ->. ring.
    - cbn [fst] in F. rewrite F. ring. }
  intros j Hj. apply (cairo_constraint_holds pi opts); [now apply declared_width in Hw|unfold n_constraints, MEMORY_CONSISTENCY_3 in *; lia|].
  apply G. unfold MEMORY_INCREASING_0, MEMORY_CONSISTENCY_3 in Hj. lia.
Qed.
End Fits.

(** ** Lists *)
Lemma filter_permutation_length {A} (f : A -> bool) l l' : Permutation l l' -> length (filter f l) = length (filter f l').
Proof. induction 1; cbn; repeat (destruct (f _)); cbn; congruence. Qed.
Lemma filter_none {A} (f : A -> bool) l : (forall x, In x l -> f x = false) -> filter f l = [].
Proof. induction l as [|x l IH]; intro H; [reflexivity|]. cbn. rewrite H by now left. apply IH. intros y Hy. apply H. now right. Qed.
Lemma filter_repeat_all {A} (f : A -> bool) x k : f x = true -> filter f (repeat x k) = repeat x k.
Proof. intro H. induction k as [|k IH]; [reflexivity|]. cbn. now rewrite H, IH. Qed.

(** Deciding by computation, for examples. *)
Section Decide.
Context {A : Type} (eqb : A -> A -> bool) (eqb_ok : forall x y, eqb x y = true -> x = y).
Fixpoint take_out (x : A) (l : list A) : option (list A) :=
  match l with [] => None | y :: l' => if eqb x y then Some l' else option_map (cons y) (take_out x l') end.
Fixpoint same_items (l l' : list A) : bool :=
  match l with [] => match l' with [] => true | _ => false end | x :: r => match take_out x l' with Some r' => same_items r r' | None => false end end.
Lemma take_out_ok x l r : take_out x l = Some r -> Permutation l (x :: r).
Proof using eqb_ok.
  revert r. induction l as [|y l IH]; intros r H; [discriminate|]. cbn in H. destruct (eqb x y) eqn:E.
  - apply eqb_ok in E. subst. injection H as ->. reflexivity.
  - destruct (take_out x l) as [r'|]; [|discriminate]. injection H as <-. rewrite (IH r' eq_refl). apply perm_swap.
Qed.
Lemma same_items_ok l l' : same_items l l' = true -> Permutation l l'.
Proof using eqb_ok.
  revert l'. induction l as [|x l IH]; intros l' H; cbn in H; [destruct l'; [reflexivity|discriminate]|].
  destruct (take_out x l') as [r'|] eqn:E; [|discriminate]. rewrite (take_out_ok _ _ _ E). constructor. now apply IH.
Qed.
End Decide.

Section Fitsb.
Context {C : cairo_env} {p : N} (HC : cairo_ok C p).
Let HK : field_ok C := fft_field_ok _ (e_fft_ok _ (co_env _ _ HC)).
Local Open Scope felt_scope.
Definition pair_eqb (e e' : C * C) : bool := feqb (fst e) (fst e') && feqb (snd e) (snd e').
Lemma pair_eqb_ok e e' : pair_eqb e e' = true -> e = e'.
Proof using HC.
  destruct e, e'. unfold pair_eqb. cbn. intro H. apply andb_true_iff in H. destruct H as [H1 H2]. apply (feqb_spec C HK) in H1, H2. congruence.
Qed.
Definition fitsb (pi : public_inputs C) (cols : list (list C)) n lo hi : bool :=
  feqb (cell cols 0 FRAME_PC) (pc_init pi) && feqb (cell cols 0 FRAME_AP) (ap_init pi)
  && feqb (cell cols (num_steps pi - 1) FRAME_PC) (pc_final pi) && feqb (cell cols (num_steps pi - 1) FRAME_AP) (ap_final pi)
  && holdsb pi (mk_challenges (0 : C) 0 0) cols n (seq 0 31 ++ (if has_rc_builtin pi then [49%nat] else []))
  && forallb (fun k => pair_eqb (sorted_addr pi cols (k + 1), sorted_value pi cols (k + 1)) (sorted_addr pi cols k, sorted_value pi cols k)
                       || feqb (sorted_addr pi cols (k + 1)) (sorted_addr pi cols k + 1)) (seq 0 (4 * n - 1))
  && same_items pair_eqb (listed pi cols n ++ repeat (0, 0) (length (public_memory pi))) (accessed cols n ++ public_memory pi)
  && forallb (fun k => feqb (sorted_offset pi cols (k + 1)) (sorted_offset pi cols k) || feqb (sorted_offset pi cols (k + 1)) (sorted_offset pi cols k + 1)) (seq 0 (3 * n - 1))
  && feqb (sorted_offset pi cols 0) (e_u64 C lo) && feqb (sorted_offset pi cols (3 * n - 1)) (e_u64 C hi)
  && same_items (fun x y => feqb x y) (map (sorted_offset pi cols) (seq 0 (3 * n))) (map (offset_cell cols) (seq 0 (3 * n))).
Lemma fitsb_ok pi opts cols n lo hi : length cols = cairo_width pi -> fitsb pi cols n lo hi = true -> fitting pi opts cols n lo hi.
Proof using HC.
  intros Hw H. unfold fitsb in H. repeat (apply andb_true_iff in H; destruct H as [H ?]).
  repeat match goal with X : feqb _ _ = true |- _ => apply (feqb_spec C HK) in X end.
  constructor; [now split|now split| | | | |now split|].
  - intros j ch Hj. destruct (Nat.lt_ge_cases j (n_constraints pi)) as [Hn|Hn].
    + apply (same_steps pi opts n cols cols Hw (conj eq_refl (fun _ _ => eq_refl)) (mk_challenges (0 : C) 0 0) ch j Hj).
      apply (cairo_constraint_holds pi opts _ cols n j Hw Hn). eapply (holdsb_ok (co_env _ _ HC)); [eassumption|].
      apply in_or_app. destruct Hj as [Hj| ->]; [left; apply in_seq; lia|right]. unfold n_constraints in Hn. destruct (has_rc_builtin pi); [now left|lia].
    + intros i e evals _ He _; destruct (exemption_inv pi opts j e He) as [Hx _]; lia.
  - intros k Hk. match goal with X : forallb _ (seq 0 (4 * n - 1)) = true |- _ => rewrite forallb_forall in X; specialize (X k ltac:(apply in_seq; lia)); apply orb_true_iff in X; destruct X as [X|X] end;
    [left; now apply pair_eqb_ok|right; now apply (feqb_spec C HK)].
  - eapply same_items_ok; [exact pair_eqb_ok|eassumption].
  - intros k Hk. match goal with X : forallb _ (seq 0 (3 * n - 1)) = true |- _ => rewrite forallb_forall in X; specialize (X k ltac:(apply in_seq; lia)); apply orb_true_iff in X; destruct X as [X|X] end;
    [left|right]; now apply (feqb_spec C HK).
  - eapply same_items_ok; [|eassumption]. intros x y E. now apply (feqb_spec C HK).
Qed.
End Fitsb.
