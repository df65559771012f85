(** C58: what the constraints of the Cairo AIR guarantee once its three gaps are closed. *)
From Coq Require Import List Arith NArith ZArith Bool Lia Permutation.
From Verif.Base Require Import Outcome Field Poly Zp.
From Verif.Model Require Import Codec PublicInputs Trace Air CairoDecode CairoTrace CairoAir.
From Verif.Spec Require Import CairoSpec AirSpec CairoColumns.
From Verif.Proofs Require Import FieldFacts PolyFacts OutcomeFacts CpuFacts CairoAirFacts SortedFacts MultisetFacts WalkFacts LateColumns RootBound.
From Verif.Examples Require Import Toy Stark252 MiniRun.
From Verif.Properties Require Import CairoMemoryProperties.
Import ListNotations.
Local Open Scope felt_scope.

(** The registers of row [i]. *)
Definition registers_at {C : cairo_env} (cols : list (list C)) (i : nat) : cpu_state C :=
  mk_state (cell cols i FRAME_PC) (cell cols i FRAME_AP) (cell cols i FRAME_FP).

(** The memory a trace claims: its sorted columns, and the dummy cell (0, 0) when there is public memory. *)
Definition claimed_memory {C : cairo_env} (pi : public_inputs C) (cols : list (list C)) (n : nat) (a v : C) : Prop :=
  (exists k, (k < 4 * n)%nat /\ sorted_addr pi cols k = a /\ sorted_value pi cols k = v) \/
  (public_memory pi <> [] /\ a = 0 /\ v = 0).

(** [cols] agrees with [base] on the main columns and on all sorted columns; only running products may differ. *)
Definition same_but_products {C : cairo_env} (pi : public_inputs C) (base cols : list (list C)) : Prop :=
  length cols = length base /\ forall j, (j < PERMUTATION_ARGUMENT_COL_0 - builtin_offset pi)%nat -> nth j cols [] = nth j base [].

(** The run that the columns describe. *)
Record describes_run {C : cairo_env} (pi : public_inputs C) (cols : list (list C)) (n : nat) : Prop := {
  dr_functional : forall a v v', a <> 0 -> claimed_memory pi cols n a v -> claimed_memory pi cols n a v' -> v = v';
  dr_public : forall a v, In (a, v) (public_memory pi) -> claimed_memory pi cols n a v;
  dr_first : s_pc (registers_at cols 0) = pc_init pi /\ s_ap (registers_at cols 0) = ap_init pi;
  dr_last : s_pc (registers_at cols (num_steps pi - 1)) = pc_final pi /\ s_ap (registers_at cols (num_steps pi - 1)) = ap_final pi;
  dr_steps : forall i, (i + 1 < num_steps pi)%nat ->
    exists w, (w < 2 ^ 63)%N /\ claimed_memory pi cols n (s_pc (registers_at cols i)) (e_u64 C w) /\
      (defined_instruction w -> exists dst op0 op1 res,
         cpu_step (claimed_memory pi cols n) w dst op0 op1 res (registers_at cols i) (registers_at cols (i + 1)))
}.

Lemma cpu_step_mono {C : cairo_env} (m m' : C -> C -> Prop) w dst op0 op1 res s s' :
  (forall a v, m a v -> m' a v) -> cpu_step m w dst op0 op1 res s s' -> cpu_step m' w dst op0 op1 res s s'.
Proof. intros H []. constructor; auto. Qed.

Lemma satisfied {E : env} (a : air E) ch cols n j : trace_satisfies a ch cols n -> constraint_holds a ch cols n j.
Proof.
  intros Hs i e evals Hi He Ht. destruct (ts_transition _ _ _ _ Hs i ltac:(lia)) as (evals' & E' & Hz').
  rewrite E' in Ht. apply ok_inj in Ht. subst evals'. exact (Hz' j e He Hi).
Qed.

Lemma flat_agree {C : cairo_env} (base cols : list (list C)) b w k m : (b + w <= m)%nat -> (0 < w)%nat ->
  (forall j, (j < m)%nat -> nth j cols [] = nth j base []) -> flat cols b w k = flat base b w k.
Proof.
  intros Hb Hw H. unfold flat, cell. assert (k mod w < w)%nat by (apply Nat.mod_upper_bound; lia). now rewrite H by lia.
Qed.

(** If the main columns and all sorted columns are fixed before the challenges are drawn, the selector is one on every
    row that takes a step and the first-row equation is enforced, then for all but the listed challenges a satisfying
    trace describes a run of the machine. *)
Theorem C58_repaired_air_is_sound :
  forall (C : cairo_env) p, cairo_ok C p -> forall (pi : public_inputs C) opts n lo hi (base : list (list C)),
  length base = trace_columns (a_context (cairo_air pi opts n)) -> (0 < n)%nat -> (N.of_nat (4 * n) < 2 ^ 64)%N ->
  range_check_min pi = Some lo -> range_check_max pi = Some hi -> (lo < 2 ^ 16)%N -> (hi < 2 ^ 16)%N -> (1 <= num_steps pi <= n)%nat ->
  (forall i, (i + 1 < num_steps pi)%nat -> cell base i FRAME_SELECTOR = 1) ->
  let m := (4 * n + length (public_memory pi))%nat in
  exists bad_alpha bad_zrc, (length bad_alpha <= (2 * m) * (2 * m))%nat /\ (length bad_zrc <= 3 * n)%nat /\
  forall alpha, ~ In alpha bad_alpha -> exists bad_z, (length bad_z <= 2 * m)%nat /\
  forall z zrc cols, ~ In z bad_z -> ~ In zrc bad_zrc -> same_but_products pi base cols ->
    trace_satisfies (cairo_air pi opts n) (mk_challenges alpha z zrc) cols n ->
    first_row_equation pi (mk_challenges alpha z zrc) cols ->
    describes_run pi base n.
Proof.
  intros C p HC pi opts n lo hi base Hw Hn Hp64 Hmin Hmax Hlo Hhi Hsteps Hsel m.
  pose proof (co_env _ _ HC) as HE. pose proof (fft_field_ok _ (e_fft_ok _ HE)) as HK. pose proof (offset_le pi) as Ho.
  pose proof (co_p _ _ HC) as Hp. assert (P65 : (2 ^ 64 < 2 ^ 65)%N) by reflexivity.
  set (L := length (public_memory pi)) in *.
  set (xs := sorted_entries pi base n ++ repeat (0, 0) L). set (ys := accesses base n ++ public_memory pi).
  assert (Hxl : length xs = m) by (unfold xs, sorted_entries; rewrite app_length, map_length, seq_length, repeat_length; reflexivity).
  assert (Hyl : length ys = m) by (unfold ys, accesses; rewrite app_length, map_length, seq_length; reflexivity).
  set (srt := map (sorted_offset pi base) (seq 0 (3 * n))). set (offs := map (offset_cell base) (seq 0 (3 * n))).
  destruct (exceptional_points HC srt offs) as (bad_zrc & Hbrl & Hbr); [unfold srt, offs; now rewrite !map_length|].
  exists (bad_alphas (xs ++ ys)), bad_zrc.
  split; [rewrite bad_alphas_length, app_length; nia|]. split; [unfold srt in Hbrl; now rewrite map_length, seq_length in Hbrl|].
  intros alpha Ha. destruct (exceptional_points HC (map (compress alpha) xs) (map (compress alpha) ys)) as (bz & Hbzl & Hbz); [now rewrite !map_length, Hxl, Hyl|].
  rewrite map_length, Hxl in Hbzl.
  exists (bz ++ map (compress alpha) (public_memory pi)). split; [rewrite app_length, map_length; fold L; lia|].
  intros z zrc cols Hz Hzr [Hsl Hsame] Hsat Hfirst.
  assert (Hwc : length cols = trace_columns (a_context (cairo_air pi opts n))) by congruence.
  set (ch := mk_challenges alpha z zrc) in *.
  assert (Hflat : forall b w k, (b + w <= PERMUTATION_ARGUMENT_COL_0 - builtin_offset pi)%nat -> (0 < w)%nat -> flat cols b w k = flat base b w k)
    by (intros b w k Hb Hw0; now apply (flat_agree base cols b w k _ Hb Hw0)).
  assert (Esa : forall k, sorted_addr pi cols k = sorted_addr pi base k) by (intro k; apply Hflat; unfold MEMORY_ADDR_SORTED_0, PERMUTATION_ARGUMENT_COL_0; lia).
  assert (Esv : forall k, sorted_value pi cols k = sorted_value pi base k) by (intro k; apply Hflat; unfold MEMORY_VALUES_SORTED_0, PERMUTATION_ARGUMENT_COL_0; lia).
  assert (Eaa : forall k, access_addr cols k = access_addr base k) by (intro k; apply Hflat; unfold FRAME_PC, PERMUTATION_ARGUMENT_COL_0; lia).
  assert (Eav : forall k, access_value cols k = access_value base k) by (intro k; apply Hflat; unfold FRAME_INST, PERMUTATION_ARGUMENT_COL_0; lia).
  assert (Eso : forall k, sorted_offset pi cols k = sorted_offset pi base k) by (intro k; apply Hflat; unfold RANGE_CHECK_COL_1, PERMUTATION_ARGUMENT_COL_0; lia).
  assert (Eoc : forall k, offset_cell cols k = offset_cell base k) by (intro k; apply Hflat; unfold OFF_DST, PERMUTATION_ARGUMENT_COL_0; lia).
  (* the boundary constraints exist *)
  assert (Hbcs : exists bcs, a_boundary (cairo_air pi opts n) ch = Ok bcs).
  { cbn [cairo_air a_boundary]. unfold cairo_boundary. rewrite Hmin, Hmax.
    unfold usub. destruct (Nat.ltb_spec (num_steps pi) 1); [lia|]. destruct (Nat.ltb_spec n 1); [lia|]. cbn [obind].
    unfold inv_o. destruct (feqb (fold_left _ _ _) 0) eqn:Ef; [exfalso|cbn [obind unwrap]; eauto].
    apply (feqb_spec C HK) in Ef. revert Ef. apply (public_nonzero HC). intros a v Hin E0. apply Hz. apply in_or_app. right.
    apply in_map_iff. exists (a, v). split; [symmetry; exact E0|exact Hin]. }
  destruct Hbcs as [bcs Hbcs].
  assert (Hb : forall bc, In bc bcs -> nth (bc_step bc) (nth (bc_col bc) cols []) 0 = bc_value bc) by (intros bc Hin; exact (proj2 (proj2 (ts_boundary _ _ _ _ Hsat bcs bc Hbcs Hin)))).
  (* the memory *)
  assert (Hperm : Permutation xs ys).
  { apply (permutation_map_inj (compress alpha)); [intros u w Hu Hv; apply (good_alpha_inj HK (xs ++ ys)); assumption|].
    apply (Hbz z); [intro Hin; apply Hz; apply in_or_app; now left|].
    pose proof (C21_repaired_products_equal C p HC pi opts ch cols n bcs Hwc Hn (fun j _ => satisfied _ _ _ _ j Hsat) Hbcs Hb Hfirst) as HP. cbv zeta in HP. fold L in HP.
    replace (sorted_entries pi cols n) with (sorted_entries pi base n) in HP by (unfold sorted_entries; apply map_ext; intro k; now rewrite Esa, Esv).
    replace (accesses cols n) with (accesses base n) in HP by (unfold accesses; apply map_ext; intro k; now rewrite Eaa, Eav).
    unfold vanish. rewrite !map_map. exact HP. }
  assert (Hclaim : forall a v, In (a, v) xs -> claimed_memory pi base n a v).
  { intros a v Hin. apply in_app_or in Hin. destruct Hin as [Hin|Hin].
    - left. apply in_map_iff in Hin. destruct Hin as (k & E & Hk). apply in_seq in Hk. injection E as <- <-. exists k. split; [lia|]. now split.
    - right. pose proof (repeat_spec _ _ _ Hin) as E. injection E as -> ->. split; [|now split]. intro E0. unfold L in Hin. rewrite E0 in Hin. exact Hin. }
  assert (Hacc : forall k, (k < 4 * n)%nat -> claimed_memory pi base n (access_addr base k) (access_value base k)).
  { intros k Hk. apply Hclaim. apply (Permutation_in _ (Permutation_sym Hperm)). apply in_or_app. left.
    apply (in_map (fun k => (access_addr base k, access_value base k))). apply in_seq. lia. }
  (* the offsets *)
  destruct (C22_boundary_values C pi opts ch cols n bcs lo hi Hbcs Hb Hmin Hmax) as (B1 & B2 & B3).
  assert (L3 : forall b, (9 <= b)%nat -> flat cols (b - builtin_offset pi) 3 (3 * n - 1) = nth (n - 1) (nth (b + 2 - builtin_offset pi) cols []) 0).
  { intros b Hb9. replace (3 * n - 1)%nat with (3 * (n - 1) + 2)%nat by lia. rewrite flat_at by lia. unfold cell. do 2 f_equal. lia. }
  assert (Hoff : forall k, (k < 3 * n)%nat -> exists x, (x < 2 ^ 16)%N /\ offset_cell base k = e_u64 C x).
  { assert (Hpo : Permutation srt offs).
    { apply (Hbr zrc Hzr). pose proof (C22_products_are_equal C p HC pi opts ch cols n Hwc Hn (fun j _ => satisfied _ _ _ _ j Hsat)) as HP.
      unfold vanish, srt, offs. rewrite !map_map. etransitivity; [|etransitivity; [apply HP|]].
      - apply f_equal. apply map_ext. intro k. now rewrite Eso.
      - rewrite <- B3. symmetry. apply (L3 PERMUTATION_ARGUMENT_RANGE_CHECK_COL_1). unfold PERMUTATION_ARGUMENT_RANGE_CHECK_COL_1. lia.
      - apply f_equal. apply map_ext. intro k. now rewrite Eoc. }
    intros k Hk. assert (Hin : In (offset_cell base k) srt).
    { apply (Permutation_in _ (Permutation_sym Hpo)). apply in_map. apply in_seq. lia. }
    apply in_map_iff in Hin. destruct Hin as (k' & E & Hk'). apply in_seq in Hk'.
    destruct (C22_sorted_offsets_are_bounded C p HC pi opts ch cols n lo hi Hwc Hn ltac:(lia) Hlo Hhi (fun j _ => satisfied _ _ _ _ j Hsat)) as [_ HB].
    - rewrite <- B1. symmetry. transitivity (flat cols (RANGE_CHECK_COL_1 - builtin_offset pi) 3 (3 * 0 + 0)); [reflexivity|]. rewrite flat_at by lia. unfold cell. now rewrite Nat.add_0_r.
    - rewrite <- B2. symmetry. apply (L3 RANGE_CHECK_COL_1). unfold RANGE_CHECK_COL_1. lia.
    - destruct (HB k' ltac:(lia)) as (x & Hx & Ex). exists x. split; [lia|]. rewrite <- E, <- Ex. symmetry. apply Eso. }
  pose proof Hwc as Hwidth. apply declared_width in Hwidth.
  assert (Hcell : forall i j, (j < 34)%nat -> cell cols i j = cell base i j).
  { intros i j Hj. unfold cell. rewrite Hsame; [reflexivity|]. unfold PERMUTATION_ARGUMENT_COL_0. lia. }
  assert (Hbd : pc_init pi = cell base 0 FRAME_PC /\ ap_init pi = cell base 0 FRAME_AP /\
                pc_final pi = cell base (num_steps pi - 1) FRAME_PC /\ ap_final pi = cell base (num_steps pi - 1) FRAME_AP).
  { pose proof Hbcs as HB. cbn [cairo_air a_boundary] in HB. unfold cairo_boundary in HB. rewrite Hmin, Hmax in HB.
    apply obind_ok in HB. destruct HB as (ls & Hls & HB). apply obind_ok in HB. destruct HB as (fi & _ & HB). apply obind_ok in HB. destruct HB as (cp & _ & HB).
    cbn [unwrap obind] in HB. apply ok_inj in HB. apply usub_inv in Hls. destruct Hls as [_ ->].
    rewrite <- !(Hcell _ FRAME_PC), <- !(Hcell _ FRAME_AP) by (unfold FRAME_PC, FRAME_AP; lia).
    split; [|split; [|split]]; symmetry; [apply (Hb (mk_bc 19 0%nat (pc_init pi)))|apply (Hb (mk_bc 17 0%nat (ap_init pi)))|
      apply (Hb (mk_bc 19 (num_steps pi - 1)%nat (pc_final pi)))|apply (Hb (mk_bc 17 (num_steps pi - 1)%nat (ap_final pi)))]; rewrite <- HB; cbn; auto. }
  destruct Hbd as (D1 & D2 & D3 & D4).
  constructor.
  - assert (Hsv : forall k k', (k < 4 * n)%nat -> (k' < 4 * n)%nat -> sorted_addr pi base k = sorted_addr pi base k' -> sorted_value pi base k = sorted_value pi base k').
    { intros k k' Hk Hk'. rewrite <- !Esa, <- !Esv. apply (C20_memory_is_single_valued C p HC pi opts ch cols n Hwc ltac:(lia) (fun j _ => satisfied _ _ _ _ j Hsat)); assumption. }
    intros a v v' Ha0 [(k & Hk & Ek & Ev)|(_ & E0 & _)]; [|contradiction]. intros [(k' & Hk' & Ek' & Ev')|(_ & E0 & _)]; [|contradiction].
    rewrite <- Ev, <- Ev'. apply Hsv; congruence.
  - intros a v Hin. apply Hclaim. apply (Permutation_in _ (Permutation_sym Hperm)). apply in_or_app. now right.
  - cbn [registers_at s_pc s_ap]. now split.
  - cbn [registers_at s_pc s_ap]. now split.
  - intros i Hi.
    assert (Ec : forall j, (j < 34)%nat -> nth j (crow cols i) 0 = cell base i j) by (intros j Hj; rewrite crow_nth; now apply Hcell).
    assert (En : forall j, (j < 34)%nat -> nth j (crow cols (i + 1)) 0 = cell base (i + 1) j) by (intros j Hj; rewrite crow_nth; now apply Hcell).
    destruct (Hoff (3 * i + 0)%nat ltac:(lia)) as (od & Hod & E27). destruct (Hoff (3 * i + 1)%nat ltac:(lia)) as (o0 & Ho0 & E28). destruct (Hoff (3 * i + 2)%nat ltac:(lia)) as (o1 & Ho1 & E29).
    unfold offset_cell in E27, E28, E29. rewrite flat_at in E27, E28, E29 by lia.
    destruct (cpu_sound HC pi ch (crow cols i) (crow cols (i + 1)) od o0 o1) as (w & Hw63 & Einst & _ & _ & _ & _ & _ & Hstep).
    + rewrite crow_length, Hwidth. unfold cairo_width. lia.
    + intros j Hj. destruct (proj1 (cairo_satisfies pi opts ch cols n Hwidth) Hsat) as [_ Htr].
      specialize (Htr i j). rewrite Nat.mod_small in Htr by lia. apply Htr; [|unfold n_constraints; destruct (has_rc_builtin pi); lia].
      unfold exempt. destruct (existsb _ _); lia.
    + rewrite Ec by lia. now apply Hsel.
    + rewrite Ec by lia. exact E27.
    + rewrite Ec by lia. exact E28.
    + rewrite Ec by lia. exact E29.
    + exact Hod.
    + exact Ho0.
    + exact Ho1.
    + exists w. split; [exact Hw63|].
      assert (Hrow : forall a v, In (a, v) (row_accesses (crow cols i)) -> claimed_memory pi base n a v).
      { assert (Hj : forall j, (j < 4)%nat -> claimed_memory pi base n (cell base i (19 + j)) (cell base i (23 + j))).
        { intros j Hj. pose proof (Hacc (4 * i + j)%nat ltac:(lia)) as H. unfold access_addr, access_value in H. rewrite !flat_at in H by lia. exact H. }
        unfold row_accesses. rewrite !Ec by lia. intros a v [E|[E|[E|[E|[]]]]]; injection E as <- <-; [apply (Hj 0%nat)|apply (Hj 1%nat)|apply (Hj 2%nat)|apply (Hj 3%nat)]; lia. }
      split.
      * rewrite <- Einst. apply Hrow. left. rewrite !Ec by lia. reflexivity.
      * intro Hd. specialize (Hstep Hd). do 4 eexists. apply (cpu_step_mono _ _ _ _ _ _ _ _ _ Hrow).
        unfold row_state in Hstep. rewrite !(Ec 19), !(Ec 17), !(Ec 18), !En in Hstep by lia. exact Hstep.
Qed.
Print Assumptions C58_repaired_air_is_sound.

(** The prover's trace of a run meets the premises. *)
Example C58_example opts :
  length mini_cols = trace_columns (a_context (cairo_air mini_pi opts 8)) /\ num_steps mini_pi = 3%nat /\
  forallb (fun i => feqb (cell mini_cols i FRAME_SELECTOR) 1) (seq 0 2) = true /\
  same_but_products mini_pi mini_cols mini_cols /\ trace_satisfies (cairo_air mini_pi opts 8) mini_challenges mini_cols 8 /\
  feqb ((z_memory mini_challenges - (sorted_addr mini_pi mini_cols 0 + alpha_memory mini_challenges * sorted_value mini_pi mini_cols 0)) * mem_product mini_pi mini_cols 0)
    (z_memory mini_challenges - (access_addr mini_cols 0 + alpha_memory mini_challenges * access_value mini_cols 0)) = true.
Proof.
  split; [cbn [cairo_air a_context]; rewrite cairo_width_declared; exact mini_width|]. split; [vm_compute; reflexivity|]. split; [vm_compute; reflexivity|].
  split; [split; [reflexivity|intros; reflexivity]|]. split; [apply mini_satisfies|]. vm_compute. reflexivity.
Qed.
