(** C20, C21, C22: what the memory and range-check constraints of the Cairo AIR do and do not enforce. *)
From Coq Require Import List Arith NArith ZArith Bool Lia Permutation.
From Verif.Base Require Import Outcome Field Poly Zp.
From Verif.Model Require Import Codec PublicInputs Trace Air CairoDecode CairoTrace CairoAir.
From Verif.Spec Require Import CairoSpec AirSpec CairoColumns.
From Verif.Proofs Require Import FieldFacts PolyFacts OutcomeFacts CairoAirFacts SortedFacts MultisetFacts WalkFacts.
From Verif.Examples Require Import Toy Stark252 MiniRun.
Import ListNotations.
Local Open Scope felt_scope.

Lemma declared_width {C : cairo_env} (pi : public_inputs C) opts n (cols : list (list C)) :
  length cols = trace_columns (a_context (cairo_air pi opts n)) -> length cols = cairo_width pi.
Proof. cbn [cairo_air a_context]. now rewrite cairo_width_declared. Qed.
Lemma held {C : cairo_env} (HE : env_ok C) (pi : public_inputs C) opts ch cols n lo hi : length cols = cairo_width pi -> (hi <= 49)%nat ->
  (forall j, (lo <= j < hi)%nat -> constraint_holds (cairo_air pi opts n) ch cols n j) ->
  forall j, (lo <= j < hi)%nat -> holds pi ch cols n j.
Proof. intros Hw Hhi H j Hj. apply (cairo_constraint_holds pi opts); [exact Hw|unfold n_constraints; lia|now apply H]. Qed.

(** ** C20 *)

(** The eight memory constraints make the sorted columns a function of the address on an interval of addresses. *)
Theorem C20_memory_is_single_valued :
  forall (C : cairo_env) p, cairo_ok C p -> forall (pi : public_inputs C) opts ch cols n,
  length cols = trace_columns (a_context (cairo_air pi opts n)) -> (N.of_nat (4 * n) <= p)%N ->
  (forall j, (MEMORY_INCREASING_0 <= j < S MEMORY_CONSISTENCY_3)%nat -> constraint_holds (cairo_air pi opts n) ch cols n j) ->
  forall i j, (i < 4 * n)%nat -> (j < 4 * n)%nat ->
  sorted_addr pi cols i = sorted_addr pi cols j -> sorted_value pi cols i = sorted_value pi cols j.
Proof.
  intros C p HC pi opts ch cols n Hw Hp Hc. apply declared_width in Hw.
  pose proof (held (co_env _ _ HC) pi opts ch cols n 31 39 Hw ltac:(lia) Hc) as Hh.
  apply (walk_consistent HC); [intros k Hk; now apply (memory_step pi ch cols n k Hh)..|exact Hp].
Qed.
Print Assumptions C20_memory_is_single_valued.

Theorem C20_addresses_are_an_interval :
  forall (C : cairo_env) p, cairo_ok C p -> forall (pi : public_inputs C) opts ch cols n,
  length cols = trace_columns (a_context (cairo_air pi opts n)) -> (0 < n)%nat ->
  (forall j, (MEMORY_INCREASING_0 <= j < S MEMORY_CONSISTENCY_3)%nat -> constraint_holds (cairo_air pi opts n) ch cols n j) ->
  exists d, (d < 4 * n)%nat /\ sorted_addr pi cols (4 * n - 1) = sorted_addr pi cols 0 + e_u64 C (N.of_nat d) /\
  forall x, (exists k, (k < 4 * n)%nat /\ sorted_addr pi cols k = x)
            <-> (exists t, (t <= d)%nat /\ x = sorted_addr pi cols 0 + e_u64 C (N.of_nat t)).
Proof.
  intros C p HC pi opts ch cols n Hw Hn Hc. apply declared_width in Hw.
  pose proof (held (co_env _ _ HC) pi opts ch cols n 31 39 Hw ltac:(lia) Hc) as Hh.
  destruct (walk_interval HC (sorted_addr pi cols) (4 * n - 1)) as (d & Hd & Hlast & Hint).
  - intros k Hk. apply (memory_step pi ch cols n k Hh). lia.
  - exists d. split; [lia|]. split; [exact Hlast|]. replace (S (4 * n - 1)) with (4 * n)%nat in Hint by lia. exact Hint.
Qed.
Print Assumptions C20_addresses_are_an_interval.

Lemma mini_holds opts lo hi : (hi <= 49)%nat ->
  forall j, (lo <= j < hi)%nat -> constraint_holds (cairo_air mini_pi opts 8) mini_challenges mini_cols 8 j.
Proof.
  intros Hhi j Hj. apply cairo_constraint_holds; [exact mini_width|unfold n_constraints; lia|].
  apply (holdsb_ok (co_env _ _ stark_ok) mini_pi mini_challenges mini_cols 8 _ j mini_transitions).
  apply in_seq. unfold n_constraints. lia.
Qed.
Example C20_example opts : length mini_cols = trace_columns (a_context (cairo_air mini_pi opts 8)) /\
  (N.of_nat (4 * 8) <= Z.to_N stark_p)%N /\
  (forall j, (31 <= j < 39)%nat -> constraint_holds (cairo_air mini_pi opts 8) mini_challenges mini_cols 8 j).
Proof.
  split; [cbn [cairo_air a_context]; rewrite cairo_width_declared; exact mini_width|].
  split; [vm_compute; discriminate|]. apply mini_holds. lia.
Qed.

(** ** C21 *)

(** Whatever the other columns are, the four running-product columns can be chosen so that the memory permutation
    constraints hold and the last product is any wanted value, in particular the one of the boundary constraint. *)
Theorem C21_permutation_argument_refuted :
  forall (C : cairo_env) p, cairo_ok C p -> forall (pi : public_inputs C) opts ch cols n wanted,
  length cols = trace_columns (a_context (cairo_air pi opts n)) -> (0 < n)%nat ->
  (forall k, (1 <= k < 4 * n)%nat -> z_memory ch <> access_addr cols k + alpha_memory ch * access_value cols k) ->
  exists cols', length cols' = length cols /\
    (forall j, (j < PERMUTATION_ARGUMENT_COL_0 - builtin_offset pi \/ PERMUTATION_ARGUMENT_COL_3 - builtin_offset pi < j)%nat ->
       nth j cols' [] = nth j cols []) /\
    ((forall c, In c cols -> length c = n) -> forall c, In c cols' -> length c = n) /\
    (forall j, (PERMUTATION_ARGUMENT_0 <= j < S PERMUTATION_ARGUMENT_3)%nat -> constraint_holds (cairo_air pi opts n) ch cols' n j) /\
    nth (n - 1) (nth (PERMUTATION_ARGUMENT_COL_3 - builtin_offset pi) cols' []) 0 = wanted.
Proof.
  intros C p HC pi opts ch cols n wanted Hw Hn Hne. apply declared_width in Hw.
  pose proof (offset_le pi) as Ho.
  set (s := fun k => sorted_addr pi cols k + alpha_memory ch * sorted_value pi cols k).
  set (o := fun k => access_addr cols k + alpha_memory ch * access_value cols k).
  set (f := solved s o (z_memory ch) wanted (4 * n)).
  unfold PERMUTATION_ARGUMENT_COL_0, PERMUTATION_ARGUMENT_COL_3.
  set (base := (54 - builtin_offset pi)%nat).
  assert (Hb : (base + 4 <= length cols)%nat) by (rewrite Hw; unfold cairo_width, base; lia).
  assert (Hoth : forall j, (j < base \/ base + 4 <= j)%nat -> nth j (overwrite cols base n 4 f) [] = nth j cols [])
    by (intros; now apply overwrite_other).
  exists (overwrite cols base n 4 f). repeat split.
  - now apply overwrite_length.
  - intros j Hj. apply Hoth. unfold base in *. lia.
  - intro Hr. now apply overwrite_rows.
  - intros j Hj. apply (cairo_constraint_holds pi opts); [now rewrite overwrite_length|unfold n_constraints, PERMUTATION_ARGUMENT_3 in *; lia|].
    revert j Hj. apply steps_product. intros k Hk. unfold sorted_addr, sorted_value, mem_product, access_addr, access_value, 
      MEMORY_ADDR_SORTED_0, MEMORY_VALUES_SORTED_0, PERMUTATION_ARGUMENT_COL_0, FRAME_PC, FRAME_INST. fold base.
    rewrite !overwrite_flat by lia.
    rewrite !(flat_other cols (overwrite cols base n 4 f)) by (lia || (intros j Hj; apply Hoth; unfold base; lia)).
    apply (solved_running HC s o (z_memory ch) wanted (4 * n)); [|exact Hk].
    intros k' Hk' E. apply (Hne k' Hk').
    now apply (sub_zero (fft_field_ok _ (e_fft_ok _ (co_env _ _ HC)))).
  - pose proof (overwrite_flat cols base n 4 f (4 * (n - 1) + 3) Hb ltac:(lia)) as Hf.
    rewrite flat_at in Hf by lia. unfold cell in Hf. replace (57 - builtin_offset pi)%nat with (base + 3)%nat by (unfold base; lia).
    rewrite Hf. unfold f. replace (4 * (n - 1) + 3)%nat with (4 * n - 1)%nat by lia. apply solved_last.
Qed.
Print Assumptions C21_permutation_argument_refuted.

(** The accesses, the sorted entries and the entries of the argument, as lists of pairs. *)
Definition accesses {C : cairo_env} (cols : list (list C)) n : list (C * C) :=
  map (fun k => (access_addr cols k, access_value cols k)) (seq 0 (4 * n)).
Definition sorted_entries {C : cairo_env} pi (cols : list (list C)) n : list (C * C) :=
  map (fun k => (sorted_addr pi cols k, sorted_value pi cols k)) (seq 0 (4 * n)).
(** The equation that ties the first running product to the first entries, which the AIR lacks. *)
Definition first_row_equation {C : cairo_env} (pi : public_inputs C) (ch : cairo_challenges C) cols : Prop :=
  (z_memory ch - (sorted_addr pi cols 0 + alpha_memory ch * sorted_value pi cols 0)) * mem_product pi cols 0
  = z_memory ch - (access_addr cols 0 + alpha_memory ch * access_value cols 0).

Lemma public_product {C : cairo_env} (HE : env_ok C) (ch : cairo_challenges C) (l : list (C * C)) :
  fold_left (fun product av => product * (z_memory ch - (fst av + alpha_memory ch * snd av))) l 1
  = vanish (map (compress (alpha_memory ch)) l) (z_memory ch).
Proof.
  pose proof (fft_field_ok _ (e_fft_ok _ HE)) as HK. destruct (fld_th C HK) as [[H1 H2 H3 H4 H5 H6 H7 H8 H9] _ _ _].
  assert (G : forall a : C, fold_left (fun product av => product * (z_memory ch - (fst av + alpha_memory ch * snd av))) l a
    = a * vanish (map (compress (alpha_memory ch)) l) (z_memory ch)).
  { induction l as [|x l IH]; intro a; cbn [fold_left map].
    - unfold vanish. cbn. rewrite H5. symmetry. apply H4.
    - rewrite vanish_cons, IH. unfold compress at 2. symmetry. apply H6. }
  rewrite G. apply H4.
Qed.

(** With the first-row equation, the boundary constraint forces the product over the sorted entries and [L] zero pairs
    to equal the product over the accesses and the [L] public memory cells. *)
Theorem C21_repaired_products_equal :
  forall (C : cairo_env) p, cairo_ok C p -> forall (pi : public_inputs C) opts ch cols n bcs,
  length cols = trace_columns (a_context (cairo_air pi opts n)) -> (0 < n)%nat ->
  (forall j, (PERMUTATION_ARGUMENT_0 <= j < S PERMUTATION_ARGUMENT_3)%nat -> constraint_holds (cairo_air pi opts n) ch cols n j) ->
  a_boundary (cairo_air pi opts n) ch = Ok bcs ->
  (forall bc, In bc bcs -> nth (bc_step bc) (nth (bc_col bc) cols []) 0 = bc_value bc) ->
  first_row_equation pi ch cols ->
  let L := length (public_memory pi) in
  fprod (map (fun av => z_memory ch - (fst av + alpha_memory ch * snd av)) (sorted_entries pi cols n ++ repeat (0, 0) L))
  = fprod (map (fun av => z_memory ch - (fst av + alpha_memory ch * snd av)) (accesses cols n ++ public_memory pi)).
Proof.
  intros C p HC pi opts ch cols n bcs Hw Hn Hc Hbcs Hb H0 L. apply declared_width in Hw.
  pose proof (co_env _ _ HC) as HE. pose proof (fft_field_ok _ (e_fft_ok _ HE)) as HK.
  pose proof (held HE pi opts ch cols n 39 43 Hw ltac:(lia) Hc) as Hh.
  set (al := alpha_memory ch) in *. set (z := z_memory ch) in *.
  set (s := fun k => compress al (sorted_addr pi cols k, sorted_value pi cols k)).
  set (o := fun k => compress al (access_addr cols k, access_value cols k)).
  pose proof (running_products HC s o (mem_product pi cols) z (4 * n)) as Hr.
  specialize (Hr (fun k Hk => memory_product_step pi ch cols n k Hh Hk) H0 (4 * n - 1)%nat ltac:(lia)).
  replace (S (4 * n - 1)) with (4 * n)%nat in Hr by lia.
  cbn [cairo_air a_boundary] in Hbcs. unfold cairo_boundary in Hbcs.
  apply obind_ok in Hbcs. destruct Hbcs as (ls & Hls & Hbcs). apply obind_ok in Hbcs. destruct Hbcs as (fi & Hfi & Hbcs).
  apply obind_ok in Hbcs. destruct Hbcs as (cp & Hcp & Hbcs). apply obind_ok in Hbcs. destruct Hbcs as (mn & Hmn & Hbcs).
  apply obind_ok in Hbcs. destruct Hbcs as (mx & Hmx & Hbcs). apply ok_inj in Hbcs.
  apply usub_inv in Hfi. destruct Hfi as [_ ->]. apply (inv_o_ok HK) in Hcp. destruct Hcp as [Hcp0 ->].
  rewrite (public_product HE) in Hcp0. rewrite (public_product HE) in Hbcs. fold al z in Hcp0, Hbcs.
  assert (Hq : mem_product pi cols (4 * n - 1) = fpow z L * finv (vanish (map (compress al) (public_memory pi)) z)).
  { transitivity (nth (n - 1) (nth (57 - builtin_offset pi)%nat cols []) 0).
    - unfold mem_product. replace (4 * n - 1)%nat with (4 * (n - 1) + 3)%nat by lia. rewrite flat_at by lia.
      unfold cell, PERMUTATION_ARGUMENT_COL_0. do 2 f_equal. pose proof (offset_le pi). lia.
    - specialize (Hb (mk_bc (57 - builtin_offset pi)%nat (n - 1)%nat (fpow z L * finv (vanish (map (compress al) (public_memory pi)) z)))).
      apply Hb. rewrite <- Hbcs. do 4 right. now left. }
  rewrite Hq in Hr.
  assert (E1 : fprod (map (fun av => z - (fst av + al * snd av)) (sorted_entries pi cols n ++ repeat (0, 0) L))
               = vanish (upto s (4 * n)) z * fpow z L).
  { rewrite map_app, (fprod_app HK). f_equal.
    - unfold sorted_entries, vanish, upto. now rewrite !map_map.
    - apply (zero_pairs HK). }
  assert (E2 : fprod (map (fun av => z - (fst av + al * snd av)) (accesses cols n ++ public_memory pi))
               = vanish (upto o (4 * n)) z * vanish (map (compress al) (public_memory pi)) z).
  { rewrite map_app, (fprod_app HK). f_equal.
    - unfold accesses, vanish, upto. now rewrite !map_map.
    - unfold vanish. now rewrite !map_map. }
  rewrite E1, E2. now apply (quotient_final HK).
Qed.
Print Assumptions C21_repaired_products_equal.

(** Products that agree for more challenges [z] than there are factors belong to the same multiset, except for a list
    of challenges [alpha] of length at most [4 m^2]. *)
Theorem C21_equal_products_force_a_permutation :
  forall (C : cairo_env) p, cairo_ok C p -> forall xs ys : list (C * C), length ys = length xs ->
  exists bad, (length bad <= (2 * length xs) * (2 * length xs))%nat /\
  forall alpha, ~ In alpha bad -> forall zs, NoDup zs -> (length xs < length zs)%nat ->
  (forall z, In z zs -> fprod (map (fun av => z - (fst av + alpha * snd av)) xs) = fprod (map (fun av => z - (fst av + alpha * snd av)) ys)) ->
  Permutation xs ys.
Proof.
  intros C p HC xs ys Hl. pose proof (fft_field_ok _ (e_fft_ok _ (co_env _ _ HC))) as HK.
  exists (bad_alphas (xs ++ ys)). split.
  - rewrite bad_alphas_length, app_length, Hl. nia.
  - intros alpha Ha zs Hnd Hlt H. apply (compressed_products_permutation HK xs ys Hl alpha Ha zs Hnd Hlt).
    intros z Hz. unfold vanish. rewrite !map_map. exact (H z Hz).
Qed.
Print Assumptions C21_equal_products_force_a_permutation.

(** ** C22 *)
Theorem C22_sorted_offsets_are_bounded :
  forall (C : cairo_env) p, cairo_ok C p -> forall (pi : public_inputs C) opts ch cols n lo hi,
  length cols = trace_columns (a_context (cairo_air pi opts n)) -> (0 < n)%nat -> (N.of_nat (3 * n) < 2 ^ 64)%N ->
  (lo < 2 ^ 16)%N -> (hi < 2 ^ 16)%N ->
  (forall j, (RANGE_CHECK_INCREASING_0 <= j < S RANGE_CHECK_INCREASING_2)%nat -> constraint_holds (cairo_air pi opts n) ch cols n j) ->
  nth 0 (nth (RANGE_CHECK_COL_1 - builtin_offset pi) cols []) 0 = e_u64 C lo ->
  nth (n - 1) (nth (RANGE_CHECK_COL_3 - builtin_offset pi) cols []) 0 = e_u64 C hi ->
  (lo <= hi)%N /\ forall k, (k < 3 * n)%nat -> exists x, (lo <= x <= hi)%N /\ sorted_offset pi cols k = e_u64 C x.
Proof.
  intros C p HC pi opts ch cols n lo hi Hw Hn Hp Hlo Hhi Hc H0 Hl. apply declared_width in Hw.
  pose proof (held (co_env _ _ HC) pi opts ch cols n 43 46 Hw ltac:(lia) Hc) as Hh.
  assert (P65 : (2 ^ 64 + 2 ^ 16 < 2 ^ 65)%N) by reflexivity. pose proof (co_p _ _ HC).
  destruct (walk_bounds HC (sorted_offset pi cols) (3 * n - 1) lo hi) as [A B].
  - intros k Hk. apply (offset_step pi ch cols n k Hh). lia.
  - lia.
  - assert (2 ^ 16 < 2 ^ 65)%N by reflexivity. lia.
  - rewrite <- H0. transitivity (flat cols (RANGE_CHECK_COL_1 - builtin_offset pi) 3 (3 * 0 + 0)); [reflexivity|]. rewrite flat_at by lia. unfold cell. now rewrite Nat.add_0_r.
  - rewrite <- Hl. unfold sorted_offset. replace (3 * n - 1)%nat with (3 * (n - 1) + 2)%nat by lia. rewrite flat_at by lia. unfold cell.
    do 2 f_equal. unfold RANGE_CHECK_COL_1, RANGE_CHECK_COL_3. pose proof (offset_le pi). lia.
  - split; [exact A|]. intros k Hk. apply B. lia.
Qed.
Print Assumptions C22_sorted_offsets_are_bounded.

Theorem C22_products_are_equal :
  forall (C : cairo_env) p, cairo_ok C p -> forall (pi : public_inputs C) opts ch cols n,
  length cols = trace_columns (a_context (cairo_air pi opts n)) -> (0 < n)%nat ->
  (forall j, (RANGE_CHECK_0 <= j < S RANGE_CHECK_2)%nat -> constraint_holds (cairo_air pi opts n) ch cols n j) ->
  nth (n - 1) (nth (PERMUTATION_ARGUMENT_RANGE_CHECK_COL_3 - builtin_offset pi) cols []) 0 = 1 ->
  fprod (map (fun k => z_range_check ch - sorted_offset pi cols k) (seq 0 (3 * n)))
  = fprod (map (fun k => z_range_check ch - offset_cell cols k) (seq 0 (3 * n))).
Proof.
  intros C p HC pi opts ch cols n Hw Hn Hc Hl. apply declared_width in Hw.
  pose proof (co_env _ _ HC) as HE. pose proof (fft_field_ok _ (e_fft_ok _ HE)) as HK.
  pose proof (held HE pi opts ch cols n 46 49 Hw ltac:(lia) Hc) as Hh.
  pose proof (fun k => offset_product_step pi ch cols n k Hh) as Hs.
  set (z := z_range_check ch) in *.
  assert (Hq : rc_product pi cols (3 * n - 1) = 1).
  { rewrite <- Hl. unfold rc_product. replace (3 * n - 1)%nat with (3 * (n - 1) + 2)%nat by lia. rewrite flat_at by lia. unfold cell.
    do 2 f_equal. unfold PERMUTATION_ARGUMENT_RANGE_CHECK_COL_1, PERMUTATION_ARGUMENT_RANGE_CHECK_COL_3. pose proof (offset_le pi). lia. }
  destruct (fld_th C HK) as [[A1 A2 A3 A4 A5 A6 A7 A8 A9] _ _ _].
  pose proof (running_products HC (sorted_offset pi cols) (offset_cell cols) (rc_product pi cols) z (3 * n)) as Hr.
  specialize (Hr ltac:(intros k Hk; specialize (Hs k ltac:(lia)); rewrite Nat.mod_small in Hs by lia; exact Hs)).
  assert (H0 : (z - sorted_offset pi cols 0) * rc_product pi cols 0 = z - offset_cell cols 0).
  { specialize (Hs (3 * n - 1)%nat ltac:(lia)). replace (3 * n - 1 + 1)%nat with (3 * n)%nat in Hs by lia.
    rewrite Nat.mod_same, Hq in Hs by lia. apply (proj1 (sub_zero HK _ _)) in Hs. rewrite Hs, A5. apply A4. }
  specialize (Hr H0 (3 * n - 1)%nat ltac:(lia)). replace (S (3 * n - 1)) with (3 * n)%nat in Hr by lia.
  rewrite Hq, A4 in Hr. unfold vanish, upto in Hr. rewrite !map_map in Hr. exact Hr.
Qed.
Print Assumptions C22_products_are_equal.

(** The boundary constraints of the AIR fix the ends of the sorted offsets at the public bounds and the last product at one. *)
Theorem C22_boundary_values :
  forall (C : cairo_env) (pi : public_inputs C) opts ch cols n bcs lo hi,
  a_boundary (cairo_air pi opts n) ch = Ok bcs ->
  (forall bc, In bc bcs -> nth (bc_step bc) (nth (bc_col bc) cols []) 0 = bc_value bc) ->
  range_check_min pi = Some lo -> range_check_max pi = Some hi ->
  sorted_offset pi cols 0 = e_u64 C lo /\ sorted_offset pi cols (3 * n - 1) = e_u64 C hi /\ rc_product pi cols (3 * n - 1) = 1.
Proof.
  intros C pi opts ch cols n bcs lo hi Hbcs Hb Hlo Hhi.
  cbn [cairo_air a_boundary] in Hbcs. unfold cairo_boundary in Hbcs. rewrite Hlo, Hhi in Hbcs.
  apply obind_ok in Hbcs. destruct Hbcs as (ls & Hls & Hbcs). apply obind_ok in Hbcs. destruct Hbcs as (fi & Hfi & Hbcs).
  apply obind_ok in Hbcs. destruct Hbcs as (cp & Hcp & Hbcs). cbn [unwrap obind] in Hbcs. apply ok_inj in Hbcs.
  apply usub_inv in Hfi. destruct Hfi as [Hn ->]. pose proof (offset_le pi).
  assert (L : forall base, (9 <= base)%nat -> flat cols (base - builtin_offset pi) 3 (3 * n - 1) = nth (n - 1) (nth (base + 2 - builtin_offset pi) cols []) 0).
  { intros base Hbase. replace (3 * n - 1)%nat with (3 * (n - 1) + 2)%nat by lia. rewrite flat_at by lia. unfold cell. do 2 f_equal. lia. }
  split; [|split].
  - transitivity (flat cols (RANGE_CHECK_COL_1 - builtin_offset pi) 3 (3 * 0 + 0)); [reflexivity|]. rewrite flat_at by lia. unfold cell. rewrite Nat.add_0_r.
    apply (Hb (mk_bc (RANGE_CHECK_COL_1 - builtin_offset pi)%nat 0%nat (e_u64 C lo))). rewrite <- Hbcs. do 6 right. now left.
  - unfold sorted_offset. rewrite L by (unfold RANGE_CHECK_COL_1; lia).
    apply (Hb (mk_bc (RANGE_CHECK_COL_3 - builtin_offset pi)%nat (n - 1)%nat (e_u64 C hi))). rewrite <- Hbcs. do 7 right. now left.
  - unfold rc_product. rewrite L by (unfold PERMUTATION_ARGUMENT_RANGE_CHECK_COL_1; lia).
    apply (Hb (mk_bc (PERMUTATION_ARGUMENT_RANGE_CHECK_COL_3 - builtin_offset pi)%nat (n - 1)%nat 1)). rewrite <- Hbcs. do 5 right. now left.
Qed.
Print Assumptions C22_boundary_values.

(** If the range-check argument can be completed for more challenges than there are offsets, every offset cell of the
    execution trace is an integer between the public bounds. *)
Theorem C22_offset_cells_are_in_range :
  forall (C : cairo_env) p, cairo_ok C p -> forall (pi : public_inputs C) opts n lo hi (off : nat -> C) (srt : nat -> C) (zs : list C),
  (0 < n)%nat -> (N.of_nat (3 * n) < 2 ^ 64)%N -> (lo < 2 ^ 16)%N -> (hi < 2 ^ 16)%N ->
  NoDup zs -> (3 * n < length zs)%nat ->
  (forall z, In z zs -> exists ch cols, z_range_check ch = z /\ length cols = trace_columns (a_context (cairo_air pi opts n)) /\
     (forall k, (k < 3 * n)%nat -> offset_cell cols k = off k /\ sorted_offset pi cols k = srt k) /\
     (forall j, (RANGE_CHECK_INCREASING_0 <= j < S RANGE_CHECK_2)%nat -> constraint_holds (cairo_air pi opts n) ch cols n j) /\
     nth 0 (nth (RANGE_CHECK_COL_1 - builtin_offset pi) cols []) 0 = e_u64 C lo /\
     nth (n - 1) (nth (RANGE_CHECK_COL_3 - builtin_offset pi) cols []) 0 = e_u64 C hi /\
     nth (n - 1) (nth (PERMUTATION_ARGUMENT_RANGE_CHECK_COL_3 - builtin_offset pi) cols []) 0 = 1) ->
  forall k, (k < 3 * n)%nat -> exists x, (lo <= x <= hi)%N /\ off k = e_u64 C x.
Proof.
  intros C p HC pi opts n lo hi off srt zs Hn Hp Hlo Hhi Hnd Hlen Hz.
  pose proof (fft_field_ok _ (e_fft_ok _ (co_env _ _ HC))) as HK.
  assert (Hperm : Permutation (map srt (seq 0 (3 * n))) (map off (seq 0 (3 * n)))).
  { apply (products_permutation HK zs); [exact Hnd|now rewrite !map_length|now rewrite map_length, seq_length|].
    intros z Hin. destruct (Hz z Hin) as (ch & cols & Ez & Hw & Hag & Hc & H0 & Hl & H1).
    pose proof (C22_products_are_equal C p HC pi opts ch cols n Hw Hn) as HP.
    specialize (HP (fun j Hj => Hc j ltac:(unfold RANGE_CHECK_0, RANGE_CHECK_INCREASING_0 in *; lia)) H1). rewrite Ez in HP.
    unfold vanish. rewrite !map_map. etransitivity; [|etransitivity; [exact HP|]]; f_equal; apply map_ext_in;
      intros k Hk; apply in_seq in Hk; destruct (Hag k ltac:(lia)) as [E1 E2]; congruence. }
  intros k Hk. destruct zs as [|z zs]; [cbn in Hlen; lia|].
  destruct (Hz z (or_introl eq_refl)) as (ch & cols & Ez & Hw & Hag & Hc & H0 & Hl & H1).
  destruct (C22_sorted_offsets_are_bounded C p HC pi opts ch cols n lo hi Hw Hn Hp Hlo Hhi) as [_ HB].
  - intros j Hj. apply Hc. unfold RANGE_CHECK_2, RANGE_CHECK_INCREASING_2 in *. lia.
  - exact H0.
  - exact Hl.
  - assert (Hin : In (off k) (map srt (seq 0 (3 * n)))).
    { eapply Permutation_in; [apply Permutation_sym; exact Hperm|]. apply in_map. apply in_seq. lia. }
    apply in_map_iff in Hin. destruct Hin as (k' & E & Hk'). apply in_seq in Hk'.
    destruct (HB k' ltac:(lia)) as (x & Hx & Ex). exists x. split; [exact Hx|].
    rewrite <- E, <- Ex. symmetry. apply Hag. lia.
Qed.
Print Assumptions C22_offset_cells_are_in_range.

(** The same, read off traces that satisfy the whole AIR. *)
Theorem C22_satisfying_traces_are_in_range :
  forall (C : cairo_env) p, cairo_ok C p -> forall (pi : public_inputs C) opts n lo hi (off : nat -> C) (srt : nat -> C) (zs : list C),
  (0 < n)%nat -> (N.of_nat (3 * n) < 2 ^ 64)%N -> range_check_min pi = Some lo -> range_check_max pi = Some hi -> (lo < 2 ^ 16)%N -> (hi < 2 ^ 16)%N ->
  NoDup zs -> (3 * n < length zs)%nat ->
  (forall z, In z zs -> exists ch cols bcs, z_range_check ch = z /\ length cols = trace_columns (a_context (cairo_air pi opts n)) /\
     (forall k, (k < 3 * n)%nat -> offset_cell cols k = off k /\ sorted_offset pi cols k = srt k) /\
     a_boundary (cairo_air pi opts n) ch = Ok bcs /\ trace_satisfies (cairo_air pi opts n) ch cols n) ->
  forall k, (k < 3 * n)%nat -> exists x, (lo <= x <= hi)%N /\ off k = e_u64 C x.
Proof.
  intros C p HC pi opts n lo hi off srt zs Hn Hp Elo Ehi Hlo Hhi Hnd Hlen Hz.
  apply (C22_offset_cells_are_in_range C p HC pi opts n lo hi off srt zs Hn Hp Hlo Hhi Hnd Hlen).
  intros z Hin. destruct (Hz z Hin) as (ch & cols & bcs & Ez & Hw & Hag & Hb & Hs). exists ch, cols.
  destruct (C22_boundary_values C pi opts ch cols n bcs lo hi Hb (fun bc Hbc => proj2 (proj2 (ts_boundary _ _ _ _ Hs bcs bc Hb Hbc))) Elo Ehi) as (B1 & B2 & B3).
  pose proof (offset_le pi).
  assert (L : forall base, (9 <= base)%nat -> flat cols (base - builtin_offset pi) 3 (3 * n - 1) = nth (n - 1) (nth (base + 2 - builtin_offset pi) cols []) 0).
  { intros base Hbase. replace (3 * n - 1)%nat with (3 * (n - 1) + 2)%nat by lia. rewrite flat_at by lia. unfold cell. do 2 f_equal. lia. }
  split; [exact Ez|]. split; [exact Hw|]. split; [exact Hag|]. split; [|split; [|split]].
  - intros j Hj i e evals Hi He Ht. destruct (ts_transition _ _ _ _ Hs i ltac:(lia)) as (evals' & E' & Hz').
    rewrite E' in Ht. apply ok_inj in Ht. subst evals'. exact (Hz' j e He Hi).
  - rewrite <- B1. symmetry. transitivity (flat cols (RANGE_CHECK_COL_1 - builtin_offset pi) 3 (3 * 0 + 0)); [reflexivity|]. rewrite flat_at by lia. unfold cell. now rewrite Nat.add_0_r.
  - rewrite <- B2. symmetry. apply (L RANGE_CHECK_COL_1). unfold RANGE_CHECK_COL_1. lia.
  - rewrite <- B3. symmetry. apply (L PERMUTATION_ARGUMENT_RANGE_CHECK_COL_1). unfold PERMUTATION_ARGUMENT_RANGE_CHECK_COL_1. lia.
Qed.
Print Assumptions C22_satisfying_traces_are_in_range.

Example C22_example opts : length mini_cols = trace_columns (a_context (cairo_air mini_pi opts 8)) /\
  (forall j, (43 <= j < 49)%nat -> constraint_holds (cairo_air mini_pi opts 8) mini_challenges mini_cols 8 j) /\
  feqb (nth 0 (nth (RANGE_CHECK_COL_1 - builtin_offset mini_pi) mini_cols []) 0) (e_u64 stark 32766) = true /\
  feqb (nth 7 (nth (RANGE_CHECK_COL_3 - builtin_offset mini_pi) mini_cols []) 0) (e_u64 stark 32769) = true /\
  feqb (nth 7 (nth (PERMUTATION_ARGUMENT_RANGE_CHECK_COL_3 - builtin_offset mini_pi) mini_cols []) 0) 1 = true.
Proof.
  split; [cbn [cairo_air a_context]; rewrite cairo_width_declared; exact mini_width|].
  split; [apply mini_holds; lia|]. vm_compute. repeat split.
Qed.
Example C21_example : forallb (fun k => negb (feqb (z_memory mini_challenges)
    (access_addr mini_cols k + alpha_memory mini_challenges * access_value mini_cols k))) (seq 1 31) = true.
Proof. vm_compute. reflexivity. Qed.
