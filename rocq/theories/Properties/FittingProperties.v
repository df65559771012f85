(** C91: which tables the repaired Cairo constraints accept, and what they leave open about cell 0. *)
From Coq Require Import List Arith NArith ZArith Bool Lia Permutation.
From Verif.Base Require Import Outcome Field Poly Zp.
From Verif.Model Require Import Codec PublicInputs Trace Air CairoDecode CairoTrace CairoAir.
From Verif.Spec Require Import CairoSpec AirSpec CairoColumns Fitting.
From Verif.Proofs Require Import FieldFacts PolyFacts OutcomeFacts CpuFacts CairoAirFacts SortedFacts MultisetFacts WalkFacts LateColumns RootBound FittingFacts.
From Verif.Examples Require Import Toy Stark252 MiniRun.
From Verif.Properties Require Import CairoMemoryProperties CairoSoundnessProperties.
Import ListNotations.
Local Open Scope felt_scope.

(** Running products that complete the table for these challenges: all constraints hold and so does the first-row equation, which the code lacks. *)
Definition completes {C : cairo_env} (pi : public_inputs C) opts n ch (base cols : list (list C)) : Prop :=
  same_but_products pi base cols /\ (forall c, In c cols -> length c = n) /\
  trace_satisfies (cairo_air pi opts n) ch cols n /\ first_row_equation pi ch cols.

(** For all but the listed challenges, the repaired constraints accept exactly the tables that fit. *)
Theorem C91_what_is_accepted :
  forall (C : cairo_env) p, cairo_ok C p -> forall (pi : public_inputs C) opts n lo hi (base : list (list C)),
  length base = trace_columns (a_context (cairo_air pi opts n)) -> (forall c, In c base -> length c = n) -> (0 < n)%nat ->
  range_check_min pi = Some lo -> range_check_max pi = Some hi -> (1 <= num_steps pi <= n)%nat ->
  let m := (4 * n + length (public_memory pi))%nat in
  exists bad_alpha bad_zrc, (length bad_alpha <= (2 * m) * (2 * m))%nat /\ (length bad_zrc <= 6 * n)%nat /\
  forall alpha, ~ In alpha bad_alpha -> exists bad_z, (length bad_z <= 2 * m)%nat /\
  forall z zrc, ~ In z bad_z -> ~ In zrc bad_zrc ->
  ((exists cols, completes pi opts n (mk_challenges alpha z zrc) base cols) <-> fitting pi opts base n lo hi).
Proof.
  intros C p HC pi opts n lo hi base Hw Hrows Hn Hmin Hmax Hsteps m. apply declared_width in Hw.
  pose proof (fft_field_ok _ (e_fft_ok _ (co_env _ _ HC))) as HK.
  set (L := length (public_memory pi)) in *.
  set (xs := listed pi base n ++ repeat (0, 0) L). set (ys := accessed base n ++ public_memory pi).
  assert (Hll : length (listed pi base n) = (4 * n)%nat) by (unfold listed; now rewrite map_length, seq_length).
  assert (Hxl : length xs = m) by (unfold xs; rewrite app_length, Hll, repeat_length; reflexivity).
  assert (Hyl : length ys = m) by (unfold ys, accessed; rewrite app_length, map_length, seq_length; reflexivity).
  set (srt := map (sorted_offset pi base) (seq 0 (3 * n))). set (offs := map (offset_cell base) (seq 0 (3 * n))).
  assert (Hsl : length srt = (3 * n)%nat) by (unfold srt; now rewrite map_length, seq_length).
  destruct (exceptional_points HC srt offs) as (bad_zrc & Hbrl & Hbr); [unfold srt, offs; now rewrite !map_length|].
  exists (bad_alphas (xs ++ ys)), (bad_zrc ++ srt).
  split; [rewrite bad_alphas_length, app_length; nia|]. split; [rewrite app_length; lia|].
  intros alpha Ha. destruct (exceptional_points HC (map (compress alpha) xs) (map (compress alpha) ys)) as (bz & Hbzl & Hbz); [now rewrite !map_length, Hxl, Hyl|].
  rewrite map_length, Hxl in Hbzl.
  exists (bz ++ map (compress alpha) (public_memory pi) ++ map (compress alpha) (listed pi base n)). split; [rewrite !app_length, !map_length, Hll; fold L; lia|].
  intros z zrc Hz Hzr. split.
  - intros (cols & Hsame & _ & Hsat & Hfirst).
    apply (satisfied_fits HC pi opts n lo hi base Hw Hn Hsteps Hmin Hmax (mk_challenges alpha z zrc) cols Hsame Hsat Hfirst); cbn [z_memory alpha_memory z_range_check].
    + intro Hin. apply Hz. apply in_or_app. right. apply in_or_app. now left.
    + intro HP. apply (permutation_map_inj (compress alpha)); [intros u w Hu Hv; apply (good_alpha_inj HK (xs ++ ys)); assumption|].
      apply (Hbz z); [intro Hin; apply Hz; apply in_or_app; now left|exact HP].
    + apply Hbr. intro Hin. apply Hzr. apply in_or_app. now left.
  - intro Hfit.
    assert (Hz1 : ~ In z (map (compress alpha) (listed pi base n))) by (intro Hin; apply Hz; apply in_or_app; right; apply in_or_app; now right).
    assert (Hz2 : ~ In zrc srt) by (intro Hin; apply Hzr; apply in_or_app; now right).
    destruct (fitting_completes HC pi opts n lo hi base (mk_challenges alpha z zrc) Hw Hfit Hn Hsteps Hmin Hmax Hz1 Hz2) as (cols & A & B & D & F).
    exists cols. unfold completes. auto.
Qed.
Print Assumptions C91_what_is_accepted.

(** A table that fits can be completed whenever [z] and [zrc] avoid the entries of its sorted columns, for every [alpha]. *)
Theorem C91_fitting_is_accepted :
  forall (C : cairo_env) p, cairo_ok C p -> forall (pi : public_inputs C) opts n lo hi (base : list (list C)),
  length base = trace_columns (a_context (cairo_air pi opts n)) -> (forall c, In c base -> length c = n) -> (0 < n)%nat ->
  range_check_min pi = Some lo -> range_check_max pi = Some hi -> (1 <= num_steps pi <= n)%nat ->
  fitting pi opts base n lo hi -> forall alpha z zrc,
  (forall k, (k < 4 * n)%nat -> z <> sorted_addr pi base k + alpha * sorted_value pi base k) -> (forall k, (k < 3 * n)%nat -> zrc <> sorted_offset pi base k) ->
  exists cols, completes pi opts n (mk_challenges alpha z zrc) base cols.
Proof.
  intros C p HC pi opts n lo hi base Hw Hrows Hn Hmin Hmax Hsteps Hfit alpha z zrc Hz Hzr. apply declared_width in Hw.
  assert (Hz1 : ~ In z (map (compress alpha) (listed pi base n))).
  { intro Hin. unfold listed in Hin. rewrite map_map in Hin. apply in_map_iff in Hin. destruct Hin as (k & E & Hk). apply in_seq in Hk. apply (Hz k ltac:(lia)). symmetry. exact E. }
  assert (Hz2 : ~ In zrc (map (sorted_offset pi base) (seq 0 (3 * n)))).
  { intro Hin. apply in_map_iff in Hin. destruct Hin as (k & E & Hk). apply in_seq in Hk. apply (Hzr k ltac:(lia)). now symmetry. }
  destruct (fitting_completes HC pi opts n lo hi base (mk_challenges alpha z zrc) Hw Hfit Hn Hsteps Hmin Hmax Hz1 Hz2) as (cols & A & B & D & F).
  exists cols. unfold completes. auto.
Qed.
Print Assumptions C91_fitting_is_accepted.

(** ** Cell 0 *)
Definition zero_cell {C : cairo_env} (e : C * C) : bool := feqb (fst e) 0 && feqb (snd e) 0.


(** Apart from (0, 0), the accesses and the public memory of a table that fits give every cell one value. If some access gives cell 0 another value than 0,
    then exactly as many give it 0 as there are public cells; and if a sorted entry is (0, 0), none gives it another value. *)
Theorem C91_cell_values :
  forall (C : cairo_env) p, cairo_ok C p -> forall (pi : public_inputs C) opts n lo hi (base : list (list C)),
  length base = trace_columns (a_context (cairo_air pi opts n)) -> (N.of_nat (4 * n) <= p)%N -> fitting pi opts base n lo hi ->
  let all := accessed base n ++ public_memory pi in
  (forall a v v', In (a, v) all -> In (a, v') all -> v = v' \/ (a = 0 /\ (v = 0 \/ v' = 0))) /\
  (forall v, In (0, v) all -> v <> 0 -> length (filter zero_cell all) = length (public_memory pi)) /\
  ((exists k, (k < 4 * n)%nat /\ sorted_addr pi base k = 0 /\ sorted_value pi base k = 0) -> forall a v v', In (a, v) all -> In (a, v') all -> v = v').
Proof.
  intros C p HC pi opts n lo hi base Hw Hp Hfit all. pose proof (fft_field_ok _ (e_fft_ok _ (co_env _ _ HC))) as HK.
  pose proof (fitting_single_valued HC pi opts n lo hi base Hw Hp Hfit) as Hsv. pose proof (fit_memory _ _ _ _ _ _ Hfit) as HP. fold all in HP.
  assert (Hin : forall e, In e all -> In e (listed pi base n) \/ e = (0, 0)).
  { intros e He. apply (Permutation_in _ (Permutation_sym HP)) in He. apply in_app_or in He. destruct He as [He|He]; [now left|right]. now apply repeat_spec in He. }
  split; [|split].
  - intros a v v' H H'. destruct (Hin _ H) as [A|A]; destruct (Hin _ H') as [B|B].
    + left. pose proof (Hsv _ _ A B eq_refl) as E. now injection E.
    + injection B as -> ->. right. split; [reflexivity|now right].
    + injection A as -> ->. right. split; [reflexivity|now left].
    + injection A as -> ->. injection B as ->. now left.
  - intros v H Hv. destruct (Hin _ H) as [A|A]; [|injection A as E; contradiction].
    rewrite <- (filter_permutation_length zero_cell _ _ HP), filter_app, app_length.
    rewrite (filter_none zero_cell (listed pi base n)); [cbn [length Nat.add]|].
    + rewrite filter_repeat_all; [apply repeat_length|]. unfold zero_cell. cbn [fst snd]. rewrite (proj2 (feqb_spec C HK 0 0) eq_refl). reflexivity.
    + intros [a w] Hl. unfold zero_cell. cbn [fst snd]. destruct (feqb a 0) eqn:Ea; [|reflexivity]. destruct (feqb w 0) eqn:Ew; [|reflexivity]. exfalso.
      apply (feqb_spec C HK) in Ea, Ew. subst a w. pose proof (Hsv _ _ A Hl eq_refl) as E. injection E as E. contradiction.
  - intros (k & Hk & Ka & Kv) a v v' H H'.
    assert (K0 : In (0, 0) (listed pi base n)).
    { unfold listed. apply in_map_iff. exists k. split; [now rewrite Ka, Kv|]. apply in_seq. lia. }
    assert (Hl : forall e, In e all -> In e (listed pi base n)) by (intros e He; destruct (Hin e He) as [G| ->]; [exact G|exact K0]).
    pose proof (Hsv _ _ (Hl _ H) (Hl _ H') eq_refl) as E. now injection E.
Qed.
Print Assumptions C91_cell_values.

(** ** A loop that reads cell 0 as 0 and as 5 *)
Definition loop_word : N := (32767 + 2 ^ 16 * 32768 + 2 ^ 32 * 32769 + 2 ^ 48 * 261)%N.
Definition loop_pi : public_inputs stark :=
  mk_public_inputs (f252 1 : stark) (f252 1 : stark) (f252 1 : stark) (f252 1 : stark) (f252 1 : stark) (Some 32767%N) (Some 32769%N) [] [(f252 1 : stark, f252 (Z.of_N loop_word) : stark); (f252 2 : stark, f252 0 : stark)] 4.
(** Four rows of [jmp rel 0] at cell 1, with ap = fp = 1: the unused operand dst is cell fp - 1 = 0 and op0 is cell ap = 1. *)
Definition loop_rows (dst : nat -> Z) : list (list stark) :=
  let col (f : nat -> Z) := map (fun i => f252 (f i) : stark) (seq 0 4) in let const z := col (fun _ => z) in
  let w := Z.of_N loop_word in
  map (fun j => const (if existsb (Nat.eqb j) [0; 2; 8]%nat then 1 else 0)%Z) (seq 0 16) ++
  [const 0%Z; const 1%Z; const 1%Z; const 1%Z; const 0%Z; const 1%Z; const 2%Z; const w; col dst; const w; const 0%Z; const 32767%Z; const 32768%Z; const 32769%Z;
   const 0%Z; const 0%Z; const 0%Z; const 1%Z].
Definition from_list (l : list Z) : nat -> stark := fun k => f252 (nth k l 0%Z) : stark.
Definition loop_table : list (list stark) :=
  loop_rows (fun i => if (i <? 2)%nat then 0 else 5)%Z ++
  unflat 4 3 (from_list (repeat 32767 4 ++ repeat 32768 4 ++ repeat 32769 4)%Z) ++
  unflat 4 4 (from_list (repeat 0 2 ++ repeat 1 9 ++ repeat 2 5)%Z) ++
  unflat 4 4 (from_list (repeat 5 2 ++ repeat (Z.of_N loop_word) 9 ++ repeat 0 5)%Z) ++
  unflat 4 7 (from_list []).

Lemma loop_width : length loop_table = cairo_width loop_pi. Proof. vm_compute. reflexivity. Qed.
Lemma loop_fits : fitsb loop_pi loop_table 4 32767 32769 = true. Proof. vm_compute. reflexivity. Qed.
Lemma loop_shape c : In c loop_table -> length c = 4%nat.
Proof.
  intro H. assert (F : forallb (fun c => (length c =? 4)%nat) loop_table = true) by (vm_compute; reflexivity).
  rewrite forallb_forall in F. now apply Nat.eqb_eq, F.
Qed.

(** FINDING: with the three gaps of C58 closed, the rows may still read cell 0 as 0 and as another value: the table meets all assumptions of C58, is accepted for
    all but 16 values of [z] and 12 of [zrc], and yet rows 0 and 2, with equal registers and the same instruction, see 0 and 5 in cell 0. *)
Theorem C91_cell_zero_is_not_bound :
  forall opts,
  length loop_table = trace_columns (a_context (cairo_air loop_pi opts 4)) /\ (forall c, In c loop_table -> length c = 4%nat) /\
  (forall i, (i < 4)%nat -> cell loop_table i FRAME_SELECTOR = 1) /\
  (exists bad_zrc, (length bad_zrc <= 12)%nat /\ forall alpha, exists bad_z, (length bad_z <= 16)%nat /\ forall z zrc, ~ In z bad_z -> ~ In zrc bad_zrc ->
     exists cols, completes loop_pi opts 4 (mk_challenges alpha z zrc) loop_table cols) /\
  registers_at loop_table 0 = registers_at loop_table 2 /\
  In (0, 0) (accessed loop_table 4) /\ In (0, f252 5 : stark) (accessed loop_table 4) /\ (f252 5 : stark) <> 0.
Proof.
  intro opts. pose proof loop_shape as HS.
  assert (HW : length loop_table = trace_columns (a_context (cairo_air loop_pi opts 4))) by (cbn [cairo_air a_context]; rewrite cairo_width_declared; exact loop_width).
  split; [exact HW|]. split; [exact HS|]. split; [|split; [|split; [|split; [|split]]]].
  - intros i Hi. do 4 (destruct i as [|i]; [reflexivity|]). lia.
  - exists (map (sorted_offset loop_pi loop_table) (seq 0 12)). split; [now rewrite map_length, seq_length|]. intro alpha.
    exists (map (fun k => sorted_addr loop_pi loop_table k + alpha * sorted_value loop_pi loop_table k) (seq 0 16)). split; [now rewrite map_length, seq_length|]. intros z zrc Hz Hzr.
    apply (C91_fitting_is_accepted stark _ stark_ok loop_pi opts 4 32767 32769 loop_table HW HS ltac:(lia) eq_refl eq_refl ltac:(cbn; lia)).
    + exact (fitsb_ok stark_ok loop_pi opts loop_table 4 32767 32769 loop_width loop_fits).
    + intros k Hk ->. apply Hz. apply (in_map (fun k => sorted_addr loop_pi loop_table k + alpha * sorted_value loop_pi loop_table k)). apply in_seq. lia.
    + intros k Hk ->. apply Hzr. apply in_map. apply in_seq. lia.
  - reflexivity.
  - unfold accessed. apply in_map_iff. exists 1%nat. split; [reflexivity|]. apply in_seq. lia.
  - unfold accessed. apply in_map_iff. exists 9%nat. split; [reflexivity|]. apply in_seq. lia.
  - intro E. apply (f_equal (fun x : stark => zval (x : zp stark_p))) in E. discriminate E.
Qed.
Print Assumptions C91_cell_zero_is_not_bound.

(** The table of an honest run fits. *)
Example C91_example opts : exists lo hi, range_check_min mini_pi = Some lo /\ range_check_max mini_pi = Some hi /\
  length mini_cols = trace_columns (a_context (cairo_air mini_pi opts 8)) /\ (1 <= num_steps mini_pi <= 8)%nat /\ fitting mini_pi opts mini_cols 8 lo hi /\
  (exists k, (k < 4 * 8)%nat /\ sorted_addr mini_pi mini_cols k = 0 /\ sorted_value mini_pi mini_cols k = 0).
Proof.
  exists 32766%N, 32769%N.
  split; [vm_compute; reflexivity|]. split; [vm_compute; reflexivity|].
  split; [cbn [cairo_air a_context]; rewrite cairo_width_declared; exact mini_width|].
  split; [vm_compute; lia|]. split.
  - apply (fitsb_ok stark_ok); [exact mini_width|vm_compute; reflexivity].
  - exists 0%nat. split; [lia|]. split; apply zp_eq; vm_compute; reflexivity.
Qed.
