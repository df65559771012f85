(** C92: which tables, execution columns and statements the Cairo constraints of the code accept. *)
From Coq Require Import List Arith NArith ZArith Bool Lia Permutation.
From Verif.Base Require Import Outcome Field Poly Zp.
From Verif.Model Require Import Codec PublicInputs Trace Air CairoDecode CairoTrace CairoAir.
From Verif.Spec Require Import CairoSpec AirSpec CairoColumns Fitting.
From Verif.Proofs Require Import FieldFacts PolyFacts OutcomeFacts CpuFacts CairoAirFacts SortedFacts MultisetFacts WalkFacts CairoForge LateColumns RootBound FittingFacts LooseFacts.
From Verif.Examples Require Import Toy Stark252 MiniRun.
From Verif.Properties Require Import CairoMemoryProperties CairoSoundnessProperties FittingProperties.
Import ListNotations.
Local Open Scope felt_scope.

Definition shaped {C : cairo_env} (cols : list (list C)) (n : nat) : Prop := forall c, In c cols -> length c = n.

(** If the execution columns and all sorted columns are fixed before the challenges, the constraints of the code accept exactly the tables that fit but for
    the memory: the sorted memory columns need not have anything to do with the accesses. *)
Theorem C92_which_tables :
  forall (C : cairo_env) p, cairo_ok C p -> forall (pi : public_inputs C) opts n lo hi (base : list (list C)),
  length base = trace_columns (a_context (cairo_air pi opts n)) -> shaped base n -> (0 < n)%nat ->
  range_check_min pi = Some lo -> range_check_max pi = Some hi -> (1 <= num_steps pi <= n)%nat ->
  exists bad_zrc, (length bad_zrc <= 6 * n)%nat /\ forall alpha, exists bad_z, (length bad_z <= 4 * n + length (public_memory pi))%nat /\
  forall z zrc, ~ In z bad_z -> ~ In zrc bad_zrc ->
  ((exists cols, same_but_products pi base cols /\ shaped cols n /\ trace_satisfies (cairo_air pi opts n) (mk_challenges alpha z zrc) cols n)
   <-> loosely_fitting pi opts base n lo hi).
Proof.
  intros C p HC pi opts n lo hi base Hw Hrows Hn Hmin Hmax Hsteps. apply declared_width in Hw.
  pose proof (fft_field_ok _ (e_fft_ok _ (co_env _ _ HC))) as HK.
  set (srt := map (sorted_offset pi base) (seq 0 (3 * n))). set (offs := map (offset_cell base) (seq 0 (3 * n))).
  assert (Hsl : length srt = (3 * n)%nat) by (unfold srt; now rewrite map_length, seq_length).
  destruct (exceptional_points HC srt offs) as (bad_zrc & Hbrl & Hbr); [unfold srt, offs; now rewrite !map_length|].
  exists (bad_zrc ++ srt). split; [rewrite app_length; lia|]. intro alpha.
  exists (map (compress alpha) (accessed base n) ++ map (compress alpha) (public_memory pi)). split; [unfold accessed; rewrite app_length, !map_length, seq_length; lia|].
  intros z zrc Hz Hzr. split.
  - intros (cols & Hsame & _ & Hsat).
    assert (W : length cols = cairo_width pi) by exact (same_width pi base cols Hw Hsame).
    destruct (shown HC pi opts n lo hi (mk_challenges alpha z zrc) cols W Hn (proj1 Hsteps) Hmin Hmax Hsat) as (_ & A & B & (D1 & D2 & D3) & F).
    { intro Hin. apply Hz. apply in_or_app. now right. }
    pose proof (main_fits_same pi opts n cols base W (same_main_sym pi base cols (products_main pi base cols Hsame)) A) as [M1 M2 M3].
    assert (R := same_reads pi base cols Hsame). destruct (same_lists pi n base cols Hsame) as (_ & _ & Es & Eo). cbn [z_range_check] in F. rewrite Es, Eo in F.
    constructor; [exact M1|exact M2|exact M3| | | |].
    + intros k Hk. specialize (B k Hk). destruct (R k) as (E1 & E2 & _). destruct (R (k + 1)%nat) as (E3 & E4 & _). now rewrite E1, E2, E3, E4 in B.
    + intros k Hk. specialize (D1 k Hk). destruct (R k) as (_ & _ & _ & _ & E1 & _). destruct (R (k + 1)%nat) as (_ & _ & _ & _ & E2 & _). now rewrite E1, E2 in D1.
    + destruct (R 0%nat) as (_ & _ & _ & _ & <- & _). destruct (R (3 * n - 1)%nat) as (_ & _ & _ & _ & <- & _). now split.
    + apply (Hbr zrc); [intro Hin; apply Hzr; apply in_or_app; now left|exact F].
  - intros [F1 F2 F3 F4 F5 F6 F7].
    destruct (solve HC pi opts n lo hi (mk_challenges alpha z zrc) base Hw Hn Hsteps Hmin Hmax) as (cols & A & B & D).
    + now constructor.
    + cbn [z_memory alpha_memory]. intros k Hk E. apply Hz. apply in_or_app. left. unfold accessed. rewrite map_map. apply in_map_iff. exists k. split; [symmetry; exact E|]. apply in_seq. lia.
    + exact F4.
    + now split.
    + intro Hin. apply Hzr. apply in_or_app. now right.
    + now apply (vanish_permutation HK).
    + exists cols. split; [exact A|]. split; [exact (B Hrows)|exact D].
Qed.
Print Assumptions C92_which_tables.

(** As the code is, the sorted columns are chosen after the challenges. Then the execution columns are accepted exactly if they begin, end and step as they should
    and some values that climb from the lower to the upper bound have the same product as the offsets, at one point that is known. *)
Theorem C92_which_main_columns :
  forall (C : cairo_env) p, cairo_ok C p -> forall (pi : public_inputs C) opts n lo hi (base : list (list C)) alpha z zrc,
  length base = trace_columns (a_context (cairo_air pi opts n)) -> shaped base n -> (0 < n)%nat -> (N.of_nat (4 * n) < 2 ^ 64)%N ->
  range_check_min pi = Some lo -> range_check_max pi = Some hi -> (lo < 2 ^ 16)%N -> (hi < 2 ^ 16)%N -> (1 <= num_steps pi <= n)%nat ->
  (forall a v, In (a, v) (accessed base n ++ public_memory pi) -> z <> a + alpha * v) -> (forall x, (lo <= x <= hi)%N -> zrc <> e_u64 C x) ->
  ((exists cols, same_main pi base cols /\ shaped cols n /\ trace_satisfies (cairo_air pi opts n) (mk_challenges alpha z zrc) cols n)
   <-> main_fits pi opts base n /\ exists s, climbs (3 * n) s lo hi /\
         fprod (map (fun k => zrc - s k) (seq 0 (3 * n))) = fprod (map (fun k => zrc - offset_cell base k) (seq 0 (3 * n)))).
Proof.
  intros C p HC pi opts n lo hi base alpha z zrc Hw Hrows Hn H64 Hmin Hmax Hlo Hhi Hsteps Hz Hzr. apply declared_width in Hw.
  pose proof (co_p _ _ HC) as Hp. assert (P65 : (2 ^ 64 + 2 ^ 16 < 2 ^ 65)%N) by reflexivity. assert (P16 : (2 ^ 16 < 2 ^ 65)%N) by reflexivity. split.
  - intros (cols & Hsame & _ & Hsat).
    assert (W : length cols = cairo_width pi) by (rewrite <- Hw; apply Hsame).
    destruct (shown HC pi opts n lo hi (mk_challenges alpha z zrc) cols W Hn (proj1 Hsteps) Hmin Hmax Hsat) as (_ & A & _ & D & F).
    { intro Hin. apply in_map_iff in Hin. destruct Hin as ([a v] & E & Hin). cbn [z_memory alpha_memory] in E. apply (Hz a v); [apply in_or_app; now right|]. symmetry. exact E. }
    split; [exact (main_fits_same pi opts n cols base W (same_main_sym pi base cols Hsame) A)|].
    exists (sorted_offset pi cols). split; [exact D|]. unfold vanish in F. rewrite !map_map in F. cbn [z_range_check] in F. rewrite F. apply f_equal, map_ext. intro k.
    now destruct (main_access pi base cols Hsame k) as (_ & _ & ->).
  - intros (A & s & D & F).
    destruct (climbs_span HC (3 * n) s lo hi ltac:(lia) D ltac:(lia) ltac:(lia)) as (_ & _ & Hs).
    destruct (solve_sorted HC pi opts n lo hi (mk_challenges alpha z zrc) base Hw Hn Hsteps Hmin Hmax A) with (s := s) as (cols & G1 & G2 & G3).
    + cbn [z_memory alpha_memory]. intros k Hk. apply Hz. apply in_or_app. left. unfold accessed. apply in_map_iff. exists k. split; [reflexivity|]. apply in_seq. lia.
    + exact D.
    + cbn [z_range_check]. intros k Hk E. destruct (Hs k Hk) as (x & Hx & Ex). apply (Hzr x Hx). congruence.
    + unfold vanish. rewrite !map_map. exact F.
    + exists cols. split; [exact G1|]. split; [exact (G2 Hrows)|exact G3].
Qed.
Print Assumptions C92_which_main_columns.

(** FINDING: which statements have accepted tables does not depend on the public memory, on the first frame pointer, or, from two steps on, on the registers:
    the rows must suffice for the steps, and the offset bounds must be ordered and not too far apart. *)
Theorem C92_which_statements :
  forall (C : cairo_env) p, cairo_ok C p -> forall (pi : public_inputs C) opts n lo hi alpha z zrc,
  (0 < n)%nat -> (N.of_nat (4 * n) < 2 ^ 64)%N -> (1 <= num_steps pi)%nat ->
  range_check_min pi = Some lo -> range_check_max pi = Some hi -> (lo < 2 ^ 16)%N -> (hi < 2 ^ 16)%N ->
  z <> 0 -> z <> pc_final pi -> (forall a v, In (a, v) (public_memory pi) -> z <> a + alpha * v) -> (forall x, (lo <= x <= hi)%N -> zrc <> e_u64 C x) ->
  ((exists cols, length cols = trace_columns (a_context (cairo_air pi opts n)) /\ shaped cols n /\ trace_satisfies (cairo_air pi opts n) (mk_challenges alpha z zrc) cols n)
   <-> (num_steps pi <= n)%nat /\ (num_steps pi = 1%nat -> pc_final pi = pc_init pi /\ ap_final pi = ap_init pi) /\ (lo <= hi)%N /\ (hi - lo < N.of_nat (3 * n))%N).
Proof.
  intros C p HC pi opts n lo hi alpha z zrc Hn H64 Hstep1 Hmin Hmax Hlo Hhi Hz0 Hzp Hz Hzr.
  pose proof (co_p _ _ HC) as Hp. assert (P65 : (2 ^ 64 + 2 ^ 16 < 2 ^ 65)%N) by reflexivity. assert (P16 : (2 ^ 16 < 2 ^ 65)%N) by reflexivity. split.
  - intros (cols & Hw & _ & Hsat). apply declared_width in Hw.
    destruct (shown HC pi opts n lo hi (mk_challenges alpha z zrc) cols Hw Hn Hstep1 Hmin Hmax Hsat) as (L & [[M1 M2] [M3 M4] _] & _ & D & _).
    { intro Hin. apply in_map_iff in Hin. destruct Hin as ([a v] & E & Hin). cbn [z_memory alpha_memory] in E. apply (Hz a v Hin). symmetry. exact E. }
    destruct (climbs_span HC (3 * n) _ lo hi ltac:(lia) D ltac:(lia) ltac:(lia)) as (A & B & _).
    split; [exact L|]. split; [|now split]. intro E1. rewrite E1 in M3, M4. cbn [Nat.sub] in M3, M4. split; congruence.
  - intros (L & E1 & A & B). set (ch := mk_challenges alpha z zrc). set (base := empty_cols pi n lo hi ch).
    destruct (solve_sorted HC pi opts n lo hi ch base (empty_width pi n lo hi ch) Hn (conj Hstep1 L) Hmin Hmax (empty_main_fits HC pi opts n lo hi ch Hn (conj Hstep1 L) E1)) with (s := climb (C := C) lo hi) as (cols & G1 & G2 & G3).
    + intros k Hk. now apply (empty_accesses HC pi n lo hi ch k).
    + apply (climb_climbs HC); [lia|exact A|exact B].
    + intros k Hk. apply Hzr. lia.
    + apply f_equal2; [|reflexivity]. apply map_ext_in. intros k Hk. apply in_seq in Hk. symmetry. apply empty_offset. lia.
    + exists cols. split; [|split; [exact (G2 (empty_rows pi n lo hi ch))|exact G3]].
      cbn [cairo_air a_context]. rewrite cairo_width_declared. destruct G1 as [-> _]. apply empty_width.
Qed.
Print Assumptions C92_which_statements.

(** A statement whose public memory gives two values to one cell and whose registers no three-step run reaches meets the hypotheses and has tables. *)
Definition absurd_pi : public_inputs stark :=
  mk_public_inputs (f252 1 : stark) (f252 8 : stark) (f252 8 : stark) (f252 77 : stark) (f252 99 : stark) (Some 32766%N) (Some 32769%N) []
    [(f252 1 : stark, f252 5 : stark); (f252 1 : stark, f252 6 : stark)] 3.
Example C92_example opts : exists cols, length cols = trace_columns (a_context (cairo_air absurd_pi opts 8)) /\ shaped cols 8 /\
  trace_satisfies (cairo_air absurd_pi opts 8) (mk_challenges (f252 5 : stark) (f252 1000 : stark) (f252 100000 : stark)) cols 8.
Proof.
  assert (Hne : forall a b : stark, zval (a : zp stark_p) <> zval (b : zp stark_p) -> a <> b) by (intros a b H E; apply H; now rewrite E).
  assert (Hr : forall x, (32766 <= x <= 32769)%N -> (f252 100000 : stark) <> e_u64 stark x).
  { intros x Hx. apply Hne. intro E.
    assert (V : (Z.of_N x mod stark_p = Z.of_N x)%Z) by (apply Z.mod_small; split; [lia|]; apply Z.lt_trans with 40000%Z; [lia|reflexivity]).
    change (100000 mod stark_p = Z.of_N x mod stark_p)%Z in E. rewrite V in E. replace (100000 mod stark_p)%Z with 100000%Z in E by (vm_compute; reflexivity). clear V. lia. }
  assert (H0 : (f252 1000 : stark) <> fzero) by (apply Hne; vm_compute; discriminate).
  assert (H1 : (f252 1000 : stark) <> pc_final absurd_pi) by (apply Hne; vm_compute; discriminate).
  assert (H2 : forall a v, In (a, v) (public_memory absurd_pi) -> (f252 1000 : stark) <> a + f252 5 * v).
  { intros a v [Hin|[Hin|[]]]; apply pair_equal_spec in Hin; destruct Hin as [<- <-]; apply Hne; vm_compute; discriminate. }
  assert (N64 : (N.of_nat (4 * 8) < 2 ^ 64)%N) by reflexivity.
  assert (A16 : (32766 < 2 ^ 16)%N) by reflexivity. assert (B16 : (32769 < 2 ^ 16)%N) by reflexivity.
  assert (S : (1 <= num_steps absurd_pi)%nat) by (cbn [num_steps absurd_pi]; lia).
  apply (proj2 (C92_which_statements stark _ stark_ok absurd_pi opts 8 32766 32769 (f252 5 : stark) (f252 1000 : stark) (f252 100000 : stark)
    ltac:(lia) N64 S eq_refl eq_refl A16 B16 H0 H1 H2 Hr)).
  cbn [num_steps absurd_pi]. split; [lia|]. split; [discriminate|]. split; [lia|reflexivity].
Qed.
