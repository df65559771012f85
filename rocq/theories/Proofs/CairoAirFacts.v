(** What satisfying the Cairo AIR means, constraint by constraint. *)
From Coq Require Import List Arith NArith Bool Lia.
From Verif.Base Require Import Outcome Field Poly.
From Verif.Model Require Import Codec PublicInputs Trace Air CairoDecode CairoTrace CairoAir.
From Verif.Spec Require Import CairoSpec AirSpec CairoColumns.
From Verif.Proofs Require Import FieldFacts FFTFacts OutcomeFacts TraceFacts CpuFacts.
Import ListNotations.

Section CairoAirFacts.
Context {C : cairo_env} (HE : env_ok C).
Let HK : field_ok C := fft_field_ok _ (e_fft_ok _ HE).
Add Field Kfield32 : (fld_th C HK).
Local Open Scope felt_scope.
Notation "r .[ i ]" := (nth i r (fzero : C)) (at level 2, format "r .[ i ]").

(** Row [i] of a list of columns. *)
Definition crow (cols : list (list C)) (i : nat) : list C := map (fun c => c.[i]) cols.

Lemma crow_nth cols i j : (crow cols i).[j] = cell cols i j.
Proof using Type.
  unfold crow, cell. destruct (Nat.lt_ge_cases j (length cols)) as [H|H].
  - rewrite (nth_indep _ 0 (nth i [] 0)) by now rewrite map_length.
    exact (map_nth (fun c : list C => c.[i]) cols [] j).
  - rewrite (nth_overflow (map _ _)) by now rewrite map_length. rewrite (nth_overflow cols) by exact H. now destruct i.
Qed.
Lemma crow_length cols i : length (crow cols i) = length cols.
Proof using Type. apply map_length. Qed.

(** The number of columns of the traces the AIR declares. *)
Definition cairo_width (pi : public_inputs C) : nat := (61 - builtin_offset pi)%nat.
Lemma cairo_width_declared pi opts : trace_columns (cairo_context pi opts) = cairo_width pi.
Proof using Type. unfold cairo_width, builtin_offset, cairo_context. cbn [trace_columns]. destruct (has_rc_builtin pi); reflexivity. Qed.

Definition exempt (j : nat) : nat :=
  if existsb (Nat.eqb j) [20; 21; 22; 23; 34; 38; 42; 45]%nat then 1%nat else 0%nat.
Definition n_constraints (pi : public_inputs C) : nat := (49 + if has_rc_builtin pi then 1 else 0)%nat.

Lemma exemption_at pi opts j : (j < n_constraints pi)%nat ->
  nth_error (transition_exemptions (cairo_context pi opts)) j = Some (exempt j).
Proof using Type.
  unfold n_constraints, cairo_context. cbn [transition_exemptions]. destruct (has_rc_builtin pi); intro Hj;
  do 50 (destruct j as [|j]; [first [reflexivity|lia]|]); lia.
Qed.
Lemma exemption_inv pi opts j e : nth_error (transition_exemptions (cairo_context pi opts)) j = Some e ->
  (j < n_constraints pi)%nat /\ e = exempt j.
Proof using Type.
  intro H. assert (L : (j < n_constraints pi)%nat).
  { assert (A : nth_error (transition_exemptions (cairo_context pi opts)) j <> None) by congruence.
    apply nth_error_Some in A. unfold n_constraints. unfold cairo_context in A. cbn [transition_exemptions] in A.
    destruct (has_rc_builtin pi); exact A. }
  split; [exact L|]. rewrite (exemption_at pi opts j L) in H. congruence.
Qed.

Lemma cairo_transition_frame pi ch (c n : list C) : length c = cairo_width pi -> length n = cairo_width pi ->
  cairo_transition pi (mk_frame (c ++ n) (cairo_width pi)) ch = Ok (cairo_constraints pi ch c n).
Proof using Type.
  intros Hc Hn. unfold cairo_transition.
  assert (F : Forall (fun r : list C => length r = cairo_width pi) [c; n]) by (repeat constructor; assumption).
  pose proof (frame_row [c; n] (cairo_width pi) 0 F ltac:(cbn; lia)) as R0.
  pose proof (frame_row [c; n] (cairo_width pi) 1 F ltac:(cbn; lia)) as R1.
  cbn [concat nth] in R0, R1. rewrite app_nil_r in R0, R1. rewrite R0, R1. cbn [obind].
  rewrite Hc. unfold cairo_width, PERMUTATION_ARGUMENT_RANGE_CHECK_COL_3.
  destruct (Nat.leb_spec (61 - builtin_offset pi) (60 - builtin_offset pi)); [|reflexivity].
  unfold builtin_offset, BUILTIN_OFFSET in *. destruct (has_rc_builtin pi); lia.
Qed.

(** The transition constraints of the AIR on a list of columns. *)
Definition holds (pi : public_inputs C) (ch : cairo_challenges C) (cols : list (list C)) (n j : nat) : Prop :=
  forall i, (i < n - exempt j)%nat -> nth j (cairo_constraints pi ch (crow cols i) (crow cols ((i + 1) mod n))) 0 = 0.
Definition cairo_transitions (pi : public_inputs C) (ch : cairo_challenges C) (cols : list (list C)) (n : nat) : Prop :=
  forall i j, (i < n - exempt j)%nat -> (j < n_constraints pi)%nat ->
  nth j (cairo_constraints pi ch (crow cols i) (crow cols ((i + 1) mod n))) 0 = 0.

Lemma cairo_frame pi opts ch cols n i : length cols = cairo_width pi -> (i < n)%nat ->
  a_transition (cairo_air pi opts n) (mk_frame (concat (map (fun o => map (fun c => nth ((i + o) mod n) c 0) cols)
      (transition_offsets (a_context (cairo_air pi opts n))))) (length cols)) ch
  = Ok (cairo_constraints pi ch (crow cols i) (crow cols ((i + 1) mod n))).
Proof using Type.
  intros Hw Hi. cbn [cairo_air a_transition a_context cairo_context transition_offsets map concat].
  rewrite app_nil_r, Nat.add_0_r, (Nat.mod_small i n) by exact Hi. rewrite Hw. apply cairo_transition_frame; now rewrite crow_length.
Qed.

Lemma cairo_satisfies pi opts ch cols n : length cols = cairo_width pi ->
  (trace_satisfies (cairo_air pi opts n) ch cols n <->
   (forall bcs bc, cairo_boundary pi n ch = Ok bcs -> In bc bcs ->
      (bc_step bc < n)%nat /\ (bc_col bc < length cols)%nat /\ cell cols (bc_step bc) (bc_col bc) = bc_value bc) /\
   cairo_transitions pi ch cols n).
Proof using Type.
  intro Hw.
  pose proof (fun i => cairo_frame pi opts ch cols n i Hw) as Hfr.
  split.
  - intros [Hb Ht]. split; [exact Hb|]. intros i j Hi Hj. destruct (Ht i ltac:(lia)) as (ev & E & Hev).
    rewrite Hfr in E by lia. apply ok_inj in E. subst ev. apply (Hev j (exempt j)); [|lia]. now apply exemption_at.
  - intros [Hb Ht]. constructor; [exact Hb|]. intros i Hi. eexists. split; [now apply Hfr|].
    intros j e He Hie. destruct (exemption_inv pi opts j e He) as [Hj ->]. now apply Ht.
Qed.

Lemma cairo_constraint_holds pi opts ch cols n j : length cols = cairo_width pi -> (j < n_constraints pi)%nat ->
  (constraint_holds (cairo_air pi opts n) ch cols n j <-> holds pi ch cols n j).
Proof using Type.
  intros Hw Hj. split.
  - intros H i Hi. apply (H i (exempt j)); [exact Hi|now apply exemption_at|]. apply cairo_frame; [exact Hw|lia].
  - intros H i e evals Hi He Hev. destruct (exemption_inv pi opts j e He) as [_ ->].
    rewrite cairo_frame in Hev; [|exact Hw|lia]. apply ok_inj in Hev. subst evals. now apply H.
Qed.

(** ** The values of the memory, permutation and range-check constraints *)
Section Values.
Context (pi : public_inputs C) (ch : cairo_challenges C) (c n : list C).
Let off := builtin_offset pi.
Let cs := cairo_constraints pi ch c n.
Let m i := c.[(46 + i - off)%nat]. Let v i := c.[(50 + i - off)%nat]. Let q i := c.[(54 + i - off)%nat].
Let m' i := n.[(46 + i - off)%nat]. Let v' i := n.[(50 + i - off)%nat]. Let q' i := n.[(54 + i - off)%nat].
Let k i := c.[(43 + i - off)%nat]. Let k' i := n.[(43 + i - off)%nat].
Let g i := c.[(58 + i - off)%nat]. Let g' i := n.[(58 + i - off)%nat].
Let z := z_memory ch. Let al := alpha_memory ch. Let zr := z_range_check ch.

Definition rest_formulas : list C :=
  [ (m 0 - m 1) * (m 1 - m 0 - 1); (m 1 - m 2) * (m 2 - m 1 - 1); (m 2 - m 3) * (m 3 - m 2 - 1); (m 3 - m' 0) * (m' 0 - m 3 - 1);
    (v 0 - v 1) * (m 1 - m 0 - 1); (v 1 - v 2) * (m 2 - m 1 - 1); (v 2 - v 3) * (m 3 - m 2 - 1); (v 3 - v' 0) * (m' 0 - m 3 - 1);
    (z - (m 1 + al * v 1)) * q 1 - (z - (c.[20] + al * c.[24])) * q 0;
    (z - (m 2 + al * v 2)) * q 2 - (z - (c.[21] + al * c.[25])) * q 1;
    (z - (m 3 + al * v 3)) * q 3 - (z - (c.[22] + al * c.[26])) * q 2;
    (z - (m' 0 + al * v' 0)) * q' 0 - (z - (n.[19] + al * n.[23])) * q 3;
    (k 0 - k 1) * (k 1 - k 0 - 1); (k 1 - k 2) * (k 2 - k 1 - 1); (k 2 - k' 0) * (k' 0 - k 2 - 1);
    (zr - k 1) * g 1 - (zr - c.[28]) * g 0;
    (zr - k 2) * g 2 - (zr - c.[29]) * g 1;
    (zr - k' 0) * g' 0 - (zr - n.[27]) * g 2 ].

Lemma rest_constraint j : (j < 18)%nat -> nth (31 + j) cs 0 = nth j rest_formulas 0.
Proof using Type.
  intro Hj. unfold cs, cairo_constraints. fold off. destruct (has_rc_builtin pi);
  do 18 (destruct j as [|j]; [reflexivity|]); lia.
Qed.

Definition rc_builtin_value (c : list C) : C :=
  c.[34] + c.[35] * e_u64 C (2 ^ 16) + c.[36] * e_u64 C (2 ^ 32) + c.[37] * e_u64 C (2 ^ 48)
  + c.[38] * e_u64 C (2 ^ 64) + c.[39] * e_u64 C (2 ^ 80) + c.[40] * e_u64 C (2 ^ 96) + c.[41] * e_u64 C (2 ^ 112) - c.[42].
Lemma builtin_constraint : has_rc_builtin pi = true -> nth 49 cs 0 = rc_builtin_value c.
Proof using Type. intro H. unfold cs, cairo_constraints. rewrite H. reflexivity. Qed.
End Values.
End CairoAirFacts.

(** ** Checking constraints by computation, for examples *)
Section Check.
Context {C : cairo_env} (HE : env_ok C).
Let HK : field_ok C := fft_field_ok _ (e_fft_ok _ HE).
Local Open Scope felt_scope.
Definition holdsb (pi : public_inputs C) ch cols n (js : list nat) : bool :=
  forallb (fun i => let cs := cairo_constraints pi ch (crow cols i) (crow cols ((i + 1) mod n)) in
                    forallb (fun j => if (i <? n - exempt j)%nat then feqb (nth j cs 0) 0 else true) js) (seq 0 n).
Lemma holdsb_ok pi ch cols n js j : holdsb pi ch cols n js = true -> In j js -> holds pi ch cols n j.
Proof using HE.
  unfold holdsb. intros H Hj i Hi. rewrite forallb_forall in H. specialize (H i ltac:(apply in_seq; lia)). cbv zeta in H.
  rewrite forallb_forall in H. specialize (H j Hj). destruct (Nat.ltb_spec i (n - exempt j)); [|lia].
  now apply (feqb_spec C HK) in H.
Qed.
Definition boundaryb (pi : public_inputs C) ch (cols : list (list C)) n : bool :=
  match cairo_boundary pi n ch with
  | Ok bcs => forallb (fun bc => (bc_step bc <? n)%nat && (bc_col bc <? length cols)%nat
                                 && feqb (cell cols (bc_step bc) (bc_col bc)) (bc_value bc)) bcs
  | _ => false
  end.
Lemma checked_satisfies pi opts ch cols n : length cols = cairo_width pi -> boundaryb pi ch cols n = true ->
  holdsb pi ch cols n (seq 0 (n_constraints pi)) = true -> trace_satisfies (cairo_air pi opts n) ch cols n.
Proof using HE.
  intros Hw Hb Hh. apply cairo_satisfies; [exact Hw|]. split.
  - intros bcs bc E Hin. unfold boundaryb in Hb. rewrite E in Hb. rewrite forallb_forall in Hb. specialize (Hb bc Hin).
    apply andb_true_iff in Hb. destruct Hb as [Hb H3]. apply andb_true_iff in Hb. destruct Hb as [H1 H2].
    apply Nat.ltb_lt in H1, H2. apply (feqb_spec C HK) in H3. tauto.
  - intros i j Hi Hj. apply (holdsb_ok pi ch cols n (seq 0 (n_constraints pi)) j Hh); [apply in_seq; lia|exact Hi].
Qed.
End Check.
