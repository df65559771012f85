(** The columns of the trace the prover builds, whatever the run. *)
From Coq Require Import List Arith NArith ZArith Bool Lia Permutation.
From Verif.Base Require Import Outcome Field Poly.
From Verif.Model Require Import Codec PublicInputs Trace Air CairoDecode CairoTrace CairoAir CairoRunner.
From Verif.Spec Require Import CairoSpec CairoColumns AirSpec CairoRun.
From Verif.Proofs Require Import FieldFacts PolyFacts OutcomeFacts FFTFacts TraceFacts BuildFacts MainTraceFacts SortFacts MainColsFacts DecodeFacts CairoAirFacts StepFacts HonestFacts SortedFacts RunnerFacts MultisetFacts WalkFacts AuxFacts HonestAux HonestBuiltin HonestRun ExampleFacts.
Import ListNotations.
Local Open Scope felt_scope.

Section Shape.
Context {C : cairo_env} {p : N} (HC : cairo_ok C p).
Let HK : field_ok C := fft_field_ok _ (e_fft_ok _ (co_env _ _ HC)).
Add Field Kfield47 : (fld_th C HK).

Lemma columns_unique (t : trace_table C) n cols rows : cols <> [] -> has_columns t n cols -> is_table t rows ->
  n = length rows /\ cols = cols_of (tt_n_cols t) rows.
Proof using Type.
  intros Hne Hc Ht. destruct (has_columns_table t n cols Hne Hc) as [E1 E2]. split.
  - rewrite <- E2. now apply table_n_rows.
  - now apply tt_cols_of.
Qed.
Lemma main_columns raw m (pi : public_inputs C) t pi' n cols : build_main_trace raw m pi = Ok (t, pi') -> cols <> [] -> has_columns t n cols ->
  exists (ss : list (step_data (C := C))) extra, raw = map sd_regs ss /\ ss <> [] /\ Forall (step_ok m) ss /\ rc_extra m pi (length ss) extra /\
  let rows := build_rows ss extra in let w := (34 + length extra)%nat in let so := sorted_u16s rows in
  pi' = with_rc_bounds pi (nth 0 so 0%N) (nth (length so - 1) so 0%N) /\
  let R := main_rows w (length (public_memory pi)) rows in n = length R /\ cols = cols_of w R /\ tt_n_cols t = w /\ is_table t R.
Proof using Type.
  intros H Hne Hc. destruct (main_inverse _ _ _ _ _ H) as (ss & extra & H1 & H2 & H3 & H4 & H5 & H6 & H7). cbv zeta in *.
  exists ss, extra. repeat (split; [assumption|]). destruct (columns_unique t n cols _ Hne Hc H6) as [E1 E2]. rewrite H7 in E2. auto.
Qed.
(** The columns of a built trace of the declared width. *)
Lemma honest_inverse raw m (pi : public_inputs C) ch pi' n cols opts : honest_columns raw m pi ch pi' n cols ->
  length cols = trace_columns (cairo_context pi' opts) ->
  exists (ss : list (step_data (C := C))) extra pub, raw = map sd_regs ss /\ ss <> [] /\ Forall (step_ok m) ss /\
  let rows := build_rows ss extra in let w := (34 + length extra)%nat in let so := sorted_u16s rows in
  pi' = with_rc_bounds pi (nth 0 so 0%N) (nth (length so - 1) so 0%N) /\
  let R := main_rows w (length (public_memory pi)) rows in n = length R /\ cols = full_cols w R pub ch /\ w = (43 - builtin_offset pi')%nat /\
  pub_cells pi' pub /\ length pub = length (public_memory pi) /\
  (forall e, In e (sorted_mem R pub) -> factor ch e <> 0) /\ (forall x, In x (rc_sorted R) -> z_range_check ch - x <> 0).
Proof using HC.
  intros (t & aux & main & acols & Hb & Ha & Hne & Hm & Hx & ->) Hw.
  destruct (main_columns raw m pi t pi' n main Hb Hne Hm) as (ss & extra & H1 & H2 & H3 & H4 & H5 & H6 & H7 & H8 & H9). cbv zeta in *.
  destruct (aux_inverse HC pi' t _ ch aux H9 ltac:(rewrite H8; lia) Ha) as (Hfit & pub & Hpc & Hme & Hr & ->).
  exists ss, extra, pub. repeat (split; [assumption|]).
  assert (Ean : acols <> []). { intro Z. destruct Hx as (Q & _). rewrite Z in Q. discriminate. }
  destruct (columns_unique _ n acols _ Ean Hx (aux_rows_table _ pub ch)) as [_ E2]. cbn [tt_n_cols] in E2.
  split; [unfold full_cols; congruence|]. split.
  - rewrite cairo_width_declared, app_length, H7, E2, !cols_of_length in Hw. unfold cairo_width in Hw. pose proof (offset_le pi'). lia.
  - split; [exact Hpc|]. split; [|split; assumption]. rewrite (pub_cells_length _ _ Hpc), H5. reflexivity.
Qed.
Lemma upto_map {A} (f : nat -> A) l d k : length l = k -> (forall i, (i < k)%nat -> f i = nth i l d) -> map f (seq 0 k) = l.
Proof using Type.
  intros Hl Hf. apply (nth_ext _ _ (f k) d); [now rewrite map_length, seq_length|]. intros i Hi. rewrite map_length, seq_length in Hi.
  rewrite map_nth, seq_nth by exact Hi. now apply Hf.
Qed.
End Shape.
