(** The Cairo AIR has polynomial constraints of the declared degrees; parameters for which honest proofs are accepted. *)
From Coq Require Import List Arith NArith Bool Lia.
From Verif.Base Require Import Outcome Field Poly.
From Verif.Model Require Import Codec PublicInputs Trace Air CairoDecode CairoTrace CairoAir.
From Verif.Spec Require Import AirSpec CairoSpec CairoColumns ExampleSpec.
From Verif.Proofs Require Import OutcomeFacts FieldFacts PolyFacts FFTFacts TraceFacts PolyAir CpuFacts CairoAirFacts HonestFacts.
Import ListNotations.
Local Open Scope felt_scope.

Ltac reify A c n t :=
  lazymatch t with
  | fadd ?a ?b => let x := reify A c n a in let y := reify A c n b in constr:(Add x y)
  | fsub ?a ?b => let x := reify A c n a in let y := reify A c n b in constr:(Sub x y)
  | fmul ?a ?b => let x := reify A c n a in let y := reify A c n b in constr:(Mul x y)
  | nth ?i c _ => constr:(@Cell A 0%nat i)
  | nth ?i n _ => constr:(@Cell A 1%nat i)
  | _ => constr:(@Const A t)
  end.
Ltac reified A c n := match goal with |- ceval _ ?ev = ?t => let e := reify A c n t in unify ev e; reflexivity end.

Section Adm.
Context {C : cairo_env} (HE : env_ok C).
Let HK : field_ok C := fft_field_ok _ (e_fft_ok _ HE).
Add Field Kfield45 : (fld_th C HK).
Definition two_rows (c n : list C) (r k : nat) : C := match r with 1%nat => nth k n 0 | _ => nth k c 0 end.

Lemma squiggle_nth (c : list C) : (15 <= length c)%nat -> squiggle c = fold_left (fun acc i => nth i c 0 + e_u64 C 2 * acc) (rev (seq 0 15)) 0.
Proof using Type.
  intro H. unfold squiggle. assert (E : firstn 15 c = map (fun i => nth i c 0) (seq 0 15)).
  { do 15 (destruct c as [|? c]; [cbn [length] in H; lia|]). reflexivity. }
  rewrite E. reflexivity.
Qed.

Lemma constraint_expr (pi : public_inputs C) opts ch j : (j < n_constraints pi)%nat ->
  exists e, (cdeg e <= nth j (transition_degrees (cairo_context pi opts)) 0)%nat /\
    forall c n : list C, (34 <= length c)%nat -> ceval (two_rows c n) e = nth j (cairo_constraints pi ch c n) 0.
Proof using Type.
  intros Hj.
  destruct (Nat.lt_ge_cases j 16) as [J|J].
  { cbn [cairo_context transition_degrees].
    do 16 (destruct j as [|j]; [eexists; split; [|intros c n Hc; rewrite flag_constraint by lia; unfold flag_value; cbn [Nat.leb]; reified (carrier C) c n]; cbn; lia|]). lia. }
  destruct (Nat.lt_ge_cases j 31) as [J1|J1].
  { replace j with (16 + (j - 16))%nat by lia. set (k := (j - 16)%nat). assert (Hk : (k < 15)%nat) by lia. clearbody k. clear J J1 Hj j. cbn [cairo_context transition_degrees].
    do 15 (destruct k as [|k]; [eexists; split; [|intros c n Hc; rewrite cpu_constraint by lia; unfold cpu_formulas; rewrite ?squiggle_nth by lia; cbv zeta; cbn [nth seq rev app fold_left]; reified (carrier C) c n]; cbn; lia|]). lia. }
  destruct (Nat.lt_ge_cases j 49) as [J2|J2].
  { replace j with (31 + (j - 31))%nat by lia. set (k := (j - 31)%nat). assert (Hk : (k < 18)%nat) by lia. clearbody k. clear J J1 J2 Hj j. cbn [cairo_context transition_degrees].
    do 18 (destruct k as [|k]; [eexists; split; [|intros c n Hc; rewrite rest_constraint by lia; unfold rest_formulas; cbv zeta; cbn [nth]; reified (carrier C) c n]; cbn; lia|]). lia. }
  unfold n_constraints in Hj. destruct (has_rc_builtin pi) eqn:Eb; [|lia]. assert (j = 49%nat) by lia. subst j.
  eexists; split; [|intros c n Hc; rewrite builtin_constraint by exact Eb; unfold rc_builtin_value; reified (carrier C) c n].
  cbn [cairo_context transition_degrees]. rewrite Eb. cbn. lia.
Qed.

Lemma degrees_length (pi : public_inputs C) opts : length (transition_degrees (cairo_context pi opts)) = n_constraints pi.
Proof using Type. unfold n_constraints. cbn [cairo_context transition_degrees]. destruct (has_rc_builtin pi); reflexivity. Qed.
Lemma ceval_ext {K : field_ops} (f g : nat -> nat -> K) : (forall r k, f r k = g r k) -> forall e, ceval f e = ceval g e.
Proof using Type. intros H. induction e; cbn [ceval]; congruence. Qed.

Theorem cairo_polynomial (pi : public_inputs C) opts n m g : (0 < m)%nat -> transition_is_polynomial (cairo_air pi opts n) m g.
Proof using HE.
  intros Hn ch polys Hp Hl. cbn [cairo_air a_context a_rap] in *. rewrite cairo_width_declared in Hp.
  destruct (list_choice (fun j e => (cdeg e <= nth j (transition_degrees (cairo_context pi opts)) 0)%nat /\
    forall c n : list C, (34 <= length c)%nat -> ceval (two_rows c n) e = nth j (cairo_constraints pi ch c n) 0) (@Const (carrier C) fzero) (n_constraints pi)) as (es & Le & He).
  { intros j Hj. exact (constraint_expr pi opts ch j Hj). }
  destruct (cexprs_polys HK polys m [0; 1]%nat g Hl Hn es (transition_degrees (cairo_context pi opts))) as (cs & H1 & H2).
  { intros j Hj _. apply He. lia. }
  exists cs. split; [|exact H2]. intro x. cbn [cairo_air a_transition].
  set (row o := map (fun p : poly C => peval p (x * fpow g o)) polys).
  assert (E : shifted_frame polys (transition_offsets (cairo_context pi opts)) g x = mk_frame (row 0%nat ++ row 1%nat) (cairo_width pi)).
  { unfold shifted_frame, shifted_rows. cbn [cairo_context transition_offsets map concat]. rewrite app_nil_r. unfold row. f_equal. exact Hp. }
  rewrite E, cairo_transition_frame by (unfold row; rewrite map_length; exact Hp). f_equal. rewrite H1.
  assert (L : length (cairo_constraints pi ch (row 0%nat) (row 1%nat)) = n_constraints pi) by apply constraints_length.
  apply (nth_ext _ _ 0 (ceval (pcell polys [0; 1]%nat g x) (@Const (carrier C) fzero))); [now rewrite map_length, L, Le|].
  intros j Hj. rewrite map_nth. rewrite L in Hj. rewrite <- (proj2 (He j Hj)).
  2:{ unfold row. rewrite map_length. etransitivity; [|apply Nat.eq_le_incl; symmetry; exact Hp]. unfold cairo_width, builtin_offset, BUILTIN_OFFSET. destruct (has_rc_builtin pi); lia. }
  apply ceval_ext. intros r k. unfold two_rows, pcell, row.
  assert (N : forall o, nth k (map (fun p : poly C => peval p (x * fpow g o)) polys) 0 = peval (nth k polys []) (x * fpow g o)).
  { intro o. exact (map_nth (fun p : poly C => peval p (x * fpow g o)) polys [] k). }
  destruct r as [|[|r]]; cbn [nth]; [apply N|apply N|]. rewrite N. destruct r; reflexivity.
Qed.

Theorem cairo_admissible (pi : public_inputs C) opts r b : usable_options C opts r b -> admissible (cairo_air pi opts (2 ^ r)) r b 2.
Proof using HE.
  intros [Hr [Hb [Hbl Hco]]]. assert (P : (2 <= 2 ^ r)%nat) by (destruct r; [lia|]; cbn [Nat.pow]; pose proof (Nat.pow_nonzero 2 r); lia).
  constructor; try assumption; try reflexivity; cbn [cairo_air a_context a_n_aux a_degree_bound]; try lia.
  - rewrite cairo_width_declared. unfold cairo_width, builtin_offset, BUILTIN_OFFSET, number_auxiliary_rap_columns. destruct (has_rc_builtin pi); lia.
  - discriminate.
  - intros e He. apply (In_nth_error) in He. destruct He as (j & Hj). apply exemption_inv in Hj. destruct Hj as [_ ->]. unfold exempt. destruct (existsb _ _); lia.
  - intros _ e e' He He' Z Z'. apply In_nth_error in He, He'. destruct He as (j & Hj), He' as (j' & Hj'). apply exemption_inv in Hj, Hj'.
    destruct Hj as [_ ->], Hj' as [_ ->]. unfold exempt in *. destruct (existsb _ _); [|lia]. now destruct (existsb _ _); [|lia].
  - intros j e deg He Hd. apply exemption_inv in He. destruct He as [Hj ->].
    apply (nth_error_nth _ _ 0%nat) in Hd. rewrite <- Hd. clear Hd deg. unfold n_constraints in Hj. cbn [cairo_context transition_degrees].
    destruct (has_rc_builtin pi); do 50 (destruct j as [|j]; [cbn; lia|]); lia.
  - intros g _. apply cairo_polynomial. lia.
Qed.
End Adm.
