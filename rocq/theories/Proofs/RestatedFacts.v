(** The verdict of a proof for another statement. *)
From Coq Require Import List Arith NArith Bool Lia.
From Verif.Base Require Import Outcome Bytes Field Poly.
From Verif.Model Require Import PublicInputs CairoDecode CairoTrace CairoAir CairoRunner Codec Trace Merkle Air Transcript Domain Options Prover Verifier ExampleAirs.
From Verif.Spec Require Import AirSpec VerifierSpec CairoSpec CairoRun Forgery Restated.
From Verif.Proofs Require Import OutcomeFacts FieldFacts PolyFacts DomainFacts TraceFacts TranscriptFacts FriFacts VerifierFacts VerifierTotal StatementFacts LevelFacts DecodeFacts.
Import ListNotations.
Local Open Scope felt_scope.

Section Verdict.
Context {E : env}.
Definition carried (a : air E) aux tr bd (c : challenges E a) : challenges E (restated a aux tr bd) :=
  mk_challenges E (restated a aux tr bd) (c_z E a c) (c_boundary_coeffs E a c) (c_transition_coeffs E a c) (c_trace_term_coeffs E a c)
    (c_gamma_even E a c) (c_gamma_odd E a c) (c_zetas E a c) (c_iotas E a c) (c_rap E a c) (c_leading_zeros E a c).

Lemma step_1_boundary fuel (a : air E) (p : stark_proof E) d t c t' : step_1 E fuel a p d t = Ok (c, t') -> exists bcs, a_boundary a (c_rap E a c) = Ok bcs /\ length (c_boundary_coeffs E a c) = length bcs.
Proof.
  unfold step_1. intro H. ok_as H root Hroot. ok_pair H rap t1 Hrap. ok_as H bcs Hb.
  ok_pair H ba t2 Hba. ok_pair H bb t3 Hbb.
  repeat (first [apply obind_ok in H; destruct H as ([? ?] & _ & H) | apply obind_ok in H; destruct H as (? & _ & H) | match type of H with context [let '(_, _) := tr_challenge ?x in _] => destruct (tr_challenge x) end]).
  apply ok_inj in H. injection H as <- _. cbn [c_rap c_boundary_coeffs]. apply batch_sample_length in Hba, Hbb. exists bcs. split; [exact Hb|]. rewrite combine_length. lia.
Qed.

Lemma step_1_restated fuel (a : air E) aux tr bd (p : stark_proof E) d t c t' bcs bcs' : step_1 E fuel a p d t = Ok (c, t') ->
  a_boundary a (c_rap E a c) = Ok bcs -> bd (c_rap E a c) = Ok bcs' -> length bcs = length bcs' ->
  step_1 E fuel (restated a aux tr bd) p d t = Ok (carried a aux tr bd c, t').
Proof.
  intros H Hb Hb' Hl. unfold step_1 in *. unfold a_options in *. cbn [restated a_build_rap a_boundary a_context].
  ok_as H root Hroot. rewrite Hroot. cbn [obind]. ok_pair H rap t1 Hrap. rewrite Hrap. cbn [obind]. ok_as H bcs0 Hb0.
  assert (Er : c_rap E a c = rap).
  { clear - H. repeat (first [apply obind_ok in H; destruct H as ([? ?] & _ & H) | apply obind_ok in H; destruct H as (? & _ & H) | match type of H with context [let '(_, _) := tr_challenge ?x in _] => destruct (tr_challenge x) end]).
    apply ok_inj in H. injection H as <- _. reflexivity. }
  rewrite Er in *. rewrite Hb0 in Hb. apply ok_inj in Hb. subst bcs0. rewrite Hb'. cbn [obind]. rewrite <- Hl.
  repeat match type of H with
    | obind ?x _ = _ => destruct x as [[? ?]|?|] || destruct x as [?|?|]; cbn [obind] in *; try discriminate H
    | context [let '(_, _) := tr_challenge ?x in _] => destruct (tr_challenge x)
    end.
  apply ok_inj in H. injection H as <- <-. reflexivity.
Qed.

Context (HE : env_ok E).
Let HK : field_ok E := fft_field_ok E (e_fft_ok E HE).
Add Field Kfield83 : (fld_th E HK).

Theorem other_verdicts fuel (mk : nat -> air E) opts (p : stark_proof E) : let a := mk (trace_length p) in
  verify E fuel mk opts p = Ok true ->
  exists d c t bcs, domain_new a = Ok d /\ step_1 E fuel a p d tr_new = Ok (c, t) /\ a_boundary a (c_rap E a c) = Ok bcs /\
  length (c_boundary_coeffs E a c) = length bcs /\ (forall bc, In bc bcs -> c_z E a c <> fpow (trace_primitive_root d) (bc_step bc)) /\
  forall mk' aux tr bd bcs', mk' (trace_length p) = restated a aux tr bd -> (forall fr, tr fr (c_rap E a c) = a_transition a fr (c_rap E a c)) ->
    bd (c_rap E a c) = Ok bcs' -> same_cells bcs bcs' ->
    verify E fuel mk' opts p = Ok (feqb (boundary_shift (trace_primitive_root d) (c_z E a c) (a_degree_bound a - a_trace_length a) bcs bcs' (c_boundary_coeffs E a c)) 0).
Proof using HE.
  intros a H. unfold verify in H. fold a in H. destruct (_ <? _)%nat eqn:Hq; [discriminate H|].
  ok_as H d Hd. ok_pair H c t H1. destruct (N.ltb _ _) eqn:Hg; [discriminate H|]. ok_as H b2 H2. destruct b2; [|discriminate H]. cbn [negb] in H.
  ok_as H b3 H3. destruct b3; [|discriminate H]. cbn [negb] in H. ok_as H b4 H4. apply ok_inj in H. subst b4.
  destruct (step_1_boundary _ _ _ _ _ _ _ H1) as (bcs & Hb & Lc).
  exists d, c, t, bcs. split; [exact Hd|]. split; [exact H1|]. split; [exact Hb|]. split; [exact Lc|]. split.
  { unfold step_2 in H2. rewrite Hb in H2. cbn [obind] in H2. ok_as H2 adj Hadj. ok_as H2 bv Hbv. unfold boundary_ood in Hbv. ok_as Hbv nums Hn. ok_as Hbv dens Hden.
    apply (batch_inverse_inv HK) in Hden. destruct Hden as [_ Hden]. intros bc Hin X. apply (Hden (c_z E a c - fpow (trace_primitive_root d) (bc_step bc))).
    - apply in_map_iff. exists bc. split; [reflexivity|exact Hin].
    - rewrite X. ring. }
  intros mk' aux tr bd bcs' Em Htr Hb' Hc. unfold verify. rewrite Hq, Em. change (domain_new (restated a aux tr bd)) with (domain_new a). rewrite Hd. cbn [obind].
  assert (Hl : length bcs = length bcs') by (rewrite <- (map_length bc_col bcs), (proj1 Hc); apply map_length).
  rewrite (step_1_restated fuel a aux tr bd p d tr_new c t bcs bcs' H1 Hb Hb' Hl). cbn [obind].
  change (c_leading_zeros E (restated a aux tr bd) (carried a aux tr bd c)) with (c_leading_zeros E a c).
  change (a_options (restated a aux tr bd)) with (a_options a). rewrite Hg.
  change (step_3 E (restated a aux tr bd) p d (carried a aux tr bd c)) with (step_3 E a p d c).
  change (step_4 E (restated a aux tr bd) p d (carried a aux tr bd c)) with (step_4 E a p d c).
  rewrite H3, H4. cbn [obind negb].
  set (sh := boundary_shift _ _ _ _ _ _).
  assert (H2' : step_2 E (restated a aux tr bd) p d (carried a aux tr bd c) = Ok (feqb sh 0)).
  { unfold step_2 in *. cbn [restated a_boundary a_transition a_degree_bound a_trace_length carried c_rap c_z c_boundary_coeffs c_transition_coeffs].
    rewrite Hb in H2. rewrite Hb'. cbn [obind] in *.
    ok_as H2 adj Hadj. rewrite Hadj. cbn [obind]. apply usub_inv in Hadj. destruct Hadj as [_ Eadj].
    ok_as H2 bv Hbv. apply (boundary_ood_shift HE bcs bcs' _ _ _ _ _ _ Hc) in Hbv. rewrite Hbv. cbn [obind].
    ok_as H2 evals Hev. rewrite Htr, Hev. cbn [obind]. ok_as H2 lr Hlr. rewrite Hlr. cbn [obind].
    ok_as H2 tv Htv. change (transition_ood E (restated a aux tr bd)) with (transition_ood E a). rewrite Htv. cbn [obind].
    apply ok_inj in H2. apply (feqb_spec E HK) in H2. rewrite H2. unfold sh. rewrite <- Eadj. set (s := boundary_shift _ _ _ _ _ _). f_equal.
    destruct (feqb s 0) eqn:Es.
    - apply (feqb_spec E HK) in Es. rewrite Es. apply (feqb_spec E HK). ring.
    - apply not_true_iff_false. intro X. apply (feqb_spec E HK) in X. apply not_true_iff_false in Es. apply Es, (feqb_spec E HK).
      transitivity ((bv + s + tv) - (bv + tv)); [ring|]. rewrite <- X. ring. }
  rewrite H2'. cbn [obind]. destruct (feqb sh 0); reflexivity.
Qed.

Lemma shift_cons (g z : E) adj bc bcs bc' bcs' coeffs : (bc_step bc = bc_step bc') ->
  boundary_shift g z adj (bc :: bcs) (bc' :: bcs') coeffs = (bc_value bc - bc_value bc') * weight g z adj (bc_step bc) coeffs 0 + boundary_shift g z adj bcs bcs' (tl coeffs).
Proof using HE.
  intros _. unfold boundary_shift, weight. destruct coeffs as [|[al be] coeffs]; cbn [combine map nth_error tl].
  - rewrite !combine_none. cbn [map fsum fold_right]. unfold fsum. cbn. ring.
  - rewrite fsum_cons. ring.
Qed.
Lemma shift_nil (g z : E) adj coeffs : boundary_shift g z adj [] [] coeffs = 0.
Proof. reflexivity. Qed.
Lemma weight_tl (g z : E) adj step coeffs j : weight g z adj step (tl coeffs) j = weight g z adj step coeffs (S j).
Proof. unfold weight. destruct coeffs as [|c coeffs]; [now destruct j|reflexivity]. Qed.

(** A single changed value. *)
Lemma shift_same (g z : E) adj bcs : forall bcs' coeffs, map bc_value bcs = map bc_value bcs' -> boundary_shift g z adj bcs bcs' coeffs = 0.
Proof using HE.
  induction bcs as [|bc bcs IH]; intros [|bc' bcs'] coeffs H; try discriminate H; [reflexivity|]. cbn [map] in H. injection H as Hv H.
  unfold boundary_shift. destruct coeffs as [|[al be] coeffs]; [reflexivity|]. cbn [combine map]. rewrite fsum_cons. fold (boundary_shift g z adj bcs bcs' coeffs).
  rewrite IH by exact H. rewrite Hv. ring.
Qed.
Lemma shift_single (g z : E) adj bcs : forall bcs' coeffs j bc al be, length bcs = length bcs' ->
  (forall i, i <> j -> nth i (map bc_value bcs) 0 = nth i (map bc_value bcs') 0) -> nth_error bcs j = Some bc -> nth_error coeffs j = Some (al, be) ->
  boundary_shift g z adj bcs bcs' coeffs = (nth j (map bc_value bcs) 0 - nth j (map bc_value bcs') 0) * finv (z - fpow g (bc_step bc)) * (al * fpow z adj + be).
Proof using HE.
  induction bcs as [|b bcs IH]; intros [|b' bcs'] coeffs j bc al be L Hi Hb Hc; try discriminate L; [now destruct j|].
  destruct coeffs as [|[al' be'] coeffs]; [now destruct j|]. unfold boundary_shift. cbn [combine map]. rewrite fsum_cons. fold (boundary_shift g z adj bcs bcs' coeffs).
  destruct j as [|j].
  - cbn in Hb, Hc. injection Hb as ->. injection Hc as -> ->. rewrite (shift_same g z adj bcs bcs' coeffs); [cbn [nth]; ring|].
    apply (nth_ext _ _ 0 0); [rewrite !map_length; now injection L|]. intros n _. exact (Hi (S n) ltac:(discriminate)).
  - cbn [nth_error] in Hb, Hc. rewrite (IH bcs' coeffs j bc al be); [|now injection L| |exact Hb|exact Hc].
    + cbn [nth]. pose proof (Hi O ltac:(discriminate)) as H0. cbn in H0. rewrite H0. ring.
    + intros i Hn. exact (Hi (S i) ltac:(congruence)).
Qed.
Lemma shift_single_zero (g z : E) adj bcs bcs' coeffs j bc al be : length bcs = length bcs' -> (forall bc, In bc bcs -> z <> fpow g (bc_step bc)) ->
  (forall i, i <> j -> nth i (map bc_value bcs) 0 = nth i (map bc_value bcs') 0) -> nth j (map bc_value bcs) 0 <> nth j (map bc_value bcs') 0 ->
  nth_error bcs j = Some bc -> nth_error coeffs j = Some (al, be) ->
  feqb (boundary_shift g z adj bcs bcs' coeffs) 0 = feqb (al * fpow z adj + be) 0.
Proof using HE.
  intros L Hz Hi Hj Hb Hc. rewrite (shift_single g z adj bcs bcs' coeffs j bc al be L Hi Hb Hc).
  assert (Nz : z - fpow g (bc_step bc) <> 0). { intro X. apply (Hz bc (nth_error_In _ _ Hb)). now apply (sub_zero HK). }
  set (w := al * fpow z adj + be). destruct (feqb w 0) eqn:Ew.
  - apply (feqb_spec E HK) in Ew. rewrite Ew. apply (feqb_spec E HK). ring.
  - apply not_true_iff_false. intro X. apply (feqb_spec E HK) in X. apply (mul_zero HK) in X. destruct X as [X|X].
    + apply (mul_zero HK) in X. destruct X as [X|X]; [apply Hj; now apply (sub_zero HK)|].
      apply (F_1_neq_0 (fld_th E HK)). transitivity ((z - fpow g (bc_step bc)) * finv (z - fpow g (bc_step bc))); [field; exact Nz|]. rewrite X. ring.
    + apply (feqb_spec E HK) in X. congruence.
Qed.
Lemma fib_verdicts fuel a0 a1 o (p : stark_proof E) : verify E fuel (fibonacci_air E a0 a1 o) o p = Ok true ->
  exists k0 k1 : E, forall b0 b1, verify E fuel (fibonacci_air E b0 b1 o) o p = Ok (feqb ((a0 - b0) * k0 + (a1 - b1) * k1) 0).
Proof using HE.
  intro H. destruct (other_verdicts fuel _ o p H) as (d & c & t & bcs & _ & _ & Hb & _ & _ & V). cbn [fibonacci_air a_boundary] in Hb. apply ok_inj in Hb. subst bcs.
  set (g := trace_primitive_root d) in *. set (z := c_z _ _ c) in *. set (co := c_boundary_coeffs _ _ c) in *. set (adj := (a_degree_bound _ - a_trace_length _)%nat) in *.
  exists (weight g z adj 0 co 0), (weight g z adj 1 co 1). intros b0 b1.
  rewrite (V (fibonacci_air E b0 b1 o) _ (a_transition (fibonacci_air E a0 a1 o (trace_length p))) (a_boundary (fibonacci_air E b0 b1 o (trace_length p))) [mk_bc 0%nat 0%nat b0; mk_bc 0%nat 1%nat b1] eq_refl (fun _ => eq_refl) eq_refl (conj eq_refl eq_refl)).
  rewrite !shift_cons by reflexivity. rewrite shift_nil. cbn [bc_value bc_step]. rewrite weight_tl.
  f_equal. f_equal. ring.
Qed.
(** Two unknowns, one equation: there is another solution. *)
Lemma line_has_more (a0 a1 k0 k1 : E) : exists b0 b1, (b0, b1) <> (a0, a1) /\ (a0 - b0) * k0 + (a1 - b1) * k1 = 0.
Proof using HE.
  destruct (feqb k0 0) eqn:E0.
  - apply (feqb_spec E HK) in E0. subst k0. exists (a0 + 1), a1. split; [|ring]. intro X. injection X as X.
    apply (F_1_neq_0 (fld_th E HK)). transitivity (a0 + 1 - a0); [ring|]. rewrite X. ring.
  - exists (a0 - k1), (a1 + k0). split; [|ring]. intro X. injection X as _ X. apply not_true_iff_false in E0. apply E0, (feqb_spec E HK).
    transitivity (a1 + k0 - a1); [ring|]. rewrite X. ring.
Qed.
End Verdict.

Section Cairo.
Context {C : cairo_env} (HE : env_ok C).
Let HK : field_ok C := fft_field_ok C (e_fft_ok C HE).
Add Field Kfield84 : (fld_th C HK).

Lemma fold_cells (alpha z : C) (l : list (C * C)) : forall acc, fold_left (fun product av => product * (z - (fst av + alpha * snd av))) l acc = acc * cells_product alpha z l.
Proof using HE.
  induction l as [|e l IH]; intro acc; cbn [fold_left]; [unfold cells_product; cbn [map fprod fold_right]; unfold fprod; cbn; ring|]. rewrite IH. unfold cells_product, fprod. cbn [map fold_right]. ring.
Qed.
Lemma one_mul (x : C) : 1 * x = x.
Proof using HE. ring. Qed.
Lemma cairo_one_change fuel (p : stark_proof C) pi opts : let a := cairo_air pi opts (trace_length p) in verify_cairo_proof fuel p pi opts = Ok true ->
  exists d c t, domain_new a = Ok d /\ step_1 C fuel a p d tr_new = Ok (c, t) /\ length (c_boundary_coeffs C a c) = 8%nat /\
  let alpha := alpha_memory (c_rap C a c) in let z := z_memory (c_rap C a c) in
  forall pi' lo hi lo' hi' j, has_rc_builtin pi' = has_rc_builtin pi -> num_steps pi' = num_steps pi ->
    range_check_min pi = Some lo -> range_check_max pi = Some hi -> range_check_min pi' = Some lo' -> range_check_max pi' = Some hi' ->
    cells_product alpha z (public_memory pi') <> 0 -> (j < 8)%nat ->
    (forall i, i <> j -> nth i (claims pi alpha z lo hi) 0 = nth i (claims pi' alpha z lo' hi') 0) -> nth j (claims pi alpha z lo hi) 0 <> nth j (claims pi' alpha z lo' hi') 0 ->
    verify_cairo_proof fuel p pi' opts = Ok (feqb (fst (nth j (c_boundary_coeffs C a c) (0, 0)) * fpow (c_z C a c) (trace_length p) + snd (nth j (c_boundary_coeffs C a c) (0, 0))) 0).
Proof using HE.
  intros a H. destruct (other_verdicts HE fuel _ opts p H) as (d & c & t & bcs & Hd & Hst & Hb & Lc & Hz & V). cbn [cairo_air a_boundary a_trace_length] in Hb. fold a in Hd, Hst.
  exists d, c, t. split; [exact Hd|]. split; [exact Hst|]. change (cairo_air pi opts (trace_length p)) with a in c.
  set (ch := c_rap C a c) in *.
  unfold cairo_boundary in Hb. ok_as Hb ls Els. ok_as Hb fi Efi. ok_as Hb cp Ecp. ok_as Hb lo0 Elo. ok_as Hb hi0 Ehi. apply ok_inj in Hb.
  assert (L8 : length bcs = 8%nat) by (rewrite <- Hb; reflexivity). rewrite L8 in Lc. split; [exact Lc|].
  rewrite fold_cells, one_mul in Ecp. apply (inv_o_ok HK) in Ecp. destruct Ecp as [Hnz Ecp].
  intros alpha z pi' lo hi lo' hi' j Hs Hn Hlo Hhi Hlo' Hhi' Hnz' Hj8 Hsame Hdiff.
  rewrite Hlo in Elo. cbn in Elo. apply ok_inj in Elo. subst lo0. rewrite Hhi in Ehi. cbn in Ehi. apply ok_inj in Ehi. subst hi0. subst cp.
  match type of Hb with ?l = _ => set (bl := l) in *; assert (Hvals : map bc_value bl = claims pi alpha z lo hi) by reflexivity end. subst bcs.
  pose (bl' := [mk_bc MEM_A_TRACE_OFFSET 0%nat (pc_init pi'); mk_bc MEM_P_TRACE_OFFSET 0%nat (ap_init pi');
      mk_bc MEM_A_TRACE_OFFSET ls (pc_final pi'); mk_bc MEM_P_TRACE_OFFSET ls (ap_final pi');
      mk_bc (PERMUTATION_ARGUMENT_COL_3 - builtin_offset pi)%nat fi (fpow z (length (public_memory pi')) * finv (cells_product alpha z (public_memory pi')));
      mk_bc (PERMUTATION_ARGUMENT_RANGE_CHECK_COL_3 - builtin_offset pi)%nat fi 1;
      mk_bc (RANGE_CHECK_COL_1 - builtin_offset pi)%nat 0%nat (e_u64 C lo'); mk_bc (RANGE_CHECK_COL_3 - builtin_offset pi)%nat fi (e_u64 C hi')]).
  assert (Hvals' : map bc_value bl' = claims pi' alpha z lo' hi') by reflexivity.
  assert (Hb' : cairo_boundary pi' (trace_length p) ch = Ok bl').
  { unfold cairo_boundary. rewrite Hn, Els. cbn [obind]. rewrite Efi. cbn [obind]. rewrite fold_cells, one_mul.
    rewrite (proj2 (inv_o_ok HK (cells_product (alpha_memory ch) (z_memory ch) (public_memory pi')) _) (conj Hnz' eq_refl)). cbn [obind]. rewrite Hlo', Hhi'. cbn [unwrap obind]. unfold builtin_offset. rewrite Hs. reflexivity. }
  unfold verify_cairo_proof.
  assert (Em : cairo_air pi' opts (trace_length p) = restated a (cairo_build_aux pi') (cairo_transition pi') (cairo_boundary pi' (trace_length p))).
  { unfold restated, a, cairo_air. cbn. unfold cairo_context. rewrite Hs. reflexivity. }
  assert (Ht : forall fr, cairo_transition pi' fr ch = a_transition a fr ch).
  { intro fr. unfold a. cbn [cairo_air a_transition]. unfold cairo_transition, cairo_constraints, builtin_offset. rewrite Hs. reflexivity. }
  rewrite (V (cairo_air pi' opts) _ _ _ _ Em Ht Hb' (conj eq_refl eq_refl)). f_equal.
  destruct (nth_error (c_boundary_coeffs C a c) j) as [[al be]|] eqn:Ec; [|apply nth_error_None in Ec; pose proof (Lc : length (c_boundary_coeffs C a c) = 8%nat) as Lc'; lia].
  destruct (nth_error bl j) as [bc|] eqn:Ebc; [|apply nth_error_None in Ebc; cbn in Ebc; lia].
  rewrite (nth_error_nth _ _ _ Ec). cbn [fst snd].
  pose proof (shift_single_zero HE (trace_primitive_root d) (c_z C a c) (a_degree_bound a - a_trace_length a) bl bl' (c_boundary_coeffs C a c) j bc al be eq_refl Hz) as X.
  rewrite Hvals, Hvals' in X. specialize (X Hsame Hdiff Ebc Ec).
  replace (a_degree_bound a - a_trace_length a)%nat with (trace_length p) in X by (unfold a; cbn [cairo_air a_degree_bound a_trace_length]; lia).
  etransitivity; [|exact X]. f_equal. unfold a. cbn [cairo_air a_degree_bound a_trace_length]. f_equal. lia.
Qed.
Lemma cairo_verdicts fuel (p : stark_proof C) pi opts : verify_cairo_proof fuel p pi opts = Ok true ->
  exists alpha z lo hi (k : nat -> C), range_check_min pi = Some lo /\ range_check_max pi = Some hi /\ cells_product alpha z (public_memory pi) <> 0 /\
  forall pi' lo' hi', has_rc_builtin pi' = has_rc_builtin pi -> num_steps pi' = num_steps pi -> range_check_min pi' = Some lo' -> range_check_max pi' = Some hi' ->
    cells_product alpha z (public_memory pi') <> 0 ->
    verify_cairo_proof fuel p pi' opts = Ok (feqb (claims_differ pi pi' alpha z lo hi lo' hi' k) 0).
Proof using HE.
  intro H. destruct (other_verdicts HE fuel _ opts p H) as (d & c & t & bcs & Hd & Hst & Hb & Lc & Hz & V). cbn [cairo_air a_boundary a_trace_length] in Hb.
  set (ch := c_rap _ _ c) in *.
  unfold cairo_boundary in Hb. ok_as Hb ls Els. ok_as Hb fi Efi. ok_as Hb cp Ecp. ok_as Hb lo Elo. ok_as Hb hi Ehi. apply ok_inj in Hb.
  assert (Elo' : range_check_min pi = Some lo) by (destruct (range_check_min pi); [cbn in Elo; now apply ok_inj in Elo; subst|discriminate Elo]).
  assert (Ehi' : range_check_max pi = Some hi) by (destruct (range_check_max pi); [cbn in Ehi; now apply ok_inj in Ehi; subst|discriminate Ehi]).
  rewrite fold_cells, one_mul in Ecp. apply (inv_o_ok HK) in Ecp. destruct Ecp as [Hnz Ecp].
  set (g := trace_primitive_root d) in *. set (zz := c_z _ _ c) in *. set (co := c_boundary_coeffs _ _ c) in *. set (adj := (a_degree_bound _ - a_trace_length _)%nat) in *.
  exists (alpha_memory ch), (z_memory ch), lo, hi, (fun j => weight g zz adj (nth j [0; 0; ls; ls; fi; fi; 0; fi]%nat 0%nat) co j).
  split; [exact Elo'|]. split; [exact Ehi'|]. split; [exact Hnz|].
  intros pi' lo' hi' Hs Hn Hlo Hhi Hnz'. subst bcs cp.
  assert (Hb' : cairo_boundary pi' (trace_length p) ch = Ok [mk_bc MEM_A_TRACE_OFFSET 0%nat (pc_init pi'); mk_bc MEM_P_TRACE_OFFSET 0%nat (ap_init pi');
      mk_bc MEM_A_TRACE_OFFSET ls (pc_final pi'); mk_bc MEM_P_TRACE_OFFSET ls (ap_final pi');
      mk_bc (PERMUTATION_ARGUMENT_COL_3 - builtin_offset pi)%nat fi (fpow (z_memory ch) (length (public_memory pi')) * finv (cells_product (alpha_memory ch) (z_memory ch) (public_memory pi')));
      mk_bc (PERMUTATION_ARGUMENT_RANGE_CHECK_COL_3 - builtin_offset pi)%nat fi 1;
      mk_bc (RANGE_CHECK_COL_1 - builtin_offset pi)%nat 0%nat (e_u64 C lo'); mk_bc (RANGE_CHECK_COL_3 - builtin_offset pi)%nat fi (e_u64 C hi')]).
  { unfold cairo_boundary. rewrite Hn, Els. cbn [obind]. rewrite Efi. cbn [obind]. rewrite fold_cells, one_mul.
    rewrite (proj2 (inv_o_ok HK _ _) (conj Hnz' eq_refl)). cbn [obind]. rewrite Hlo, Hhi. cbn [unwrap obind]. unfold builtin_offset. rewrite Hs. reflexivity. }
  unfold verify_cairo_proof.
  assert (Em : cairo_air pi' opts (trace_length p) = restated (cairo_air pi opts (trace_length p)) (cairo_build_aux pi') (cairo_transition pi') (cairo_boundary pi' (trace_length p))).
  { unfold restated, cairo_air. cbn. unfold cairo_context. rewrite Hs. reflexivity. }
  assert (Ht : forall fr, cairo_transition pi' fr ch = a_transition (cairo_air pi opts (trace_length p)) fr ch).
  { intro fr. cbn [cairo_air a_transition]. unfold cairo_transition, cairo_constraints, builtin_offset. rewrite Hs. reflexivity. }
  rewrite (V (cairo_air pi' opts) _ _ _ _ Em Ht Hb' (conj eq_refl eq_refl)).
  rewrite !(shift_cons HE) by reflexivity. rewrite shift_nil. cbn [bc_value bc_step nth]. rewrite !weight_tl.
  f_equal. f_equal. unfold claims_differ, memory_claim. cbn [nth]. ring.
Qed.
End Cairo.

Section Ends.
Context {C : cairo_env} {p : N} (HC : cairo_ok C p).
Let HE : env_ok C := co_env _ _ HC.
Let HK : field_ok C := fft_field_ok C (e_fft_ok C HE).
Add Field Kfield85 : (fld_th C HK).

Lemma ends_verdicts fuel (q : stark_proof C) pi opts : verify_cairo_proof fuel q pi opts = Ok true ->
  exists k2 k3 : C, forall pc ap, verify_cairo_proof fuel q (with_ends pi pc ap) opts = Ok (feqb ((pc_final pi - pc) * k2 + (ap_final pi - ap) * k3) 0).
Proof using HC.
  intro H. destruct (cairo_verdicts HE fuel q pi opts H) as (alpha & z & lo & hi & k & Hlo & Hhi & Hnz & V).
  exists (k 2%nat), (k 3%nat). intros pc ap. rewrite (V (with_ends pi pc ap) lo hi eq_refl eq_refl Hlo Hhi Hnz). f_equal. f_equal.
  unfold claims_differ, with_ends. cbn [pc_init ap_init pc_final ap_final public_memory]. ring.
Qed.
Lemma two_64_no_word : no_word (e_u64 C (2 ^ 64)).
Proof using HC. intros w Hw X. pose proof (co_p _ _ HC) as Hp. apply (u64_inj HC) in X; lia. Qed.
Lemma impossible_ends fuel (q : stark_proof C) pi opts : verify_cairo_proof fuel q pi opts = Ok true ->
  exists pc ap, (no_word pc \/ no_word ap) /\ verify_cairo_proof fuel q (with_ends pi pc ap) opts = Ok true.
Proof using HC.
  intro H. destruct (ends_verdicts fuel q pi opts H) as (k2 & k3 & V). destruct (feqb k3 0) eqn:E3.
  - apply (feqb_spec C HK) in E3. subst k3. exists (pc_final pi), (e_u64 C (2 ^ 64)). split; [right; exact two_64_no_word|]. rewrite V. f_equal. apply (feqb_spec C HK). ring.
  - assert (N3 : k3 <> 0) by (intro X; apply (feqb_spec C HK) in X; congruence).
    exists (e_u64 C (2 ^ 64)), (ap_final pi + (pc_final pi - e_u64 C (2 ^ 64)) * k2 * finv k3). split; [left; exact two_64_no_word|].
    rewrite V. f_equal. apply (feqb_spec C HK). field. exact N3.
Qed.
End Ends.
