(** C97: tables whose offsets are not in the claimed range. *)
From Coq Require Import List Arith Lia Bool NArith ZArith Permutation.
From Verif.Base Require Import Outcome Bytes Field Poly Zp.
From Verif.Model Require Import Codec Trace Merkle Air Transcript Domain Options Fri Evaluator Prover Verifier PublicInputs CairoDecode CairoTrace CairoAir CairoRunner.
From Verif.Spec Require Import AirSpec ExampleSpec CairoSpec CairoRun CairoStatement Forgery CairoColumns ProvingSpec ProverLog OodSpec Rounds WrongTable Contradiction Dropped Offsets.
From Verif.Proofs Require Import OutcomeFacts FieldFacts PolyFacts FFTFacts TraceFacts MultisetFacts WalkFacts CpuFacts SortFacts SortedFacts MainTraceFacts MainColsFacts AuxFacts HonestAux HonestAccess HonestRun CairoAirFacts CairoForge CairoAdmissible StarkFieldFacts.
From Verif.Examples Require Import Stark252 MiniRun Calm.
From Verif.Properties Require Import OodProperties CairoForgeryProperties WrongTableProperties ContradictionProperties DroppedProperties.
Import ListNotations.
Local Open Scope felt_scope.

Section Sorted.
Context {C : cairo_env} {p : N} (HC : cairo_ok C p).
Let HE : env_ok C := co_env _ _ HC.
Let HK : field_ok C := fft_field_ok _ (e_fft_ok _ HE).
Add Field Kfield91 : (fld_th C HK).

(** The sorted offsets of the completed table. *)
Lemma offset_lists (pi : public_inputs C) (t : trace_table C) n main ch aux acols :
  has_columns t n main -> length main = (43 - builtin_offset pi)%nat -> cairo_build_aux pi t ch = Ok aux -> has_columns aux n acols ->
  exists l, length l = (3 * n)%nat /\ ascending (fun x : N => x) l /\ Permutation l (map low16 (offsets_of main n)) /\
    (forall k, (k < 3 * n)%nat -> sorted_offset pi (main ++ acols) k = e_u64 C (nth k l 0%N)) /\
    ((0 < n)%nat -> (rc_product pi (main ++ acols) (3 * n - 1) = 1 <-> pass_as_low (offsets_of main n) (z_range_check ch)) /\
       running (sorted_offset pi (main ++ acols)) (offset_cell (main ++ acols)) (rc_product pi (main ++ acols)) (z_range_check ch) (3 * n) /\
       (z_range_check ch - sorted_offset pi (main ++ acols) 0) * rc_product pi (main ++ acols) 0 = z_range_check ch - offset_cell (main ++ acols) 0).
Proof using HC.
  intros Hm Lm Ha Hac. destruct (aux_full HC pi t n main ch aux acols Hm Lm Ha Hac) as (rows & pub & Lr & Hpub & HL & _ & Hrz & Ec & _ & Eoff).
  assert (Ls : length (sorted_u16s rows) = (3 * n)%nat) by (unfold sorted_u16s; rewrite sort_by_length, map_length, off_cells_length; lia).
  assert (Eo : cells OFF_COLUMNS rows = offsets_of main n).
  { apply (nth_ext _ _ 0 0); unfold offsets_of; rewrite off_cells_length, ?map_length, ?seq_length, Lr; [reflexivity|]. intros k Hk. rewrite Eoff, nth_map_seq by lia. reflexivity. }
  assert (Pl : Permutation (sorted_u16s rows) (map low16 (offsets_of main n))) by (unfold sorted_u16s; rewrite sort_by_perm, Eo; reflexivity).
  assert (En : forall k, (k < 3 * n)%nat -> nth k (rc_sorted rows) 0 = e_u64 C (nth k (sorted_u16s rows) 0%N)).
  { intros k Hk. unfold rc_sorted. rewrite (nth_indep _ 0 (e_u64 C 0)) by (rewrite map_length; lia). apply map_nth. }
  exists (sorted_u16s rows). split; [exact Ls|]. split; [apply sort_by_ascending|]. split; [exact Pl|]. split.
  - intros k Hk. rewrite Ec, (read_sorted_offset pi rows pub ch _ eq_refl) by lia. apply En. exact Hk.
  - intro Hn. set (zr := z_range_check ch) in *. set (so := sorted_offset pi (main ++ acols)). set (oc := offset_cell (main ++ acols)). set (g := rc_product pi (main ++ acols)).
    assert (Hs : forall k, (k < 3 * n)%nat -> (zr - so k) * g k = (zr - oc k) * match k with O => 1 | S k' => g k' end).
    { intros k Hk. pose proof (rc_column_step HC ch (cells OFF_COLUMNS rows) (rc_sorted rows) k) as S. rewrite off_cells_length, rc_sorted_length, Lr in S. specialize (S eq_refl Hk Hrz).
      unfold so, oc, g. rewrite Ec. rewrite (read_sorted_offset pi rows pub ch _ eq_refl), (read_offset pi rows pub ch _ eq_refl), (read_rc_product pi rows pub ch _ eq_refl) by lia.
      destruct k as [|k]; [|rewrite (read_rc_product pi rows pub ch _ eq_refl) by lia]; fold zr in S;
      rewrite (Rmul_comm (F_R (fld_th C HK))), S; apply (Rmul_comm (F_R (fld_th C HK))). }
    assert (Hr : running so oc g zr (3 * n)). { intros k Hk. rewrite Hs by exact Hk. rewrite Nat.add_comm. cbn [Nat.add]. ring. }
    assert (Hq : (zr - so 0%nat) * g 0%nat = zr - oc 0%nat) by (rewrite Hs by lia; ring).
    pose proof (running_products HC so oc g zr (3 * n) Hr Hq (3 * n - 1) ltac:(lia)) as P. replace (S (3 * n - 1)) with (3 * n)%nat in P by lia.
    assert (E1 : upto so (3 * n) = rc_sorted rows).
    { apply upto_list; [rewrite rc_sorted_length; lia|]. intros i Hi. unfold so. rewrite Ec. apply read_sorted_offset; [reflexivity|lia]. }
    assert (E2 : upto oc (3 * n) = offsets_of main n).
    { rewrite <- Eo. apply upto_list; [rewrite off_cells_length; lia|]. intros i Hi. unfold oc. rewrite Ec. apply (read_offset pi); [reflexivity|lia]. }
    assert (Pr : Permutation (rc_sorted rows) (map (fun x => e_u64 C (low16 x)) (offsets_of main n))).
    { unfold rc_sorted. rewrite Pl, map_map. reflexivity. }
    rewrite E1, E2 in P. assert (V : vanish (rc_sorted rows) zr <> 0). { intro Z. apply (vanish_zero HK) in Z. apply (Hrz _ Z). ring. }
    unfold pass_as_low. change (fprod (map (fun x => zr - x) (offsets_of main n))) with (vanish (offsets_of main n) zr).
    assert (El : fprod (map (fun x => zr - e_u64 C (low16 x)) (offsets_of main n)) = vanish (rc_sorted rows) zr).
    { rewrite (vanish_permutation HK _ _ zr Pr). unfold vanish. now rewrite map_map. }
    split; [|split; [exact Hr|exact Hq]]. rewrite El, <- P. split; [intros ->; ring|]. intro H. apply (mul_cancel_l HK _ _ _ V). transitivity (g (3 * n - 1)%nat * vanish (rc_sorted rows) zr); [ring|]. rewrite H. ring.
Qed.

Lemma low16_repr (x : N) : (x < 2 ^ 16)%N -> ce_repr (e_u64 C x) = x.
Proof using HC. intro H. rewrite (co_repr_u64 _ _ HC). apply N.mod_small. pose proof (co_p _ _ HC). assert (2 ^ 16 < 2 ^ 65)%N by reflexivity. lia. Qed.
Lemma low16_lt (x : C) : (low16 x < 2 ^ 16)%N.
Proof using Type. apply N.mod_lt. discriminate. Qed.
Lemma in_low16_lt l x : In x (map (low16 (C:=C)) l) -> (x < 2 ^ 16)%N.
Proof using Type. intro H. apply in_map_iff in H. destruct H as (y & <- & _). apply low16_lt. Qed.

Lemma first_least l m lo : (0 < length l)%nat -> ascending (fun x : N => x) l -> Permutation l m -> nth 0 l 0%N = lo <-> (0 < length l)%nat /\ least lo m.
Proof using Type.
  intros Hn As Pm. split.
  - intros <-. split; [exact Hn|]. split; [apply (Permutation_in _ Pm), nth_In; exact Hn|]. intros x Hx. apply (Permutation_in _ (Permutation_sym Pm)) in Hx. apply (In_nth _ _ 0%N) in Hx.
    destruct Hx as (j & Hj & <-). apply (ascending_nth (fun x : N => x) l 0%N 0 j As). lia.
  - intros [_ [H1 H2]]. apply (ascending_first (fun x : N => x) l lo 0%N As); [exists lo; split; [apply (Permutation_in _ (Permutation_sym Pm)); exact H1|reflexivity]|].
    intros x Hx. apply H2. apply (Permutation_in _ Pm). exact Hx.
Qed.
Lemma last_greatest l m hi : (0 < length l)%nat -> ascending (fun x : N => x) l -> Permutation l m -> nth (length l - 1) l 0%N = hi <-> greatest hi m.
Proof using Type.
  intros Hn As Pm. split.
  - intros <-. split; [apply (Permutation_in _ Pm), nth_In; lia|]. intros x Hx. apply (Permutation_in _ (Permutation_sym Pm)) in Hx. apply (In_nth _ _ 0%N) in Hx.
    destruct Hx as (j & Hj & <-). apply (ascending_nth (fun x : N => x) l 0%N j (length l - 1) As). lia.
  - intros [H1 H2]. apply (ascending_last (fun x : N => x) l hi 0%N As); [exists hi; split; [apply (Permutation_in _ (Permutation_sym Pm)); exact H1|reflexivity]|].
    intros x Hx. apply H2. apply (Permutation_in _ Pm). exact Hx.
Qed.

Lemma climb_offsets (pi : public_inputs C) ch cols n l (Hl : length l = (3 * n)%nat) (As : ascending (fun x : N => x) l) (Hlt : forall x, In x l -> (x < 2 ^ 16)%N)
    (Hr : forall k, (k < 3 * n)%nat -> sorted_offset pi cols k = e_u64 C (nth k l 0%N)) (Ht : forall j, (43 <= j < 46)%nat -> holds pi ch cols n j) i m h :
  (i + m < 3 * n)%nat -> (nth i l 0 < h < nth (i + m) l 0)%N -> In h l.
Proof using HC.
  induction m as [|m IH]; intros Hi Hh; [rewrite Nat.add_0_r in Hh; lia|].
  destruct (N.lt_trichotomy h (nth (i + m) l 0%N)) as [L|[E|L]]; [apply IH; lia|rewrite E; apply nth_In; lia|]. exfalso.
  pose proof (offset_step pi ch cols n (i + m) Ht ltac:(lia)) as G. rewrite !Hr in G by lia. replace (i + m + 1)%nat with (i + S m)%nat in G by lia.
  assert (B : (nth (i + S m) l 0 < 2 ^ 16)%N) by (apply Hlt, nth_In; lia).
  set (x := nth (i + m) l 0%N) in *. set (y := nth (i + S m) l 0%N) in *.
  apply (mul_zero HK) in G. destruct G as [G|G].
  - apply (proj1 (sub_zero HK _ _)) in G. apply (f_equal ce_repr) in G. rewrite !low16_repr in G by lia. lia.
  - assert (Ey : e_u64 C y = e_u64 C (x + 1)).
    { rewrite (co_add _ _ HC), (co_one _ _ HC). apply (proj1 (sub_zero HK _ _)). rewrite <- G. ring. }
    apply (f_equal ce_repr) in Ey. rewrite !low16_repr in Ey by lia. lia.
Qed.
End Sorted.

(** ** C97 *)

(** The auxiliary columns that the prover builds meet the boundary constraints on the ends of the sorted offsets exactly if the
    claimed bounds are the least and the greatest low half-word of an offset, whatever the challenges; and the one on the last
    running product exactly if for the drawn challenge the offsets cannot be told from their low sixteen bits. *)
Theorem C97_end_constraints :
  forall (C : cairo_env) p, cairo_ok C p -> forall (pi : public_inputs C) opts n (t : trace_table C) main ch aux acols bcs lo hi, (0 < n)%nat ->
  has_columns t n main -> length main = (43 - builtin_offset pi)%nat -> range_check_min pi = Some lo -> range_check_max pi = Some hi -> (lo < 2 ^ 16)%N -> (hi < 2 ^ 16)%N ->
  cairo_build_aux pi t ch = Ok aux -> has_columns aux n acols -> a_boundary (cairo_air pi opts n) ch = Ok bcs ->
  exists b5 b6 b7, nth_error bcs 5 = Some b5 /\ nth_error bcs 6 = Some b6 /\ nth_error bcs 7 = Some b7 /\ (bc_step b5 < n)%nat /\ (bc_step b6 < n)%nat /\ (bc_step b7 < n)%nat /\
  let met bc := nth (bc_step bc) (nth (bc_col bc) (main ++ acols) []) 0 = bc_value bc in
  (met b5 <-> pass_as_low (offsets_of main n) (z_range_check ch)) /\
  (met b6 <-> least lo (map low16 (offsets_of main n))) /\ (met b7 <-> greatest hi (map low16 (offsets_of main n))).
Proof.
  intros C p HC pi opts n t main ch aux acols bcs lo hi Hn Hm Lm Elo Ehi Blo Bhi Ha Hac Hbcs. pose proof (SortedFacts.offset_le pi) as Ho.
  destruct (offset_lists HC pi t n main ch aux acols Hm Lm Ha Hac) as (l & Ll & As & Pl & Hr & Hg). destruct (Hg Hn) as [Hg1 _]. clear Hg. rename Hg1 into Hg.
  assert (Bl : forall x, In x l -> (x < 2 ^ 16)%N) by (intros x Hx; apply (in_low16_lt (offsets_of main n)), (Permutation_in _ Pl), Hx).
  cbn [cairo_air a_boundary] in Hbcs. unfold cairo_boundary in Hbcs. ok_as Hbcs ls Hls. ok_as Hbcs fi Hfi. ok_as Hbcs cp Hcp. rewrite Elo, Ehi in Hbcs. cbn [unwrap obind] in Hbcs. apply ok_inj in Hbcs. subst bcs.
  assert (Ef : fi = (n - 1)%nat) by (unfold usub in Hfi; destruct (n <? 1)%nat; [discriminate|apply ok_inj in Hfi; now symmetry]). subst fi.
  cbn [nth_error]. do 3 eexists. do 3 (split; [reflexivity|]). cbn [bc_step bc_col bc_value]. do 3 (split; [lia|]).
  assert (E5 : rc_product pi (main ++ acols) (3 * n - 1) = nth (n - 1) (nth (PERMUTATION_ARGUMENT_RANGE_CHECK_COL_3 - builtin_offset pi) (main ++ acols) []) 0).
  { unfold rc_product. replace (3 * n - 1)%nat with (3 * (n - 1) + 2)%nat by lia. rewrite flat_at by lia. unfold cell. f_equal. f_equal.
    unfold PERMUTATION_ARGUMENT_RANGE_CHECK_COL_1, PERMUTATION_ARGUMENT_RANGE_CHECK_COL_3. lia. }
  assert (E6 : sorted_offset pi (main ++ acols) 0 = nth 0 (nth (RANGE_CHECK_COL_1 - builtin_offset pi) (main ++ acols) []) 0).
  { pose proof (flat_at (main ++ acols) (RANGE_CHECK_COL_1 - builtin_offset pi) 3 0 0 ltac:(lia)) as H. rewrite Nat.mul_0_r, !Nat.add_0_r in H. exact H. }
  assert (E7 : sorted_offset pi (main ++ acols) (3 * n - 1) = nth (n - 1) (nth (RANGE_CHECK_COL_3 - builtin_offset pi) (main ++ acols) []) 0).
  { unfold sorted_offset. replace (3 * n - 1)%nat with (3 * (n - 1) + 2)%nat by lia. rewrite flat_at by lia. unfold cell. f_equal. f_equal. unfold RANGE_CHECK_COL_1, RANGE_CHECK_COL_3. lia. }
  assert (Q : forall x y, (x < 2 ^ 16)%N -> (y < 2 ^ 16)%N -> (e_u64 C x = e_u64 C y <-> x = y)).
  { intros x y Hx Hy. split; [|now intros ->]. intro H. apply (f_equal ce_repr) in H. rewrite !(low16_repr HC) in H by assumption. exact H. }
  cbv beta. split; [|split].
  - cbn [bc_step bc_col bc_value]. match goal with |- (?x = _) <-> _ => replace x with (rc_product pi (main ++ acols) (3 * n - 1)) by exact E5 end. exact Hg.
  - cbn [bc_step bc_col bc_value]. match goal with |- (?x = _) <-> _ => replace x with (sorted_offset pi (main ++ acols) 0) by exact E6 end.
    rewrite Hr, Q by (try lia; try assumption; apply Bl, nth_In; lia). rewrite (first_least l _ lo ltac:(lia) As Pl). intuition lia.
  - cbn [bc_step bc_col bc_value]. match goal with |- (?x = _) <-> _ => replace x with (sorted_offset pi (main ++ acols) (3 * n - 1)) by exact E7 end.
    rewrite Hr, Q by (try lia; try assumption; apply Bl, nth_In; lia). rewrite <- Ll. apply (last_greatest l _ hi ltac:(lia) As Pl).
Qed.
Print Assumptions C97_end_constraints.

(** A value between two of these half-words that is none of them: one of the three constraints that make the sorted offsets
    continuous is violated. *)
Theorem C97_missing_value_violates :
  forall (C : cairo_env) p, cairo_ok C p -> forall (pi : public_inputs C) opts n (t : trace_table C) main ch aux acols,
  has_columns t n main -> length main = (43 - builtin_offset pi)%nat -> missing_value (map low16 (offsets_of main n)) ->
  cairo_build_aux pi t ch = Ok aux -> has_columns aux n acols ->
  exists j, (RANGE_CHECK_INCREASING_0 <= j <= RANGE_CHECK_INCREASING_2)%nat /\ ~ constraint_holds (cairo_air pi opts n) ch (main ++ acols) n j.
Proof.
  intros C p HC pi opts n t main ch aux acols Hm Lm (x & y & h & Hx & Hy & Hh & Hno) Ha Hac.
  destruct (offset_lists HC pi t n main ch aux acols Hm Lm Ha Hac) as (l & Ll & As & Pl & Hr & _).
  assert (Bl : forall x, In x l -> (x < 2 ^ 16)%N) by (intros z Hz; apply (in_low16_lt (offsets_of main n)), (Permutation_in _ Pl), Hz).
  destruct (some_violated HC pi ch (main ++ acols) n 43 3) as (j & Hj & Hv).
  { intro Hall. apply Hno. apply (Permutation_in _ Pl). apply (Permutation_in _ (Permutation_sym Pl)) in Hx, Hy. apply (In_nth _ _ 0%N) in Hx, Hy.
    destruct Hx as (i & Hi & Ei), Hy as (k & Hk & Ek). rewrite Ll in Hi, Hk. rewrite <- Ei, <- Ek in Hh.
    destruct (Nat.le_ge_cases k i) as [L|L]; [pose proof (ascending_nth (fun x : N => x) l 0%N k i As ltac:(lia)) as G; cbv beta in G; lia|].
    apply (climb_offsets HC pi ch (main ++ acols) n l Ll As Bl Hr Hall i (k - i) h); [lia|]. replace (i + (k - i))%nat with k by lia. exact Hh. }
  exists j. split; [unfold RANGE_CHECK_INCREASING_0, RANGE_CHECK_INCREASING_2; lia|]. intro Hc. apply Hv.
  apply (cairo_constraint_holds pi opts ch (main ++ acols) n j (cairo_aux_width HC pi n t main ch aux acols Hm Lm Ha Hac)); [unfold n_constraints; destruct (has_rc_builtin pi); lia|exact Hc].
Qed.
Print Assumptions C97_missing_value_violates.

(** If an offset is not below 2^16, no more values of the challenge than there are offsets hide it. *)
Theorem C97_rarely_pass_as_low :
  forall (C : cairo_env) p, cairo_ok C p -> forall (l : list C) x, In x l -> (2 ^ 16 <= ce_repr x)%N ->
  forall zs, NoDup zs -> (forall z, In z zs -> pass_as_low l z) -> (length zs <= length l)%nat.
Proof.
  intros C p HC l x Hx Hb zs Hnd Hall. pose proof (fft_field_ok _ (e_fft_ok _ (co_env _ _ HC))) as HK.
  destruct (Nat.le_gt_cases (length zs) (length l)) as [L|L]; [exact L|]. exfalso.
  assert (P : Permutation l (map (fun x => e_u64 C (low16 x)) l)).
  { apply (products_permutation HK zs); [exact Hnd|apply map_length|exact L|]. intros z Hz. specialize (Hall z Hz). unfold pass_as_low in Hall. unfold vanish. rewrite map_map. exact Hall. }
  apply (Permutation_in _ P) in Hx. apply in_map_iff in Hx. destruct Hx as (y & <- & _). rewrite (low16_repr HC) in Hb by apply low16_lt. pose proof (low16_lt y). lia.
Qed.
Print Assumptions C97_rarely_pass_as_low.

(** What an accepted proof made from a table says about its offsets. *)
Theorem C97_wrong_offsets_rarely_accepted :
  forall (C : cairo_env) p, cairo_ok C p -> sampling_ok C -> forall (pi : public_inputs C) opts r b (t : trace_table C) main fuel proof lo hi,
  usable_options C opts r b -> (r + b <= two_adicity C)%nat ->
  has_columns t (2 ^ r) main -> length main = (43 - builtin_offset pi)%nat -> range_check_min pi = Some lo -> range_check_max pi = Some hi -> (lo < 2 ^ 16)%N -> (hi < 2 ^ 16)%N ->
  generate_cairo_proof fuel t pi opts = Ok proof -> verify_cairo_proof fuel proof pi opts = Ok true ->
  let a := cairo_air pi opts (2 ^ r) in let low := map low16 (offsets_of main (2 ^ r)) in
  exists d r1 t1 (c : challenges C a) t2,
    domain_new a = Ok d /\ round_1 C a t d tr_new = Ok (r1, t1) /\ step_1 C fuel a proof d tr_new = Ok (c, t2) /\
    let bco := c_boundary_coeffs C a c in let tco := c_transition_coeffs C a c in let B := Nat.max (2 ^ (r + b) + 2 ^ r + 1) (4 * 2 ^ r) in
    let lucky_boundary j := few_pairs (fun beta z => own_passes a d r1 (with_beta j beta bco) tco z) B /\ own_passes a d r1 (with_beta j (snd (nth j bco (0, 0))) bco) tco (c_z C a c) in
    let lucky_transition j := few_pairs (fun beta z => own_passes a d r1 bco (with_beta j beta tco) z) B /\ own_passes a d r1 bco (with_beta j (snd (nth j tco (0, 0))) tco) (c_z C a c) in
    (pass_as_low (offsets_of main (2 ^ r)) (z_range_check (c_rap C a c)) \/ lucky_boundary 5%nat) /\
    (~ least lo low -> lucky_boundary 6%nat) /\ (~ greatest hi low -> lucky_boundary 7%nat) /\
    (missing_value low -> exists j, (RANGE_CHECK_INCREASING_0 <= j <= RANGE_CHECK_INCREASING_2)%nat /\ lucky_transition j).
Proof.
  intros C p HC HS pi opts r b t main fuel proof lo hi Hu Hta Hm Lm Elo Ehi Blo Bhi Hp Hv a low. pose proof (pow2_pos r) as Hpos.
  destruct (accepted_columns HC HS pi opts r b t main fuel proof Hu Hta Hm Lm Hp Hv) as (d & r1 & t1 & c & t2 & Hd & Hr1 & Hst & aux & acols & bcs & Haux & Hac & Hbcs & Htr & Hb).
  exists d, r1, t1, c, t2. do 3 (split; [assumption|]). cbv zeta.
  destruct (C97_end_constraints C p HC pi opts (2 ^ r) t main (c_rap C a c) aux acols bcs lo hi ltac:(lia) Hm Lm Elo Ehi Blo Bhi Haux Hac Hbcs)
    as (b5 & b6 & b7 & N5 & N6 & N7 & S5 & S6 & S7 & I5 & I6 & I7). cbv beta in I5, I6, I7.
  split; [|split; [|split]].
  - destruct (felt_eq_dec C (co_env _ _ HC) (nth (bc_step b5) (nth (bc_col b5) (main ++ acols) []) 0) (bc_value b5)) as [E|E]; [left; now apply I5|right; exact (Hb 5%nat b5 N5 S5 E)].
  - intro H. apply (Hb 6%nat b6 N6 S6). intro E. apply H, I6, E.
  - intro H. apply (Hb 7%nat b7 N7 S7). intro E. apply H, I7, E.
  - intro H. destruct (C97_missing_value_violates C p HC pi opts (2 ^ r) t main _ aux acols Hm Lm H Haux Hac) as (j & Hj & Hn). exists j. split; [exact Hj|].
    apply Htr; [|exact Hn]. unfold n_constraints. unfold RANGE_CHECK_INCREASING_0, RANGE_CHECK_INCREASING_2 in Hj. destruct (has_rc_builtin pi); lia.
Qed.
Print Assumptions C97_wrong_offsets_rarely_accepted.

(** All cells zero but one offset, which is 2^16 + 5: its low half-word is 5, no half-word is from 1 to 4, and the claimed bounds
    are not the ends. *)
Definition wrong_offset : list (list calm) := calm_column OFF_DST (f252 65541) calm_zeros.
Example C97_example :
  usable_options calm default_test_options 3 2 /\ has_columns (table_of wrong_offset (2 ^ 3)) (2 ^ 3) wrong_offset /\ length wrong_offset = (43 - builtin_offset word_pi)%nat /\
  range_check_min word_pi = Some 32766%N /\ range_check_max word_pi = Some 32769%N /\ (32766 < 2 ^ 16)%N /\ (32769 < 2 ^ 16)%N /\
  In (f252 65541 : calm) (offsets_of wrong_offset (2 ^ 3)) /\ (2 ^ 16 <= ce_repr (f252 65541 : calm))%N /\
  map low16 (offsets_of wrong_offset (2 ^ 3)) = 5%N :: repeat 0%N 23 /\
  ~ least 32766 (map low16 (offsets_of wrong_offset (2 ^ 3))) /\ ~ greatest 32769 (map low16 (offsets_of wrong_offset (2 ^ 3))) /\
  least 0 (map low16 (offsets_of wrong_offset (2 ^ 3))) /\ greatest 5 (map low16 (offsets_of wrong_offset (2 ^ 3))) /\
  missing_value (map low16 (offsets_of wrong_offset (2 ^ 3))).
Proof.
  assert (E : map low16 (offsets_of wrong_offset (2 ^ 3)) = 5%N :: repeat 0%N 23) by (vm_compute; reflexivity).
  assert (I : forall x, In x (5%N :: repeat 0%N 23) -> x = 5%N \/ x = 0%N) by (intros x [<-|H]; [now left|right; exact (repeat_spec _ _ _ H)]).
  split; [apply (default_coset_usable calm_ok); try reflexivity; lia|]. split.
  { apply table_of_columns. intros c Hc. assert (F : forallb (fun c => length c =? 8)%nat wrong_offset = true) by reflexivity.
    rewrite forallb_forall in F. specialize (F c Hc). apply Nat.eqb_eq in F. exact F. }
  do 3 (split; [reflexivity|]). split; [reflexivity|]. split; [reflexivity|]. split; [now left|]. split; [vm_compute; discriminate|]. split; [exact E|]. rewrite E.
  split; [intros [H _]; apply I in H; destruct H; discriminate|]. split; [intros [H _]; apply I in H; destruct H; discriminate|].
  split; [split; [right; now left|intros x Hx; apply I in Hx; lia]|]. split; [split; [now left|intros x Hx; apply I in Hx; lia]|].
  exists 0%N, 5%N, 3%N. split; [right; now left|]. split; [now left|]. split; [split; reflexivity|]. intro H. apply I in H. destruct H; discriminate.
Qed.
