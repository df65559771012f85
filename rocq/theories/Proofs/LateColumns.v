(** Sorted memory columns chosen after the challenges. *)
From Coq Require Import List Arith NArith Bool Lia.
From Verif.Base Require Import Outcome Field Poly.
From Verif.Model Require Import Codec PublicInputs Trace Air CairoDecode CairoTrace CairoAir.
From Verif.Spec Require Import CairoSpec AirSpec CairoColumns.
From Verif.Proofs Require Import FieldFacts PolyFacts FFTFacts OutcomeFacts TraceFacts CpuFacts CairoAirFacts SortedFacts MultisetFacts WalkFacts CairoForge.
Import ListNotations.

Section Late.
Context {C : cairo_env} {p : N} (HC : cairo_ok C p).
Let HK : field_ok C := fft_field_ok _ (e_fft_ok _ (co_env _ _ HC)).
Add Field Kfield52 : (fld_th C HK).
Local Open Scope felt_scope.
Notation "r .[ i ]" := (nth i r (fzero : C)) (at level 2, format "r .[ i ]").

(** Only the memory constraints read the twelve memory columns of the auxiliary table. *)
Lemma memory_columns_same pi ch (c n c' n' : list C) j : (j < 31 \/ 43 <= j)%nat -> (j < n_constraints pi)%nat ->
  (forall i, (i < 46 - builtin_offset pi \/ 58 - builtin_offset pi <= i)%nat -> c'.[i] = c.[i]) ->
  (forall i, (i < 46 - builtin_offset pi \/ 58 - builtin_offset pi <= i)%nat -> n'.[i] = n.[i]) ->
  length c = length c' -> (15 <= length c)%nat ->
  nth j (cairo_constraints pi ch c' n') 0 = nth j (cairo_constraints pi ch c n) 0.
Proof using Type.
  intros Hj Hjn Hc Hn Hl Hlen. pose proof (offset_le pi) as Ho.
  assert (Hsq : squiggle c' = squiggle c).
  { unfold squiggle. assert (Hf : firstn 15 c' = firstn 15 c); [|now rewrite Hf]. rewrite !firstn_nth_seq by lia. apply map_ext_in. intros i Hi. apply in_seq in Hi. apply Hc. lia. }
  destruct (Nat.lt_ge_cases j 16) as [H1|H1].
  { rewrite !flag_constraint by exact H1. unfold flag_value. now rewrite Hc by lia. }
  destruct (Nat.lt_ge_cases j 31) as [H2|H2].
  { replace j with (16 + (j - 16))%nat by lia. rewrite !cpu_constraint by lia. rewrite (Hc 33%nat) by lia. f_equal.
    unfold cpu_formulas. rewrite Hsq. rewrite !Hc by lia. rewrite !Hn by lia. reflexivity. }
  destruct (Nat.lt_ge_cases j 49) as [H3|H3].
  { replace j with (31 + (12 + (j - 43)))%nat by lia. rewrite !rest_constraint by lia. unfold rest_formulas.
    assert (H4 : (j - 43 < 6)%nat) by lia. revert H4. generalize (j - 43)%nat. intros k Hk.
    do 6 (destruct k as [|k]; [cbn [nth Nat.add]; rewrite ?Hc by lia; rewrite ?Hn by lia; reflexivity|]). lia. }
  assert (Hb : has_rc_builtin pi = true) by (unfold n_constraints in Hjn; destruct (has_rc_builtin pi); [reflexivity|lia]).
  assert (Hoff : builtin_offset pi = 0%nat) by (unfold builtin_offset; now rewrite Hb). rewrite Hoff in *.
  assert (j = 49%nat) as -> by (unfold n_constraints in Hjn; rewrite Hb in Hjn; lia).
  rewrite !builtin_constraint by exact Hb. unfold rc_builtin_value. rewrite !Hc by lia. reflexivity.
Qed.

Lemma crow_other (cols cols' : list (list C)) i j : nth j cols' [] = nth j cols [] -> (crow cols' i).[j] = (crow cols i).[j].
Proof using Type. intro H. rewrite !crow_nth. unfold cell. now rewrite H. Qed.

Section Build.
Context (pi : public_inputs C) (ch : cairo_challenges C) (cols : list (list C)) (n : nat).
Let z := z_memory ch. Let al := alpha_memory ch.
Definition late_final : C := fpow z (length (public_memory pi)) * finv (fold_left (fun product av => product * (z - (fst av + al * snd av))) (public_memory pi) 1).
Let o k := access_addr cols k + al * access_value cols k.
Let t := vanish (upto o (4 * n)) z / late_final.
Let fa k := e_u64 C (N.of_nat k).
Let fs k := z - (if (k =? 0)%nat then t else 1).
Let fv k := (fs k - fa k) / al.
Let fq k := vanish (upto o (S k)) z / t.
Let b1 := (46 - builtin_offset pi)%nat. Let b2 := (50 - builtin_offset pi)%nat. Let b3 := (54 - builtin_offset pi)%nat.
Definition late_columns : list (list C) := overwrite (overwrite (overwrite cols b1 n 4 fa) b2 n 4 fv) b3 n 4 fq.

Context (Hw : length cols = cairo_width pi).
Lemma late_bounds : (b1 + 4 = b2 /\ b2 + 4 = b3 /\ b3 + 4 <= length cols /\ 37 <= b1)%nat.
Proof using Hw. pose proof (offset_le pi). unfold b1, b2, b3, cairo_width in *. lia. Qed.
Lemma late_length : length late_columns = length cols.
Proof using Hw. destruct late_bounds as (H1 & H2 & H3 & _). unfold late_columns. rewrite !overwrite_length; [reflexivity|..]; rewrite ?overwrite_length; rewrite ?overwrite_length; lia. Qed.
Lemma late_other j : (j < b1 \/ b3 + 4 <= j)%nat -> nth j late_columns [] = nth j cols [].
Proof using Hw.
  intro Hj. destruct late_bounds as (H1 & H2 & H3 & _). unfold late_columns.
  rewrite !overwrite_other; try reflexivity; try lia; rewrite ?overwrite_length; try lia; rewrite ?overwrite_length; lia.
Qed.
Lemma late_addr k : (k < 4 * n)%nat -> sorted_addr pi late_columns k = fa k.
Proof using Hw.
  intro Hk. destruct late_bounds as (H1 & H2 & H3 & _). unfold sorted_addr, MEMORY_ADDR_SORTED_0. fold b1. unfold late_columns.
  rewrite (flat_other (overwrite (overwrite cols b1 n 4 fa) b2 n 4 fv)) by (try lia; intros j Hj; apply overwrite_other; rewrite ?overwrite_length; rewrite ?overwrite_length; lia).
  rewrite (flat_other (overwrite cols b1 n 4 fa)) by (try lia; intros j Hj; apply overwrite_other; rewrite ?overwrite_length; lia).
  apply overwrite_flat; lia.
Qed.
Lemma late_value k : (k < 4 * n)%nat -> sorted_value pi late_columns k = fv k.
Proof using Hw.
  intro Hk. destruct late_bounds as (H1 & H2 & H3 & _). unfold sorted_value, MEMORY_VALUES_SORTED_0. fold b2. unfold late_columns.
  rewrite (flat_other (overwrite (overwrite cols b1 n 4 fa) b2 n 4 fv)) by (try lia; intros j Hj; apply overwrite_other; rewrite ?overwrite_length; rewrite ?overwrite_length; lia).
  apply overwrite_flat; rewrite ?overwrite_length; lia.
Qed.
Lemma late_product k : (k < 4 * n)%nat -> mem_product pi late_columns k = fq k.
Proof using Hw.
  intro Hk. destruct late_bounds as (H1 & H2 & H3 & _). unfold mem_product, PERMUTATION_ARGUMENT_COL_0. fold b3. unfold late_columns.
  apply overwrite_flat; rewrite ?overwrite_length; rewrite ?overwrite_length; lia.
Qed.
Lemma late_access k : access_addr late_columns k = access_addr cols k /\ access_value late_columns k = access_value cols k.
Proof using Hw.
  destruct late_bounds as (_ & _ & _ & H4). unfold access_addr, access_value, FRAME_PC, FRAME_INST.
  split; apply flat_other; try lia; intros j Hj; apply late_other; lia.
Qed.
Lemma late_rows : (forall c, In c cols -> length c = n) -> forall c, In c late_columns -> length c = n.
Proof using Type. intro H. unfold late_columns. repeat apply overwrite_rows. exact H. Qed.

Context (Hn : (0 < n)%nat).
Context (Hal : al <> 0).
Context (Hz : z <> 0).
Context (Hacc : forall k, (k < 4 * n)%nat -> z <> access_addr cols k + al * access_value cols k).
Context (Hpub : forall a v, In (a, v) (public_memory pi) -> z <> a + al * v).

Lemma public_nonzero : fold_left (fun product av => product * (z - (fst av + al * snd av))) (public_memory pi) 1 <> 0.
Proof using HC Hpub.
  clear - HC Hpub HK. assert (G : forall l (x : C), (forall a v, In (a, v) l -> z <> a + al * v) -> x <> 0 ->
    fold_left (fun product av => product * (z - (fst av + al * snd av))) l x <> 0).
  { induction l as [|[a v] l IH]; intros x Hl Hx; [exact Hx|]. cbn [fold_left fst snd]. apply IH; [intros a' v' H; apply Hl; now right|].
    intro E0. apply (mul_zero HK) in E0. destruct E0 as [E0|E0]; [now apply Hx|]. exact (Hl a v (or_introl eq_refl) (proj1 (sub_zero HK _ _) E0)). }
  apply G; [exact Hpub|apply (one_neq_zero HK)].
Qed.
Lemma vanish_nonzero k : (k <= 4 * n)%nat -> vanish (upto o k) z <> 0.
Proof using HC Hacc.
  clear - HC Hacc HK o. induction k as [|k IH]; intro Hk; [apply (one_neq_zero HK)|].
  rewrite (vanish_upto_S HC). intro E0. apply (mul_zero HK) in E0. destruct E0 as [E0|E0]; [now apply IH; [lia|]|].
  exact (Hacc k ltac:(lia) (proj1 (sub_zero HK _ _) E0)).
Qed.
Lemma final_nonzero : late_final <> 0.
Proof using HC Hpub Hz.
  pose proof public_nonzero as H. clear - HC H Hz HK. unfold late_final. intro E0. apply (mul_zero HK) in E0. destruct E0 as [E0|E0].
  - revert E0. apply (fpow_nonzero HK). exact Hz.
  - revert E0. apply (inv_nonzero HK). exact H.
Qed.
Lemma t_nonzero : t <> 0.
Proof using HC Hpub Hz Hacc.
  pose proof final_nonzero as H1. pose proof (vanish_nonzero (4 * n) (le_n _)) as H2. clear - H1 H2 HK HC o. unfold t. intro E0.
  apply H2. transitivity (vanish (upto o (4 * n)) z / late_final * late_final); [field; exact H1|]. rewrite E0. ring.
Qed.

Theorem late_satisfies opts :
  (forall j, (j < n_constraints pi)%nat -> (j < 31 \/ 43 <= j)%nat -> holds pi ch cols n j) ->
  (forall bcs bc, cairo_boundary pi n ch = Ok bcs -> In bc bcs -> bc_col bc <> (57 - builtin_offset pi)%nat ->
     (bc_step bc < n)%nat /\ (bc_col bc < length cols)%nat /\ cell cols (bc_step bc) (bc_col bc) = bc_value bc) ->
  (num_steps pi <= n)%nat ->
  trace_satisfies (cairo_air pi opts n) ch late_columns n /\
  (z - (sorted_addr pi late_columns 0 + al * sorted_value pi late_columns 0)) * mem_product pi late_columns 0
    = z - (access_addr late_columns 0 + al * access_value late_columns 0).
Proof using HC Hw Hn Hal Hz Hacc Hpub.
  intros Hother Hbnd Hsteps. pose proof t_nonzero as Ht. pose proof final_nonzero as Hf. pose proof late_bounds as (B1 & B2 & B3 & B4). pose proof (offset_le pi) as Ho.
  assert (Hcomp : forall k, (k < 4 * n)%nat -> sorted_addr pi late_columns k + al * sorted_value pi late_columns k = fs k).
  { intros k Hk. rewrite late_addr, late_value by exact Hk. unfold fv. field. exact Hal. }
  assert (Hfirst : (z - (sorted_addr pi late_columns 0 + al * sorted_value pi late_columns 0)) * mem_product pi late_columns 0
    = z - (access_addr late_columns 0 + al * access_value late_columns 0)).
  { rewrite Hcomp, late_product by lia. destruct (late_access 0) as [-> ->]. unfold fs, fq. cbn [Nat.eqb].
    change (upto o 1) with [o 0%nat]. rewrite vanish_cons. unfold vanish, o. cbn [map fprod fold_right]. unfold fprod. cbn. field. exact Ht. }
  split; [|exact Hfirst]. apply cairo_satisfies; [rewrite late_length; exact Hw|]. split.
  - intros bcs bc Hb Hin. rewrite late_length. destruct (Nat.eq_dec (bc_col bc) (57 - builtin_offset pi)) as [Ec|Ec].
    + assert (Ebc : bc = mk_bc (57 - builtin_offset pi)%nat (n - 1)%nat late_final).
      { unfold cairo_boundary in Hb. ok_as Hb ls Hls. ok_as Hb fi Hfi. ok_as Hb cp Hcp. ok_as Hb mn Hmn. ok_as Hb mx Hmx. apply ok_inj in Hb. subst bcs.
        apply usub_inv in Hfi. destruct Hfi as [_ ->]. apply (inv_o_ok HK) in Hcp. destruct Hcp as [_ ->].
        unfold MEM_A_TRACE_OFFSET, MEM_P_TRACE_OFFSET, PERMUTATION_ARGUMENT_COL_3, PERMUTATION_ARGUMENT_RANGE_CHECK_COL_3, RANGE_CHECK_COL_1, RANGE_CHECK_COL_3 in Hin.
        destruct Hin as [<-|[<-|[<-|[<-|[<-|[<-|[<-|[<-|[]]]]]]]]]; cbn [bc_col] in Ec; try (exfalso; clear - Ec Ho; lia). reflexivity. }
      subst bc. cbn [bc_col bc_step bc_value]. split; [lia|]. split; [unfold b3 in *; lia|].
      transitivity (mem_product pi late_columns (4 * n - 1)).
      * unfold mem_product, PERMUTATION_ARGUMENT_COL_0. replace (4 * n - 1)%nat with (4 * (n - 1) + 3)%nat by lia. rewrite flat_at by lia. f_equal. lia.
      * rewrite late_product by lia. unfold fq. replace (S (4 * n - 1)) with (4 * n)%nat by lia. unfold t. field.
        split; [exact Hf|]. exact (vanish_nonzero (4 * n) (le_n _)).
    + destruct (Hbnd bcs bc Hb Hin Ec) as (S1 & S2 & S3). split; [exact S1|]. split; [exact S2|]. rewrite <- S3. unfold cell. rewrite late_other; [reflexivity|].
      unfold cairo_boundary in Hb. ok_as Hb ls Hls. ok_as Hb fi Hfi. ok_as Hb cp Hcp. ok_as Hb mn Hmn. ok_as Hb mx Hmx. apply ok_inj in Hb. subst bcs.
      unfold MEM_A_TRACE_OFFSET, MEM_P_TRACE_OFFSET, PERMUTATION_ARGUMENT_COL_3, PERMUTATION_ARGUMENT_RANGE_CHECK_COL_3, RANGE_CHECK_COL_1, RANGE_CHECK_COL_3 in Hin. unfold b1, b3.
      destruct Hin as [<-|[<-|[<-|[<-|[<-|[<-|[<-|[<-|[]]]]]]]]]; cbn [bc_col] in Ec |- *; lia.
  - intros i j Hi Hj. destruct (Nat.lt_ge_cases j 31) as [J|J]; [|destruct (Nat.lt_ge_cases j 43) as [J'|J']].
    + rewrite (memory_columns_same pi ch (crow cols i) (crow cols ((i + 1) mod n))); try (now left); try exact Hj.
      * apply (Hother j Hj (or_introl J)). exact Hi.
      * intros q Hq. apply crow_other, late_other. unfold b1, b3. lia.
      * intros q Hq. apply crow_other, late_other. unfold b1, b3. lia.
      * unfold crow. rewrite !map_length. symmetry. apply late_length.
      * unfold crow. rewrite map_length, Hw. unfold cairo_width. lia.
    + enough (G : holds pi ch late_columns n j) by exact (G i Hi). destruct (Nat.lt_ge_cases j 39) as [J2|J2].
      * apply steps_memory; [intros k Hk..|lia].
        -- rewrite !late_addr by lia. unfold fa. replace (N.of_nat (k + 1)) with (N.of_nat k + 1)%N by lia. rewrite (co_add _ _ HC), (co_one _ _ HC). ring.
        -- rewrite !late_addr by lia. unfold fa. replace (N.of_nat (k + 1)) with (N.of_nat k + 1)%N by lia. rewrite (co_add _ _ HC), (co_one _ _ HC). ring.
      * apply steps_product; [|lia]. intros k Hk. rewrite Hcomp by lia. rewrite !late_product by lia. destruct (late_access (k + 1)) as [-> ->].
        unfold fs, fq. replace (k + 1 =? 0)%nat with false by (symmetry; apply Nat.eqb_neq; lia). rewrite Nat.add_1_r.
        rewrite (vanish_upto_S HC o (S k)). fold z al. change (access_addr cols (S k) + al * access_value cols (S k)) with (o (S k)). field. exact Ht.
    + rewrite (memory_columns_same pi ch (crow cols i) (crow cols ((i + 1) mod n))); try (now right); try exact Hj.
      * apply (Hother j Hj (or_intror J')). exact Hi.
      * intros q Hq. apply crow_other, late_other. unfold b1, b3. lia.
      * intros q Hq. apply crow_other, late_other. unfold b1, b3. lia.
      * unfold crow. rewrite !map_length. symmetry. apply late_length.
      * unfold crow. rewrite map_length, Hw. unfold cairo_width. lia.
Qed.
End Build.
End Late.
