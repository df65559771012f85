(** C96: the last accesses of a table, which the public memory takes the place of. *)
From Coq Require Import List Arith Lia Bool NArith ZArith Permutation.
From Verif.Base Require Import Outcome Bytes Field Poly Zp.
From Verif.Model Require Import Codec Trace Merkle Air Transcript Domain Options Fri Evaluator Prover Verifier PublicInputs CairoDecode CairoTrace CairoAir CairoRunner.
From Verif.Spec Require Import AirSpec ExampleSpec CairoSpec CairoRun CairoStatement Forgery CairoColumns ProvingSpec ProverLog OodSpec Rounds WrongTable Contradiction Dropped.
From Verif.Proofs Require Import OutcomeFacts FieldFacts PolyFacts FFTFacts TraceFacts MultisetFacts WalkFacts CpuFacts SortFacts SortedFacts MainTraceFacts MainColsFacts AuxFacts HonestAux HonestAccess HonestRun CairoAirFacts CairoForge CairoAdmissible StarkFieldFacts.
From Verif.Examples Require Import Stark252 MiniRun Calm.
From Verif.Properties Require Import OodProperties CairoForgeryProperties WrongTableProperties ContradictionProperties.
Import ListNotations.
Local Open Scope felt_scope.

Section Product.
Context {C : cairo_env} {p : N} (HC : cairo_ok C p).
Let HE : env_ok C := co_env _ _ HC.
Let HK : field_ok C := fft_field_ok _ (e_fft_ok _ HE).
Add Field Kfield90 : (fld_th C HK).

Lemma public_cells_agree (pi : public_inputs C) pub : public_addresses_agree pi -> pub_cells pi pub -> Permutation pub (public_memory pi).
Proof using HC.
  intros (addrs & E1 & Hnd & Hp) Hpub. pose proof (pub_lookup pi pub Hpub) as F. rewrite Forall_forall in F. pose proof (pub_cells_length pi pub Hpub) as Lp.
  apply NoDup_Permutation_bis; [|lia|].
  - destruct Hpub as (pa & pv & E1' & E2 & ->). rewrite E1 in E1'. apply ok_inj in E1'. subst pa. apply traverse_length in E2.
    apply (NoDup_map_inv fst). replace (map fst (combine addrs pv)) with addrs; [exact Hnd|].
    clear -E2. revert pv E2. induction addrs as [|x l IH]; intros [|y pv] E2; cbn [length] in E2; try discriminate; [reflexivity|]. cbn [combine map fst]. f_equal. apply IH. lia.
  - intros [x y] Hin. apply (map_get_entry HC). exact (F _ Hin).
Qed.

(** The last running product, times the public factors, is the product of the factors of the accesses left out. *)
Lemma last_product (pi : public_inputs C) (t : trace_table C) n main ch aux acols : (0 < n)%nat ->
  has_columns t n main -> length main = (43 - builtin_offset pi)%nat -> cairo_build_aux pi t ch = Ok aux -> has_columns aux n acols -> public_addresses_agree pi ->
  mem_product pi (main ++ acols) (4 * n - 1) * fprod (map (factor ch) (public_memory pi)) = fprod (map (factor ch) (dropped_accesses pi main n)) /\
  fprod (map (factor ch) (public_memory pi)) <> 0 /\
  running (fun k => compress (alpha_memory ch) (sorted_addr pi (main ++ acols) k, sorted_value pi (main ++ acols) k))
    (fun k => compress (alpha_memory ch) (access_addr (main ++ acols) k, access_value (main ++ acols) k)) (mem_product pi (main ++ acols)) (z_memory ch) (4 * n).
Proof using HC.
  intros Hn Hm Lm Ha Hac Hag. destruct (aux_full HC pi t n main ch aux acols Hm Lm Ha Hac) as (rows & pub & Lr & Hpub & HL & Hnz & _ & Ec & Emem & _).
  pose proof (pub_cells_length pi pub Hpub) as Lp. pose proof (public_cells_agree pi pub Hag Hpub) as Pp.
  set (L := length (public_memory pi)) in *. set (z := z_memory ch). set (al := alpha_memory ch). set (cols := main ++ acols) in *.
  set (kept := firstn (4 * n - L) (mem_entries rows)).
  assert (Ps : Permutation (sorted_mem rows pub) (kept ++ public_memory pi)).
  { unfold sorted_mem. rewrite sort_by_perm. unfold replaced. rewrite Lr, Lp. apply Permutation_app_head. exact Pp. }
  assert (Ed : mem_entries rows = kept ++ dropped_accesses pi main n).
  { rewrite <- (firstn_skipn (4 * n - L) (mem_entries rows)) at 1. fold kept. f_equal. apply (nth_ext _ _ (0, 0) (0, 0)).
    - unfold dropped_accesses. rewrite skipn_length, mem_entries_length, map_length, seq_length, Lr. fold L. lia.
    - intros k Hk. rewrite skipn_length, mem_entries_length, Lr in Hk. rewrite nth_skipn_add, Emem by lia. unfold dropped_accesses. fold L.
      set (f := fun k : nat => (access_addr main k, access_value main k)). rewrite (nth_indep (map f _) (0, 0) (f 0%nat)) by (rewrite map_length, seq_length; lia).
      rewrite (map_nth f), seq_nth by lia. reflexivity. }
  set (sm := fun k => compress al (sorted_addr pi cols k, sorted_value pi cols k)). set (om := fun k => compress al (access_addr cols k, access_value cols k)). set (q := mem_product pi cols).
  assert (Hs : forall k, (k < 4 * n)%nat -> (z - sm k) * q k = (z - om k) * match k with O => 1 | S k' => q k' end).
  { intros k Hk. pose proof (mem_column_step HC ch (mem_entries rows) (sorted_mem rows pub) k) as S. rewrite mem_entries_length, sorted_mem_length, Lr in S by lia.
    specialize (S eq_refl Hk Hnz). unfold sm, om, q. rewrite Ec.
    rewrite (read_sorted_entry pi rows pub ch _ eq_refl k), (read_access_entry pi rows pub ch _ eq_refl k), (read_mem_product pi rows pub ch _ eq_refl) by lia.
    unfold factor in S. fold z al in S. fold (compress al (nth k (mem_entries rows) (0, 0))) in S. fold (compress al (nth k (sorted_mem rows pub) (0, 0))) in S.
    destruct k as [|k]; [|rewrite (read_mem_product pi rows pub ch _ eq_refl) by lia];
    rewrite (Rmul_comm (F_R (fld_th C HK))), S; apply (Rmul_comm (F_R (fld_th C HK))). }
  assert (Hr : running sm om q z (4 * n)). { intros k Hk. rewrite Hs by exact Hk. rewrite Nat.add_comm. cbn [Nat.add]. ring. }
  assert (Hq : (z - sm 0%nat) * q 0%nat = z - om 0%nat) by (rewrite Hs by lia; ring).
  pose proof (running_products HC sm om q z (4 * n) Hr Hq (4 * n - 1) ltac:(lia)) as P. replace (S (4 * n - 1)) with (4 * n)%nat in P by lia.
  assert (E1 : upto sm (4 * n) = map (compress al) (sorted_mem rows pub)).
  { apply upto_list; [rewrite map_length, sorted_mem_length; lia|]. intros i Hi. unfold sm. rewrite Ec, (read_sorted_entry pi rows pub ch _ eq_refl i) by lia.
    rewrite (nth_indep _ 0 (compress al (0, 0))) by (rewrite map_length, sorted_mem_length; lia). symmetry. apply map_nth. }
  assert (E2 : upto om (4 * n) = map (compress al) (mem_entries rows)).
  { apply upto_list; [rewrite map_length, mem_entries_length; lia|]. intros i Hi. unfold om. rewrite Ec, (read_access_entry pi rows pub ch _ eq_refl i) by lia.
    rewrite (nth_indep _ 0 (compress al (0, 0))) by (rewrite map_length, mem_entries_length; lia). symmetry. apply map_nth. }
  rewrite E1, E2 in P. rewrite (vanish_permutation HK _ _ z (Permutation_map (compress al) Ps)) in P. rewrite Ed, !map_app, !(vanish_app HK) in P.
  assert (V : forall l, (forall e, In e l -> In e (kept ++ public_memory pi)) -> vanish (map (compress al) l) z <> 0).
  { intros l Hl Z. apply (vanish_zero HK) in Z. apply in_map_iff in Z. destruct Z as (e & Ee & He).
    apply (Hnz e); [apply (Permutation_in _ (Permutation_sym Ps)), Hl, He|]. unfold factor. fold z al. fold (compress al e). rewrite Ee. ring. }
  assert (Ev : forall l, fprod (map (factor ch) l) = vanish (map (compress al) l) z) by (intro l; unfold vanish; now rewrite map_map).
  rewrite !Ev. split; [|split; [|exact Hr]].
  - apply (mul_cancel_l HK _ _ _ (V kept ltac:(intros; apply in_or_app; now left))). fold cols. fold q. rewrite <- P. ring.
  - apply V. intros. apply in_or_app. now right.
Qed.
Lemma quotient_iff (Q F Z : C) : F <> 0 -> (Q = Z * finv (1 * F) <-> Q * F = Z).
Proof using HC.
  intro H. assert (H1 : 1 * F <> 0) by (intro E; apply H; rewrite <- E; ring). split; [intros ->|intros <-]; field; (exact H || exact H1 || (split; assumption)).
Qed.
Lemma zero_compress (al : C) : (0 : C) + al * 0 = 0.
Proof using HC. ring. Qed.
Lemma sub_nothing (z : C) : z - 0 = z.
Proof using HC. ring. Qed.
Lemma one_cell (x al z : C) : pass_as_zero [(x, 0)] al z <-> x = 0.
Proof using HC.
  unfold pass_as_zero, fprod. cbn [map fold_right fst snd length fpow]. split; [intro H|intros ->; ring].
  transitivity (z * 1 - (z - (x + al * 0)) * 1); [ring|]. rewrite H. ring.
Qed.
End Product.

(** ** C96 *)

(** The auxiliary columns that the prover builds meet the boundary constraint on the last running product exactly if, for the
    drawn challenges, the accesses left out cannot be told from accesses to the cell (0, 0). *)
Theorem C96_product_constraint :
  forall (C : cairo_env) p, cairo_ok C p -> forall (pi : public_inputs C) opts n (t : trace_table C) main ch aux acols bcs bc, (0 < n)%nat ->
  has_columns t n main -> length main = (43 - builtin_offset pi)%nat -> public_addresses_agree pi ->
  cairo_build_aux pi t ch = Ok aux -> has_columns aux n acols -> a_boundary (cairo_air pi opts n) ch = Ok bcs -> nth_error bcs 4 = Some bc ->
  (nth (bc_step bc) (nth (bc_col bc) (main ++ acols) []) 0 = bc_value bc <-> pass_as_zero (dropped_accesses pi main n) (alpha_memory ch) (z_memory ch)).
Proof.
  intros C p HC pi opts n t main ch aux acols bcs bc Hn Hm Lm Hag Ha Hac Hbcs Hbc. pose proof (fft_field_ok _ (e_fft_ok _ (co_env _ _ HC))) as HK. pose proof (SortedFacts.offset_le pi) as Ho.
  destruct (last_product HC pi t n main ch aux acols Hn Hm Lm Ha Hac Hag) as (Hq & Hz & _).
  cbn [cairo_air a_boundary] in Hbcs. unfold cairo_boundary in Hbcs. ok_as Hbcs ls Hls. ok_as Hbcs fi Hfi. ok_as Hbcs cp Hcp. ok_as Hbcs mn Hmn. ok_as Hbcs mx Hmx. apply ok_inj in Hbcs. subst bcs.
  cbn [nth_error] in Hbc. injection Hbc as <-. cbn [bc_step bc_col bc_value].
  assert (Ef : fi = (n - 1)%nat) by (unfold usub in Hfi; destruct (n <? 1)%nat; [discriminate|apply ok_inj in Hfi; now symmetry]). subst fi.
  rewrite (fold_factor HC) in Hcp. apply (inv_o_ok HK) in Hcp. destruct Hcp as [_ ->].
  assert (Ep : mem_product pi (main ++ acols) (4 * n - 1) = nth (n - 1) (nth (PERMUTATION_ARGUMENT_COL_3 - builtin_offset pi) (main ++ acols) []) 0).
  { unfold mem_product. replace (4 * n - 1)%nat with (4 * (n - 1) + 3)%nat by lia. rewrite flat_at by lia. unfold cell. f_equal. f_equal.
    unfold PERMUTATION_ARGUMENT_COL_0, PERMUTATION_ARGUMENT_COL_3. lia. }
  match goal with |- (?x = _) <-> _ => replace x with (mem_product pi (main ++ acols) (4 * n - 1)) by exact Ep end. unfold pass_as_zero. assert (Ld : length (dropped_accesses pi main n) = length (public_memory pi)) by (unfold dropped_accesses; now rewrite map_length, seq_length). rewrite Ld.
  change (fprod (map (fun e : C * C => z_memory ch - (fst e + alpha_memory ch * snd e)) (dropped_accesses pi main n))) with (fprod (map (factor ch) (dropped_accesses pi main n))).
  rewrite <- Hq. set (F := fprod (map (factor ch) (public_memory pi))) in *. set (Q := mem_product pi (main ++ acols) (4 * n - 1)%nat) in *. set (Z := fpow (z_memory ch) (length (public_memory pi))).
  exact (quotient_iff HC Q F Z Hz).
Qed.
Print Assumptions C96_product_constraint.

(** If one of these accesses is not to the cell (0, 0), that happens for few challenges: for every [al] but one, for no more
    values of [z] than there are public cells. *)
Theorem C96_rarely_pass_as_zero :
  forall (C : cairo_env) p, cairo_ok C p -> forall (cells : list (C * C)) e, In e cells -> e <> (0, 0) ->
  exists al0, forall al, al <> al0 -> forall zs, NoDup zs -> (forall z, In z zs -> pass_as_zero cells al z) -> (length zs <= length cells)%nat.
Proof.
  intros C p HC cells e He Hne. pose proof (fft_field_ok _ (e_fft_ok _ (co_env _ _ HC))) as HK. exists (collision e (0, 0)). intros al Hal zs Hnd Hall.
  destruct (Nat.le_gt_cases (length zs) (length cells)) as [L|L]; [exact L|]. exfalso. apply Hal. apply (compress_collision HK); [exact Hne|].
  assert (E0 : compress al (0, 0) = (0 : C)) by (unfold compress; cbn [fst snd]; apply (zero_compress HC)). rewrite E0.
  assert (P : Permutation (map (compress al) cells) (repeat 0 (length cells))).
  { apply (products_permutation HK zs); [exact Hnd|rewrite repeat_length, map_length; reflexivity|rewrite map_length; exact L|]. intros z Hz. specialize (Hall z Hz).
    unfold pass_as_zero in Hall. rewrite vanish_repeat. unfold vanish. rewrite map_map. unfold compress. rewrite Hall. f_equal. symmetry. apply (sub_nothing HC). }
  apply (repeat_spec (length cells)). apply (Permutation_in _ P). now apply in_map.
Qed.
Print Assumptions C96_rarely_pass_as_zero.

(** The proof that the prover makes from such a table is accepted only if the challenges are of those few or the coefficient
    of the constraint and the point are one of the few passing pairs. *)
Theorem C96_wrong_tail_rarely_accepted :
  forall (C : cairo_env) p, cairo_ok C p -> sampling_ok C -> forall (pi : public_inputs C) opts r b (t : trace_table C) main fuel proof,
  usable_options C opts r b -> (r + b <= two_adicity C)%nat ->
  has_columns t (2 ^ r) main -> length main = (43 - builtin_offset pi)%nat -> public_addresses_agree pi ->
  generate_cairo_proof fuel t pi opts = Ok proof -> verify_cairo_proof fuel proof pi opts = Ok true ->
  let a := cairo_air pi opts (2 ^ r) in
  exists d r1 t1 (c : challenges C a) t2,
    domain_new a = Ok d /\ round_1 C a t d tr_new = Ok (r1, t1) /\ step_1 C fuel a proof d tr_new = Ok (c, t2) /\
    let bco := c_boundary_coeffs C a c in let tco := c_transition_coeffs C a c in
    pass_as_zero (dropped_accesses pi main (2 ^ r)) (alpha_memory (c_rap C a c)) (z_memory (c_rap C a c)) \/
    few_pairs (fun beta z => own_passes a d r1 (with_beta 4 beta bco) tco z) (Nat.max (2 ^ (r + b) + 2 ^ r + 1) (4 * 2 ^ r)) /\
    own_passes a d r1 (with_beta 4 (snd (nth 4 bco (0, 0))) bco) tco (c_z C a c).
Proof.
  intros C p HC HS pi opts r b t main fuel proof Hu Hta Hm Lm Hag Hp Hv a. pose proof (fft_field_ok _ (e_fft_ok _ (co_env _ _ HC))) as HK. pose proof (pow2_pos r) as Hpos.
  destruct (accepted_columns HC HS pi opts r b t main fuel proof Hu Hta Hm Lm Hp Hv) as (d & r1 & t1 & c & t2 & Hd & Hr1 & Hst & aux & acols & bcs & Haux & Hac & Hbcs & _ & Hb).
  exists d, r1, t1, c, t2. do 3 (split; [assumption|]). cbv zeta.
  assert (Hbc : exists bc, nth_error bcs 4 = Some bc /\ (bc_step bc < 2 ^ r)%nat).
  { pose proof Hbcs as H. cbn [cairo_air a_boundary] in H. unfold cairo_boundary in H. ok_as H ls Hls. ok_as H fi Hfi. ok_as H cp Hcp. ok_as H mn Hmn. ok_as H mx Hmx. apply ok_inj in H. rewrite <- H.
    cbn [nth_error]. eexists. split; [reflexivity|]. cbn [bc_step]. unfold usub in Hfi. destruct (2 ^ r <? 1)%nat; [discriminate|]. apply ok_inj in Hfi. lia. }
  destruct Hbc as (bc & Hbc & Hstep).
  pose proof (C96_product_constraint C p HC pi opts (2 ^ r) t main (c_rap C a c) aux acols bcs bc ltac:(lia) Hm Lm Hag Haux Hac Hbcs Hbc) as Hiff.
  destruct (felt_eq_dec C (co_env _ _ HC) (nth (bc_step bc) (nth (bc_col bc) (main ++ acols) []) 0) (bc_value bc)) as [E|E]; [left; now apply Hiff|right].
  exact (Hb 4%nat bc Hbc Hstep E).
Qed.
Print Assumptions C96_wrong_tail_rarely_accepted.

(** All cells zero but the fourth address of the last row; one public cell, so that this one access is left out. *)
Definition wrong_tail : list (list calm) := firstn FRAME_OP1_ADDR calm_zeros ++ [repeat (0 : calm) 7 ++ [(f252 3 : calm)]] ++ skipn (S FRAME_OP1_ADDR) calm_zeros.
Example C96_example :
  usable_options calm default_test_options 3 2 /\ has_columns (table_of wrong_tail (2 ^ 3)) (2 ^ 3) wrong_tail /\ length wrong_tail = (43 - builtin_offset word_pi)%nat /\
  public_addresses_agree word_pi /\ dropped_accesses word_pi wrong_tail (2 ^ 3) = [((f252 3 : calm), (0 : calm))] /\ ((f252 3 : calm), (0 : calm)) <> (0, 0) /\
  (forall al z : calm, ~ pass_as_zero (dropped_accesses word_pi wrong_tail (2 ^ 3)) al z) /\
  (forall al z : calm, pass_as_zero (dropped_accesses word_pi changed_word (2 ^ 3)) al z).
Proof.
  assert (N3 : (f252 3 : calm) <> 0) by (apply calm_differ; vm_compute; discriminate).
  assert (Ed : dropped_accesses word_pi wrong_tail (2 ^ 3) = [((f252 3 : calm), (0 : calm))]) by reflexivity.
  assert (Ez : dropped_accesses word_pi changed_word (2 ^ 3) = [((0 : calm), (0 : calm))]) by reflexivity.
  split; [apply (default_coset_usable calm_ok); try reflexivity; lia|]. split.
  { apply table_of_columns. intros c Hc. assert (F : forallb (fun c => length c =? 8)%nat wrong_tail = true) by reflexivity.
    rewrite forallb_forall in F. specialize (F c Hc). apply Nat.eqb_eq in F. exact F. }
  split; [reflexivity|]. split; [exists [(f252 1 : calm)]; split; [reflexivity|]; split; [constructor; [intros []|constructor]|reflexivity]|]. split; [exact Ed|]. split; [intro H; apply pair_equal_spec in H; exact (N3 (proj1 H))|].
  rewrite Ed, Ez. split; intros al z; [intro H; apply (one_cell calm_ok) in H; exact (N3 H)|now apply (one_cell calm_ok)].
Qed.
