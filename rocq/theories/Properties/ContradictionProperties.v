(** C95: tables whose memory accesses contradict each other or the public memory. *)
From Coq Require Import List Arith Lia Bool NArith ZArith Permutation.
From Verif.Base Require Import Outcome Bytes Field Poly Zp.
From Verif.Model Require Import Codec Trace Merkle Air Transcript Domain Options Fri Evaluator Prover Verifier ExampleAirs PublicInputs CairoDecode CairoTrace CairoAir CairoRunner.
From Verif.Spec Require Import AirSpec ExampleSpec CairoSpec CairoRun CairoStatement Forgery CairoColumns ProvingSpec ProverLog OodSpec Rounds WrongTable Contradiction.
From Verif.Proofs Require Import OutcomeFacts FieldFacts PolyFacts FFTFacts TraceFacts DomainFacts TranscriptFacts ComposeFacts Completeness Replay OodFacts ExampleFacts HonestRound CpuFacts SortFacts SortedFacts VerifierTotal ProverTotal MainTraceFacts MainColsFacts AuxFacts HonestAux HonestAccess HonestRun CairoAirFacts CairoForge CairoAdmissible StarkFieldFacts.
From Verif.Examples Require Import Stark252 MiniRun Calm.
From Verif.Properties Require Import StarkProperties OodProperties WitnessProperties CairoForgeryProperties WrongTableProperties.
Import ListNotations.
Local Open Scope felt_scope.

Section Rows.
Context {C : cairo_env} {p : N} (HC : cairo_ok C p).
Let HE : env_ok C := co_env _ _ HC.
Let HK : field_ok C := fft_field_ok _ (e_fft_ok _ HE).
Add Field Kfield89 : (fld_th C HK).

Section Columns.
Context (pi : public_inputs C) (ch : cairo_challenges C) (cols : list (list C)) (n : nat).
Let a := sorted_addr pi cols. Let v := sorted_value pi cols.
Local Ltac row_eq Ht i j H :=
  let Hx := fresh "Hx" in
  assert (Hx := rest_zero pi ch cols n i j); cbn [plus] in Hx; specialize (Hx (Ht (31 + j)%nat ltac:(lia)) ltac:(cbn [exempt existsb Nat.eqb orb]; cbv [exempt existsb Nat.eqb orb]; lia) ltac:(lia));
  unfold rest_formulas in Hx; cbn [nth] in Hx; rewrite !crow_nth in Hx;
  rename Hx into H.

Lemma address_step k : (forall j, (31 <= j < 35)%nat -> holds pi ch cols n j) -> (k + 1 < 4 * n)%nat -> (a k - a (k + 1)%nat) * (a (k + 1)%nat - a k - 1) = 0.
Proof using Type.
  intros Ht Hk. destruct (quot_rem k 4 ltac:(lia)) as (i & r & -> & Hr). unfold a, sorted_addr, MEMORY_ADDR_SORTED_0.
  destruct r as [|[|[|[|r]]]]; [| | | |lia]; rewrite <- !Nat.add_assoc; cbn [Nat.add]; rewrite ?flat_next, !flat_at by lia.
  - row_eq Ht i 0%nat H; rewrite !sub_shift in H by lia; exact H.
  - row_eq Ht i 1%nat H; rewrite !sub_shift in H by lia; exact H.
  - row_eq Ht i 2%nat H; rewrite !sub_shift in H by lia; exact H.
  - row_eq Ht i 3%nat H; rewrite !sub_shift in H by lia; rewrite !Nat.add_0_r in H; rewrite (Nat.mod_small (i + 1) n) in H by lia; exact H.
Qed.
Lemma value_step k : (forall j, (35 <= j < 39)%nat -> holds pi ch cols n j) -> (k + 1 < 4 * n)%nat -> (v k - v (k + 1)%nat) * (a (k + 1)%nat - a k - 1) = 0.
Proof using Type.
  intros Ht Hk. destruct (quot_rem k 4 ltac:(lia)) as (i & r & -> & Hr). unfold a, v, sorted_addr, sorted_value, MEMORY_ADDR_SORTED_0, MEMORY_VALUES_SORTED_0.
  destruct r as [|[|[|[|r]]]]; [| | | |lia]; rewrite <- !Nat.add_assoc; cbn [Nat.add]; rewrite ?flat_next, !flat_at by lia.
  - row_eq Ht i 4%nat H; rewrite !sub_shift in H by lia; exact H.
  - row_eq Ht i 5%nat H; rewrite !sub_shift in H by lia; exact H.
  - row_eq Ht i 6%nat H; rewrite !sub_shift in H by lia; exact H.
  - row_eq Ht i 7%nat H; rewrite !sub_shift in H by lia; rewrite !Nat.add_0_r in H; rewrite (Nat.mod_small (i + 1) n) in H by lia; exact H.
Qed.

Lemma holds_dec j : holds pi ch cols n j \/ ~ holds pi ch cols n j.
Proof using HC.
  unfold holds. generalize (n - exempt j)%nat as m. induction m as [|m [IH|IH]]; [left; lia| |right; intro H; apply IH; intros; apply H; lia].
  destruct (felt_eq_dec C HE (nth j (cairo_constraints pi ch (crow cols m) (crow cols ((m + 1) mod n))) 0) 0) as [E|E].
  - left. intros i Hi. destruct (Nat.eq_dec i m) as [->|Hne]; [exact E|apply IH; lia].
  - right. intro H. apply E, H. lia.
Qed.
Lemma some_violated lo len : ~ (forall j, (lo <= j < lo + len)%nat -> holds pi ch cols n j) -> exists j, (lo <= j < lo + len)%nat /\ ~ holds pi ch cols n j.
Proof using HC.
  induction len as [|len IH]; intro H; [destruct H; lia|]. destruct (holds_dec (lo + len)) as [Hh|Hh]; [|exists (lo + len)%nat; split; [lia|exact Hh]].
  destruct IH as (j & Hj & Hn); [|exists j; split; [lia|exact Hn]]. intro G. apply H. intros j Hj. destruct (Nat.eq_dec j (lo + len)) as [->|Hne]; [exact Hh|apply G; lia].
Qed.

(** Sorted columns that list some cells in ascending order of the address. *)
Context (l : list (C * C)) (Hl : length l = (4 * n)%nat) (Ha : ascending (fun e : C * C => ce_repr (fst e)) l)
        (Hr : forall k, (k < 4 * n)%nat -> (a k, v k) = nth k l (0, 0)).
Lemma listed_addr k : (k < 4 * n)%nat -> a k = fst (nth k l (0, 0)).
Proof using Hr. intro H. now rewrite <- Hr. Qed.
Lemma listed_value k : (k < 4 * n)%nat -> v k = snd (nth k l (0, 0)).
Proof using Hr. intro H. now rewrite <- Hr. Qed.
Lemma listed_up i k : (i <= k < 4 * n)%nat -> (ce_repr (a i) <= ce_repr (a k))%N.
Proof using Hr Ha Hl. intro H. rewrite !listed_addr by lia. apply (ascending_nth (fun e : C * C => ce_repr (fst e)) l (0, 0) i k Ha). lia. Qed.

Lemma one_value i m : (forall j, (35 <= j < 39)%nat -> holds pi ch cols n j) -> (i + m < 4 * n)%nat -> a i = a (i + m)%nat -> v i = v (i + m)%nat.
Proof using HC Hr Ha Hl.
  intros Ht. induction m as [|m IH]; intros Hi E; [now rewrite Nat.add_0_r|].
  assert (Em : a i = a (i + m)%nat).
  { apply (repr_ext HC). apply N.le_antisymm; [apply listed_up; lia|]. rewrite E. apply listed_up. lia. }
  rewrite (IH ltac:(lia) Em). pose proof (value_step (i + m) Ht ltac:(lia)) as G. replace (i + m + 1)%nat with (i + S m)%nat in G by lia. rewrite <- E, <- Em in G.
  apply (proj1 (sub_zero HK _ _)). apply (f_equal (fun x => x * (0 - 1))) in G.
  transitivity ((v (i + m)%nat - v (i + S m)%nat) * (a i - a i - 1) * (0 - 1)); [ring|]. rewrite G. ring.
Qed.
Lemma no_two_values a0 v0 v1 : (forall j, (35 <= j < 39)%nat -> holds pi ch cols n j) -> In (a0, v0) l -> In (a0, v1) l -> v0 = v1.
Proof using HC Hr Ha Hl.
  intros Ht H0 H1. apply (In_nth _ _ (0, 0)) in H0, H1. destruct H0 as (i & Hi & Ei), H1 as (k & Hk & Ek). rewrite Hl in Hi, Hk.
  rewrite <- Hr in Ei, Ek by lia. apply pair_equal_spec in Ei, Ek. destruct Ei as [Ai Vi], Ek as [Ak Vk]. rewrite <- Vi, <- Vk.
  destruct (Nat.le_ge_cases i k) as [L|L].
  - replace k with (i + (k - i))%nat in * by lia. apply one_value; [exact Ht|lia|congruence].
  - replace i with (k + (i - k))%nat in * by lia. symmetry. apply one_value; [exact Ht|lia|congruence].
Qed.
Lemma climb i m h : (forall j, (31 <= j < 35)%nat -> holds pi ch cols n j) -> (i + m < 4 * n)%nat -> (ce_repr (a i) < h < ce_repr (a (i + m)%nat))%N ->
  exists k, (k < 4 * n)%nat /\ ce_repr (a k) = h.
Proof using HC Hr Ha Hl.
  intros Ht. induction m as [|m IH]; intros Hi Hh; [rewrite Nat.add_0_r in Hh; lia|].
  destruct (N.lt_trichotomy h (ce_repr (a (i + m)%nat))) as [L|[E|L]]; [apply IH; lia|exists (i + m)%nat; split; [lia|now symmetry]|]. exfalso.
  pose proof (address_step (i + m) Ht ltac:(lia)) as G. replace (i + m + 1)%nat with (i + S m)%nat in G by lia.
  pose proof (co_repr_lt _ _ HC (a (i + S m)%nat)) as Lp. set (x := a (i + m)%nat) in *. set (y := a (i + S m)%nat) in *.
  apply (mul_zero HK) in G. destruct G as [G|G].
  - apply (proj1 (sub_zero HK _ _)) in G. rewrite G in L. lia.
  - assert (Ey : y = e_u64 C (ce_repr x + 1)).
    { rewrite (co_add _ _ HC), (co_u64_repr _ _ HC), (co_one _ _ HC). apply (proj1 (sub_zero HK _ _)). rewrite <- G. ring. }
    assert (Ry : ce_repr y = (ce_repr x + 1)%N). { rewrite Ey, (co_repr_u64 _ _ HC). apply N.mod_small. lia. }
    lia.
Qed.
Lemma no_skipped e e' h : (forall j, (31 <= j < 35)%nat -> holds pi ch cols n j) -> In e l -> In e' l -> (ce_repr (fst e) < h < ce_repr (fst e'))%N ->
  exists u, In u l /\ ce_repr (fst u) = h.
Proof using HC Hr Ha Hl.
  intros Ht H0 H1 Hh. apply (In_nth _ _ (0, 0)) in H0, H1. destruct H0 as (i & Hi & <-), H1 as (k & Hk & <-). rewrite Hl in Hi, Hk.
  rewrite <- !listed_addr in Hh by lia. destruct (Nat.le_ge_cases k i) as [L|L]; [pose proof (listed_up k i ltac:(lia)); lia|].
  destruct (climb i (k - i) h Ht ltac:(lia)) as (x & Hx & Ex); [replace (i + (k - i))%nat with k by lia; exact Hh|].
  exists (nth x l (0, 0)). split; [apply nth_In; lia|]. now rewrite <- listed_addr.
Qed.
End Columns.

(** The completed table as the rows and the public cells determine it. *)
Lemma aux_full (pi : public_inputs C) (t : trace_table C) n main ch aux acols :
  has_columns t n main -> length main = (43 - builtin_offset pi)%nat -> cairo_build_aux pi t ch = Ok aux -> has_columns aux n acols ->
  exists rows pub, length rows = n /\ pub_cells pi pub /\ (length (public_memory pi) <= 4 * n)%nat /\ (forall e, In e (sorted_mem rows pub) -> factor ch e <> 0) /\
    (forall x, In x (rc_sorted rows) -> z_range_check ch - x <> 0) /\
    main ++ acols = full_cols (43 - builtin_offset pi) rows pub ch /\
    (forall k, (k < 4 * n)%nat -> nth k (mem_entries rows) (0, 0) = (access_addr main k, access_value main k)) /\
    (forall k, (k < 3 * n)%nat -> nth k (cells OFF_COLUMNS rows) 0 = offset_cell main k).
Proof using HC.
  intros Hm Lm Ha Hac. pose proof (offset_le pi) as Ho.
  set (rows := map (fun i => map (fun c => nth i c 0) main) (seq 0 n)). assert (Ht : is_table t rows).
  { destruct Hm as (W & L & T). split; [lia|]. split; [exact T|]. apply Forall_forall. intros row Hr. apply in_map_iff in Hr. destruct Hr as (i & <- & _). rewrite map_length. now symmetry. }
  assert (Lr : length rows = n) by (unfold rows; rewrite map_length; apply seq_length).
  destruct (aux_inverse HC pi t rows ch aux Ht ltac:(rewrite (proj1 Hm); lia) Ha) as (HL & pub & Hpub & Hnz & Hrz & Eaux). rewrite Lr in HL.
  pose proof (pub_cells_length pi pub Hpub) as Lp.
  assert (Em : main = cols_of (43 - builtin_offset pi) rows).
  { assert (H : has_columns t n (cols_of (tt_n_cols t) rows)) by (rewrite <- Lr; apply table_has_columns; [exact Ht|reflexivity]).
    rewrite (proj1 Hm), Lm in H. exact (table_columns_unique t n _ _ Hm H). }
  assert (Ea : acols = cols_of 18 (aux_rows rows pub ch)).
  { assert (L2 : length (aux_rows rows pub ch) = n) by (rewrite aux_rows_length; exact Lr).
    assert (H : has_columns aux n (cols_of 18 (aux_rows rows pub ch))) by (rewrite <- L2, Eaux; apply table_has_columns; [apply aux_rows_table|reflexivity]).
    exact (table_columns_unique aux n _ _ Hac H). }
  assert (Ec : main ++ acols = full_cols (43 - builtin_offset pi) rows pub ch) by (unfold full_cols; now rewrite <- Em, <- Ea).
  assert (Emem : forall k, (k < 4 * n)%nat -> nth k (mem_entries rows) (0, 0) = (access_addr main k, access_value main k)).
  { intros k Hk. pose proof (read_access_entry pi rows pub ch _ eq_refl k ltac:(lia)) as H. fold (full_cols (43 - builtin_offset pi) rows pub ch) in H. rewrite <- Ec in H. rewrite <- H.
    assert (Hq : (k mod 4 < 4)%nat) by (apply Nat.mod_upper_bound; lia).
    unfold access_addr, access_value, flat, cell, FRAME_PC, FRAME_INST. rewrite !app_nth1 by lia. reflexivity. }
  assert (Eoff : forall k, (k < 3 * n)%nat -> nth k (cells OFF_COLUMNS rows) 0 = offset_cell main k).
  { intros k Hk. pose proof (read_offset pi rows pub ch _ eq_refl k ltac:(lia)) as H. fold (full_cols (43 - builtin_offset pi) rows pub ch) in H. rewrite <- Ec in H. rewrite <- H.
    assert (Hq : (k mod 3 < 3)%nat) by (apply Nat.mod_upper_bound; lia). unfold offset_cell, flat, cell, OFF_DST. rewrite !app_nth1 by lia. reflexivity. }
  exists rows, pub. auto 9.
Qed.
(** What the prover's auxiliary columns list. *)
Lemma aux_lists (pi : public_inputs C) (t : trace_table C) n main ch aux acols :
  has_columns t n main -> length main = (43 - builtin_offset pi)%nat -> cairo_build_aux pi t ch = Ok aux -> has_columns aux n acols ->
  exists l, length l = (4 * n)%nat /\ ascending (fun e : C * C => ce_repr (fst e)) l /\
    (forall k, (k < 4 * n)%nat -> (sorted_addr pi (main ++ acols) k, sorted_value pi (main ++ acols) k) = nth k l (0, 0)) /\
    (forall e, In e l <-> used_cell pi main n e).
Proof using HC.
  intros Hm Lm Ha Hac. destruct (aux_full pi t n main ch aux acols Hm Lm Ha Hac) as (rows & pub & Lr & Hpub & HL & _ & _ & Ec & Emem & _). pose proof (pub_cells_length pi pub Hpub) as Lp.
  exists (sorted_mem rows pub). split; [rewrite <- Lr; apply sorted_mem_length; lia|]. split; [apply sort_by_ascending|]. split.
  - intros k Hk. rewrite Ec. apply read_sorted_entry; [reflexivity|lia|lia].
  - intro e. unfold sorted_mem. split.
    + intro H. apply (Permutation_in _ (sort_by_perm _ _)) in H. unfold replaced in H. apply in_app_or in H. destruct H as [H|H].
      * left. apply (In_nth _ _ (0, 0)) in H. destruct H as (k & Hk & <-). rewrite firstn_length, mem_entries_length, Lr, Lp in Hk.
        exists k. split; [lia|]. rewrite <- Emem by lia. rewrite Lr, Lp. apply nth_firstn_lt. lia.
      * right. pose proof (pub_lookup pi pub Hpub) as F. rewrite Forall_forall in F. specialize (F e H). destruct Hpub as (pa & pv & E1 & E2 & ->).
        exists pa. split; [exact E1|]. split; [|exact F]. destruct e as [x y]. exact (in_combine_l _ _ _ _ H).
    + intro H. apply (Permutation_in _ (Permutation_sym (sort_by_perm _ _))). unfold replaced. apply in_or_app. destruct H as [(k & Hk & ->)|(addrs & E1 & Hin & Hg)].
      * left. rewrite <- Emem by lia. rewrite <- (nth_firstn_lt (mem_entries rows) (4 * length rows - length pub)%nat k (0, 0)) by lia. apply nth_In.
        rewrite firstn_length, mem_entries_length, Lr, Lp. lia.
      * right. pose proof (pub_lookup pi pub Hpub) as F. rewrite Forall_forall in F. destruct Hpub as (pa & pv & E1' & E2 & ->). rewrite E1 in E1'. apply ok_inj in E1'. subst pa.
        apply traverse_length in E2. apply (In_nth _ _ 0) in Hin. destruct Hin as (k & Hk & Ek).
        assert (Hn : In (nth k (combine addrs pv) (0, 0)) (combine addrs pv)) by (apply nth_In; rewrite combine_length; lia).
        pose proof (F _ Hn) as G. rewrite combine_nth in G, Hn by lia. cbn [fst snd] in G. rewrite Ek, Hg in G. injection G as G.
        destruct e as [x y]. cbn [fst snd] in *. rewrite Ek, <- G in Hn. exact Hn.
Qed.
End Rows.

(** The columns of an accepted proof of the Cairo prover, and what is known about them. *)
Lemma cairo_aux_width {C : cairo_env} {p} (HC : cairo_ok C p) (pi : public_inputs C) n (t : trace_table C) main ch aux acols :
  has_columns t n main -> length main = (43 - builtin_offset pi)%nat -> cairo_build_aux pi t ch = Ok aux -> has_columns aux n acols ->
  length (main ++ acols) = cairo_width pi.
Proof.
  intros Hm Lm Ha Hac. pose proof (SortedFacts.offset_le pi) as Ho.
  set (rows := map (fun i => map (fun c => nth i c 0) main) (seq 0 n)). assert (Ht : is_table t rows).
  { destruct Hm as (W & L & T). split; [lia|]. split; [exact T|]. apply Forall_forall. intros row Hr. apply in_map_iff in Hr. destruct Hr as (i & <- & _). rewrite map_length. now symmetry. }
  destruct (aux_inverse HC pi t rows ch aux Ht ltac:(rewrite (proj1 Hm); lia) Ha) as (_ & pub & _ & _ & _ & ->).
  rewrite app_length, Lm, <- (proj1 Hac). cbn [tt_n_cols]. unfold cairo_width. lia.
Qed.

Section Accepted.
Context {C : cairo_env} {p : N} (HC : cairo_ok C p) (HS : sampling_ok C).
Context (pi : public_inputs C) (opts : proof_options) (r b : nat) (t : trace_table C) (main : list (list C)) (fuel : nat) (proof : stark_proof C).
Context (Hu : usable_options C opts r b) (Hta : (r + b <= two_adicity C)%nat) (Hm : has_columns t (2 ^ r) main) (Lm : length main = (43 - builtin_offset pi)%nat).
Context (Hp : generate_cairo_proof fuel t pi opts = Ok proof) (Hv : verify_cairo_proof fuel proof pi opts = Ok true).
Notation a := (cairo_air pi opts (2 ^ r)).
Notation bound := (Nat.max (2 ^ (r + b) + 2 ^ r + 1) (4 * 2 ^ r)).

Lemma accepted_columns :
  exists d r1 t1 (c : challenges C a) t2, domain_new a = Ok d /\ round_1 C a t d tr_new = Ok (r1, t1) /\ step_1 C fuel a proof d tr_new = Ok (c, t2) /\
  exists aux acols bcs, cairo_build_aux pi t (c_rap C a c) = Ok aux /\ has_columns aux (2 ^ r) acols /\ a_boundary a (c_rap C a c) = Ok bcs /\
  let bco := c_boundary_coeffs C a c in let tco := c_transition_coeffs C a c in
  (forall j, (j < n_constraints pi)%nat -> ~ constraint_holds a (c_rap C a c) (main ++ acols) (2 ^ r) j ->
     few_pairs (fun beta z => own_passes a d r1 bco (with_beta j beta tco) z) bound /\ own_passes a d r1 bco (with_beta j (snd (nth j tco (0, 0))) tco) (c_z C a c)) /\
  (forall j bc, nth_error bcs j = Some bc -> (bc_step bc < 2 ^ r)%nat -> nth (bc_step bc) (nth (bc_col bc) (main ++ acols) []) 0 <> bc_value bc ->
     few_pairs (fun beta z => own_passes a d r1 (with_beta j beta bco) tco z) bound /\ own_passes a d r1 (with_beta j (snd (nth j bco (0, 0))) bco) tco (c_z C a c)).
Proof using HC HS Hu Hta Hm Lm Hp Hv.
  pose proof (co_env _ _ HC) as HE. pose proof (SortedFacts.offset_le pi) as Ho.
  assert (Hmne : main <> []) by (intros E0; rewrite E0 in Lm; cbn [length] in Lm; lia). destruct (has_columns_table t _ main Hmne Hm) as [_ Hrows].
  pose proof (cairo_admissible HE pi opts r b Hu) as A.
  pose proof (C94_cairo_tables_are_shaped C p HC pi opts r t main Hm Lm) as Hsh.
  pose proof (C94_violating_table C fuel (cairo_air pi opts) opts t r b 2 proof) as G. cbv zeta in G. rewrite Hrows in G.
  destruct (G HE A (cairo_proving HS pi opts r b (ad_r _ _ _ _ A) Hta) eq_refl Hsh Hp Hv) as (d & r1 & t1 & c & t2 & Hd & Hr1 & Hst & Hrap & Hall).
  exists d, r1, t1, c, t2. do 3 (split; [assumption|]).
  assert (Haux : exists aux acols, cairo_build_aux pi t (c_rap C a c) = Ok aux /\ has_columns aux (2 ^ r) acols).
  { pose proof Hr1 as H. unfold round_1 in H. ok_as H ic Hic. destruct ic as [[[[mp me] mtree] mroot] t0]. ok_as H rp Hrp. destruct rp as [rap t3]. ok_as H aux Haux.
    assert (Er : r1_rap C a r1 = rap).
    { destruct (tt_is_empty aux); [ok_as H ldt Hldt; apply ok_inj in H; injection H as <- <-; reflexivity|].
      ok_as H ic2 Hic2. destruct ic2 as [[[[ap ae] atree] aroot] t4]. ok_as H ldt Hldt. apply ok_inj in H. injection H as <- <-. reflexivity. }
    destruct Hsh as (mc & _ & Hmc & Hx). destruct (Hx _ _ _ _ Hrp Haux) as (acols & Hac & _). exists aux, acols. split; [|exact Hac]. rewrite Hrap, Er. exact Haux. }
  destruct Haux as (aux & acols & Haux & Hac). 
  assert (Hbcs : exists bcs, a_boundary a (c_rap C a c) = Ok bcs).
  { pose proof Hst as H. unfold step_1 in H. ok_as H rt0 Hrt. ok_as H rp Hrp. destruct rp as [rap t3]. ok_as H bcs Hbcs.
    exists bcs. rewrite <- Hbcs. f_equal. clear - H. 
    ok_as H s1 Hs1. destruct s1 as [ba u1]. ok_as H s2 Hs2. destruct s2 as [bb u2]. ok_as H s3 Hs3. destruct s3 as [ta u3]. ok_as H s4 Hs4. destruct s4 as [tb u4].
    ok_as H sz Hsz. destruct sz as [z u5]. ok_as H nr Hnr. ok_as H rws Hrws. ok_as H g1 Hg1. destruct g1 as [g1 u6]. ok_as H g2 Hg2. destruct g2 as [g2 u7].
    ok_as H g3 Hg3. destruct g3 as [g3 u8]. ok_as H g4 Hg4. destruct g4 as [g4 u9]. destruct (tr_challenge _) as [chl u10] in H. ok_as H lz Hlz. ok_as H io Hio. destruct io as [io u11].
    apply ok_inj in H. apply pair_equal_spec in H. destruct H as [H _]. rewrite <- H. reflexivity. }
  destruct Hbcs as (bcs & Hbcs). exists aux, acols, bcs. do 3 (split; [assumption|]). cbv zeta.
  assert (Htr : trace_of a t (c_rap C a c) (2 ^ r) (main ++ acols)) by (exists aux, main, acols; auto).
  assert (EB : ood_bound a (2 ^ r) (2 ^ r) (2 ^ (r + b - 1)) = bound).
  { pose proof (ad_r _ _ _ _ A) as Hr. unfold ood_bound. cbn [cairo_air a_degree_bound]. f_equal; [|lia].
    replace (r + b)%nat with (S (r + b - 1)) at 2 by lia. rewrite Nat.pow_succ_r'. lia. }
  destruct (Hall _ Htr) as [H1 H2]. cbv zeta in H1, H2. rewrite EB in H1, H2. split.
  - intros j Hj Hn. apply H1; [| |exact Hn]; cbn [cairo_air a_context cairo_context transition_degrees num_transition_constraints]; unfold n_constraints in Hj; destruct (has_rc_builtin pi); cbn [length app repeat]; cbn; lia.
  - intros j bc Hj Hs Hn. exact (H2 j bcs bc Hbcs Hj Hs Hn).
Qed.
End Accepted.

(** ** C95 *)

(** If the cells used by the execution columns and the public memory give one address two values, then for every challenge the
    auxiliary columns that the prover adds violate one of the four constraints that make the sorted memory single-valued. *)
Theorem C95_two_values_violate :
  forall (C : cairo_env) p, cairo_ok C p -> forall (pi : public_inputs C) opts n (t : trace_table C) main ch aux acols,
  has_columns t n main -> length main = (43 - builtin_offset pi)%nat -> two_values pi main n ->
  cairo_build_aux pi t ch = Ok aux -> has_columns aux n acols ->
  exists j, (MEMORY_CONSISTENCY_0 <= j <= MEMORY_CONSISTENCY_3)%nat /\ ~ constraint_holds (cairo_air pi opts n) ch (main ++ acols) n j.
Proof.
  intros C p HC pi opts n t main ch aux acols Hm Lm (x & v & v' & H1 & H2 & Hne) Ha Hac.
  destruct (aux_lists HC pi t n main ch aux acols Hm Lm Ha Hac) as (l & Ll & Hasc & Hr & Hin).
  destruct (some_violated HC pi ch (main ++ acols) n 35 4) as (j & Hj & Hv).
  { intro Hall. apply Hne. apply (no_two_values HC pi ch (main ++ acols) n l Ll Hasc Hr x v v' Hall); now apply Hin. }
  exists j. split; [unfold MEMORY_CONSISTENCY_0, MEMORY_CONSISTENCY_3; lia|]. intro Hc. apply Hv.
  apply (cairo_constraint_holds pi opts ch (main ++ acols) n j (cairo_aux_width HC pi n t main ch aux acols Hm Lm Ha Hac)); [unfold n_constraints; destruct (has_rc_builtin pi); lia|exact Hc].
Qed.
Print Assumptions C95_two_values_violate.

(** Likewise, if an address between two used ones is not used, one of the four constraints that make the sorted addresses
    continuous is violated. *)
Theorem C95_skipped_address_violates :
  forall (C : cairo_env) p, cairo_ok C p -> forall (pi : public_inputs C) opts n (t : trace_table C) main ch aux acols,
  has_columns t n main -> length main = (43 - builtin_offset pi)%nat -> skipped_address pi main n ->
  cairo_build_aux pi t ch = Ok aux -> has_columns aux n acols ->
  exists j, (MEMORY_INCREASING_0 <= j <= MEMORY_INCREASING_3)%nat /\ ~ constraint_holds (cairo_air pi opts n) ch (main ++ acols) n j.
Proof.
  intros C p HC pi opts n t main ch aux acols Hm Lm (e & e' & h & H1 & H2 & Hh & Hno) Ha Hac.
  destruct (aux_lists HC pi t n main ch aux acols Hm Lm Ha Hac) as (l & Ll & Hasc & Hr & Hin).
  destruct (some_violated HC pi ch (main ++ acols) n 31 4) as (j & Hj & Hv).
  { intro Hall. destruct (no_skipped HC pi ch (main ++ acols) n l Ll Hasc Hr e e' h Hall) as (u & Hu & Eu); [now apply Hin|now apply Hin|exact Hh|].
    apply (Hno u); [now apply Hin|exact Eu]. }
  exists j. split; [unfold MEMORY_INCREASING_0, MEMORY_INCREASING_3; lia|]. intro Hc. apply Hv.
  apply (cairo_constraint_holds pi opts ch (main ++ acols) n j (cairo_aux_width HC pi n t main ch aux acols Hm Lm Ha Hac)); [unfold n_constraints; destruct (has_rc_builtin pi); lia|exact Hc].
Qed.
Print Assumptions C95_skipped_address_violates.

(** The proof that the prover makes from such a table is accepted only if the coefficient of a violated constraint and the
    point are one of the few passing pairs. *)
Theorem C95_contradicting_table_rarely_accepted :
  forall (C : cairo_env) p, cairo_ok C p -> sampling_ok C -> forall (pi : public_inputs C) opts r b (t : trace_table C) main fuel proof,
  usable_options C opts r b -> (r + b <= two_adicity C)%nat ->
  has_columns t (2 ^ r) main -> length main = (43 - builtin_offset pi)%nat ->
  two_values pi main (2 ^ r) \/ skipped_address pi main (2 ^ r) ->
  generate_cairo_proof fuel t pi opts = Ok proof -> verify_cairo_proof fuel proof pi opts = Ok true ->
  let a := cairo_air pi opts (2 ^ r) in
  exists d r1 t1 (c : challenges C a) t2 j,
    domain_new a = Ok d /\ round_1 C a t d tr_new = Ok (r1, t1) /\ step_1 C fuel a proof d tr_new = Ok (c, t2) /\
    (MEMORY_INCREASING_0 <= j <= MEMORY_CONSISTENCY_3)%nat /\
    let bco := c_boundary_coeffs C a c in let tco := c_transition_coeffs C a c in
    few_pairs (fun beta z => own_passes a d r1 bco (with_beta j beta tco) z) (Nat.max (2 ^ (r + b) + 2 ^ r + 1) (4 * 2 ^ r)) /\
    own_passes a d r1 bco (with_beta j (snd (nth j tco (0, 0))) tco) (c_z C a c).
Proof.
  intros C p HC HS pi opts r b t main fuel proof Hu Hta Hm Lm Hbad Hp Hv a.
  destruct (accepted_columns HC HS pi opts r b t main fuel proof Hu Hta Hm Lm Hp Hv) as (d & r1 & t1 & c & t2 & Hd & Hr1 & Hst & aux & acols & bcs & Haux & Hac & _ & Htr & _).
  assert (Hj : exists j, (MEMORY_INCREASING_0 <= j <= MEMORY_CONSISTENCY_3)%nat /\ ~ constraint_holds a (c_rap C a c) (main ++ acols) (2 ^ r) j).
  { destruct Hbad as [Hbad|Hbad].
    - destruct (C95_two_values_violate C p HC pi opts (2 ^ r) t main _ aux acols Hm Lm Hbad Haux Hac) as (j & Hj & Hn). exists j. split; [|exact Hn].
      unfold MEMORY_CONSISTENCY_0, MEMORY_INCREASING_0, MEMORY_CONSISTENCY_3 in *. lia.
    - destruct (C95_skipped_address_violates C p HC pi opts (2 ^ r) t main _ aux acols Hm Lm Hbad Haux Hac) as (j & Hj & Hn). exists j. split; [|exact Hn].
      unfold MEMORY_INCREASING_3, MEMORY_INCREASING_0, MEMORY_CONSISTENCY_3 in *. lia. }
  destruct Hj as (j & Hj & Hn). exists d, r1, t1, c, t2, j. do 4 (split; [assumption|]). apply Htr; [|exact Hn].
  unfold n_constraints. unfold MEMORY_INCREASING_0, MEMORY_CONSISTENCY_3 in Hj. destruct (has_rc_builtin pi); lia.
Qed.
Print Assumptions C95_contradicting_table_rarely_accepted.

(** The registers that the public inputs claim: column, row and value. *)
Definition register_claims {C : cairo_env} (pi : public_inputs C) : list (nat * nat * C) :=
  [(FRAME_PC, 0%nat, pc_init pi); (FRAME_AP, 0%nat, ap_init pi); (FRAME_PC, (num_steps pi - 1)%nat, pc_final pi); (FRAME_AP, (num_steps pi - 1)%nat, ap_final pi)].
(** A table with another value in one of these cells: the same for the boundary constraint of that cell. *)
Theorem C95_changed_register_rarely_accepted :
  forall (C : cairo_env) p, cairo_ok C p -> sampling_ok C -> forall (pi : public_inputs C) opts r b (t : trace_table C) main fuel proof j col row x,
  usable_options C opts r b -> (r + b <= two_adicity C)%nat ->
  has_columns t (2 ^ r) main -> length main = (43 - builtin_offset pi)%nat ->
  nth_error (register_claims pi) j = Some (col, row, x) -> (row < 2 ^ r)%nat -> nth row (nth col main []) 0 <> x ->
  generate_cairo_proof fuel t pi opts = Ok proof -> verify_cairo_proof fuel proof pi opts = Ok true ->
  let a := cairo_air pi opts (2 ^ r) in
  exists d r1 t1 (c : challenges C a) t2,
    domain_new a = Ok d /\ round_1 C a t d tr_new = Ok (r1, t1) /\ step_1 C fuel a proof d tr_new = Ok (c, t2) /\
    let bco := c_boundary_coeffs C a c in let tco := c_transition_coeffs C a c in
    few_pairs (fun beta z => own_passes a d r1 (with_beta j beta bco) tco z) (Nat.max (2 ^ (r + b) + 2 ^ r + 1) (4 * 2 ^ r)) /\
    own_passes a d r1 (with_beta j (snd (nth j bco (0, 0))) bco) tco (c_z C a c).
Proof.
  intros C p HC HS pi opts r b t main fuel proof j col row x Hu Hta Hm Lm Hj Hrow Hne Hp Hv a. pose proof (SortedFacts.offset_le pi) as Ho.
  destruct (accepted_columns HC HS pi opts r b t main fuel proof Hu Hta Hm Lm Hp Hv) as (d & r1 & t1 & c & t2 & Hd & Hr1 & Hst & aux & acols & bcs & Haux & Hac & Hbcs & _ & Hb).
  exists d, r1, t1, c, t2. do 3 (split; [assumption|]).
  assert (Hbc : nth_error bcs j = Some (mk_bc col row x) /\ (col < 34)%nat).
  { cbn [cairo_air a_boundary] in Hbcs. unfold cairo_boundary in Hbcs. ok_as Hbcs ls Hls. ok_as Hbcs fi Hfi. ok_as Hbcs cp Hcp. ok_as Hbcs mn Hmn. ok_as Hbcs mx Hmx. apply ok_inj in Hbcs. subst bcs.
    assert (El : ls = (num_steps pi - 1)%nat) by (unfold usub in Hls; destruct (num_steps pi <? 1)%nat; [discriminate|apply ok_inj in Hls; now symmetry]).
    destruct j as [|[|[|[|j]]]]; cbn [register_claims nth_error] in Hj |- *; [| | | |destruct j; discriminate];
      injection Hj as Hc Hr Hx; rewrite <- Hc, <- Hr, <- Hx, ?El; (split; [reflexivity|unfold FRAME_PC, FRAME_AP; lia]). }
  destruct Hbc as [Hbc Hcol]. apply (Hb j (mk_bc col row x) Hbc); cbn [bc_step bc_col bc_value]; [exact Hrow|]. rewrite app_nth1 by lia. exact Hne.
Qed.
Print Assumptions C95_changed_register_rarely_accepted.

(** All cells zero but the first instruction: it is read at address 1 where the public memory has another word. And all cells
    zero but the first program counter, which is 5, so that no row uses the addresses from 2 to 4; the first program counter is
    not the claimed one either. *)
Definition calm_column (j : nat) (x : calm) (cols : list (list calm)) : list (list calm) := firstn j cols ++ [x :: repeat 0 7] ++ skipn (S j) cols.
Definition calm_zeros : list (list calm) := repeat (repeat (0 : calm) 8) 43.
Definition changed_word : list (list calm) := calm_column FRAME_PC (f252 1) (calm_column FRAME_INST (f252 9) calm_zeros).
Definition changed_pc : list (list calm) := calm_column FRAME_PC (f252 5) calm_zeros.
Definition word_pi : public_inputs calm :=
  mk_public_inputs (f252 1 : calm) (f252 8 : calm) (f252 8 : calm) (f252 77 : calm) (f252 9 : calm) (Some 32766%N) (Some 32769%N) [(RangeCheck, (27, 29)%N)] [((f252 1 : calm), (f252 7 : calm))] 2.
Definition calm_ch : cairo_challenges calm := CairoAir.mk_challenges (f252 3 : calm) (f252 1000 : calm) (f252 100000 : calm).

Lemma calm_differ (x y : calm) : zval (x : zp stark_p) <> zval (y : zp stark_p) -> x <> y.
Proof. intros H E. apply H. now rewrite E. Qed.
Example C95_example :
  cairo_ok calm (Z.to_N stark_p) /\ sampling_ok calm /\ usable_options calm default_test_options 3 2 /\ (3 + 2 <= two_adicity calm)%nat /\
  has_columns (table_of changed_word (2 ^ 3)) (2 ^ 3) changed_word /\ length changed_word = (43 - builtin_offset word_pi)%nat /\ two_values word_pi changed_word (2 ^ 3) /\
  has_columns (table_of changed_pc (2 ^ 3)) (2 ^ 3) changed_pc /\ length changed_pc = (43 - builtin_offset word_pi)%nat /\ skipped_address word_pi changed_pc (2 ^ 3) /\
  nth_error (register_claims word_pi) 0 = Some (FRAME_PC, 0%nat, f252 1 : calm) /\ nth 0 (nth FRAME_PC changed_pc []) 0 <> (f252 1 : calm).
Proof.
  split; [exact calm_ok|]. split; [exact calm_sampling|]. split; [apply (default_coset_usable calm_ok); try reflexivity; lia|]. split; [cbn; lia|].
  assert (L : forall main, main = changed_word \/ main = changed_pc -> forall c, In c main -> length c = (2 ^ 3)%nat).
  { intros main Hmain c Hc. assert (F : forallb (fun c => length c =? 8)%nat main = true) by (destruct Hmain as [-> | ->]; reflexivity).
    rewrite forallb_forall in F. specialize (F c Hc). apply Nat.eqb_eq in F. exact F. }
  assert (Hc1 : claimed_cell word_pi ((f252 1 : calm), (f252 7 : calm))).
  { exists [(f252 1 : calm)]. split; [reflexivity|]. split; [now left|]. reflexivity. }
  split; [apply table_of_columns, L; now left|]. split; [reflexivity|]. split.
  { exists (f252 1 : calm), (f252 9 : calm), (f252 7 : calm). split; [left; exists 0%nat; split; [cbn; lia|reflexivity]|]. split; [right; exact Hc1|].
    apply calm_differ. vm_compute. discriminate. }
  split; [apply table_of_columns, L; now right|]. split; [reflexivity|]. split.
  { exists ((f252 1 : calm), (f252 7 : calm)), ((f252 5 : calm), (0 : calm)), 3%N. split; [right; exact Hc1|]. split; [left; exists 0%nat; split; [cbn; lia|reflexivity]|].
    split; [split; reflexivity|]. intros u [(k & Hk & ->)|(addrs & E & Hin & _)].
    - cbn [fst]. change (k < 31)%nat in Hk. 
      assert (F : forallb (fun k => negb (ce_repr (access_addr changed_pc k) =? 3)%N) (seq 0 31) = true) by (vm_compute; reflexivity).
      rewrite forallb_forall in F. specialize (F k ltac:(apply in_seq; lia)). apply negb_true_iff, N.eqb_neq in F. exact F.
    - assert (E2 : get_pub_memory_addrs word_pi = Ok [(f252 1 : calm)]) by reflexivity. rewrite E2 in E. apply ok_inj in E. subst addrs. destruct Hin as [<-|[]]. vm_compute. discriminate. }
  split; [reflexivity|]. apply calm_differ. vm_compute. discriminate.
Qed.

(** The first two rows of the first table; the auxiliary columns exist. *)
Example C95_example_completed :
  let main := map (firstn 2) changed_word in
  has_columns (table_of main 2) 2 main /\ length main = (43 - builtin_offset word_pi)%nat /\ two_values word_pi main 2 /\
  exists aux, cairo_build_aux word_pi (table_of main 2) calm_ch = Ok aux.
Proof.
  cbv zeta. split; [|split; [reflexivity|split]].
  - apply table_of_columns. intros c Hc. assert (F : forallb (fun c => length c =? 2)%nat (map (firstn 2) changed_word) = true) by reflexivity.
    rewrite forallb_forall in F. specialize (F c Hc). apply Nat.eqb_eq in F. exact F.
  - exists (f252 1 : calm), (f252 9 : calm), (f252 7 : calm). split; [left; exists 0%nat; split; [cbn; lia|reflexivity]|]. split; [|apply calm_differ; vm_compute; discriminate].
    right. exists [(f252 1 : calm)]. split; [reflexivity|]. split; [now left|]. reflexivity.
  - assert (H : forall o : outcome (trace_table calm), match o with Ok _ => true | _ => false end = true -> exists x, o = Ok x) by (intros [x|e|] H; [now exists x|discriminate|discriminate]).
    apply H. vm_compute. reflexivity.
Qed.
