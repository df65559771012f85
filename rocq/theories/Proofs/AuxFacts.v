(** The auxiliary columns of the Cairo trace. *)
From Coq Require Import List Arith NArith ZArith Bool Lia Permutation.
From Verif.Base Require Import Outcome Field Poly.
From Verif.Model Require Import Codec PublicInputs Trace Air CairoDecode CairoTrace CairoAir.
From Verif.Spec Require Import CairoSpec CairoColumns.
From Verif.Proofs Require Import FieldFacts PolyFacts OutcomeFacts FFTFacts TraceFacts BuildFacts MainTraceFacts SortFacts MainColsFacts SortedFacts RunnerFacts MultisetFacts WalkFacts.
Import ListNotations.
Local Open Scope felt_scope.

Section Scan.
Context {K : field_ops} (HK : field_ok K).
Add Field Kfield40 : (fld_th K HK).

Lemma scan_length {A B} (f : B -> A -> B) b l : length (scan f b l) = length l.
Proof. revert b. induction l as [|a l IH]; intro b; [reflexivity|]. cbn [scan length]. now rewrite IH. Qed.
Lemma scan_nth {A B} (f : B -> A -> B) b l k da db : (k < length l)%nat ->
  nth k (scan f b l) db = f (match k with O => b | S k' => nth k' (scan f b l) db end) (nth k l da).
Proof.
  revert b k. induction l as [|a l IH]; intros b k Hk; cbn [length] in Hk; [lia|]. destruct k as [|k]; [reflexivity|].
  change (nth k (scan f (f b a) l) db = f (nth k (f b a :: scan f (f b a) l) db) (nth k l da)).
  rewrite IH by lia. destruct k; reflexivity.
Qed.
(** Running quotients: [p_k * (z - s_k) = p_{k-1} * (z - o_k)]. *)
Lemma quotient_step (q z o s : K) : z - s <> 0 -> q * ((z - o) * finv (z - s)) * (z - s) = q * (z - o).
Proof using HK. intro H. field. exact H. Qed.
Lemma quotient_step' (q z o s : K) : z - s <> 0 -> q * (z - o) * finv (z - s) * (z - s) = q * (z - o).
Proof using HK. intro H. field. exact H. Qed.
End Scan.

Section Aux.
Context {C : cairo_env} {p : N} (HC : cairo_ok C p).
Let HK : field_ok C := fft_field_ok _ (e_fft_ok _ (co_env _ _ HC)).
Add Field Kfield41 : (fld_th C HK).

Definition VAL_COLUMNS : list nat := [FRAME_INST; FRAME_DST; FRAME_OP0; FRAME_OP1].
Definition mem_entries (rows : list (list C)) : list (C * C) := combine (cells ADDR_COLUMNS rows) (cells VAL_COLUMNS rows).
(** The last [L] accesses replaced by the public cells. *)
Definition replaced (rows : list (list C)) (pub : list (C * C)) : list (C * C) :=
  firstn (4 * length rows - length pub) (mem_entries rows) ++ pub.
Definition sorted_mem (rows : list (list C)) (pub : list (C * C)) : list (C * C) :=
  sort_by (fun av => ce_repr (fst av)) (replaced rows pub).
Definition factor (ch : cairo_challenges C) (e : C * C) : C := z_memory ch - (fst e + alpha_memory ch * snd e).
Definition mem_column (ch : cairo_challenges C) (orig sorted : list (C * C)) : list C :=
  scan (fun q x => q * (factor ch (fst x) * finv (factor ch (snd x)))) 1 (combine orig sorted).
Definition rc_sorted (rows : list (list C)) : list C := map (e_u64 C) (sorted_u16s rows).
Definition rc_column (ch : cairo_challenges C) (orig sorted : list C) : list C :=
  scan (fun q x => q * (z_range_check ch - fst x) * finv (z_range_check ch - snd x)) 1 (combine orig sorted).
Definition aux_row (so sa sv q g : list C) (i : nat) : list C :=
  map (fun j => nth (3 * i + j) so 0) [0; 1; 2]%nat ++ map (fun j => nth (4 * i + j) sa 0) [0; 1; 2; 3]%nat ++
  map (fun j => nth (4 * i + j) sv 0) [0; 1; 2; 3]%nat ++ map (fun j => nth (4 * i + j) q 0) [0; 1; 2; 3]%nat ++
  map (fun j => nth (3 * i + j) g 0) [0; 1; 2]%nat.
Definition aux_rows (rows : list (list C)) (pub : list (C * C)) (ch : cairo_challenges C) : list (list C) :=
  map (aux_row (rc_sorted rows) (map fst (sorted_mem rows pub)) (map snd (sorted_mem rows pub))
         (mem_column ch (mem_entries rows) (sorted_mem rows pub)) (rc_column ch (cells OFF_COLUMNS rows) (rc_sorted rows))) (seq 0 (length rows)).

(** The public cells in the order in which the prover appends them. *)
Definition pub_cells (pi : public_inputs C) (pub : list (C * C)) : Prop :=
  exists pa pv, get_pub_memory_addrs pi = Ok pa /\ traverse (fun a => unwrap (map_get feqb a (public_memory pi))) pa = Ok pv /\ pub = combine pa pv.
Lemma pub_addrs_length (pi : public_inputs C) pa : get_pub_memory_addrs pi = Ok pa -> length pa = length (public_memory pi).
Proof using Type.
  unfold get_pub_memory_addrs. destruct (map_get segment_eqb Output (memory_segments pi)) as [[lo hi]|].
  - destruct (N.ltb_spec hi lo); [discriminate|]. destruct (N.ltb_spec (N.of_nat (length (public_memory pi))) (hi - lo)); [discriminate|].
    intro H1. apply ok_inj in H1. subst pa. rewrite app_length, !map_length, !nrange_length. lia.
  - intro H1. apply ok_inj in H1. subst pa. rewrite map_length, nrange_length. lia.
Qed.
Lemma pub_cells_length (pi : public_inputs C) pub : pub_cells pi pub -> length pub = length (public_memory pi).
Proof using Type.
  intros (pa & pv & Ha & Hv & ->). apply traverse_length in Hv. rewrite combine_length, Hv. apply pub_addrs_length in Ha. lia.
Qed.

Lemma firstn_combine' {A B} (a : list A) (b : list B) k : firstn k (combine a b) = combine (firstn k a) (firstn k b).
Proof using Type. revert a b. induction k as [|k IH]; intros [|x a] [|y b]; try reflexivity. cbn [firstn combine]. now rewrite IH. Qed.
Lemma combine_app {A B} (a a' : list A) (b b' : list B) : length a = length b -> combine (a ++ a') (b ++ b') = combine a b ++ combine a' b'.
Proof using Type. revert b. induction a as [|x a IH]; intros [|y b] H; try discriminate; [reflexivity|]. cbn [app combine]. rewrite IH; [reflexivity|]. cbn in H. lia. Qed.
Lemma combine_fst {A B} (a : list A) (b : list B) : length a = length b -> map fst (combine a b) = a.
Proof using Type. revert b. induction a as [|x a IH]; intros [|y b] H; try discriminate; [reflexivity|]. cbn [combine map fst]. rewrite IH; [reflexivity|]. cbn in H. lia. Qed.
Lemma combine_snd {A B} (a : list A) (b : list B) : length a = length b -> map snd (combine a b) = b.
Proof using Type. revert b. induction a as [|x a IH]; intros [|y b] H; try discriminate; [reflexivity|]. cbn [combine map snd]. rewrite IH; [reflexivity|]. cbn in H. lia. Qed.
Lemma combine_pairs {A B} (l : list (A * B)) : combine (map fst l) (map snd l) = l.
Proof using Type. induction l as [|[a b] l IH]; [reflexivity|]. cbn. now rewrite IH. Qed.

Lemma addr_cells_length rows : length (cells (C:=C) ADDR_COLUMNS rows) = (4 * length rows)%nat.
Proof using Type. rewrite cells_length. cbn [ADDR_COLUMNS length]. lia. Qed.
Lemma val_cells_length rows : length (cells (C:=C) VAL_COLUMNS rows) = (4 * length rows)%nat.
Proof using Type. rewrite cells_length. cbn [VAL_COLUMNS length]. lia. Qed.
Lemma off_cells_length rows : length (cells (C:=C) OFF_COLUMNS rows) = (3 * length rows)%nat.
Proof using Type. rewrite cells_length. cbn [OFF_COLUMNS length]. lia. Qed.
Lemma mem_entries_length rows : length (mem_entries rows) = (4 * length rows)%nat.
Proof using Type. unfold mem_entries. rewrite combine_length, addr_cells_length, val_cells_length. lia. Qed.
Lemma replaced_length rows pub : (length pub <= 4 * length rows)%nat -> length (replaced rows pub) = (4 * length rows)%nat.
Proof using Type. intro H. unfold replaced. rewrite app_length, firstn_length, mem_entries_length. lia. Qed.
Lemma sorted_mem_length rows pub : (length pub <= 4 * length rows)%nat -> length (sorted_mem rows pub) = (4 * length rows)%nat.
Proof using Type. intro H. unfold sorted_mem. now rewrite sort_by_length, replaced_length. Qed.
Lemma rc_sorted_length rows : length (rc_sorted rows) = (3 * length rows)%nat.
Proof using Type. unfold rc_sorted, sorted_u16s. now rewrite map_length, sort_by_length, map_length, off_cells_length. Qed.

Lemma add_pub_ok (rows : list (list C)) (pi : public_inputs C) pa pv : (length (public_memory pi) <= 4 * length rows)%nat -> get_pub_memory_addrs pi = Ok pa ->
  traverse (fun a => unwrap (map_get feqb a (public_memory pi))) pa = Ok pv ->
  add_pub_memory (cells ADDR_COLUMNS rows) (cells VAL_COLUMNS rows) pi =
  Ok (map fst (replaced rows (combine pa pv)), map snd (replaced rows (combine pa pv))).
Proof using Type.
  intros HL Ha Hv. pose proof (pub_addrs_length pi pa Ha) as La. pose proof (traverse_length _ _ _ Hv) as Lv.
  unfold add_pub_memory. rewrite addr_cells_length, usub_ok by lia. cbn [obind]. rewrite Ha. cbn [obind].
  rewrite app_length, firstn_length, addr_cells_length, val_cells_length.
  destruct (Nat.ltb_spec (4 * length rows) (Nat.min (4 * length rows - length (public_memory pi)) (4 * length rows) + length pa)%nat); [lia|].
  rewrite Hv. cbn [obind]. unfold replaced, mem_entries.
  rewrite combine_length, Lv, Nat.min_id, La. rewrite firstn_combine', !map_app, !combine_fst, !combine_snd;
    try (rewrite ?firstn_length, ?addr_cells_length, ?val_cells_length; lia).
  do 3 f_equal. rewrite skipn_all2 by (rewrite val_cells_length; lia). apply app_nil_r.
Qed.
Lemma add_pub_inv (rows : list (list C)) (pi : public_inputs C) a v : add_pub_memory (cells ADDR_COLUMNS rows) (cells VAL_COLUMNS rows) pi = Ok (a, v) ->
  (length (public_memory pi) <= 4 * length rows)%nat /\ exists pa pv, get_pub_memory_addrs pi = Ok pa /\
  traverse (fun a => unwrap (map_get feqb a (public_memory pi))) pa = Ok pv.
Proof using Type.
  unfold add_pub_memory. intro H. apply obind_ok in H. destruct H as (s & Es & H). apply usub_inv in Es. rewrite addr_cells_length in Es.
  apply obind_ok in H. destruct H as (pa & Ea & H). cbv zeta in H.
  match type of H with (if ?b then _ else _) = _ => destruct b; [discriminate|] end.
  apply obind_ok in H. destruct H as (pv & Ev & _). split; [lia|eauto].
Qed.

Lemma split_maps {A B} (l : list (A * B)) : List.split l = (map fst l, map snd l).
Proof using Type. induction l as [|[a b] l IH]; [reflexivity|]. cbn [List.split map fst snd]. now rewrite IH. Qed.
Lemma sort_columns (l : list (C * C)) : sort_columns_by_memory_address (map fst l) (map snd l) =
  let s := sort_by (fun av => ce_repr (fst av)) l in (map fst s, map snd s).
Proof using Type. unfold sort_columns_by_memory_address. rewrite combine_pairs, split_maps. reflexivity. Qed.

Lemma scan_map {A A' B} (f : B -> A' -> B) (h : A -> A') b l : scan f b (map h l) = scan (fun q x => f q (h x)) b l.
Proof using Type. revert b. induction l as [|a l IH]; intro b; [reflexivity|]. cbn [map scan]. now rewrite IH. Qed.
Lemma mem_column_ok (orig sorted : list (C * C)) ch : (forall e, In e sorted -> factor ch e <> 0) ->
  memory_permutation_column (map fst orig) (map snd orig) (map fst sorted) (map snd sorted) ch = Ok (mem_column ch orig sorted).
Proof using HC.
  intro H. unfold memory_permutation_column. rewrite !combine_pairs. rewrite (batch_inverse_ok HK).
  - cbn [obind]. unfold mem_column. rewrite map_map.
    assert (E : combine orig (map (fun x => finv (z_memory ch - (fst x + alpha_memory ch * snd x))) sorted)
                = map (fun x => (fst x, finv (factor ch (snd x)))) (combine orig sorted)).
    { clear H. revert sorted. induction orig as [|o orig IH]; intros [|s sorted]; try reflexivity. cbn [map combine fst snd]. now rewrite IH. }
    rewrite E, scan_map. f_equal. unfold factor.
    assert (G : forall l b, scan (fun (q : C) (x : C * C * (C * C)) => let '(a, v, d) := (fst x, finv (z_memory ch - (fst (snd x) + alpha_memory ch * snd (snd x)))) in
        q * ((z_memory ch - (a + alpha_memory ch * v)) * d)) b l
      = scan (fun q x => q * ((z_memory ch - (fst (fst x) + alpha_memory ch * snd (fst x))) * finv (z_memory ch - (fst (snd x) + alpha_memory ch * snd (snd x))))) b l).
    { induction l as [|[[x y] [u v]] l IH]; intro b; [reflexivity|]. cbn [scan fst snd]. now rewrite IH. }
    apply G.
  - intros x Hx. apply in_map_iff in Hx. destruct Hx as (e & <- & He). now apply H.
Qed.
Lemma mem_column_inv (orig sorted : list (C * C)) ch r :
  memory_permutation_column (map fst orig) (map snd orig) (map fst sorted) (map snd sorted) ch = Ok r -> forall e, In e sorted -> factor ch e <> 0.
Proof using HC.
  unfold memory_permutation_column. rewrite !combine_pairs. intro H. apply obind_ok in H. destruct H as (d & Ed & _).
  apply (batch_inverse_inv HK) in Ed. destruct Ed as [_ Hnz]. intros e He. apply Hnz. apply in_map_iff. exists e. now split.
Qed.
Lemma rc_column_ok (orig sorted : list C) ch : (forall x, In x sorted -> z_range_check ch - x <> 0) ->
  rc_permutation_column orig sorted ch = Ok (rc_column ch orig sorted).
Proof using HC.
  intro H. unfold rc_permutation_column. rewrite (batch_inverse_ok HK).
  - cbn [obind]. unfold rc_column. rewrite map_map.
    assert (E : combine orig (map (fun x => finv (z_range_check ch - x)) sorted) = map (fun x => (fst x, finv (z_range_check ch - snd x))) (combine orig sorted)).
    { clear H. revert sorted. induction orig as [|o orig IH]; intros [|s sorted]; try reflexivity. cbn [map combine fst snd]. now rewrite IH. }
    rewrite E, scan_map. reflexivity.
  - intros x Hx. apply in_map_iff in Hx. destruct Hx as (e & <- & He). now apply H.
Qed.
Lemma rc_column_inv (orig sorted : list C) ch r : rc_permutation_column orig sorted ch = Ok r -> forall x, In x sorted -> z_range_check ch - x <> 0.
Proof using HC.
  unfold rc_permutation_column. intro H. apply obind_ok in H. destruct H as (d & Ed & _).
  apply (batch_inverse_inv HK) in Ed. destruct Ed as [_ Hnz]. intros e He. apply Hnz. apply in_map_iff. exists e. now split.
Qed.

Lemma five_slices n (so sa sv q g : list C) : length so = (3 * n)%nat -> length sa = (4 * n)%nat -> length sv = (4 * n)%nat -> length q = (4 * n)%nat -> length g = (3 * n)%nat ->
  traverse (fun i => obind (traverse (fun j => idx so (3 * i + j)) [0; 1; 2]%nat) (fun r1 => obind (traverse (fun j => idx sa (4 * i + j)) [0; 1; 2; 3]%nat) (fun r2 =>
    obind (traverse (fun j => idx sv (4 * i + j)) [0; 1; 2; 3]%nat) (fun r3 => obind (traverse (fun j => idx q (4 * i + j)) [0; 1; 2; 3]%nat) (fun r4 =>
    obind (traverse (fun j => idx g (3 * i + j)) [0; 1; 2]%nat) (fun r5 => Ok (r1 ++ r2 ++ r3 ++ r4 ++ r5))))))) (seq 0 n) = Ok (map (aux_row so sa sv q g) (seq 0 n)).
Proof using Type.
  intros L1 L2 L3 L4 L5. apply traverse_map. intros i Hi. apply in_seq in Hi.
  assert (T3 : forall l : list C, length l = (3 * n)%nat -> traverse (fun j => idx l (3 * i + j)) [0; 1; 2]%nat = Ok (map (fun j => nth (3 * i + j) l 0) [0; 1; 2]%nat)).
  { intros l Hl. apply traverse_map. intros j Hj. apply idx_nth. cbn in Hj. lia. }
  assert (T4 : forall l : list C, length l = (4 * n)%nat -> traverse (fun j => idx l (4 * i + j)) [0; 1; 2; 3]%nat = Ok (map (fun j => nth (4 * i + j) l 0) [0; 1; 2; 3]%nat)).
  { intros l Hl. apply traverse_map. intros j Hj. apply idx_nth. cbn in Hj. lia. }
  rewrite (T3 so L1). cbn [obind]. rewrite (T4 sa L2). cbn [obind]. rewrite (T4 sv L3). cbn [obind]. rewrite (T4 q L4). cbn [obind]. rewrite (T3 g L5). reflexivity.
Qed.

Theorem aux_forward (pi : public_inputs C) main (rows : list (list C)) ch pub : is_table main rows -> (30 <= tt_n_cols main)%nat -> (length (public_memory pi) <= 4 * length rows)%nat -> pub_cells pi pub ->
  (forall e, In e (sorted_mem rows pub) -> factor ch e <> 0) -> (forall x, In x (rc_sorted rows) -> z_range_check ch - x <> 0) ->
  cairo_build_aux pi main ch = Ok (mk_trace (concat (aux_rows rows pub ch)) 18).
Proof using HC.
  intros Ht Hw HL Hp Hm Hr. pose proof (pub_cells_length pi pub Hp) as Lp. destruct Hp as (pa & pv & Ha & Hv & ->). unfold cairo_build_aux.
  destruct (table_get_cols _ _ [FRAME_PC; FRAME_DST_ADDR; FRAME_OP0_ADDR; FRAME_OP1_ADDR] 0 Ht) as (ac & Eac & (_ & Eact & _) & _);
    [discriminate|intros c Hc; cbn in Hc; unfold FRAME_PC, FRAME_DST_ADDR, FRAME_OP0_ADDR, FRAME_OP1_ADDR in Hc; lia|].
  rewrite Eac. cbn [obind].
  destruct (table_get_cols _ _ [FRAME_INST; FRAME_DST; FRAME_OP0; FRAME_OP1] 0 Ht) as (vc & Evc & (_ & Evct & _) & _);
    [discriminate|intros c Hc; cbn in Hc; unfold FRAME_INST, FRAME_DST, FRAME_OP0, FRAME_OP1 in Hc; lia|].
  rewrite Evc. cbn [obind]. rewrite Eact, Evct. fold ADDR_COLUMNS VAL_COLUMNS. fold (cells ADDR_COLUMNS rows). fold (cells VAL_COLUMNS rows).
  rewrite (add_pub_ok rows pi pa pv HL Ha Hv). cbn [obind]. rewrite sort_columns. cbv zeta. fold (sorted_mem rows (combine pa pv)).
  pose proof (mem_column_ok (mem_entries rows) (sorted_mem rows (combine pa pv)) ch Hm) as EM. unfold mem_entries in EM at 1 2.
  rewrite combine_fst, combine_snd in EM by (rewrite addr_cells_length, val_cells_length; reflexivity).
  etransitivity; [exact (f_equal (fun x => obind x _) EM)|]. cbn [obind].
  destruct (table_get_cols _ _ [OFF_DST; OFF_OP0; OFF_OP1] 0 Ht) as (oc & Eoc & (_ & Eoct & _) & _);
    [discriminate|intros c Hc; cbn in Hc; unfold OFF_DST, OFF_OP0, OFF_OP1 in Hc; lia|].
  rewrite Eoc. cbn [obind]. rewrite Eoct. fold OFF_COLUMNS. fold (cells OFF_COLUMNS rows). fold (sorted_u16s rows). fold (rc_sorted rows).
  rewrite rc_column_ok by exact Hr. cbn [obind]. rewrite (table_n_rows _ _ Ht).
  rewrite five_slices; [reflexivity|apply rc_sorted_length|rewrite map_length; apply sorted_mem_length; lia..| |].
  - unfold mem_column. rewrite scan_length, combine_length, mem_entries_length, sorted_mem_length; lia.
  - unfold rc_column. rewrite scan_length, combine_length, off_cells_length, rc_sorted_length. lia.
Qed.

Theorem aux_inverse (pi : public_inputs C) main (rows : list (list C)) ch aux : is_table main rows -> (30 <= tt_n_cols main)%nat -> cairo_build_aux pi main ch = Ok aux ->
  (length (public_memory pi) <= 4 * length rows)%nat /\ exists pub, pub_cells pi pub /\
  (forall e, In e (sorted_mem rows pub) -> factor ch e <> 0) /\ (forall x, In x (rc_sorted rows) -> z_range_check ch - x <> 0) /\
  aux = mk_trace (concat (aux_rows rows pub ch)) 18.
Proof using HC.
  intros Ht Hw H. pose proof H as H0. unfold cairo_build_aux in H.
  destruct (table_get_cols _ _ [FRAME_PC; FRAME_DST_ADDR; FRAME_OP0_ADDR; FRAME_OP1_ADDR] 0 Ht) as (ac & Eac & (_ & Eact & _) & _);
    [discriminate|intros c Hc; cbn in Hc; unfold FRAME_PC, FRAME_DST_ADDR, FRAME_OP0_ADDR, FRAME_OP1_ADDR in Hc; lia|].
  rewrite Eac in H. cbn [obind] in H.
  destruct (table_get_cols _ _ [FRAME_INST; FRAME_DST; FRAME_OP0; FRAME_OP1] 0 Ht) as (vc & Evc & (_ & Evct & _) & _);
    [discriminate|intros c Hc; cbn in Hc; unfold FRAME_INST, FRAME_DST, FRAME_OP0, FRAME_OP1 in Hc; lia|].
  rewrite Evc in H. cbn [obind] in H. rewrite Eact, Evct in H. fold ADDR_COLUMNS VAL_COLUMNS in H. fold (cells ADDR_COLUMNS rows) in H. fold (cells VAL_COLUMNS rows) in H.
  apply obind_ok in H. destruct H as ([a v] & Eadd & H).
  destruct (add_pub_inv _ _ _ _ Eadd) as (HL & pa & pv & Ha & Hv). rewrite (add_pub_ok rows pi pa pv HL Ha Hv) in Eadd. apply ok_inj in Eadd. injection Eadd as <- <-.
  rewrite sort_columns in H. cbv zeta in H. fold (sorted_mem rows (combine pa pv)) in H.
  apply obind_ok in H. destruct H as (pc & Epc & H).
  assert (Hp : pub_cells pi (combine pa pv)) by (exists pa, pv; auto).
  assert (Hm : forall e, In e (sorted_mem rows (combine pa pv)) -> factor ch e <> 0).
  { apply (mem_column_inv (mem_entries rows) (sorted_mem rows (combine pa pv)) ch pc). unfold mem_entries.
    rewrite combine_fst, combine_snd by (rewrite addr_cells_length, val_cells_length; reflexivity). exact Epc. }
  destruct (table_get_cols _ _ [OFF_DST; OFF_OP0; OFF_OP1] 0 Ht) as (oc & Eoc & (_ & Eoct & _) & _);
    [discriminate|intros c Hc; cbn in Hc; unfold OFF_DST, OFF_OP0, OFF_OP1 in Hc; lia|].
  rewrite Eoc in H. cbn [obind] in H. rewrite Eoct in H. fold OFF_COLUMNS in H. fold (cells OFF_COLUMNS rows) in H. fold (sorted_u16s rows) in H. fold (rc_sorted rows) in H.
  apply obind_ok in H. destruct H as (rc & Erc & _). pose proof (rc_column_inv _ _ _ _ Erc) as Hr.
  split; [exact HL|]. exists (combine pa pv). repeat split; try assumption.
  rewrite (aux_forward pi main rows ch (combine pa pv) Ht Hw HL Hp Hm Hr) in H0. apply ok_inj in H0. now symmetry.
Qed.

(** ** Reading the auxiliary columns *)
Lemma aux_rows_length rows pub ch : length (aux_rows rows pub ch) = length rows.
Proof using Type. unfold aux_rows. now rewrite map_length, seq_length. Qed.
Lemma aux_rows_width rows pub ch : Forall (fun r => length r = 18%nat) (aux_rows rows pub ch).
Proof using Type. apply Forall_forall. intros r Hr. apply in_map_iff in Hr. destruct Hr as (i & <- & _). reflexivity. Qed.
Lemma aux_rows_table rows pub ch : is_table (mk_trace (concat (aux_rows rows pub ch)) 18) (aux_rows rows pub ch).
Proof using Type. repeat split; [cbn; lia|apply aux_rows_width]. Qed.
Lemma aux_rows_nth rows pub ch i : (i < length rows)%nat -> nth i (aux_rows rows pub ch) [] =
  aux_row (rc_sorted rows) (map fst (sorted_mem rows pub)) (map snd (sorted_mem rows pub))
         (mem_column ch (mem_entries rows) (sorted_mem rows pub)) (rc_column ch (cells OFF_COLUMNS rows) (rc_sorted rows)) i.
Proof using Type. intro H. exact (nth_map_seq _ _ i [] H). Qed.

Definition full_cols (w : nat) (rows : list (list C)) (pub : list (C * C)) (ch : cairo_challenges C) : list (list C) :=
  cols_of w rows ++ cols_of 18 (aux_rows rows pub ch).

Section Read.
Lemma offset_le (pi : public_inputs C) : (builtin_offset pi <= 9)%nat.
Proof using Type. unfold builtin_offset. destruct (has_rc_builtin pi); unfold BUILTIN_OFFSET; lia. Qed.
Context (pi : public_inputs C) (rows : list (list C)) (pub : list (C * C)) (ch : cairo_challenges C) (w : nat).
Hypothesis (Hw : w = (43 - builtin_offset pi)%nat).
Let cols := full_cols w rows pub ch.
Let n := length rows.

Ltac aux_read b w0 l := let Hk := fresh in intro Hk; unfold cols, full_cols; rewrite <- (flat_aux w rows (aux_rows rows pub ch) n b w0 l);
  [f_equal; pose proof (offset_le pi); lia|lia|apply aux_rows_length|lia| |assumption];
  let i := fresh in let j := fresh in intros i j ? ?; rewrite aux_rows_nth by assumption; do 4 (destruct j as [|j]; [first [reflexivity | lia]|]); lia.
Lemma read_sorted_offset k : (k < 3 * n)%nat -> sorted_offset pi cols k = nth k (rc_sorted rows) 0.
Proof using Hw. unfold sorted_offset, RANGE_CHECK_COL_1. aux_read 0%nat 3%nat (rc_sorted rows). Qed.
Lemma read_sorted_addr k : (k < 4 * n)%nat -> sorted_addr pi cols k = nth k (map fst (sorted_mem rows pub)) 0.
Proof using Hw. unfold sorted_addr, MEMORY_ADDR_SORTED_0. aux_read 3%nat 4%nat (map fst (sorted_mem rows pub)). Qed.
Lemma read_sorted_value k : (k < 4 * n)%nat -> sorted_value pi cols k = nth k (map snd (sorted_mem rows pub)) 0.
Proof using Hw. unfold sorted_value, MEMORY_VALUES_SORTED_0. aux_read 7%nat 4%nat (map snd (sorted_mem rows pub)). Qed.
Lemma read_mem_product k : (k < 4 * n)%nat -> mem_product pi cols k = nth k (mem_column ch (mem_entries rows) (sorted_mem rows pub)) 0.
Proof using Hw. unfold mem_product, PERMUTATION_ARGUMENT_COL_0. aux_read 11%nat 4%nat (mem_column ch (mem_entries rows) (sorted_mem rows pub)). Qed.
Lemma read_rc_product k : (k < 3 * n)%nat -> rc_product pi cols k = nth k (rc_column ch (cells OFF_COLUMNS rows) (rc_sorted rows)) 0.
Proof using Hw. unfold rc_product, PERMUTATION_ARGUMENT_RANGE_CHECK_COL_1. aux_read 15%nat 3%nat (rc_column ch (cells OFF_COLUMNS rows) (rc_sorted rows)). Qed.
Lemma read_access_addr k : (k < 4 * n)%nat -> access_addr cols k = nth k (cells ADDR_COLUMNS rows) 0.
Proof using Hw. intro Hk. unfold access_addr, cols, full_cols. pose proof (offset_le pi). now rewrite flat_cells by (unfold FRAME_PC; lia). Qed.
Lemma read_access_value k : (k < 4 * n)%nat -> access_value cols k = nth k (cells VAL_COLUMNS rows) 0.
Proof using Hw. intro Hk. unfold access_value, cols, full_cols. pose proof (offset_le pi). now rewrite flat_cells by (unfold FRAME_INST; lia). Qed.
Lemma read_offset k : (k < 3 * n)%nat -> offset_cell cols k = nth k (cells OFF_COLUMNS rows) 0.
Proof using Hw. intro Hk. unfold offset_cell, cols, full_cols. pose proof (offset_le pi). now rewrite flat_cells by (unfold OFF_DST; lia). Qed.
Lemma read_sorted_entry k : (k < 4 * n)%nat -> (length pub <= 4 * n)%nat ->
  (sorted_addr pi cols k, sorted_value pi cols k) = nth k (sorted_mem rows pub) (0, 0).
Proof using Hw.
  intros Hk Hp. rewrite read_sorted_addr, read_sorted_value by exact Hk. change (0 : C) with (fst ((0, 0) : C * C)) at 1.
  change (0 : C) with (snd ((0, 0) : C * C)) at 3. rewrite !map_nth. now destruct (nth k (sorted_mem rows pub) (0, 0)).
Qed.
Lemma read_access_entry k : (k < 4 * n)%nat -> (access_addr cols k, access_value cols k) = nth k (mem_entries rows) (0, 0).
Proof using Hw.
  intros Hk. rewrite read_access_addr, read_access_value by exact Hk. unfold mem_entries. rewrite combine_nth; [reflexivity|].
  now rewrite addr_cells_length, val_cells_length.
Qed.
End Read.

(** ** Running quotients *)
Lemma mem_column_step ch (orig sorted : list (C * C)) k : length orig = length sorted -> (k < length orig)%nat -> (forall e, In e sorted -> factor ch e <> 0) ->
  nth k (mem_column ch orig sorted) 0 * factor ch (nth k sorted (0, 0)) =
  match k with O => 1 | S k' => nth k' (mem_column ch orig sorted) 0 end * factor ch (nth k orig (0, 0)).
Proof using HC.
  intros L Hk Hnz. unfold mem_column at 1. rewrite (scan_nth _ _ _ _ ((0, 0), (0, 0)) 0) by (rewrite combine_length; lia). fold (mem_column ch orig sorted).
  rewrite combine_nth by exact L. cbn [fst snd]. unfold factor at 1 2 3 4. apply (quotient_step HK). apply Hnz. apply nth_In. lia.
Qed.
Lemma rc_column_step ch (orig sorted : list C) k : length orig = length sorted -> (k < length orig)%nat -> (forall e, In e sorted -> z_range_check ch - e <> 0) ->
  nth k (rc_column ch orig sorted) 0 * (z_range_check ch - nth k sorted 0) =
  match k with O => 1 | S k' => nth k' (rc_column ch orig sorted) 0 end * (z_range_check ch - nth k orig 0).
Proof using HC.
  intros L Hk Hnz. unfold rc_column at 1. rewrite (scan_nth _ _ _ _ (0, 0) 0) by (rewrite combine_length; lia). fold (rc_column ch orig sorted).
  rewrite combine_nth by exact L. cbn [fst snd]. apply (quotient_step' HK). apply Hnz. apply nth_In. lia.
Qed.
End Aux.
