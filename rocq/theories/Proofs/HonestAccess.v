(** The accesses in the built trace: which addresses occur, how rows are laid out, and stability of the sorted columns. *)
From Coq Require Import List Arith NArith ZArith Bool Lia Permutation Sorted.
From Verif.Base Require Import Outcome Field Poly.
From Verif.Model Require Import Codec PublicInputs Trace Air CairoDecode CairoTrace CairoAir.
From Verif.Spec Require Import CairoSpec AirSpec CairoColumns CairoRun.
From Verif.Proofs Require Import FieldFacts PolyFacts OutcomeFacts FFTFacts TraceFacts BuildFacts MainTraceFacts SortFacts MainColsFacts DecodeFacts CairoAirFacts
  StepFacts HonestFacts SortedFacts MultisetFacts WalkFacts AuxFacts HonestAux HonestShape.
Import ListNotations.
Local Open Scope felt_scope.

Lemma insert_by_filter {A} (key : A -> N) k x l :
  filter (fun e => (key e =? k)%N) (insert_by key x l) = filter (fun e => (key e =? k)%N) (x :: l).
Proof.
  induction l as [|y l IH]; [reflexivity|]. cbn [insert_by]. destruct (N.leb_spec (key x) (key y)); [reflexivity|].
  cbn [filter] in *. rewrite IH. destruct (N.eqb_spec (key x) k), (N.eqb_spec (key y) k); try reflexivity. lia.
Qed.
(** The sort keeps the order of entries with equal keys. *)
Lemma sort_by_stable {A} (key : A -> N) k l : filter (fun e => (key e =? k)%N) (sort_by key l) = filter (fun e => (key e =? k)%N) l.
Proof.
  induction l as [|x l IH]; [reflexivity|]. cbn [sort_by]. rewrite insert_by_filter. cbn [filter]. now rewrite IH.
Qed.

Section Access.
Context {C : cairo_env} {p : N} (HC : cairo_ok C p).

Lemma hole_addr (rows : list (list C)) codelen x : rows <> [] ->
  (In x (mem_hole_list rows codelen) <-> (N.of_nat codelen < ce_repr x)%N /\ (exists a, In a (cells ADDR_COLUMNS rows) /\ (ce_repr a <= ce_repr x)%N) /\
   (exists a, In a (cells ADDR_COLUMNS rows) /\ (ce_repr x < ce_repr a)%N) /\ ~ In x (cells ADDR_COLUMNS rows)).
Proof using HC.
  intro Hne. unfold mem_hole_list. set (sa := sorted_addrs rows).
  assert (Hp : Permutation sa (cells ADDR_COLUMNS rows)) by apply sort_by_perm.
  assert (Hi : forall a, In a sa <-> In a (cells ADDR_COLUMNS rows)) by (intro a; split; apply Permutation_in; [exact Hp|now apply Permutation_sym]).
  pose proof (sort_by_ascending ce_repr (cells ADDR_COLUMNS rows)) as Ha. change (sort_by ce_repr (cells ADDR_COLUMNS rows)) with sa in Ha.
  assert (Hl : (0 < length sa)%nat).
  { rewrite (Permutation_length Hp), addr_cells_length. destruct rows; [congruence|cbn; lia]. }
  assert (Hf : forall a, In a sa -> (ce_repr (nth 0 sa fzero) <= ce_repr a)%N).
  { intros a Hin. apply (In_nth _ _ 0) in Hin. destruct Hin as (k & Hk & <-). apply ascending_nth; [exact Ha|lia]. }
  assert (H0 : In (nth 0 sa 0) sa) by (now apply nth_In).
  rewrite (holes_from_in HC).
  2:{ constructor; [exact Ha|]. apply Forall_forall. exact Hf. }
  split; intros (A & B & D & E); (split; [exact A|]).
  - split; [exists (nth 0 sa 0); split; [now apply Hi|exact B]|]. split.
    + destruct D as (a & Da & Dl). exists a. split; [now apply Hi|exact Dl].
    + intro F. apply E. right. now apply Hi.
  - destruct B as (a & Ba & Bl). split; [pose proof (Hf a (proj2 (Hi a) Ba)); lia|]. split.
    + destruct D as (b & Da & Dl). exists b. split; [now apply Hi|exact Dl].
    + intros [F|F]; apply E; apply Hi; [now rewrite <- F|exact F].
Qed.

Lemma felt_dec (u v : C) : {u = v} + {u <> v}.
Proof using HC.
  destruct (feqb u v) eqn:E; [left; now apply (feqb_spec C (fft_field_ok _ (e_fft_ok _ (co_env _ _ HC))))|right].
  intro F. apply (feqb_spec C (fft_field_ok _ (e_fft_ok _ (co_env _ _ HC)))) in F. congruence.
Qed.

(** The public entries put in place of the last accesses are entries of the public memory. *)
Lemma map_get_entry (a v : C) (l : list (C * C)) : map_get feqb a l = Some v -> In (a, v) l.
Proof using HC.
  induction l as [|[k u] l IH]; cbn [map_get]; intro H; [discriminate|]. destruct (feqb a k) eqn:E.
  - injection H as ->. apply (feqb_spec C (fft_field_ok _ (e_fft_ok _ (co_env _ _ HC)))) in E. subst k. now left.
  - right. now apply IH.
Qed.
Lemma pub_lookup (pi : public_inputs C) pub : pub_cells pi pub -> Forall (fun e => map_get feqb (fst e) (public_memory pi) = Some (snd e)) pub.
Proof using Type.
  intros (pa & pv & _ & Ht & ->). apply traverse_inv in Ht. induction Ht as [|a v pa pv H Ht IH]; [constructor|].
  cbn [combine]. constructor; [|exact IH]. cbn [fst snd]. destruct (map_get feqb a (public_memory pi)); [|discriminate]. apply ok_inj in H. now subst.
Qed.
Lemma pub_keys (pi : public_inputs C) pub : pub_cells pi pub -> Forall (fun e => In (fst e) (map fst (public_memory pi))) pub.
Proof using HC.
  intro H. apply pub_lookup in H. eapply Forall_impl; [|exact H]. cbv beta. intros e He. apply map_get_entry in He.
  apply in_map_iff. eexists. split; [|exact He]. reflexivity.
Qed.

Section Built.
Context (m : @cairo_memory C) (ss : list (step_data (C := C))) (extra : list (list C)) (codelen : nat).
Hypothesis Hok : Forall (step_ok m) ss.
Hypothesis Hne : ss <> [].
Let rows := build_rows ss extra.
Let w := (34 + length extra)%nat.
Let R := main_rows w codelen rows.

Lemma in_addr_cells (rs : list (list C)) e : In e (mem_entries rs) -> In (fst e) (cells ADDR_COLUMNS rs).
Proof using Type. intro H. destruct e as [a v]. exact (in_combine_l _ _ _ _ H). Qed.

Lemma hole_accessed x : In x (mem_hole_list rows codelen) -> In x (cells ADDR_COLUMNS R).
Proof using Hok Hne.
  intro H. destruct (kept_hole m ss extra codelen Hok Hne x H) as (v & Hv). apply (in_addr_cells R (x, v)).
  unfold R, w, rows. rewrite (entries_kept m ss extra codelen Hok Hne). apply in_or_app. now left.
Qed.
Lemma zero_accessed : In 0 (cells ADDR_COLUMNS R).
Proof using Hok Hne.
  apply (in_addr_cells R (0, 0)). unfold R, w, rows. rewrite (entries_kept m ss extra codelen Hok Hne). apply in_or_app. left. apply kept_zero.
Qed.
Lemma step_accessed x : In x (cells ADDR_COLUMNS rows) -> In x (cells ADDR_COLUMNS R).
Proof using Type. intro H. unfold R, main_rows, rows_filled. rewrite <- app_assoc, cells_app. apply in_or_app. now left. Qed.

(** Above the public memory every address between two step addresses is accessed. *)
Lemma between_accessed x a b : In a (cells ADDR_COLUMNS rows) -> In b (cells ADDR_COLUMNS rows) -> (N.of_nat codelen < ce_repr x)%N ->
  (ce_repr a <= ce_repr x <= ce_repr b)%N -> In x (cells ADDR_COLUMNS R).
Proof using HC Hok Hne.
  intros Ha Hb Hl [H1 H2]. destruct (in_dec felt_dec x (cells ADDR_COLUMNS rows)) as [Hx|Hx]; [now apply step_accessed|].
  apply hole_accessed. apply hole_addr; [now apply build_rows_ne|]. split; [exact Hl|]. split; [exists a; now split|]. split; [|exact Hx].
  exists b. split; [exact Hb|]. apply N.le_lteq in H2. destruct H2 as [H2|H2]; [exact H2|].
  apply (repr_ext HC) in H2. subst x. contradiction.
Qed.
End Built.
End Access.
