(** Openings of arbitrary roots. *)
From Coq Require Import List Arith Lia Bool NArith.
From Verif.Base Require Import Outcome Bytes Field Poly.
From Verif.Model Require Import Codec Trace Merkle Air Domain Fri Verifier.
From Verif.Spec Require Import AirSpec VerifierSpec HashSpec LowDegree FriTree Rounds Openings Oracle Extract.
From Verif.Proofs Require Import OutcomeFacts FieldFacts PolyFacts FFTFacts MerkleFacts BindingFacts DomainFacts VerifierFacts LowDegreeFacts FriSoundness.
Import ListNotations.

Section Comb.
Context (node : commitment -> commitment -> commitment).

Lemma fold_path_app p : forall q i h, fold_path node (p ++ q) i h = fold_path node q (i / 2 ^ length p) (fold_path node p i h).
Proof.
  induction p as [|s p IH]; intros q i h; cbn [app fold_path length].
  - change (2 ^ 0) with 1. now rewrite Nat.div_1_r.
  - rewrite IH. f_equal. rewrite Nat.div2_div, Nat.div_div by (try lia; apply Nat.pow_nonzero; lia). reflexivity.
Qed.

(** A tree that goes on to the left only. *)
Fixpoint comb (l : list commitment) (base : commitment) : commitment := match l with [] => base | c :: l' => node (comb l' base) c end.
Lemma comb_left l1 : forall l2 base, fold_path node (rev l1) 0 (comb l2 base) = comb (l1 ++ l2) base.
Proof.
  induction l1 as [|c l1 IH]; intros l2 base; [reflexivity|]. cbn [rev app comb]. rewrite fold_path_app, IH, Nat.div_0_l by (apply Nat.pow_nonzero; lia). reflexivity.
Qed.

(** The positions with [t] as their leading bit, in a complete tree. *)
Definition half (t : nat) (f : nat -> commitment) : list commitment := map f (seq (2 ^ t) (2 ^ t)).
Lemma half_path t f i : 2 ^ t <= i < 2 ^ S t -> fold_path node (mt_path node t (half t f) (i - 2 ^ t)) i (f i) = mt_root node t (half t f).
Proof.
  intros [Hl Hu]. change (2 ^ S t) with (2 * 2 ^ t) in Hu. rewrite fold_path_mod, mt_path_length. replace (i mod 2 ^ t) with (i - 2 ^ t).
  - assert (L : length (half t f) = 2 ^ t) by (unfold half; now rewrite map_length, seq_length).
    rewrite <- (fold_path_honest node t (half t f) (i - 2 ^ t) L) by lia. f_equal. unfold half. rewrite (nth_indep _ [] (f 0)) by (rewrite map_length, seq_length; lia).
    rewrite map_nth, seq_nth by lia. f_equal. lia.
  - symmetry. replace i with (i - 2 ^ t + 1 * 2 ^ t) at 1 by lia. rewrite Nat.mod_add by lia. apply Nat.mod_small. lia.
Qed.

Definition comb_trees (M : nat) (words : list (nat -> commitment)) : list commitment :=
  flat_map (fun t => map (fun f => mt_root node t (half t f)) words) (seq 0 M).

Theorem comb_opens M words base i f : 0 < i < 2 ^ M -> In f words -> exists path, path_verify node path (comb (comb_trees M words) base) i (f i) = true.
Proof.
  intros Hi Hf. set (t := Nat.log2 i). destruct (Nat.log2_spec i (proj1 Hi)) as [H1 H2]. fold t in H1, H2.
  assert (Ht : t < M) by (apply (Nat.pow_lt_mono_r_iff 2); lia).
  assert (Hin : In (mt_root node t (half t f)) (comb_trees M words)).
  { apply in_flat_map. exists t. split; [apply in_seq; lia|]. apply in_map_iff. now exists f. }
  destruct (in_split _ _ Hin) as (l1 & l2 & Q). rewrite Q.
  exists (mt_path node t (half t f) (i - 2 ^ t) ++ comb l2 base :: rev l1). unfold path_verify. apply list_byte_eqb_spec.
  rewrite fold_path_app, half_path, mt_path_length by (split; assumption).
  replace (i / 2 ^ t) with 1. 2: { apply (Nat.div_unique i (2 ^ t) 1 (i - 2 ^ t)); cbn [Nat.pow] in H2; lia. }
  cbn [fold_path Nat.even Nat.div2]. rewrite <- (comb_left l1). reflexivity.
Qed.
Theorem comb_opens_zero M words base : path_verify node (rev (comb_trees M words)) (comb (comb_trees M words) base) 0 base = true.
Proof. unfold path_verify. apply list_byte_eqb_spec. pose proof (comb_left (comb_trees M words) [] base) as Q. rewrite app_nil_r in Q. symmetry. exact Q. Qed.
End Comb.

Local Open Scope felt_scope.
Section Extract.
Context {E : env} (HE : env_ok E).
Let HF : fft_ok E := e_fft_ok E HE.
Let HK : field_ok E := fft_field_ok E HF.
Add Field Kfield80 : (fld_th E HK).

Lemma below_step (K : evaluations E) k : forall c i, below K (S k) c i =
  match below K k c (Nat.div2 i) with Some c1 => match pair_of K c1 with Some (l, r) => Some (if Nat.testbit i 0 then r else l) | None => None end | None => None end.
Proof using Type.
  induction k as [|k IH]; intros c i; [reflexivity|]. change (below K (S (S k)) c i) with
    (match pair_of K c with Some (l, r) => below K (S k) (if Nat.testbit i (S k) then r else l) i | None => None end).
  change (below K (S k) c (Nat.div2 i)) with
    (match pair_of K c with Some (l, r) => below K k (if Nat.testbit (Nat.div2 i) k then r else l) (Nat.div2 i) | None => None end).
  destruct (pair_of K c) as [[l r]|]; [|reflexivity]. rewrite IH. reflexivity.
Qed.
Lemma below_same (K : evaluations E) k : forall c i j, (forall b, (b < k)%nat -> Nat.testbit i b = Nat.testbit j b) -> below K k c i = below K k c j.
Proof using Type.
  induction k as [|k IH]; intros c i j H; [reflexivity|]. cbn [below]. destruct (pair_of K c) as [[l r]|]; [|reflexivity].
  rewrite (H k) by lia. apply IH. intros b Hb. apply H. lia.
Qed.
Lemma below_mod (K : evaluations E) k c i : below K k c (i mod 2 ^ k) = below K k c i.
Proof using Type. apply below_same. intros b Hb. now apply Nat.mod_pow2_bits_low. Qed.

Lemma pair_of_known (K : evaluations E) x : ~ node_clash (e_node E) (ev_pairs K) -> In x (ev_pairs K) -> pair_of K (e_node E (fst x) (snd x)) = Some x.
Proof using Type.
  intros Hn Hx. unfold pair_of. destruct (find _ _) as [y|] eqn:F.
  - apply find_some in F. destruct F as [Hy Q]. apply list_byte_eqb_spec in Q. destruct (pair_dec y x) as [->|N]; [reflexivity|].
    exfalso. apply Hn. now exists y, x.
  - pose proof (find_none _ _ F x Hx) as Q. cbv beta in Q. rewrite (proj2 (list_byte_eqb_spec _ _) eq_refl) in Q. discriminate Q.
Qed.
Lemma find_known {A} (hash : A -> commitment) l x : (forall x y, In x l -> In y l -> hash x = hash y -> x = y) -> In x l ->
  find (fun y => list_byte_eqb (hash y) (hash x)) l = Some x.
Proof using Type.
  intros Hv Hx. destruct (find _ _) as [y|] eqn:F.
  - apply find_some in F. destruct F as [Hy Q]. apply list_byte_eqb_spec in Q. f_equal. now apply Hv.
  - pose proof (find_none _ _ F x Hx) as Q. cbv beta in Q. rewrite (proj2 (list_byte_eqb_spec _ _) eq_refl) in Q. discriminate Q.
Qed.

Lemma path_below (K : evaluations E) path : ~ node_clash (e_node E) (ev_pairs K) -> forall i h, incl (path_calls (e_node E) path i h) (ev_pairs K) ->
  below K (length path) (fold_path (e_node E) path i h) i = Some h.
Proof using Type.
  intro Hn. induction path as [|s path IH]; intros i h Hin; [reflexivity|]. cbn [length]. rewrite below_step, fold_path_cons.
  cbn [path_calls] in Hin. rewrite IH by (intros y Hy; apply Hin; right; exact Hy). unfold call_hash.
  rewrite pair_of_known; [|exact Hn|apply Hin; now left]. cbn [Nat.testbit]. rewrite <- Nat.negb_even. destruct (Nat.even i); reflexivity.
Qed.

(** An accepted opening with known evaluations opens the known value. *)
Theorem known_value (K : evaluations E) m path root i x : collision_free K -> known_opening K m path i x -> opens_to (E := E) path root i (e_leaf E x) ->
  value_below K m root i = Some x.
Proof using Type.
  intros Hc ((Hl & Hin) & Hx) <-. unfold value_below. rewrite <- Hl. rewrite path_below by (try exact Hin; apply Hc). apply find_known; [apply Hc|exact Hx].
Qed.
Theorem known_row_value (K : evaluations E) m path root i xs : collision_free K -> known_row K m path i xs -> opens_to (E := E) path root i (e_leaves E xs) ->
  row_below K m root i = Some xs.
Proof using Type.
  intros Hc ((Hl & Hin) & Hx) <-. unfold row_below. rewrite <- Hl. rewrite path_below by (try exact Hin; apply Hc). apply find_known; [apply Hc|exact Hx].
Qed.

Lemma on_points_at {A} (default : A) m (h w : E) known i x : h <> 0 -> is_prim w (2 ^ m) -> (forall i, known (i mod 2 ^ m) = known i) -> known i = Some x ->
  on_points default m h w known (h * fpow w i) = x.
Proof using HE.
  intros Hh Hw Hm Hv. unfold on_points. pose proof (pow2_pos m) as P. assert (L : (i mod 2 ^ m < 2 ^ m)%nat) by (apply Nat.mod_upper_bound; lia).
  destruct (find _ _) as [j|] eqn:F.
  - apply find_some in F. destruct F as [Hj Q]. apply in_seq in Hj. apply (feqb_spec E HK) in Q. apply (mul_cancel_l HK) in Q; [|exact Hh].
    rewrite <- (prim_pow_mod HK w (2 ^ m) i P Hw) in Q. apply (prim_inj HK w (2 ^ m) _ _ Hw) in Q; [|lia|exact L]. subst j.
    now rewrite Hm, Hv.
  - exfalso. pose proof (find_none _ _ F (i mod 2 ^ m)%nat ltac:(apply in_seq; lia)) as Q. cbv beta in Q. rewrite (prim_pow_mod HK w (2 ^ m) i P Hw) in Q.
    rewrite (proj2 (feqb_spec E HK _ _) eq_refl) in Q. discriminate Q.
Qed.
Lemma word_below_at (K : evaluations E) m (h w : E) root i x : h <> 0 -> is_prim w (2 ^ m) -> value_below K m root i = Some x ->
  word_below K m h w root (h * fpow w i) = x.
Proof using HE. intros Hh Hw. apply on_points_at; [exact Hh|exact Hw|]. intro j. unfold value_below. now rewrite below_mod. Qed.

(** One word for each layer, each on the squares of the points of the one before. *)
Fixpoint layer_words (K : evaluations E) (m : nat) (h w : E) (roots : list commitment) : list (E -> E) :=
  match roots with [] => [] | root :: roots' => word_below K m h w root :: layer_words K (m - 1) (h * h) (w * w) roots' end.
Lemma layer_words_map (K : evaluations E) a roots : forall m (h w : E),
  layer_words K m h w roots = map (fun l => w_layer (words_below K a m h w) l (nth l roots [])) (seq 0 (length roots)).
Proof using HE.
  induction roots as [|root roots IH]; intros m h w; [reflexivity|]. cbn [layer_words length seq map]. f_equal.
  - cbn [words_below w_layer nth]. change (2 ^ 0)%nat with 1%nat. now rewrite !(fpow_1 HK), Nat.sub_0_r.
  - rewrite IH. rewrite <- seq_shift, map_map. apply map_ext. intro l. cbn [words_below w_layer nth].
    assert (Q : forall x : E, fpow (x * x) (2 ^ l) = fpow x (2 ^ S l)).
    { intro x. change (2 ^ S l)%nat with (2 * 2 ^ l)%nat. now rewrite (fpow_mul HK), (fpow_2 HK). }
    rewrite !Q. now replace (m - 1 - l)%nat with (m - S l)%nat by lia.
Qed.
Lemma layer_words_length (K : evaluations E) roots : forall m (h w : E), length (layer_words K m h w roots) = length roots.
Proof using Type. induction roots as [|root roots IH]; intros m h w; cbn [layer_words length]; [reflexivity|now rewrite IH]. Qed.

(** The values of an answer are those of the words. *)
Fixpoint says (h w : E) (fs : list (E -> E)) (iota : nat) (q : fri_decommitment E) : Prop :=
  match fs with
  | [] => True
  | f :: fs' => hd 0 (layers_evaluations q) = f (h * fpow w iota) /\ hd 0 (layers_evaluations_sym q) = f (- (h * fpow w iota)) /\
      says (h * h) (w * w) fs' iota (later_layers q)
  end.

Lemma later_shape k q : answer_shape (E := E) (S k) q -> answer_shape k (later_layers q).
Proof using Type.
  destruct q as [psym esym pa ev]. unfold answer_shape, later_layers. cbn [layers_auth_paths layers_evaluations layers_auth_paths_sym layers_evaluations_sym].
  destruct pa, ev, psym, esym; cbn; intros (S1 & S2 & S3 & S4); try discriminate. repeat split; lia.
Qed.

Lemma known_says (K : evaluations E) roots : collision_free K -> forall m (h w : E) zetas last iota q, (length roots <= m)%nat -> h <> 0 -> is_prim w (2 ^ m) ->
  length zetas = length roots -> answer_shape (length roots) q -> known_answers K m (length roots) iota q ->
  fri_query_consistent m roots zetas last iota (h * fpow w iota) q -> says h w (layer_words K m h w roots) iota q.
Proof using HE.
  intro Hc. induction roots as [|root roots IH]; intros m h w zetas last iota q Hm Hh Hw Hz Hs Hk H; [exact I|].
  destruct zetas as [|zeta zetas]; [discriminate|]. cbn [length] in Hm, Hz, Hs. injection Hz as Hz. destruct m as [|m]; [lia|].
  assert (Hsq := prim_square HE m w Hw). pose proof (later_consistent HE (S m) root roots zeta zetas last iota _ q Hs H) as H2.
  cbn [length known_answers] in Hk. destruct Hk as (K1 & K2 & K3). replace (S m - 1)%nat with m in * by lia. cbn [layer_words says]. replace (S m - 1)%nat with m by lia.
  assert (R : says (h * h) (w * w) (layer_words K m (h * h) (w * w) roots) iota (later_layers q)).
  { apply (IH m (h * h) (w * w) zetas last iota (later_layers q)); [lia| |exact Hsq|exact Hz|now apply later_shape|exact K3|].
    - now apply (mul_nonzero HK).
    - rewrite (fpow_mul_base HK). replace (h * h * (fpow w iota * fpow w iota)) with (h * fpow w iota * (h * fpow w iota)) by ring. exact H2. }
  destruct q as [psym esym pa ev]. destruct Hs as (S1 & S2 & S3 & S4). cbn [layers_auth_paths layers_evaluations layers_auth_paths_sym layers_evaluations_sym] in *.
  destruct pa as [|pa0 pa]; [discriminate|]. destruct ev as [|ev0 ev]; [discriminate|].
  destruct psym as [|ps0 psym]; [discriminate|]. destruct esym as [|es0 esym]; [discriminate|]. cbn [hd] in *.
  destruct (H 0%nat root pa0 ev0 ps0 es0 zeta eq_refl eq_refl eq_refl eq_refl eq_refl eq_refl) as (O1 & O2 & _). replace (S m - 0)%nat with (S m) in O2 by lia.
  split; [|split; [|exact R]].
  - symmetry. apply word_below_at; [exact Hh|exact Hw|]. apply (known_value K (S m) pa0); [exact Hc|exact K1|]. exact O1.
  - symmetry. rewrite <- (sym_point HE m h w iota Hw). apply word_below_at; [exact Hh|exact Hw|]. apply (known_value K (S m) ps0); [exact Hc|exact K2|]. exact O2.
Qed.

Theorem says_fold fs : forall m (h w : E) roots zetas last iota q, length roots = length fs -> length zetas = length fs -> answer_shape (length fs) q -> says h w fs iota q ->
  fri_query_consistent m roots zetas last iota (h * fpow w iota) q -> folds_at fs zetas last (h * fpow w iota).
Proof using HE.
  induction fs as [|f fs IH]; intros m h w roots zetas last iota q Hr Hz Hs Hq H; [exact I|].
  destruct zetas as [|zeta zetas]; [discriminate|]. destruct roots as [|root roots]; [discriminate|]. cbn [length] in Hr, Hz, Hs. injection Hz as Hz. injection Hr as Hr.
  assert (Hs' : answer_shape (S (length roots)) q) by now rewrite Hr.
  pose proof (later_consistent HE m root roots zeta zetas last iota _ q Hs' H) as H2.
  assert (Ex : h * fpow w iota * (h * fpow w iota) = h * h * fpow (w * w) iota) by (rewrite (fpow_mul_base HK); ring). rewrite Ex in H2.
  cbn [says] in Hq. destruct Hq as (Q1 & Q2 & Q3). specialize (IH (m - 1)%nat (h * h) (w * w) roots zetas last iota (later_layers q) Hr Hz (later_shape _ _ Hs) Q3 H2).
  cbn [folds_at]. rewrite Ex. split; [|exact IH]. destruct Hs as (S1 & S2 & S3 & S4). destruct q as [psym esym pa ev].
  cbn [layers_auth_paths layers_evaluations layers_auth_paths_sym layers_evaluations_sym length] in *.
  destruct pa as [|pa0 pa]; [discriminate|]. destruct ev as [|ev0 ev]; [discriminate|].
  destruct psym as [|ps0 psym]; [discriminate|]. destruct esym as [|es0 esym]; [discriminate|]. cbn [hd] in Q1, Q2.
  destruct (H 0%nat root pa0 ev0 ps0 es0 zeta eq_refl eq_refl eq_refl eq_refl eq_refl eq_refl) as (_ & _ & Q).
  change (2 ^ 0)%nat with 1%nat in Q. rewrite (fpow_1 HK) in Q. unfold fold_value. rewrite <- Q1, <- Q2, Q.
  cbn [layers_evaluations length nth Nat.add]. destruct fs as [|f1 fs].
  - destruct ev; [|discriminate]. reflexivity.
  - destruct ev as [|ev1 ev]; [discriminate|]. cbn [length]. cbn [Nat.ltb Nat.leb]. cbn [says later_layers layers_evaluations tl hd] in Q3. exact (proj1 Q3).
Qed.
End Extract.

Section Zero.
Context (node : commitment -> commitment -> commitment).

Lemma path_calls_app p : forall q i h, path_calls node (p ++ q) i h = path_calls node p i h ++ path_calls node q (i / 2 ^ length p) (fold_path node p i h).
Proof.
  induction p as [|s p IH]; intros q i h; cbn [app path_calls length fold_path].
  - change (2 ^ 0)%nat with 1%nat. now rewrite Nat.div_1_r.
  - rewrite IH. f_equal. f_equal.
    + rewrite Nat.div2_div, Nat.div_div by (try lia; apply Nat.pow_nonzero; lia). change (2 ^ S (length p))%nat with (2 * 2 ^ length p)%nat.
      destruct (Nat.even i); reflexivity.
Qed.
Lemma last_call p : forall i h, p <> [] -> exists x, In x (path_calls node p i h) /\ node (fst x) (snd x) = fold_path node p i h.
Proof.
  induction p as [|s p IH]; intros i h Hp; [now elim Hp|]. rewrite fold_path_cons. cbn [path_calls]. set (x := if Nat.even i then (h, s) else (s, h)).
  destruct p as [|s' p]; [exists x; split; [now left|reflexivity]|]. destruct (IH (Nat.div2 i) (call_hash node x)) as (y & Hy & Q); [discriminate|].
  exists y. split; [right; exact Hy|exact Q].
Qed.

(** Openings of position 0, the first no longer than the second. *)
Lemma zero_agree p1 p2 h1 h2 : (length p1 <= length p2)%nat -> fold_path node p1 0 h1 = fold_path node p2 0 h2 ->
  h1 = h2 \/ node_clash node (path_calls node p1 0 h1 ++ path_calls node p2 0 h2) \/ leaf_clash node (path_calls node p2 0 h2) [h1].
Proof.
  intros Hl H. set (b := (length p2 - length p1)%nat). rewrite <- (firstn_skipn b p2) in H |- *. set (u := firstn b p2) in *. set (v := skipn b p2) in *.
  assert (Lv : length p1 = length v) by (unfold v; rewrite skipn_length; unfold b; lia).
  rewrite fold_path_app in H. rewrite path_calls_app. rewrite Nat.div_0_l in * by (apply Nat.pow_nonzero; lia).
  destruct (openings_agree node p1 v 0%nat h1 _ Lv H) as [Q|(x & y & Hx & Hy & Hn & Q)].
  - destruct u as [|s u2]; [left; exact Q|]. right. right. destruct (last_call (s :: u2) 0%nat h2) as (x & Hx & Qx); [discriminate|].
    exists x. split; [apply in_or_app; now left|]. left. now rewrite Qx.
  - right. left. exists x, y. split; [apply in_or_app; now left|]. split; [apply in_or_app; right; apply in_or_app; now right|]. split; [exact Hn|exact Q].
Qed.
End Zero.
