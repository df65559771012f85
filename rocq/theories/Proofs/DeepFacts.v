(** The DEEP composition polynomial: its length, its values, and the verifier's reconstruction. *)
From Coq Require Import List Arith NArith Lia Field.
From Verif.Base Require Import Outcome Field Poly.
From Verif.Model Require Import Codec Trace Merkle Air Transcript Domain Fri Evaluator Prover Verifier.
From Verif.Spec Require Import AirSpec.
From Verif.Proofs Require Import OutcomeFacts FieldFacts PolyFacts TraceFacts.
Import ListNotations.
Local Open Scope felt_scope.

Section Deep.
Context {E : env} (HK : field_ok E).
Add Field Kfield10 : (fld_th E HK).
Context (a : air E) (polys : list (poly E)) (n : nat) (g z : E) (k : nat).
Context (Hlen : Forall (fun p : poly E => length p <= n) polys) (Hn : 0 < n).
Context (Hoff : transition_offsets (a_context a) = seq 0 k).

Lemma ofold_poly {A} (f : poly E -> A -> outcome (poly E)) (F : E -> A -> E) (good : E -> Prop) M l :
  (forall y, In y l -> exists q, length q <= M /\ (forall acc, f acc y = Ok (padd acc q)) /\ forall x, good x -> peval q x = F x y) ->
  forall acc, length acc <= M ->
  exists P, ofold f l acc = Ok P /\ length P <= M /\ forall x, good x -> peval P x = peval acc x + fsum (map (F x) l).
Proof using HK Hn Hlen Hoff.
  induction l as [|y l IH]; intros H acc Hacc.
  - exists acc. split; [reflexivity|]. split; [exact Hacc|]. intros x _. cbn. ring.
  - destruct (H y (or_introl eq_refl)) as (q & Hq & Hf & Hv). cbn [ofold]. rewrite Hf. cbn [obind].
    destruct (IH (fun y Hy => H y (or_intror Hy)) (padd acc q)) as (P & HP & HPl & HPv).
    { etransitivity; [apply padd_length|]. lia. }
    exists P. split; [exact HP|]. split; [exact HPl|]. intros x Hx. rewrite (HPv x Hx), (peval_padd HK), (Hv x Hx).
    cbn [map fsum fold_right]. fold (fsum (map (F x) l)). ring.
Qed.

Lemma ofold_add {A} (f : E -> A -> outcome E) (F : A -> E) l acc :
  (forall y acc, In y l -> f acc y = Ok (acc + F y)) -> ofold f l acc = Ok (acc + fsum (map F l)).
Proof using HK Hn Hlen Hoff.
  revert acc; induction l as [|y l IH]; intros acc H; cbn [ofold map fsum fold_right]; [f_equal; ring|].
  rewrite H by (now left). cbn [obind]. rewrite IH by (intros; apply H; now right). f_equal. fold (fsum (map F l)). ring.
Qed.

(** The rational function of one trace column and one offset. *)
Definition deep_term (p : poly E) (x : E) (og : nat * E) : E :=
  let '(o, gm) := og in (peval p x - peval p (z * fpow g o)) * finv (x - z * fpow g o) * gm.
Definition deep_col (x : E) (pr : poly E * list E) : E := fsum (map (deep_term (fst pr) x) (combine (seq 0 k) (snd pr))).

Definition good (x : E) : Prop := (forall o, x - z * fpow g o <> 0) /\ x - z * z <> 0.

Lemma concat_skip (m : list (list E)) i : Forall (fun r => length r = k) m ->
  skipn (i * k) (concat m) = concat (skipn i m).
Proof using HK Hn Hlen Hoff.
  revert m; induction i as [|i IH]; intros m H; [reflexivity|]. destruct m as [|r m].
  - cbn. now rewrite skipn_nil.
  - inversion H as [|? ? Hr Hm]; subst. cbn [Nat.mul concat skipn]. rewrite Nat.add_comm, <- skipn_skipn', skipn_app.
    rewrite (skipn_all2 r) by lia. rewrite Nat.sub_diag. cbn [skipn app]. now apply IH.
Qed.

Lemma combine_app_long {A B} (l : list A) (x y : list B) : length l <= length x -> combine l (x ++ y) = combine l x.
Proof using HK Hn Hlen Hoff. revert x; induction l as [|u l IH]; intros [|v x] H; cbn in *; try reflexivity; [lia|]. f_equal. apply IH. lia. Qed.

Lemma gammas_row (m : list (list E)) i {A} (l : list A) : length l = k -> i < length m -> Forall (fun r => length r = k) m ->
  combine l (skipn (i * k) (concat m)) = combine l (nth i m []).
Proof using HK Hn Hlen Hoff.
  intros Hl Hi Hm. rewrite concat_skip by exact Hm.
  assert (Es : skipn i m = nth i m [] :: skipn (S i) m).
  { clear -Hi. revert m Hi; induction i as [|i IH]; intros [|r m] Hi; cbn in *; try lia; [reflexivity|]. apply IH. lia. }
  rewrite Es. cbn [concat]. apply combine_app_long. rewrite Hl, Forall_forall in *.
  rewrite (Hm (nth i m [])); [lia|]. now apply nth_In.
Qed.

Lemma deep_trace_term_ok (m : list (list E)) : length m = length polys -> Forall (fun r => length r = k) m ->
  exists P, deep_trace_term E a polys (shifted_rows polys (seq 0 k) g z) z g (concat m) = Ok P /\
    length P <= n /\ forall x, good x -> peval P x = fsum (map (deep_col x) (combine polys m)).
Proof using HK Hlen Hn Hoff.
  intros Hm Hk. unfold deep_trace_term. rewrite Hoff.
  destruct (ofold_poly
    (fun acc (x : nat * poly E) => let '(i, t_j) := x in
      obind (ofold (fun acc2 (y : list E * nat * E) => let '(eval, offset, gamma) := y in
        obind (idx eval i) (fun t_j_z =>
        let z_shifted := z * fpow g offset in
        let p := ruffini (psub_const t_j t_j_z) z_shifted in
        Ok (padd acc2 (pscale gamma p))))
      (combine (combine (shifted_rows polys (seq 0 k) g z) (seq 0 k)) (skipn (i * length (shifted_rows polys (seq 0 k) g z)) (concat m))) [])
       (fun inner => Ok (padd acc inner)))
    (fun x (y : nat * poly E) => deep_col x (snd y, nth (fst y) m [])) good n (combine (seq 0 (length polys)) polys)) with (acc := @nil E)
    as (P & HP & HPl & HPv).
  - intros [i p] Hin.
    assert (Hi : i < length polys). { apply in_combine_l in Hin. apply in_seq in Hin. lia. }
    assert (Hp : nth i polys [] = p).
    { clear -Hin. assert (G : forall l s (i : nat) (p : poly E), In (i, p) (combine (seq s (length l)) l) -> s <= i /\ nth (i - s) l [] = p).
      { induction l as [|q l IH]; intros s j p' H; [destruct H|]. cbn [length seq combine In] in H. destruct H as [H|H].
        - injection H as <- <-. rewrite Nat.sub_diag. split; [lia|reflexivity].
        - apply IH in H. destruct H as [H1 H2]. split; [lia|]. replace (j - s)%nat with (S (j - S s)) by lia. exact H2. }
      apply G in Hin. now rewrite Nat.sub_0_r in Hin. }
    assert (Hpl : length p <= n). { rewrite Forall_forall in Hlen. apply Hlen. rewrite <- Hp. now apply nth_In. }
    assert (Hsl : length (shifted_rows polys (seq 0 k) g z) = k) by (unfold shifted_rows; now rewrite map_length, seq_length).
    rewrite Hsl. rewrite gammas_row; [|rewrite combine_length, Hsl, seq_length; apply Nat.min_id|lia|exact Hk].
    set (gs := nth i m []).
    assert (Ec : combine (combine (shifted_rows polys (seq 0 k) g z) (seq 0 k)) gs =
                 map (fun og : nat * E => (map (fun p => peval p (z * fpow g (fst og))) polys, fst og, snd og)) (combine (seq 0 k) gs)).
    { clearbody gs; clear. unfold shifted_rows. generalize (seq 0 k) as l. intro l. revert gs. induction l as [|o l IH]; intros [|y gs]; cbn; try reflexivity. now rewrite IH. }
    rewrite Ec.
    destruct (ofold_poly
      (fun acc2 (y : list E * nat * E) => let '(eval, offset, gamma) := y in
        obind (idx eval i) (fun t_j_z =>
        let z_shifted := z * fpow g offset in
        let p := ruffini (psub_const p t_j_z) z_shifted in
        Ok (padd acc2 (pscale gamma p))))
      (fun x (y : list E * nat * E) => let '(_, o, gm) := y in deep_term p x (o, gm)) good n
      (map (fun og : nat * E => (map (fun p => peval p (z * fpow g (fst og))) polys, fst og, snd og)) (combine (seq 0 k) gs))) with (acc := @nil E)
      as (Q & HQ & HQl & HQv).
    + intros [[ev o] gm] Hin2. apply in_map_iff in Hin2. destruct Hin2 as ([o' gm'] & E2 & Hin2). cbn [fst snd] in E2. injection E2 as <- <- <-.
      assert (Ev : idx (map (fun p => peval p (z * fpow g o')) polys) i = Ok (peval p (z * fpow g o'))).
      { rewrite (idx_nth _ _ 0) by (now rewrite map_length). f_equal.
        rewrite (nth_indep _ 0 (peval [] (z * fpow g o'))) by (now rewrite map_length).
        rewrite (map_nth (fun p => peval p (z * fpow g o'))). now rewrite Hp. }
      rewrite Ev. cbn [obind].
      exists (pscale gm' (ruffini (psub_const p (peval p (z * fpow g o'))) (z * fpow g o'))). split; [|split].
      * etransitivity; [apply pscale_length|]. rewrite ruffini_length.
        pose proof (psub_const_length p (peval p (z * fpow g o'))). lia.
      * reflexivity.
      * intros x [Hx _]. specialize (Hx o'). rewrite (peval_pscale HK). unfold deep_term.
        pose proof (ruffini_root HK (psub_const p (peval p (z * fpow g o'))) (z * fpow g o') x) as Hr.
        rewrite !(peval_psub_const HK) in Hr. rewrite Hr by ring. field. exact Hx.
    + cbn. lia.
    + exists Q. split; [exact HQl|]. split; [intro acc; now rewrite HQ|]. intros x Hx. rewrite (HQv x Hx). cbn [peval fst snd].
      unfold deep_col. cbn [fst snd]. fold gs. rewrite map_map.
      rewrite (map_ext (fun og : nat * E => deep_term p x (fst og, snd og)) (deep_term p x)) by (now intros []). ring.
  - cbn. lia.
  - exists P. split; [exact HP|]. split; [exact HPl|]. intros x Hx. rewrite (HPv x Hx). cbn [peval].
    assert (Ec : map (fun y : nat * poly E => deep_col x (snd y, nth (fst y) m [])) (combine (seq 0 (length polys)) polys) =
                 map (deep_col x) (combine polys m)).
    { clear -Hm. revert m Hm.
      assert (G : forall (ps : list (poly E)) s (pre m : list (list E)), length pre = s -> length m = length ps ->
         map (fun y : nat * poly E => deep_col x (snd y, nth (fst y) (pre ++ m) [])) (combine (seq s (length ps)) ps) = map (deep_col x) (combine ps m)).
      { induction ps as [|p ps IH]; intros s pre m Hs Hm; [reflexivity|]. destruct m as [|r m]; [discriminate|].
        cbn [length seq combine map fst snd]. rewrite app_nth2, Hs, Nat.sub_diag by lia. cbn [nth]. f_equal.
        replace (pre ++ r :: m) with ((pre ++ [r]) ++ m) by (now rewrite <- app_assoc).
        apply IH; [rewrite app_length; cbn; lia|cbn in Hm; lia]. }
      intros m Hm. specialize (G polys 0%nat [] m eq_refl Hm). cbn [app] in G.
      exact G. }
    rewrite Ec. ring.
Qed.

Lemma deep_poly_ok (r2 : round2 E) (r3 : round3 E) gamma gamma_p (m : list (list E)) :
  length m = length polys -> Forall (fun r => length r = k) m ->
  length (r2_even E r2) <= n -> length (r2_odd E r2) <= n ->
  r3 = mk_round3 E (shifted_rows polys (seq 0 k) g z) (peval (r2_even E r2) (z * z)) (peval (r2_odd E r2) (z * z)) ->
  exists P, compute_deep_composition_poly E a polys r2 r3 z g gamma gamma_p (concat m) = Ok P /\
    length P <= n /\ forall x, good x -> peval P x =
      fsum (map (deep_col x) (combine polys m)) +
      (peval (r2_even E r2) x - peval (r2_even E r2) (z * z)) * finv (x - z * z) * gamma +
      (peval (r2_odd E r2) x - peval (r2_odd E r2) (z * z)) * finv (x - z * z) * gamma_p.
Proof using HK Hlen Hn Hoff.
  intros Hm Hk He Ho ->. unfold compute_deep_composition_poly. cbn [r3_trace_ood r3_even_ood r3_odd_ood].
  destruct (deep_trace_term_ok m Hm Hk) as (T & HT & HTl & HTv). rewrite HT. cbn [obind].
  eexists. split; [reflexivity|]. unfold fsquare in *. split.
  - etransitivity; [apply padd_length|]. apply Nat.max_lub; [|exact HTl].
    etransitivity; [apply padd_length|]. rewrite !ruffini_length.
    pose proof (pscale_length gamma (psub_const (r2_even E r2) (peval (r2_even E r2) (z * z)))) as L1.
    pose proof (pscale_length gamma_p (psub_const (r2_odd E r2) (peval (r2_odd E r2) (z * z)))) as L2.
    pose proof (psub_const_length (r2_even E r2) (peval (r2_even E r2) (z * z))).
    pose proof (psub_const_length (r2_odd E r2) (peval (r2_odd E r2) (z * z))). lia.
  - intros x Hx. rewrite !(peval_padd HK), (HTv x Hx). destruct Hx as [_ Hx].
    assert (R : forall p gm, peval (ruffini (pscale gm (psub_const p (peval p (z * z)))) (z * z)) x =
                 (peval p x - peval p (z * z)) * finv (x - z * z) * gm).
    { intros p gm. pose proof (ruffini_root HK (pscale gm (psub_const p (peval p (z * z)))) (z * z) x) as Hr.
      rewrite !(peval_pscale HK), !(peval_psub_const HK) in Hr.
      transitivity ((x - z * z) * peval (ruffini (pscale gm (psub_const p (peval p (z * z)))) (z * z)) x * finv (x - z * z)); [field; exact Hx|].
      rewrite <- Hr by ring. ring. }
    rewrite !R. ring.
Qed.

(** verifier.rs:526-557 on an honest opening. *)
Lemma reconstruct_deep_ok (p : stark_proof E) (c : challenges E a) (o : deep_openings E) x (m : list (list E)) (He Ho : poly E) :
  0 < length polys -> good x -> length m = length polys -> Forall (fun r => length r = k) m ->
  trace_ood_frame_evaluations p = shifted_frame polys (seq 0 k) g z ->
  c_trace_term_coeffs E a c = m ->
  composition_poly_even_ood_evaluation p = peval He (z * z) -> composition_poly_odd_ood_evaluation p = peval Ho (z * z) ->
  lde_composition_poly_even_evaluation o = peval He x -> lde_composition_poly_odd_evaluation o = peval Ho x ->
  lde_trace_evaluations o = map (fun p => peval p x) polys ->
  reconstruct_deep E p a c (finv (x - z * z)) (map (fun row => finv (x - z * fpow g row)) (seq 0 k)) o =
  Ok (fsum (map (deep_col x) (combine polys m)) + (peval He x - peval He (z * z)) * finv (x - z * z) * c_gamma_even E a c
      + (peval Ho x - peval Ho (z * z)) * finv (x - z * z) * c_gamma_odd E a c).
Proof using HK Hlen Hn Hoff.
  intros Hpos Hx Hm Hk Hf Hc He' Ho' Hle Hlo Hlt. unfold reconstruct_deep. rewrite Hf, Hc, Hlt, He', Ho', Hle, Hlo.
  assert (Hw : Forall (fun row => length row = length polys) (shifted_rows polys (seq 0 k) g z)).
  { apply Forall_forall. intros row Hr. unfold shifted_rows in Hr. apply in_map_iff in Hr. destruct Hr as (q & <- & _). apply map_length. }
  unfold shifted_frame. rewrite (frame_num_rows _ _ Hw Hpos). cbn [obind fr_num_columns fr_row_width].
  rewrite (ofold_add _ (fun y : nat * list E => deep_col x (nth (fst y) polys [], snd y))).
  - cbn [obind]. f_equal. f_equal. f_equal.
    assert (Ec : map (fun y : nat * list E => deep_col x (nth (fst y) polys [], snd y)) (combine (seq 0 (length polys)) m) =
                 map (deep_col x) (combine polys m)).
    { clear -Hm. assert (G : forall (ps : list (poly E)) s (pre : list (poly E)) (m : list (list E)), length pre = s -> length m = length ps ->
         map (fun y : nat * list E => deep_col x (nth (fst y) (pre ++ ps) [], snd y)) (combine (seq s (length ps)) m) = map (deep_col x) (combine ps m)).
      { induction ps as [|q ps IH]; intros s pre l Hs Hl; [destruct l; [reflexivity|discriminate]|]. destruct l as [|r l]; [discriminate|].
        cbn [length seq combine map fst snd]. rewrite app_nth2, Hs, Nat.sub_diag by lia. cbn [nth]. f_equal.
        replace (pre ++ q :: ps) with ((pre ++ [q]) ++ ps) by (now rewrite <- app_assoc).
        apply IH; [rewrite app_length; cbn; lia|cbn in Hl; lia]. }
      exact (G polys 0%nat [] m eq_refl Hm). }
    unfold fr_num_columns in *. rewrite <- Ec. ring.
  - intros [col coeffs] acc Hin. cbn [fst snd].
    assert (Hcol : col < length polys). { apply in_combine_l in Hin. apply in_seq in Hin. lia. }
    rewrite (ofold_add _ (deep_term (nth col polys []) x)).
    + cbn [obind]. f_equal. unfold deep_col. cbn [fst snd].
      replace (length (shifted_rows polys (seq 0 k) g z)) with k by (unfold shifted_rows; now rewrite map_length, seq_length). ring.
    + intros [row coeff] acc2 Hin2.
      assert (Hrow : row < k).
      { apply in_combine_l in Hin2. apply in_seq in Hin2. unfold shifted_rows in Hin2. rewrite map_length, seq_length in Hin2. lia. }
      assert (Hev : forall y, idx (map (fun p => peval p y) polys) col = Ok (peval (nth col polys []) y)).
      { intro y. rewrite (idx_nth _ _ 0) by (now rewrite map_length). f_equal.
        rewrite (nth_indep _ 0 (peval [] y)) by (now rewrite map_length). now rewrite (map_nth (fun p => peval p y)). }
      rewrite Hev. cbn [obind]. rewrite frame_row; [|exact Hw|unfold shifted_rows; now rewrite map_length, seq_length]. cbn [obind].
      unfold shifted_rows at 1. rewrite nth_indep with (d' := (fun o => map (fun p => peval p (z * fpow g o)) polys) 0%nat) by (now rewrite map_length, seq_length).
      rewrite (map_nth (fun o => map (fun p => peval p (z * fpow g o)) polys)), seq_nth by exact Hrow. cbn [Nat.add]. rewrite Hev. cbn [obind].
      rewrite (idx_nth _ _ 0) by (now rewrite map_length, seq_length).
      rewrite nth_indep with (d' := (fun row => finv (x - z * fpow g row)) 0%nat) by (now rewrite map_length, seq_length).
      rewrite (map_nth (fun row => finv (x - z * fpow g row))), seq_nth by exact Hrow. cbn [Nat.add obind]. reflexivity.
Qed.
End Deep.
