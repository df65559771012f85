(** Constraints written as polynomial expressions in the cells of a frame are polynomials of the
    evident degree in the evaluation point. *)
From Coq Require Import List Arith Lia.
From Verif.Base Require Import Outcome Field Poly.
From Verif.Model Require Import Codec Trace Air.
From Verif.Spec Require Import AirSpec.
From Verif.Proofs Require Import OutcomeFacts FieldFacts PolyFacts TraceFacts.
Import ListNotations.
Local Open Scope felt_scope.

(** Expressions over the cells (row, column) of a frame. *)
Inductive cexpr (A : Type) : Type :=
| Cell (r c : nat)
| Const (a : A)
| Add (x y : cexpr A)
| Sub (x y : cexpr A)
| Mul (x y : cexpr A).
Arguments Cell {A}. Arguments Const {A}. Arguments Add {A}. Arguments Sub {A}. Arguments Mul {A}.

Fixpoint cdeg {A} (e : cexpr A) : nat :=
  match e with
  | Cell _ _ => 1
  | Const _ => 0
  | Add x y | Sub x y => Nat.max (cdeg x) (cdeg y)
  | Mul x y => (cdeg x + cdeg y)%nat
  end.

Fixpoint crows {A} (e : cexpr A) : nat :=
  match e with
  | Cell r _ => S r
  | Const _ => 0
  | Add x y | Sub x y | Mul x y => Nat.max (crows x) (crows y)
  end.

Fixpoint ceval {K : field_ops} (cell : nat -> nat -> K) (e : cexpr K) : K :=
  match e with
  | Cell r c => cell r c
  | Const a => a
  | Add x y => ceval cell x + ceval cell y
  | Sub x y => ceval cell x - ceval cell y
  | Mul x y => ceval cell x * ceval cell y
  end.

Section PolyAir.
Context {E : env} (HK : field_ok E).
Add Field Kfield13 : (fld_th E HK).

(** [p (c x)] *)
Fixpoint dilate (c : E) (p : poly E) : poly E :=
  match p with [] => [] | a :: p' => a :: pscale_raw c (dilate c p') end.
Lemma dilate_eval c p x : peval (dilate c p) x = peval p (x * c).
Proof using HK.
  induction p as [|a p IH]; cbn; [reflexivity|]. rewrite (peval_pscale_raw HK), IH. ring.
Qed.
Lemma dilate_length c p : length (dilate c p) = length p.
Proof using. induction p; cbn; [reflexivity|]. unfold pscale_raw. now rewrite map_length, IHp. Qed.

Context (polys : list (poly E)) (n : nat) (offsets : list nat) (g : E).
Context (Hlen : Forall (fun p : poly E => (length p <= n)%nat) polys) (Hn : (0 < n)%nat).

Definition pcell (x : E) (r c : nat) : E := peval (nth c polys []) (x * fpow g (nth r offsets 0%nat)).

Lemma cexpr_poly (e : cexpr E) :
  exists p : poly E, (length p <= cdeg e * (n - 1) + 1)%nat /\ forall x, peval p x = ceval (pcell x) e.
Proof using HK Hlen Hn.
  induction e as [r c|a|e1 IH1 e2 IH2|e1 IH1 e2 IH2|e1 IH1 e2 IH2]; cbn [cdeg ceval].
  - exists (dilate (fpow g (nth r offsets 0%nat)) (nth c polys [])). split.
    + rewrite dilate_length. destruct (Nat.lt_ge_cases c (length polys)) as [Hc|Hc].
      * pose proof (proj1 (Forall_forall _ _) Hlen (nth c polys []) (nth_In _ _ Hc)). cbn in *. lia.
      * rewrite (nth_overflow polys [] Hc). cbn. lia.
    + intro x. unfold pcell. apply dilate_eval.
  - exists [a]. split; [cbn; lia|]. intro x. cbn. ring.
  - destruct IH1 as [p [Lp Ep]], IH2 as [q [Lq Eq]]. exists (padd_raw p q). split.
    + rewrite padd_raw_length. assert (Hm : forall a b m, (a <= b -> a * m <= b * m)%nat) by (intros; now apply Nat.mul_le_mono_r).
      pose proof (Hm _ _ (n-1)%nat (Nat.le_max_l (cdeg e1) (cdeg e2))). pose proof (Hm _ _ (n-1)%nat (Nat.le_max_r (cdeg e1) (cdeg e2))). lia.
    + intro x. rewrite (peval_padd_raw HK), Ep, Eq. reflexivity.
  - destruct IH1 as [p [Lp Ep]], IH2 as [q [Lq Eq]]. exists (padd_raw p (pscale_raw (- (1)) q)). split.
    + rewrite padd_raw_length, pscale_raw_length.
      assert (Hm : forall a b m, (a <= b -> a * m <= b * m)%nat) by (intros; now apply Nat.mul_le_mono_r).
      pose proof (Hm _ _ (n-1)%nat (Nat.le_max_l (cdeg e1) (cdeg e2))). pose proof (Hm _ _ (n-1)%nat (Nat.le_max_r (cdeg e1) (cdeg e2))). lia.
    + intro x. rewrite (peval_padd_raw HK), (peval_pscale_raw HK), Ep, Eq. ring.
  - destruct IH1 as [p [Lp Ep]], IH2 as [q [Lq Eq]]. exists (pmul_raw p q). split.
    + rewrite Nat.mul_add_distr_r.
      pose proof (pmul_raw_length_le p q (cdeg e1 * (n - 1)) (cdeg e2 * (n - 1))) as H. lia.
    + intro x. rewrite (peval_pmul_raw HK), Ep, Eq. reflexivity.
Qed.

Lemma cexprs_polys (es : list (cexpr E)) degs :
  (forall j, (j < length es)%nat -> (j < length degs)%nat -> (cdeg (nth j es (Const fzero)) <= nth j degs 0)%nat) ->
  exists cs : list (poly E), (forall x, map (fun c => peval c x) cs = map (ceval (pcell x)) es) /\
    forall j, (j < length cs)%nat -> (j < length degs)%nat -> (length (nth j cs []) <= nth j degs 0 * (n - 1) + 1)%nat.
Proof using HK Hlen Hn.
  revert degs. induction es as [|e es IH]; intros degs Hd.
  - exists []. split; [reflexivity|]. cbn. intros; lia.
  - destruct (IH (tl degs)) as [cs [Hc Hl]].
    { intros j H1 H2. specialize (Hd (S j)). destruct degs as [|d degs]; cbn in *; [lia|]. apply Hd; lia. }
    destruct (cexpr_poly e) as [p [Lp Ep]]. exists (p :: cs). split.
    + intro x. cbn. now rewrite Ep, Hc.
    + intros [|j] H1 H2.
      * specialize (Hd 0%nat). destruct degs as [|d degs]; cbn in *; [lia|].
        specialize (Hd ltac:(lia) ltac:(lia)).
        pose proof (Nat.mul_le_mono_r _ _ (n-1)%nat Hd). lia.
      * destruct degs as [|d degs]; cbn in *; [lia|]. apply Hl; lia.
Qed.

Lemma shifted_frame_row r x : (r < length offsets)%nat ->
  fr_get_row (shifted_frame polys offsets g x) r = Ok (map (fun p => peval p (x * fpow g (nth r offsets 0%nat))) polys).
Proof using.
  intros Hr. unfold shifted_frame. rewrite frame_row.
  - unfold shifted_rows. f_equal.
    rewrite (nth_indep _ [] (map (fun p => peval p (x * fpow g 0%nat)) polys)) by (now rewrite map_length).
    now rewrite (map_nth (fun o => map (fun p => peval p (x * fpow g o)) polys)).
  - unfold shifted_rows. apply Forall_forall. intros l Hl. apply in_map_iff in Hl. destruct Hl as [o [<- _]]. now rewrite map_length.
  - unfold shifted_rows. now rewrite map_length.
Qed.

Lemma shifted_row_cell c y : (c < length polys)%nat ->
  idx (map (fun p => peval p y) polys) c = Ok (peval (nth c polys []) y).
Proof using.
  intros Hc. rewrite (idx_nth _ c (peval [] y)) by (now rewrite map_length).
  now rewrite (map_nth (fun p => peval p y)).
Qed.

Lemma shifted_row_nth c y : (c < length polys)%nat ->
  nth c (map (fun p => peval p y) polys) 0 = peval (nth c polys []) y.
Proof using. intros Hc. now rewrite <- (map_nth (fun p => peval p y)). Qed.
End PolyAir.

(** An AIR whose transition function computes such expressions has polynomial constraints. *)
Lemma transition_polynomial_exprs {E : env} (HK : field_ok E) (a : air E) n g (es : a_rap a -> list (cexpr E)) :
  (0 < n)%nat ->
  (forall rap polys x, length polys = trace_columns (a_context a) ->
     a_transition a (shifted_frame polys (transition_offsets (a_context a)) g x) rap
     = Ok (map (ceval (pcell polys (transition_offsets (a_context a)) g x)) (es rap))) ->
  (forall rap j, (j < length (es rap))%nat -> (j < length (transition_degrees (a_context a)))%nat ->
     (cdeg (nth j (es rap) (Const fzero)) <= nth j (transition_degrees (a_context a)) 0)%nat) ->
  transition_is_polynomial a n g.
Proof.
  intros Hn He Hd rap polys Hp Hl.
  destruct (cexprs_polys HK polys n (transition_offsets (a_context a)) g Hl Hn (es rap) (transition_degrees (a_context a)) (Hd rap)) as [cs [H1 H2]].
  exists cs. split; [|exact H2]. intro x. rewrite He by exact Hp. now rewrite H1.
Qed.
