(** Openings of rows bind: what is opened is what was committed, or hashes coincide. *)
From Coq Require Import List Arith NArith Lia Field Bool.
From Verif.Base Require Import Outcome Bytes Field Poly.
From Verif.Model Require Import Codec Trace Merkle Air Transcript Domain Verifier.
From Verif.Spec Require Import AirSpec VerifierSpec HashSpec LowDegree FriTree Openings.
From Verif.Proofs Require Import OutcomeFacts FieldFacts PolyFacts FFTFacts TraceFacts DomainFacts BindingFacts FriSoundness.
Import ListNotations.
Local Open Scope felt_scope.

Section OpeningFacts.
Context {E : env} (HE : env_ok E).
Let HF : fft_ok E := e_fft_ok E HE.
Let HK : field_ok E := fft_field_ok E HF.
Add Field Kfield69 : (fld_th E HK).

Lemma felts_dec (xs ys : list E) : xs = ys \/ xs <> ys.
Proof using HE.
  revert ys. induction xs as [|x xs IH]; intros [|y ys]; [now left|now right|now right|].
  destruct (feqb x y) eqn:Q; [apply (feqb_spec E HK) in Q; subst y|right; intro C; injection C as C _; apply (feqb_spec E HK) in C; congruence].
  destruct (IH ys) as [->|N]; [now left|right; intro C; injection C as C; now apply N].
Qed.

Lemma row_value m (h w : E) f path i xs : is_prim w (2 ^ m) -> opens_to (E := E) path (row_commit m h w f) i (e_leaves E xs) ->
  xs = f (h * fpow w i) \/ row_clash m h w f path i xs.
Proof using HE.
  intros Hw Ho. unfold opens_to, row_commit in Ho.
  assert (Lr : length (row_leaves m h w f) = (2 ^ m)%nat) by (unfold row_leaves; now rewrite map_length, seq_length).
  destruct (opening_binds (e_node E) m _ path i _ Lr Ho) as [[_ H]|[H|H]];
    [|right; now left|right; right; now left].
  assert (P := pow2_pos m). assert (L : (i mod 2 ^ m < 2 ^ m)%nat) by (apply Nat.mod_upper_bound; lia).
  unfold row_leaves in H. set (F := fun i0 => e_leaves E (f (h * fpow w i0))) in H.
  rewrite (nth_indep _ [] (F 0%nat)) in H by (rewrite map_length, seq_length; exact L).
  rewrite map_nth, seq_nth in H by exact L. cbn [Nat.add] in H. unfold F in H. rewrite (prim_pow_mod HK w (2 ^ m) i P Hw) in H.
  destruct (felts_dec (f (h * fpow w i)) xs) as [Q|Q]; [left; now symmetry|].
  right. right. right. split; [exact Q|now symmetry].
Qed.

Lemma opened_columns (a : air E) (p : stark_proof E) cols m (h w : E) iota o :
  is_prim w (2 ^ m) -> (a_n_aux a <= trace_columns (a_context a))%nat ->
  lde_trace_merkle_roots p = map (row_commit m h w) (column_parts a cols) ->
  columns_checked a p iota o -> columns_complete a cols m h w iota o ->
  lde_trace_evaluations o = map (fun j => cols j (h * fpow w iota)) (seq 0 (trace_columns (a_context a))).
Proof using HE.
  intros Hw Ha Hroots Hc (L1 & L2 & Hn). set (x := h * fpow w iota).
  set (wd := trace_columns (a_context a)) in *. set (nm := (wd - a_n_aux a)%nat) in *.
  assert (Part : forall k f values, nth_error (column_parts a cols) k = Some f -> nth_error (value_parts a (lde_trace_evaluations o)) k = Some values -> values = f x).
  { intros k f values Hf Hv. destruct (nth_error (lde_trace_merkle_proofs o) k) as [path|] eqn:Hp.
    2:{ apply nth_error_None in Hp. assert (k < length (column_parts a cols))%nat by (apply nth_error_Some; congruence). lia. }
    destruct (row_value m h w f path iota values Hw) as [Q|Q]; [|exact Q|destruct (Hn k f path values Hf Hp Hv Q)].
    apply (Hc k _ path values); [|exact Hp|exact Hv]. rewrite Hroots. now apply map_nth_error. }
  rewrite <- (firstn_skipn nm (lde_trace_evaluations o)). unfold column_parts, value_parts in Part. fold wd nm in Part.
  rewrite (Part 0%nat _ _ eq_refl eq_refl). replace wd with (nm + a_n_aux a)%nat by lia. rewrite seq_app, map_app. f_equal. cbn [Nat.add].
  destruct (Nat.eqb_spec (a_n_aux a) 0) as [Z|Z].
  - rewrite Z. cbn [seq map]. apply skipn_all2. rewrite L1. lia.
  - exact (Part 1%nat _ _ eq_refl eq_refl).
Qed.

Lemma row_clash_never m (h w : E) f path i xs : perfect_hash (e_leaves E) (e_node E) -> ~ row_clash m h w f path i xs.
Proof using Type.
  intros HL [(x & y & _ & _ & N & H)|[(x & _ & H)|(N & H)]].
  - apply N. destruct (ph_node _ _ HL _ _ _ _ H) as [H1 H2]. destruct x, y. cbn in H1, H2. congruence.
  - destruct H as [H|H]; [exact (ph_apart _ _ HL _ _ _ H)|]. unfold row_leaves in H. apply in_map_iff in H. destruct H as (j & H & _). exact (ph_apart _ _ HL _ _ _ H).
  - apply N. exact (ph_leaf _ _ HL _ _ H).
Qed.
End OpeningFacts.
