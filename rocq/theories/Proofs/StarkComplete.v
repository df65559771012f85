(** The words of a satisfying trace convince the verifier at every point outside the two domains. *)
From Coq Require Import List Arith Lia Bool NArith.
From Verif.Base Require Import Outcome Bytes Field Poly.
From Verif.Model Require Import Codec Trace Merkle Air Domain Fri Verifier.
From Verif.Spec Require Import AirSpec CairoColumns ProvingSpec VerifierSpec HashSpec LowDegree FriTree OodSpec StarkTree.
From Verif.Proofs Require Import OutcomeFacts FieldFacts PolyFacts FFTFacts MerkleFacts TraceFacts DomainFacts ComposeFacts Completeness FriFacts OodFacts
  LowDegreeFacts FriSoundness StarkSoundness FriComplete.
Import ListNotations.
Local Open Scope felt_scope.

Section StarkComplete.
Context {E : env} (HE : env_ok E) (HH : perfect_hash (e_leaf E) (e_node E)).
Let HF : fft_ok E := e_fft_ok E HE.
Let HK : field_ok E := fft_field_ok E HF.
Add Field Kfield59 : (fld_th E HK).
Context {a : air E} {d : domain E} {r b k : nat} {g w : E}.
Local Notation h := (e_u64 E (coset_offset (a_options a))).
Local Notation n := (2 ^ r)%nat.
Context (A : admissible a r b k) (P : proving_ok a r b) (D : domain_shape d r b h g w).
Context (rap : a_rap a) (polys : list (poly E)).
Context (Hw : length polys = trace_columns (a_context a)) (Hpl : Forall (fun p : poly E => (length p <= n)%nat) polys).
Context (Hs : trace_satisfies a rap (domain_columns polys g n) n).
Context (bcs : list (boundary_constraint E)) (Hb : a_boundary a rap = Ok bcs).

Lemma own_interpolants : interpolants (r := r) (g := g) (domain_columns polys g n) polys.
Proof using A D HE Hpl.
  split; [unfold domain_columns; now rewrite map_length|]. split; [exact Hpl|].
  intros j i _ Hi. symmetry. exact (domain_columns_nth polys j i Hi).
Qed.

Lemma satisfying_passes bco tco : exists h1 h2, (length h1 <= n)%nat /\ (length h2 <= n)%nat /\
  forall z, fpow z n - 1 <> 0 -> passes_at a d rap polys bco tco h1 h2 z.
Proof using A P D HE Hw Hpl Hs Hb.
  destruct (ad_poly _ _ _ _ A g (ds_g _ _ _ _ _ _ D) rap polys Hw Hpl) as (cs & Hcs & Hdeg).
  assert (Htm : forall c e deg ab, In (c, e, deg, ab) (combine (combine (combine cs (transition_exemptions (a_context a))) (transition_degrees (a_context a))) tco) ->
    (1 <= deg /\ n * (deg - 1) <= a_degree_bound a)%nat).
  { intros c e deg ab Hin. apply in_combine_l in Hin. apply in_combine_r in Hin. exact (pk_deg _ _ _ P deg Hin). }
  assert (CH := comp_hyp_ok HE A D (domain_columns polys g n) polys rap cs bcs tco own_interpolants Hs Hb Hcs Hdeg (pk_bound _ _ _ P) Htm).
  pose proof (ad_n _ _ _ _ A) as Hn. pose proof (ad_blowup _ _ _ _ A) as Hbl. pose proof (ad_b _ _ _ _ A) as Hb1.
  destruct (composition_polynomial HE D Hn Hbl Hb1 polys cs bcs tco bco CH) as (H & HL & Hid).
  exists (evens H), (odds H). split; [now apply evens_length_le|]. split; [now apply odds_length_le|].
  intros z Hz.
  exists (mk_stark_proof n [] (shifted_frame polys (transition_offsets (a_context a)) (trace_primitive_root d) z) []
     (peval (evens H) (z * z)) (peval (odds H) (z * z)) [] 0 [] [] 0%N), (mk_challenges E a z bco tco [] 0 0 [] [] rap 0%N).
  split; [|repeat split].
  unfold step_2. cbn [c_rap c_z c_boundary_coeffs c_transition_coeffs trace_ood_frame_evaluations composition_poly_even_ood_evaluation composition_poly_odd_ood_evaluation].
  rewrite Hb. cbn [obind]. rewrite usub_ok by (rewrite Hn; exact (pk_bound _ _ _ P)). cbn [obind]. rewrite Hn, (ds_root _ _ _ _ _ _ D).
  rewrite (boundary_ood_val HE D Hn Hbl Hb1).
  2:{ rewrite (ad_offsets _ _ _ _ A). pose proof (ad_k _ _ _ _ A). clear -H0. destruct k; [lia|reflexivity]. }
  2:{ intros bc Hin. destruct (ts_boundary _ _ _ _ Hs bcs bc Hb Hin) as (_ & H2 & _). unfold domain_columns in H2. now rewrite map_length in H2. }
  2: exact Hz.
  cbn [obind]. rewrite Hcs. cbn [obind].
  assert (Hlast : hd_error (rev (trace_roots_of_unity d)) = Some (fpow g (n - 1))).
  { assert (Pn := pow2_pos r). rewrite (ds_trace _ _ _ _ _ _ D). replace n with (S (n - 1)) at 1 by lia.
    rewrite seq_S, map_app, rev_app_distr. cbn [map rev app hd_error Nat.add]. f_equal. ring. }
  rewrite Hlast. cbn [unwrap obind].
  destruct (list_max_o (transition_degrees (a_context a))) as [mx|] eqn:Hmx.
  2:{ exfalso. pose proof (pk_deg_ne _ _ _ P) as Hne. destruct (transition_degrees (a_context a)); [congruence|discriminate]. }
  rewrite (transition_ood_val HE D Hn Hbl Hb1 cs tco z mx (ad_ex_le _ _ _ _ A) (ad_ex_ne _ _ _ _ A) Hmx); [| |intros c e deg ab Hin; exact (proj1 (Htm c e deg ab Hin))|exact Hz].
  2:{ intros k0 Hk0. pose proof (proj2 (pk_deg _ _ _ P mx (list_max_mem _ _ Hmx))) as Q. assert (n * k0 <= n * (mx - 1))%nat by (apply Nat.mul_le_mono_l; lia). lia. }
  cbn [obind]. f_equal. apply (feqb_spec E HK). rewrite <- (even_odd_eval HK), (Hid z Hz). ring.
Qed.

Context (zs : list E) (Hnd : NoDup zs) (Hlen : (stark_bound a n < length zs)%nat).
Context (Hzs : forall z, In z zs -> ~ on_coset h w z /\ fpow z n <> 1).

Lemma satisfying_often bco tco : convinces_often a d r b w rap (fun j => peval (nth j polys [])) bco tco (stark_bound a n).
Proof using All.
  destruct (satisfying_passes bco tco) as (h1 & h2 & L1 & L2 & Hp).
  exists (peval h1), (peval h2), zs. split; [exact Hnd|]. split; [exact Hlen|]. intros z Hz. destruct (Hzs z Hz) as [Z1 Z2].
  apply (passes_convinces HE HH A D rap polys h1 h2 Hw); [|lia|lia|exact Z1|].
  - eapply Forall_impl; [|exact Hpl]. cbv beta. intros. lia.
  - apply Hp. intro H0. apply Z2. exact (proj1 (sub_zero HK _ _) H0).
Qed.

Theorem satisfying_convinces : convincing a d r b w rap (fun j => peval (nth j polys [])).
Proof using All.
  assert (L : forall X (x : X) j, (j < length (repeat x (S j)))%nat) by (intros; rewrite repeat_length; lia).
  split.
  - intros j _. exists [], (repeat (0, 0) (S j)), 1, 0. split; [apply L|]. split; [exact (one_neq_zero HK)|]. split; apply satisfying_often.
  - intros bcs' j _ _. exists (repeat (0, 0) (S j)), [], 1, 0. split; [apply L|]. split; [exact (one_neq_zero HK)|]. split; apply satisfying_often.
Qed.
End StarkComplete.
