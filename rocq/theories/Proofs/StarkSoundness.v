(** From words and FRI to polynomials, and from there to the constraints. *)
From Coq Require Import List Arith Lia Bool NArith.
From Verif.Base Require Import Outcome Bytes Field Poly.
From Verif.Model Require Import Codec Trace Merkle Air Domain Fri Verifier.
From Verif.Spec Require Import AirSpec CairoColumns ProvingSpec VerifierSpec LowDegree FriTree OodSpec StarkTree.
From Verif.Proofs Require Import OutcomeFacts FieldFacts PolyFacts FFTFacts TraceFacts DomainFacts PolyAir HonestFacts OodFacts LowDegreeFacts FriSoundness.
Import ListNotations.
Local Open Scope felt_scope.

Section Stark.
Context {E : env} (HE : env_ok E).
Let HF : fft_ok E := e_fft_ok E HE.
Let HK : field_ok E := fft_field_ok E HF.
Add Field Kfield57 : (fld_th E HK).

Lemma coset_agree (h w : E) m p q : h <> 0 -> is_prim w (2 ^ m) -> (length p <= 2 ^ m)%nat -> (length q <= 2 ^ m)%nat ->
  (forall x, on_coset h w x -> peval p x = peval q x) -> forall x, peval p x = peval q x.
Proof using HE.
  intros Hh Hw Hp Hq H x.
  assert (L : length (coset w h (2 ^ m)) = (2 ^ m)%nat) by (unfold coset; now rewrite map_length, seq_length).
  apply (agree_eval HK (coset w h (2 ^ m))); [exact (coset_nodup HK w h _ Hw Hh)| |rewrite L; exact Hp|rewrite L; exact Hq].
  intros y Hy. unfold coset in Hy. apply in_map_iff in Hy. destruct Hy as (i & <- & _). apply H. exists i. ring.
Qed.

Lemma fri_convinced_low r b (h w : E) f : h <> 0 -> is_prim w (2 ^ (r + b)) -> fri_convinced r b h w f -> low_degree (on_coset h w) f (2 ^ r).
Proof using HE.
  intros Hh Hw (t & Hr & Ha & Hf). destruct (fri_tree_low_degree HE t r (r + b) h w ltac:(lia) Hh Hw Hr Ha) as (q & Hq & H).
  exists q. split; [exact Hq|]. intros x Hx. rewrite <- (Hf x Hx). exact (H x Hx).
Qed.

Section Shape.
Context {a : air E} {d : domain E} {r b k : nat} {g w : E}.
Local Notation h := (e_u64 E (coset_offset (a_options a))).
Context (A : admissible a r b k) (D : domain_shape d r b h g w).
Local Notation width := (trace_columns (a_context a)).
Local Notation n := (2 ^ r)%nat.
Local Notation S := (on_coset h w).

Lemma offset_nonzero : h <> 0.
Proof using A D HE. intro H. apply (ad_coset _ _ _ _ A 0 w 0%nat (ds_W _ _ _ _ _ _ D)). rewrite H. cbn [fpow]. ring. Qed.

Lemma wide : (n + 1 <= 2 ^ (r + b))%nat.
Proof using A.
  pose proof (ad_b _ _ _ _ A) as Hb. rewrite Nat.pow_add_r. pose proof (Nat.pow_nonzero 2 r). clear A D.
  destruct b as [|b']; [lia|]. cbn [Nat.pow]. pose proof (Nat.pow_nonzero 2 b'). nia.
Qed.

(** Words that are polynomials with [n + 1] coefficients determine them. *)
Lemma unique_poly (f : E -> E) p q : (length p <= n + 1)%nat -> (length q <= n + 1)%nat ->
  (forall x, S x -> f x = peval p x) -> (forall x, S x -> f x = peval q x) -> forall x, peval p x = peval q x.
Proof using A D HE.
  intros Hp Hq H1 H2. pose proof wide. apply (coset_agree h w (r + b)); [exact offset_nonzero|exact (ds_Wprim _ _ _ _ _ _ D)|lia|lia|].
  intros x Hx. rewrite <- H1, <- H2 by exact Hx. reflexivity.
Qed.

Lemma not_shifted z row : ~ S z -> forall x, S x -> x <> z * fpow g row.
Proof using D HE.
  intros Hz x (i & Hi) Hx. apply Hz. pose proof (ds_gprim _ _ _ _ _ _ D) as Hg. pose proof (Nat.pow_nonzero 2 r ltac:(lia)) as P.
  pose proof (Nat.mod_upper_bound row n P) as Hm. set (o := (n - row mod n)%nat).
  exists (i + 2 ^ b * o)%nat. rewrite (fpow_add HK), (fpow_mul HK), (ds_gW _ _ _ _ _ _ D).
  assert (Go : fpow g row * fpow g o = 1).
  { rewrite <- (prim_pow_mod HK g n row ltac:(lia) Hg), <- (fpow_add HK). unfold o.
    replace (row mod n + (n - row mod n))%nat with n by lia. exact (proj1 Hg). }
  transitivity (x * fpow g o); [rewrite Hx|rewrite Hi; ring].
  transitivity (z * (fpow g row * fpow g o)); [rewrite Go; ring|ring].
Qed.

Lemma not_square z : forall x, S x -> x <> z * z.
Proof using A D HE. intros x (i & Hi) Hx. apply (ad_coset _ _ _ _ A z w i (ds_W _ _ _ _ _ _ D)). now rewrite <- Hx. Qed.

Context (rap : a_rap a) (cols : nat -> E -> E).

(** What one convinced verifier shows: the words are polynomials and the stated values are theirs. *)
Lemma convinced bco tco even odd z : convinces_at a d r b w rap cols bco tco even odd z ->
  exists p c rows, c_z E a c = z /\ c_rap E a c = rap /\ c_boundary_coeffs E a c = bco /\ c_transition_coeffs E a c = tco /\
    step_2 E a p d c = Ok true /\ trace_ood_frame_evaluations p = mk_frame (concat rows) width /\
    length rows = k /\ Forall (fun row => length row = width) rows /\
    (forall col row, (col < width)%nat -> (row < k)%nat -> exists q, (length q <= n + 1)%nat /\
       (forall x, S x -> cols col x = peval q x) /\ nth col (nth row rows []) 0 = peval q (z * fpow g row)) /\
    (exists q, (length q <= n + 1)%nat /\ (forall x, S x -> even x = peval q x) /\ composition_poly_even_ood_evaluation p = peval q (z * z)) /\
    (exists q, (length q <= n + 1)%nat /\ (forall x, S x -> odd x = peval q x) /\ composition_poly_odd_ood_evaluation p = peval q (z * z)).
Proof using A D HE.
  intros (p & c & rows & op & Hz & Hrap & Hbco & Htco & Hout & H2 & Hfr & Hrl & Hrw & Hcl & Hck & Hop & HT & (ga & ga' & de & Hne & F1 & F2) & (gb & gb' & de' & Hne' & F3 & F4)).
  rewrite (ds_offset _ _ _ _ _ _ D) in *. rewrite (ds_root _ _ _ _ _ _ D) in *.
  rewrite (ad_offsets _ _ _ _ A), seq_length in *.
  pose proof offset_nonzero as Hh. pose proof (ds_Wprim _ _ _ _ _ _ D) as HW.
  exists p, c, rows. do 8 (split; [assumption|]).
  assert (Hd : forall x y : E, x <> y -> x - y <> 0) by (intros x y Hxy H0; apply Hxy; exact (proj1 (sub_zero HK _ _) H0)).
  split; [|split].
  - intros col row Hc Hr. destruct (HT col row Hc Hr) as (gamma & gamma' & Hg & L1 & L2).
    apply (fri_convinced_low r b h w _ Hh HW) in L1, L2.
    destruct (nth_error (c_trace_term_coeffs E a c) col) as [cl|] eqn:Ecl; [|apply nth_error_None in Ecl; lia].
    rewrite Forall_forall in Hck. pose proof (Hck cl (nth_error_In _ _ Ecl)) as Hlk.
    destruct (nth_error cl row) as [old|] eqn:Eo; [|apply nth_error_None in Eo; lia].
    destruct (quotient_low_degree HE S (fun x => nth col (lde_trace_evaluations (op x)) 0)
       (deep_word p (with_trace_coeff col row gamma c) g rows op) (deep_word p (with_trace_coeff col row gamma' c) g rows op) (gamma - gamma')
       (nth col (nth row rows []) 0) (c_z E a c * fpow g row) n) as (q & Hq & Hv & Hx); [| | |exact L1|exact L2|].
    + now apply Hd.
    + rewrite Hz. now apply not_shifted.
    + intros x _. apply (deep_value_two HE p c g rows x (op x) col row gamma gamma' cl old Ecl Eo); [rewrite Hfr; exact Hc|lia].
    + exists q. split; [exact Hq|]. split; [|rewrite <- Hz; now rewrite Hv].
      intros x Sx. rewrite <- (Hx x Sx). symmetry. apply (Hop x Sx). exact Hc.
  - apply (fri_convinced_low r b h w _ Hh HW) in F1, F2.
    destruct (quotient_low_degree HE S (fun x => lde_composition_poly_even_evaluation (op x))
       (deep_word p (with_gammas ga de c) g rows op) (deep_word p (with_gammas ga' de c) g rows op) (ga - ga')
       (composition_poly_even_ood_evaluation p) (c_z E a c * c_z E a c) n) as (q & Hq & Hv & Hx); [| | |exact F1|exact F2|].
    + now apply Hd.
    + apply not_square.
    + intros x _. exact (proj1 (deep_value_gammas HE p c g rows x (op x) ga ga' de)).
    + exists q. split; [exact Hq|]. split; [|rewrite <- Hz; now rewrite Hv].
      intros x Sx. rewrite <- (Hx x Sx). symmetry. apply (Hop x Sx).
  - apply (fri_convinced_low r b h w _ Hh HW) in F3, F4.
    destruct (quotient_low_degree HE S (fun x => lde_composition_poly_odd_evaluation (op x))
       (deep_word p (with_gammas de' gb c) g rows op) (deep_word p (with_gammas de' gb' c) g rows op) (gb - gb')
       (composition_poly_odd_ood_evaluation p) (c_z E a c * c_z E a c) n) as (q & Hq & Hv & Hx); [| | |exact F3|exact F4|].
    + now apply Hd.
    + apply not_square.
    + intros x _. exact (proj2 (deep_value_gammas HE p c g rows x (op x) gb gb' de')).
    + exists q. split; [exact Hq|]. split; [|rewrite <- Hz; now rewrite Hv].
      intros x Sx. rewrite <- (Hx x Sx). symmetry. apply (Hop x Sx).
Qed.

Lemma convinced_polys bco tco even odd z : convinces_at a d r b w rap cols bco tco even odd z ->
  exists polys, length polys = width /\ interpolated_by S cols polys (n + 1).
Proof using A D HE.
  intro H. destruct (convinced _ _ _ _ _ H) as (p & c & rows & _ & _ & _ & _ & _ & _ & _ & _ & HT & _ & _).
  destruct (list_choice (fun col (q : poly E) => (length q <= n + 1)%nat /\ forall x, S x -> cols col x = peval q x) [] width) as (polys & Hl & Hp).
  { intros col Hc. destruct (HT col 0%nat Hc (ad_k _ _ _ _ A)) as (q & H1 & H2 & _). eauto. }
  exists polys. split; [exact Hl|]. split.
  - apply Forall_forall. intros q Hq. destruct (In_nth _ _ [] Hq) as (i & Hi & <-). apply Hp. rewrite <- Hl. exact Hi.
  - intros j x Hj. apply Hp. rewrite <- Hl. exact Hj.
Qed.

Lemma rows_eq (polys : list (poly E)) rows z : length polys = width -> length rows = k -> Forall (fun row => length row = width) rows ->
  (forall col row, (col < width)%nat -> (row < k)%nat -> nth col (nth row rows []) 0 = peval (nth col polys []) (z * fpow g row)) ->
  rows = shifted_rows polys (transition_offsets (a_context a)) g z.
Proof using A.
  intros Hl Hr Hw H. rewrite (ad_offsets _ _ _ _ A). unfold shifted_rows.
  apply (nth_ext _ _ [] []); [now rewrite map_length, seq_length|]. intros i Hi. rewrite Hr in Hi.
  rewrite (nth_indep (map (fun o => map (fun p => peval p (z * fpow g o)) polys) (seq 0 k)) [] (map (fun p => peval p (z * fpow g 0)) polys)) by (rewrite map_length, seq_length; exact Hi).
  rewrite (map_nth (fun o => map (fun p => peval p (z * fpow g o)) polys)), seq_nth by exact Hi. cbn [Nat.add].
  assert (Hwi : length (nth i rows []) = width) by (rewrite Forall_forall in Hw; apply Hw, nth_In; lia).
  apply (nth_ext _ _ 0 (peval [] (z * fpow g i))); [now rewrite map_length, Hwi, Hl|]. intros j Hj. rewrite Hwi in Hj.
  rewrite (map_nth (fun p => peval p (z * fpow g i))). now apply H.
Qed.

Lemma convinced_passes polys h1 h2 bco tco even odd z : length polys = width -> interpolated_by S cols polys (n + 1) ->
  (length h1 <= n + 1)%nat -> (forall x, S x -> even x = peval h1 x) -> (length h2 <= n + 1)%nat -> (forall x, S x -> odd x = peval h2 x) ->
  convinces_at a d r b w rap cols bco tco even odd z -> passes_at a d rap polys bco tco h1 h2 z.
Proof using A D HE.
  intros Hl [Hpl Hp] H1 He H2 Ho H.
  destruct (convinced _ _ _ _ _ H) as (p & c & rows & Hz & Hrap & Hbco & Htco & Hs & Hfr & Hrl & Hrw & HT & (q1 & L1 & E1 & V1) & (q2 & L2 & E2 & V2)).
  exists p, c. split; [exact Hs|]. split.
  { rewrite Hfr, (ds_root _ _ _ _ _ _ D). unfold shifted_frame. rewrite Hl. f_equal. f_equal.
    apply rows_eq; [exact Hl|exact Hrl|exact Hrw|]. intros col row Hc Hr. destruct (HT col row Hc Hr) as (q & Lq & Eq & Vq).
    rewrite Vq. apply (unique_poly (cols col)); [exact Lq| |exact Eq|].
    - rewrite Forall_forall in Hpl. apply Hpl, nth_In. lia.
    - intros x Sx. apply Hp; [lia|exact Sx]. }
  split; [rewrite V1; now apply (unique_poly even)|]. split; [rewrite V2; now apply (unique_poly odd)|]. tauto.
Qed.

Lemma often_passes polys bco tco bound : length polys = width -> interpolated_by S cols polys (n + 1) ->
  convinces_often a d r b w rap cols bco tco bound ->
  exists h1 h2, (length h1 <= n + 1)%nat /\ (length h2 <= n + 1)%nat /\ passes_often a d rap polys bco tco h1 h2 bound.
Proof using A D HE.
  intros Hl Hp (even & odd & zs & Hnd & Hlen & Hzs). destruct zs as [|z zs]; [cbn in Hlen; lia|].
  destruct (convinced _ _ _ _ _ (Hzs z (or_introl eq_refl))) as (_ & _ & _ & _ & _ & _ & _ & _ & _ & _ & _ & _ & (h1 & L1 & E1 & _) & (h2 & L2 & E2 & _)).
  exists h1, h2. split; [exact L1|]. split; [exact L2|]. exists (z :: zs). split; [exact Hnd|]. split; [exact Hlen|].
  intros y Hy. exact (convinced_passes polys h1 h2 bco tco even odd y Hl Hp L1 E1 L2 E2 (Hzs y Hy)).
Qed.

Lemma often_polys bco tco bound : convinces_often a d r b w rap cols bco tco bound ->
  exists polys, length polys = width /\ interpolated_by S cols polys (n + 1).
Proof using A D HE.
  intros (even & odd & zs & _ & Hlen & Hzs). destruct zs as [|z zs]; [cbn in Hlen; lia|].
  exact (convinced_polys _ _ _ _ z (Hzs z (or_introl eq_refl))).
Qed.

Lemma transition_twice polys j : length polys = width -> interpolated_by S cols polys (n + 1) ->
  convinces_of_transition a d r b w rap cols j (stark_bound a n) ->
  exists beta beta', beta <> beta' /\ transition_passes_twice a d rap polys n (n + 1) (n + 1) j beta beta'.
Proof using A D HE.
  intros Hl Hp (bco & tco & beta & beta' & Hj & Hne & H1 & H2). exists beta, beta'. split; [exact Hne|].
  destruct (often_passes polys _ _ _ Hl Hp H1) as (h1 & h2 & L1 & L2 & P1). destruct (often_passes polys _ _ _ Hl Hp H2) as (h1' & h2' & L1' & L2' & P2).
  exists bco, tco, h1, h2, h1', h2'. repeat (split; [assumption|]). assumption.
Qed.
Lemma boundary_twice polys j : length polys = width -> interpolated_by S cols polys (n + 1) ->
  convinces_of_boundary a d r b w rap cols j (stark_bound a n) ->
  exists beta beta', beta <> beta' /\ boundary_passes_twice a d rap polys n (n + 1) (n + 1) j beta beta'.
Proof using A D HE.
  intros Hl Hp (bco & tco & beta & beta' & Hj & Hne & H1 & H2). exists beta, beta'. split; [exact Hne|].
  destruct (often_passes polys _ _ _ Hl Hp H1) as (h1 & h2 & L1 & L2 & P1). destruct (often_passes polys _ _ _ Hl Hp H2) as (h1' & h2' & L1' & L2' & P2).
  exists bco, tco, h1, h2, h1', h2'. repeat (split; [assumption|]). assumption.
Qed.
End Shape.
End Stark.
