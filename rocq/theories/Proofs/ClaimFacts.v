(** Facts for C78: a verifier that is given other boundary constraints for the challenges that it draws, and products over public cells. *)
From Coq Require Import List Arith NArith Bool Lia Permutation.
From Verif.Base Require Import Outcome Field Poly.
From Verif.Model Require Import Codec PublicInputs Trace Merkle Air Transcript Domain Verifier CairoDecode CairoTrace CairoAir CairoRunner.
From Verif.Spec Require Import AirSpec CairoSpec Claim.
From Verif.Proofs Require Import OutcomeFacts FieldFacts PolyFacts FFTFacts MultisetFacts VerifierTotal CliFacts.
Import ListNotations.
Local Open Scope felt_scope.

Lemma step_1_drawn {E : env} fuel (a : air E) aux tr bnd (p : stark_proof E) d t :
  (forall root rap t', hd_error (lde_trace_merkle_roots p) = Some root -> a_build_rap a (tr_append t root) = Ok (rap, t') -> bnd rap = a_boundary a rap) ->
  step_1 E fuel (variant a aux tr bnd) p d t = obind (step_1 E fuel a p d t) (fun '(c, t') => Ok (conv a aux tr bnd c, t')).
Proof.
  intro H. unfold step_1. cbn [variant a_build_rap a_boundary a_context].
  destruct (lde_trace_merkle_roots p) as [|root roots]; [reflexivity|]. cbn [idx nth_error unwrap obind].
  destruct (a_build_rap a (tr_append t root)) as [[rap t1]|e|] eqn:Hr; [|reflexivity|reflexivity]. cbn [obind]. rewrite (H root rap t1 eq_refl Hr).
  rewrite bind_assoc. apply bind_ext. intro bcs.
  do 4 (rewrite bind_assoc; apply bind_ext; intros [? ?]).
  rewrite bind_assoc; apply bind_ext; intros [z ?].
  do 2 (rewrite bind_assoc; apply bind_ext; intro).
  do 4 (rewrite bind_assoc; apply bind_ext; intros [? ?]).
  destruct (tr_challenge _) as [ch tc]. rewrite bind_assoc; apply bind_ext; intro lz.
  rewrite bind_assoc; apply bind_ext; intros [io ?]. reflexivity.
Qed.

Lemma verify_drawn {E : env} fuel (mk mk' : nat -> air E) opts (p : stark_proof E) : let a := mk (trace_length p) in
  (exists aux tr bnd, mk' (trace_length p) = variant a aux tr bnd /\ (forall f x, tr f x = a_transition a f x) /\
     (forall root rap t', hd_error (lde_trace_merkle_roots p) = Some root -> a_build_rap a (tr_append tr_new root) = Ok (rap, t') -> bnd rap = a_boundary a rap)) ->
  verify E fuel mk' opts p = verify E fuel mk opts p.
Proof.
  intros a (aux & tr & bnd & Hmk & Htr & Hb). unfold verify. destruct (length (query_list p) <? fri_number_of_queries opts)%nat; [reflexivity|]. cbv zeta. rewrite Hmk. fold a.
  change (domain_new (variant a aux tr bnd)) with (domain_new a). destruct (domain_new a) as [d|e|]; [|reflexivity|reflexivity]. cbn [obind].
  rewrite (step_1_drawn fuel a aux tr bnd p d tr_new Hb). destruct (step_1 E fuel a p d tr_new) as [[c t]|e|] eqn:Hc; [|reflexivity|reflexivity]. cbn [obind].
  change (a_options (variant a aux tr bnd)) with (a_options a). change (c_leading_zeros E (variant a aux tr bnd) (conv a aux tr bnd c)) with (c_leading_zeros E a c).
  destruct (_ <? _)%N; [reflexivity|].
  assert (H2 : step_2 E (variant a aux tr bnd) p d (conv a aux tr bnd c) = step_2 E a p d c); [|rewrite H2; reflexivity].
  unfold step_2. cbn [variant a_boundary a_degree_bound a_trace_length a_transition conv c_rap].
  destruct (lde_trace_merkle_roots p) as [|root roots] eqn:Hr; [unfold step_1 in Hc; rewrite Hr in Hc; discriminate Hc|].
  destruct (step_1_rap (root := root) fuel p tr_new c t ltac:(now rewrite Hr) Hc) as (t1 & Hrap). rewrite (Hb root _ t1 eq_refl Hrap).
  apply bind_ext. intro bcs. apply bind_ext. intro adj. apply bind_ext. intro b. rewrite Htr. reflexivity.
Qed.

Section Cells.
Context {C : cairo_env} (HE : env_ok C).
Let HK : field_ok C := fft_field_ok _ (e_fft_ok _ HE).
Add Field Kfield72 : (fld_th C HK).

Definition zero_cell (av : C * C) : bool := feqb (fst av) 0 && feqb (snd av) 0.
Lemma zero_cell_true av : zero_cell av = true -> av = (0, 0).
Proof using HE.
  unfold zero_cell. intro H. apply andb_true_iff in H. destruct H as [H1 H2]. apply (feqb_spec C HK) in H1, H2. destruct av. cbn in *. now subst.
Qed.
Lemma zero_cell_zero : zero_cell (0, 0) = true.
Proof using HE. unfold zero_cell. cbn. apply andb_true_iff. split; now apply (feqb_spec C HK). Qed.

Lemma stated_length (cells : list (C * C)) : (length (stated_cells cells) + length (filter zero_cell cells) = length cells)%nat.
Proof using Type.
  unfold stated_cells. induction cells as [|av l IH]; [reflexivity|]. cbn [filter]. fold (zero_cell av). destruct (zero_cell av); cbn [negb length]; lia.
Qed.

Lemma vanish_stated (alpha z : C) (cells : list (C * C)) : vanish (map (compress alpha) cells) z = fpow z (length (filter zero_cell cells)) * vanish (map (compress alpha) (stated_cells cells)) z.
Proof using HE.
  unfold stated_cells. induction cells as [|av l IH]; [cbn; unfold vanish; cbn; ring|]. cbn [filter map]. fold (zero_cell av). rewrite vanish_cons, IH.
  destruct (zero_cell av) eqn:Ez; cbn [negb length map fpow].
  - apply zero_cell_true in Ez. subst av. unfold compress at 1. cbn [fst snd]. ring.
  - rewrite vanish_cons. ring.
Qed.

Lemma stated_zeros k : stated_cells (C := C) (repeat (0, 0) k) = [].
Proof using HE.
  unfold stated_cells. induction k as [|k IH]; [reflexivity|]. cbn [repeat filter]. fold (zero_cell (0, 0)). rewrite zero_cell_zero. exact IH.
Qed.
Lemma stated_permutation (l l' : list (C * C)) : Permutation l l' -> Permutation (stated_cells l) (stated_cells l').
Proof using Type.
  unfold stated_cells. induction 1 as [|x l l' H IH|x y l|l1 l2 l3 H1 IH1 H2 IH2]; cbn [filter]; [constructor| | |eauto using Permutation_trans].
  - destruct (negb _); [now constructor|exact IH].
  - destruct (negb _), (negb _); [apply perm_swap|apply Permutation_refl..].
Qed.

(** The boundary value of the running product, for a point other than zero, only depends on the stated cells. *)
Lemma quotient_stated (z x y : C) k l : z <> 0 -> x = fpow z k * y -> fpow z (l + k) * finv x = fpow z l * finv y \/ (x = 0 /\ y = 0).
Proof using HE.
  intros Hz ->. destruct (feq_dec HK y 0) as [->|Hy]; [right; split; [ring|reflexivity]|left]. rewrite (fpow_add HK). field.
  split; [exact Hy|apply (fpow_nonzero HK), Hz].
Qed.
Lemma mul_zero_right (a : C) : a * 0 = 0.
Proof using HE. ring. Qed.
Lemma cross_quotients (a b v w : C) : v <> 0 -> w <> 0 -> b * finv w = a * finv v -> v * b = w * a.
Proof using HE. intros Hv Hw H. transitivity (v * w * (b * finv w)); [field; exact Hw|]. rewrite H. field. exact Hv. Qed.
Lemma vanish_zeros (alpha z : C) k : vanish (map (compress alpha) (repeat (0, 0) k)) z = fpow z k.
Proof using HE.
  induction k as [|k IH]; [reflexivity|]. cbn [repeat map fpow]. rewrite vanish_cons, IH. unfold compress. cbn [fst snd]. ring.
Qed.
End Cells.
