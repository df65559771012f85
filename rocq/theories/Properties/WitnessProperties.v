(** C84: what a proof tells about the trace. *)
From Coq Require Import List Arith Lia Bool NArith ZArith Field.
From Verif.Base Require Import Outcome Bytes Field Poly Zp.
From Verif.Model Require Import Codec Trace Merkle Air Transcript Domain Options Prover Verifier ExampleAirs.
From Verif.Spec Require Import AirSpec HashSpec OodSpec Rounds Openings ExampleSpec Extract Witness.
From Verif.Proofs Require Import OutcomeFacts FieldFacts PolyFacts FFTFacts TraceFacts MerkleFacts DomainFacts VerifierFacts ExampleFacts HonestOpenings HonestAux HonestRound HonestRepairs WitnessFacts.
From Verif.Examples Require Import Toy.
From Verif.Properties Require Import ExampleProperties StarkSoundnessProperties OpeningProperties.
Import ListNotations.
Local Open Scope felt_scope.

Section Facts.
Context {E : env} (HE : env_ok E).
Let HK : field_ok E := fft_field_ok E (e_fft_ok E HE).
Add Field Kfield79 : (fld_th E HK).

Lemma coset_not_zero (a : air E) r b k (w : E) : admissible a r b k -> primitive_root (r + b) = Some w -> e_u64 E (coset_offset (a_options a)) <> 0.
Proof using HE. intros A Hw Z. apply (ad_coset _ _ _ _ A 0 w 0%nat Hw). rewrite Z. ring. Qed.

Lemma frame_rows (polys : list (poly E)) k g z j i : (i < k)%nat ->
  match fr_get_row (mk_frame (concat (shifted_rows polys (seq 0 k) g z)) (length polys)) i with Ok row => nth j row 0 | _ => 0 end =
  peval (nth j polys []) (z * fpow g i).
Proof using Type.
  intro Hi. unfold fr_get_row. cbn [fr_data fr_row_width]. rewrite concat_slice.
  - unfold shifted_rows. rewrite (nth_indep _ [] ((fun o => map (fun p => peval p (z * fpow g o)) polys) 0%nat)) by (now rewrite map_length, seq_length).
    rewrite (map_nth (fun o => map (fun p => peval p (z * fpow g o)) polys)), seq_nth by exact Hi. cbn [Nat.add].
    change (0 : E) with (peval (K := E) [] (z * fpow g i)). exact (map_nth (fun p => peval p (z * fpow g i)) polys [] j).
  - apply Forall_forall. intros row Hr. unfold shifted_rows in Hr. apply in_map_iff in Hr. destruct Hr as (o & <- & _). apply map_length.
  - unfold shifted_rows. now rewrite map_length, seq_length.
Qed.

Lemma honest_root fuel (mk : nat -> air E) (mt : trace_table E) r b k proof n : n = tt_n_rows mt -> tt_n_rows mt = (2 ^ r)%nat ->
  admissible (mk n) r b k -> valid_trace (mk n) r mt -> (forall rap aux, a_build_aux (mk n) mt rap = Ok aux -> tt_n_cols aux = a_n_aux (mk n)) ->
  prove E fuel mk mt = Ok proof ->
  exists d g w polys, domain_new (mk n) = Ok d /\ domain_shape d r b (e_u64 E (coset_offset (a_options (mk n)))) g w /\
    length polys = trace_columns (a_context (mk n)) /\ Forall (fun p : poly E => (length p <= 2 ^ r)%nat) polys /\
    hd_error (lde_trace_merkle_roots proof) =
      Some (row_commit (r + b) (d_coset_offset d) w (fun x => map (fun j => peval (nth j polys []) x) (seq 0 (trace_columns (a_context (mk n)) - a_n_aux (mk n))))) /\
    has_columns mt (2 ^ r) (map (fun j => map (fun i => peval (nth j polys []) (fpow g i)) (seq 0 (2 ^ r))) (seq 0 (trace_columns (a_context (mk n)) - a_n_aux (mk n)))).
Proof using HE.
  intros -> Hn A Hv Hx Hp.
  destruct (honest_parts HE fuel mk mt r b k proof A Hn Hv Hp)
    as (d & g & w & c & t & polys & h1 & h2 & deep & Hd & D & _ & _ & Pl & Pf & _ & (aux & mcols & acols & T1 & T2 & T3 & T4) & _ & _ & _ & _ & _ & _ & _ & _ & _ & _ & _ & _ & Hroots & _).
  exists d, g, w, polys. split; [exact Hd|]. split; [exact D|]. split; [exact Pl|]. split; [exact Pf|]. destruct (Hroots Hx) as [R _]. split; [now rewrite R|].
  set (a := mk (tt_n_rows mt)) in *. set (main := (trace_columns (a_context a) - a_n_aux a)%nat).
  pose proof (f_equal (@length _) T4) as L. unfold domain_columns in L. rewrite map_length, app_length, Pl in L.
  destruct T3 as (L3 & _). rewrite (Hx _ _ T1) in L3.
  assert (Lm : length mcols = main) by (unfold main; lia).
  enough (Q : mcols = map (fun j => map (fun i => peval (nth j polys []) (fpow g i)) (seq 0 (2 ^ r))) (seq 0 main)) by (rewrite <- Q; exact T2).
  apply (f_equal (firstn main)) in T4. rewrite <- Lm in T4 at 2. rewrite firstn_app, Nat.sub_diag, firstn_all, firstn_O, app_nil_r in T4. rewrite <- T4.
  unfold domain_columns. rewrite firstn_map.
  assert (F : firstn main polys = map (fun j => nth j polys []) (seq 0 main)).
  { apply nth_ext with (d := []) (d' := []); [rewrite firstn_length, map_length, seq_length; unfold main; lia|]. intros j Hj. rewrite firstn_length in Hj.
    rewrite nth_firstn_lt by lia. rewrite (nth_indep (map (fun j => nth j polys []) (seq 0 main)) [] ((fun j => nth j polys []) 0%nat)) by (rewrite map_length, seq_length; lia).
    rewrite (map_nth (fun j => nth j polys [])), seq_nth by lia. reflexivity. }
  rewrite F, map_map. reflexivity.
Qed.
Lemma nth_map_lt {A B} (f : A -> B) l j d d' : (j < length l)%nat -> nth j (map f l) d' = f (nth j l d).
Proof using Type. intro H. rewrite (nth_indep _ d' (f d)) by (now rewrite map_length). apply map_nth. Qed.
Lemma table_columns_unique (t : trace_table E) n cols cols' : has_columns t n cols -> has_columns t n cols' -> cols = cols'.
Proof using Type.
  intros H H'. pose proof (proj1 H) as W. pose proof (proj1 H') as W'. rewrite W in W'. destruct cols as [|c cols].
  - destruct cols'; [reflexivity|discriminate W'].
  - assert (c :: cols <> []) by discriminate. assert (N' : cols' <> []) by (intros ->; discriminate W').
    destruct (has_columns_table t n (c :: cols) H0 H) as [Q _]. destruct (has_columns_table t n cols' N' H') as [Q' _]. congruence.
Qed.
Lemma honest_root_known fuel (mk : nat -> air E) (mt : trace_table E) r b k proof d w (K : evaluations E) : (2 ^ r)%nat = tt_n_rows mt -> tt_n_rows mt = (2 ^ r)%nat ->
  admissible (mk (2 ^ r)%nat) r b k -> valid_trace (mk (2 ^ r)%nat) r mt -> (forall rap aux, a_build_aux (mk (2 ^ r)%nat) mt rap = Ok aux -> tt_n_cols aux = a_n_aux (mk (2 ^ r)%nat)) ->
  prove E fuel mk mt = Ok proof -> domain_new (mk (2 ^ r)%nat) = Ok d -> primitive_root (r + b) = Some w ->
  commits_to K (r + b) (d_coset_offset d) w (trace_primitive_root d) (2 ^ r) mt ->
  exists polys, Forall (fun q => (length q <= 2 ^ r)%nat) polys /\
    hd_error (lde_trace_merkle_roots proof) = Some (row_commit (r + b) (d_coset_offset d) w (fun x => map (fun q => peval q x) polys)) /\
    has_columns mt (2 ^ r) (map (fun q => map (fun i => peval q (fpow (trace_primitive_root d) i)) (seq 0 (2 ^ r))) polys) /\
    (forall q q' : poly E, (length q <= 2 ^ r)%nat -> (length q' <= 2 ^ r)%nat ->
      (forall i, (i < 2 ^ (r + b))%nat -> peval q (d_coset_offset d * fpow w i) = peval q' (d_coset_offset d * fpow w i)) -> forall x, peval q x = peval q' x) /\
    (forall i, (i < 2 ^ (r + b))%nat -> In (map (fun q => peval q (d_coset_offset d * fpow w i)) polys) (ev_rows K)) /\
    incl (tree_calls (e_node E) (r + b) (row_leaves (r + b) (d_coset_offset d) w (fun x => map (fun q => peval q x) polys))) (ev_pairs K).
Proof using HE.
  intros Hn Hn' A Hv Hx Hp Hd Hw (polys & Lp & Cp & Np).
  destruct (honest_root fuel mk mt r b k proof _ Hn Hn' A Hv Hx Hp) as (d' & g & w' & ps & Hd' & D & Pl & Pf & R & C).
  rewrite Hd in Hd'. apply ok_inj in Hd'. subst d'. pose proof (ds_W _ _ _ _ _ _ D) as Hw'. rewrite Hw in Hw'. injection Hw' as <-.
  pose proof (ds_root _ _ _ _ _ _ D) as Hg. rewrite <- Hg in C.
  assert (Hh : d_coset_offset d <> 0) by (rewrite (ds_offset _ _ _ _ _ _ D); exact (coset_not_zero _ r b k w A Hw)).
  exists polys. split; [exact Lp|]. split; [|split; [exact Cp|split; [|exact Np]]].
  - rewrite R. f_equal. set (main := (trace_columns (a_context (mk (2 ^ r)%nat)) - a_n_aux (mk (2 ^ r)%nat))%nat) in *.
    pose proof (table_columns_unique mt _ _ _ C Cp) as Q.
    assert (Lm : main = length polys) by (apply (f_equal (@length _)) in Q; now rewrite !map_length, seq_length in Q).
    unfold row_commit, row_leaves. f_equal. apply map_ext. intro i. f_equal. apply nth_ext with (d := 0) (d' := 0); [now rewrite !map_length, seq_length|].
    intros j Hj. rewrite map_length, seq_length in Hj. rewrite (nth_map_lt (fun q => peval q _) polys j []) by lia. rewrite (nth_map_lt _ (seq 0 main) j 0%nat), seq_nth by (rewrite ?seq_length; lia). cbn [Nat.add].
    apply (f_equal (fun l => nth j l [])) in Q.
    rewrite (nth_map_lt _ (seq 0 main) j 0%nat), seq_nth in Q by (rewrite ?seq_length; lia). rewrite (nth_map_lt _ polys j []) in Q by lia. cbn [Nat.add] in Q.
    apply (agree_eval HK (coset (trace_primitive_root d) 1 (2 ^ r))).
    + apply (coset_nodup HK); [rewrite Hg; exact (ds_gprim _ _ _ _ _ _ D)|exact (F_1_neq_0 (fld_th E HK))].
    + intros y Hy. apply in_map_iff in Hy. destruct Hy as (i0 & <- & Hi0). pose proof (ext_in_map Q i0 Hi0) as Qi. cbn beta in Qi.
      replace (1 * fpow (trace_primitive_root d) i0) with (fpow (trace_primitive_root d) i0) by ring. exact Qi.
    + rewrite coset_length. rewrite Forall_forall in Pf. apply Pf, nth_In. rewrite Pl. unfold main in Hj. lia.
    + rewrite coset_length. rewrite Forall_forall in Lp. apply Lp, nth_In. lia.
  - intros q q' Lq Lq' V x. assert (P2 : (2 ^ r <= 2 ^ (r + b))%nat) by (apply Nat.pow_le_mono_r; lia).
    apply (agree_eval HK (coset w (d_coset_offset d) (2 ^ (r + b)))).
    + exact (coset_nodup HK w _ _ (ds_Wprim _ _ _ _ _ _ D) Hh).
    + intros y Hy. apply in_map_iff in Hy. destruct Hy as (i & <- & Hi). apply in_seq in Hi. apply V; lia.
    + rewrite coset_length. lia.
    + rewrite coset_length. lia.
Qed.
End Facts.

(** If the positions and the points outside the domain at which an honest proof states the columns contain as many different points as the
    trace has rows, then [read_columns] returns the trace: all columns of the main table and those built from it. *)
Theorem C84_proof_reveals_the_trace :
  forall (E : env) fuel (mk : nat -> air E) (mt : trace_table E) r b k proof d (w : E) (xs : list E), env_ok E ->
  let a := mk (tt_n_rows mt) in forall (c : challenges E a) t,
  admissible a r b k -> tt_n_rows mt = (2 ^ r)%nat -> valid_trace a r mt -> prove E fuel mk mt = Ok proof ->
  domain_new a = Ok d -> primitive_root (r + b) = Some w -> step_1 E fuel a proof d tr_new = Ok (c, t) ->
  NoDup xs -> (2 ^ r <= length xs)%nat ->
  (forall x, In x xs -> (exists iota, In iota (c_iotas E a c) /\ x = d_coset_offset d * fpow w iota) \/
                        (exists i, (i < k)%nat /\ x = c_z E a c * fpow (trace_primitive_root d) i)) ->
  exists cols, read_columns fuel mk proof = Ok cols /\ trace_of a mt (c_rap E a c) (2 ^ r) cols.
Proof.
  intros E fuel mk mt r b k proof d w xs HE a c t A Hn Hv Hp Hd Hw Hs X1 X2 X3. pose proof (fft_field_ok _ (e_fft_ok E HE)) as HK.
  destruct (honest_parts HE fuel mk mt r b k proof A Hn Hv Hp)
    as (d' & g & w' & c' & t' & polys & h1 & h2 & deep & Hd' & D & Ht & Hc & Pl & Pf & _ & Htr & _ & _ & _ & _ & _ & Hfr & _ & _ & _ & _ & _ & _ & _ & Htruth).
  fold a in c', Hd', D, Hc, Pl, Htr, Hfr, Htruth. rewrite Hd in Hd'. apply ok_inj in Hd'. subst d'. rewrite Hs in Hc. apply ok_inj in Hc.
  pose proof (f_equal fst Hc) as Hcc. cbn [fst] in Hcc. subst c'. clear Hc.
  pose proof (ds_W _ _ _ _ _ _ D) as Hw'. rewrite Hw in Hw'. injection Hw' as <-. pose proof (ds_root _ _ _ _ _ _ D) as Hg.
  exists (domain_columns polys g (2 ^ r)). split; [|exact Htr].
  assert (G : read_columns fuel mk proof = Ok (map (fun j => map (peval (through (distinct (stated proof d w c (length (transition_offsets (a_context a))) j)))) (trace_roots_of_unity d))
    (seq 0 (trace_columns (a_context a))))).
  { unfold read_columns. assert (Q : trace_length proof = tt_n_rows mt) by congruence. rewrite Q. fold a. rewrite Hd. cbn [obind]. rewrite Hs. cbn [obind fst].
    rewrite (ds_lde_order _ _ _ _ _ _ D), Hw. cbn [unwrap obind]. reflexivity. }
  rewrite G. f_equal. unfold domain_columns. rewrite (ad_offsets _ _ _ _ A), seq_length.
  rewrite <- (map_nth_seq polys []) at 1. rewrite map_map, Pl. apply map_ext_in. intros j Hj. apply in_seq in Hj.
  rewrite (ds_trace _ _ _ _ _ _ D), map_map. apply map_ext. intro i.
  replace (fpow g i * 1) with (fpow g i) by (destruct (fld_th E HK) as [[R1 R2 R3 R4 R5 R6 R7 R8 R9] _ _ _]; now rewrite R5, R4).
  apply (through_exact HK _ _ (2 ^ r) xs); [| |exact X1|exact X2|].
  - intros y Hy. unfold stated in Hy. apply in_app_or in Hy. destruct Hy as [Hy|Hy]; apply in_map_iff in Hy.
    + destruct Hy as ((iota & o) & <- & Hy). cbn [fst snd]. apply (In_nth_error) in Hy. destruct Hy as (q & Hq).
      assert (N1 : nth_error (c_iotas E a c) q = Some iota /\ nth_error (deep_poly_openings proof) q = Some o).
      { clear -Hq. revert q Hq. generalize (c_iotas E a c) (deep_poly_openings proof). intro l. induction l as [|u l IH]; intros [|v m] [|q] Hq; try discriminate Hq; cbn in *; [now injection Hq as -> ->|now apply IH]. }
      destruct N1 as [N1 N2]. destruct (Htruth q iota N1) as (_ & o' & _ & O1 & _ & O2 & _). rewrite N2 in O1. injection O1 as <-. rewrite O2.
      change (0 : E) with (peval (K := E) [] (d_coset_offset d * fpow w iota)) at 1. exact (map_nth (fun p => peval p (d_coset_offset d * fpow w iota)) polys [] j).
    + destruct Hy as (i0 & <- & Hy). apply in_seq in Hy. cbn [fst snd]. rewrite Hfr, <- Pl, Hg. apply frame_rows. lia.
  - rewrite Forall_forall in Pf. apply Pf. apply nth_In. lia.
  - intros x Hx. unfold stated. rewrite map_app, !map_map. cbn [fst]. apply in_or_app. destruct (X3 x Hx) as [(iota & Hi & ->)|(i0 & Hi & ->)]; [left|right].
    + apply In_nth_error in Hi. destruct Hi as (q & Hq). destruct (Htruth q iota Hq) as (_ & o & _ & O1 & _).
      apply in_map_iff. exists (iota, o). split; [reflexivity|]. clear -Hq O1. revert q Hq O1. generalize (c_iotas E a c) (deep_poly_openings proof).
      intro l. induction l as [|u l IH]; intros [|v m] [|q] Hq O1; try discriminate; cbn in *; [left; congruence|right; eauto].
    + apply in_map_iff. exists i0. split; [reflexivity|]. apply in_seq. lia.
Qed.
Print Assumptions C84_proof_reveals_the_trace.

(** So as many different positions as rows are enough. *)
Theorem C84_enough_positions_reveal_the_trace :
  forall (E : env) fuel (mk : nat -> air E) (mt : trace_table E) r b k proof d, env_ok E ->
  let a := mk (tt_n_rows mt) in forall (c : challenges E a) t,
  admissible a r b k -> tt_n_rows mt = (2 ^ r)%nat -> valid_trace a r mt -> prove E fuel mk mt = Ok proof ->
  domain_new a = Ok d -> step_1 E fuel a proof d tr_new = Ok (c, t) -> (2 ^ r <= length (nodup Nat.eq_dec (c_iotas E a c)))%nat ->
  exists cols, read_columns fuel mk proof = Ok cols /\ trace_of a mt (c_rap E a c) (2 ^ r) cols.
Proof.
  intros E fuel mk mt r b k proof d HE a c t A Hn Hv Hp Hd Hs Hl. pose proof (fft_field_ok _ (e_fft_ok E HE)) as HK.
  destruct (domain_new_shape HE a d r b Hd (ad_n _ _ _ _ A) (ad_blowup _ _ _ _ A) (ad_r _ _ _ _ A)) as (g & w & D).
  pose proof (coset_not_zero HE a r b k w A (ds_W _ _ _ _ _ _ D)) as Hh.
  destruct (step_1_facts HE fuel a proof d tr_new c t Hs) as (_ & _ & (_ & Hr) & _). rewrite (ds_lde_order _ _ _ _ _ _ D) in Hr.
  apply (C84_proof_reveals_the_trace E fuel mk mt r b k proof d w (map (fun i => d_coset_offset d * fpow w i) (nodup Nat.eq_dec (c_iotas E a c))) HE c t A Hn Hv Hp Hd (ds_W _ _ _ _ _ _ D) Hs).
  - assert (I : forall i, In i (nodup Nat.eq_dec (c_iotas E a c)) -> (i < 2 ^ (r + b))%nat) by (intros i Hi; apply Hr; now apply nodup_In in Hi).
    pose proof (NoDup_nodup Nat.eq_dec (c_iotas E a c)) as N. revert I N. generalize (nodup Nat.eq_dec (c_iotas E a c)). intro l. rewrite (ds_offset _ _ _ _ _ _ D).
    induction l as [|i l IH]; intros I N; [constructor|]. apply NoDup_cons_iff in N. destruct N as [N1 N2]. cbn [map]. constructor; [|apply IH; [intros; apply I; now right|exact N2]].
    intro C. apply in_map_iff in C. destruct C as (i' & Q & Hi'). apply (mul_cancel_l HK) in Q; [|exact Hh].
    apply (prim_inj HK w (2 ^ (r + b))) in Q; [subst; contradiction|exact (ds_Wprim _ _ _ _ _ _ D)|apply I; now right|apply I; now left].
  - now rewrite map_length.
  - intros x Hx. apply in_map_iff in Hx. destruct Hx as (i & <- & Hi). left. exists i. split; [now apply nodup_In in Hi|reflexivity].
Qed.
Print Assumptions C84_enough_positions_reveal_the_trace.

(** Even without enough positions, a guess of the trace can be confirmed: proofs of two traces for one claim have the same first root only if the traces are
    the same, unless two of the hashes evaluated in committing to them coincide. (If the traces are the same so are the proofs, since the prover draws no randomness.) *)
Theorem C84_first_root_identifies_the_trace :
  forall (E : env) fuel (mk : nat -> air E) (mt mt' : trace_table E) r b k d w (K : evaluations E) proof proof', env_ok E ->
  admissible (mk (2 ^ r)%nat) r b k -> tt_n_rows mt = (2 ^ r)%nat -> tt_n_rows mt' = (2 ^ r)%nat ->
  valid_trace (mk (2 ^ r)%nat) r mt -> valid_trace (mk (2 ^ r)%nat) r mt' ->
  (forall rap aux, a_build_aux (mk (2 ^ r)%nat) mt rap = Ok aux -> tt_n_cols aux = a_n_aux (mk (2 ^ r)%nat)) ->
  (forall rap aux, a_build_aux (mk (2 ^ r)%nat) mt' rap = Ok aux -> tt_n_cols aux = a_n_aux (mk (2 ^ r)%nat)) ->
  prove E fuel mk mt = Ok proof -> prove E fuel mk mt' = Ok proof' ->
  domain_new (mk (2 ^ r)%nat) = Ok d -> primitive_root (r + b) = Some w -> collision_free K ->
  commits_to K (r + b) (d_coset_offset d) w (trace_primitive_root d) (2 ^ r) mt -> commits_to K (r + b) (d_coset_offset d) w (trace_primitive_root d) (2 ^ r) mt' ->
  hd_error (lde_trace_merkle_roots proof) = hd_error (lde_trace_merkle_roots proof') <-> mt = mt'.
Proof.
  intros E fuel mk mt mt' r b k d w K proof proof' HE A Hn Hn' Hv Hv' Hx Hx' Hp Hp' Hdom Hroot (_ & HL & HN) Hc Hc'. pose proof (fft_field_ok _ (e_fft_ok E HE)) as HK.
  split; [|intros <-; rewrite Hp in Hp'; apply ok_inj in Hp'; now subst].
  destruct (honest_root_known HE fuel mk mt r b k proof d w K (eq_sym Hn) Hn A Hv Hx Hp Hdom Hroot Hc) as (polys & L & R & C & D & N1 & N2).
  destruct (honest_root_known HE fuel mk mt' r b k proof' d w K (eq_sym Hn') Hn' A Hv' Hx' Hp' Hdom Hroot Hc') as (polys' & L' & R' & C' & _ & N1' & N2').
  rewrite R, R'. intro Q. injection Q as Q.
  unfold row_commit in Q. apply (mt_root_inj _ _ HN) in Q; [|apply row_leaves_length|apply row_leaves_length|exact N2|exact N2'].
  assert (W : map (fun q => map (fun i => peval q (fpow (trace_primitive_root d) i)) (seq 0 (2 ^ r))) polys =
              map (fun q => map (fun i => peval q (fpow (trace_primitive_root d) i)) (seq 0 (2 ^ r))) polys').
  { assert (V : forall i, (i < 2 ^ (r + b))%nat -> map (fun q => peval q (d_coset_offset d * fpow w i)) polys = map (fun q => peval q (d_coset_offset d * fpow w i)) polys').
    { intros i Hi. unfold row_leaves in Q. pose proof (ext_in_map Q i ltac:(apply in_seq; lia)) as Qi. cbn beta in Qi. exact (HL _ _ (N1 i Hi) (N1' i Hi) Qi). }
    assert (Le : length polys = length polys') by (pose proof (f_equal (@length _) (V 0%nat (pow2_pos _))) as G; now rewrite !map_length in G).
    apply nth_ext with (d := []) (d' := []); [now rewrite !map_length|]. intros j Hj. rewrite map_length in Hj. assert (Hj' : (j < length polys')%nat) by (rewrite <- Le; exact Hj).
    match goal with |- nth _ (map ?f _) _ = _ => rewrite (nth_map_lt f polys j [] [] Hj), (nth_map_lt f polys' j [] [] Hj') end. apply map_ext_in. intros i0 _. rewrite Forall_forall in L, L'. apply D; [apply L; now apply nth_In|apply L'; apply nth_In; exact Hj'|]. intros i Hi. specialize (V i Hi).
    apply (f_equal (fun l => nth j l 0)) in V. now rewrite (nth_map_lt (fun q => peval q (d_coset_offset d * fpow w i)) polys j [] 0 Hj), (nth_map_lt (fun q => peval q (d_coset_offset d * fpow w i)) polys' j [] 0 Hj') in V. }
  rewrite W in C. destruct C as (C1 & _ & C3), C' as (C1' & _ & C3'). destruct mt, mt'. cbn in C1, C3, C1', C3'. congruence.
Qed.
Print Assumptions C84_first_root_identifies_the_trace.

(** ** Two traces for one claim *)

Definition leak_opts := mk_options 2 12 5 1.
Definition leak_air := dummy_air toy leak_opts.
(** The Fibonacci numbers, with flags that are secret as far as the claim goes. *)
Definition leak_table (flags : list toy) : trace_table toy := mk_trace (concat (map (fun i => [nth i flags 0; fib 1 1 i]) (seq 0 4))) 2.

Lemma leak_usable : usable_options toy leak_opts 2 1.
Proof. exact toy_usable. Qed.
Lemma leak_valid flags : length flags = 4%nat -> (forall x, In x flags -> x = 0 \/ x = 1) -> valid_trace (leak_air 4%nat) 2 (leak_table flags).
Proof.
  intros Hl Hf. apply (valid_no_aux _ 2 _ [flags; fibs 1 1 (2 ^ 2)]); try easy.
  - split; [reflexivity|]. split; [|reflexivity]. intros c [<-|[<-|[]]]; [exact Hl|reflexivity].
  - intros []. exact (dummy_satisfies toy_ok leak_opts (2 ^ 2) flags ltac:(cbn; lia) Hl Hf).
Qed.

(** A proof that told nothing but the claim would not depend on the trace that it is made from, as nothing of it is random. *)
Theorem C84_proof_hides_the_trace_refuted :
  ~ forall (E : env) fuel (mk : nat -> air E) (mt mt' : trace_table E) r b k proof proof', env_ok E -> admissible (mk (2 ^ r)%nat) r b k ->
    tt_n_rows mt = (2 ^ r)%nat -> tt_n_rows mt' = (2 ^ r)%nat -> valid_trace (mk (2 ^ r)%nat) r mt -> valid_trace (mk (2 ^ r)%nat) r mt' ->
    prove E fuel mk mt = Ok proof -> prove E fuel mk mt' = Ok proof' -> proof = proof'.
Proof.
  intro H. pose (f0 := [1; 1; 1; 1] : list toy). pose (f1 := [0; 1; 1; 0] : list toy).
  assert (A := dummy_admissible toy_ok leak_opts 2 1 leak_usable). fold leak_air in A.
  assert (V0 : valid_trace (leak_air 4%nat) 2 (leak_table f0)) by (apply leak_valid; [reflexivity|]; cbn; intuition).
  assert (V1 : valid_trace (leak_air 4%nat) 2 (leak_table f1)) by (apply leak_valid; [reflexivity|]; cbn; intuition).
  specialize (fun p p' => H toy 20%nat leak_air (leak_table f0) (leak_table f1) 2%nat 1%nat 3%nat p p' toy_ok A eq_refl eq_refl V0 V1).
  assert (W : match prove toy 20 leak_air (leak_table f0), prove toy 20 leak_air (leak_table f1) with
    | Ok p, Ok p' => map zval (fr_data (trace_ood_frame_evaluations p)) <> map zval (fr_data (trace_ood_frame_evaluations p')) | _, _ => False end) by (vm_compute; discriminate).
  destruct (prove toy 20 leak_air (leak_table f0)) as [p| |]; [|destruct W..]. destruct (prove toy 20 leak_air (leak_table f1)) as [p'| |]; [|destruct W..].
  apply W. now rewrite (H p p' eq_refl eq_refl).
Qed.
Print Assumptions C84_proof_hides_the_trace_refuted.

(** The secret flags read out of the proof; twelve queries meet at least four of the eight positions. *)
Example C84_reading_example :
  let flags := [0; 1; 1; 0] : list toy in
  match prove toy 20 leak_air (leak_table flags) with
  | Ok p => match domain_new (leak_air 4%nat) with
    | Ok d => match step_1 toy 20 (leak_air 4%nat) p d tr_new with
      | Ok (c, _) => (4 <=? length (nodup Nat.eq_dec (c_iotas toy _ c)))%nat | _ => false end
    | _ => false end
  | _ => false end = true /\
  match obind (prove toy 20 leak_air (leak_table flags)) (read_columns 20 leak_air) with
  | Ok cols => map (map zval) cols = [[0; 1; 1; 0]; [1; 1; 2; 3]]%Z | _ => False end.
Proof. split; vm_compute; reflexivity. Qed.

(** With a hash function without collisions the roots of the two traces are different: the evaluations made in committing to them are listed. *)
Definition guess_air := dummy_air clear leak_opts.
Definition guess_table (flags : list clear) : trace_table clear := mk_trace (concat (map (fun i => [nth i flags 0; fib 1 1 i]) (seq 0 4))) 2.
Example C84_guess_example :
  let t := guess_table [1; 1; 1; 1] in let t' := guess_table [0; 1; 1; 0] in
  exists d w (K : evaluations clear) p p', env_ok clear /\ admissible (guess_air (2 ^ 2)%nat) 2 1 3 /\ tt_n_rows t = (2 ^ 2)%nat /\ tt_n_rows t' = (2 ^ 2)%nat /\
    valid_trace (guess_air (2 ^ 2)%nat) 2 t /\ valid_trace (guess_air (2 ^ 2)%nat) 2 t' /\
    (forall mt rap aux, a_build_aux (guess_air (2 ^ 2)%nat) mt rap = Ok aux -> tt_n_cols aux = a_n_aux (guess_air (2 ^ 2)%nat)) /\
    prove clear 20 guess_air t = Ok p /\ prove clear 20 guess_air t' = Ok p' /\
    domain_new (guess_air (2 ^ 2)%nat) = Ok d /\ primitive_root (K := clear) (2 + 1) = Some w /\ collision_free K /\
    commits_to K (2 + 1) (d_coset_offset d) w (trace_primitive_root d) (2 ^ 2) t /\ commits_to K (2 + 1) (d_coset_offset d) w (trace_primitive_root d) (2 ^ 2) t' /\
    hd_error (lde_trace_merkle_roots p) <> hd_error (lde_trace_merkle_roots p').
Proof.
  cbv zeta. assert (A : admissible (guess_air (2 ^ 2)%nat) 2 1 3) by exact (dummy_admissible clear_ok leak_opts 2 1 leak_usable).
  assert (V : forall flags : list clear, length flags = 4%nat -> (forall x, In x flags -> x = 0 \/ x = 1) -> valid_trace (guess_air (2 ^ 2)%nat) 2 (guess_table flags)).
  { intros flags Hl Hf. apply (valid_no_aux _ 2 _ [flags; fibs 1 1 (2 ^ 2)]); try easy.
    - split; [reflexivity|]. split; [|reflexivity]. intros c [<-|[<-|[]]]; [exact Hl|reflexivity].
    - intros []. exact (dummy_satisfies clear_ok leak_opts (2 ^ 2) flags ltac:(cbn; lia) Hl Hf). }
  assert (V0 := V [1; 1; 1; 1] eq_refl ltac:(cbn; intuition)). assert (V1 := V [0; 1; 1; 0] eq_refl ltac:(cbn; intuition)).
  assert (N : forall mt rap aux, a_build_aux (guess_air (2 ^ 2)%nat) mt rap = Ok aux -> tt_n_cols aux = a_n_aux (guess_air (2 ^ 2)%nat)).
  { intros mt rap aux H. cbn in H. apply ok_inj in H. now rewrite <- H. }
  assert (P0 : match prove clear 20 guess_air (guess_table [1; 1; 1; 1]) with Ok _ => true | _ => false end = true) by (vm_compute; reflexivity).
  assert (P1 : match prove clear 20 guess_air (guess_table [0; 1; 1; 0]) with Ok _ => true | _ => false end = true) by (vm_compute; reflexivity).
  destruct (prove clear 20 guess_air (guess_table [1; 1; 1; 1])) as [p| |] eqn:E0; try discriminate P0.
  destruct (prove clear 20 guess_air (guess_table [0; 1; 1; 0])) as [p'| |] eqn:E1; try discriminate P1.
  destruct (honest_root clear_ok 20 guess_air (guess_table [1; 1; 1; 1]) 2 1 3 p (2 ^ 2)%nat eq_refl eq_refl A V0 (N _) E0) as (d & g & w & polys & Hd & D & Pl & Pf & _ & C).
  destruct (honest_root clear_ok 20 guess_air (guess_table [0; 1; 1; 0]) 2 1 3 p' (2 ^ 2)%nat eq_refl eq_refl A V1 (N _) E1) as (d' & g' & w' & polys' & Hd' & D' & Pl' & Pf' & _ & C').
  rewrite Hd in Hd'. apply ok_inj in Hd'. subst d'. pose proof (ds_W _ _ _ _ _ _ D) as Hw. pose proof (ds_root _ _ _ _ _ _ D) as Hg. pose proof (ds_root _ _ _ _ _ _ D') as Hg'.
  change (length polys = 2%nat) in Pl. change (length polys' = 2%nat) in Pl'.
  change (has_columns (guess_table [1; 1; 1; 1]) (2 ^ 2) (map (fun j => map (fun i => peval (nth j polys []) (fpow g i)) (seq 0 (2 ^ 2))) (seq 0 2))) in C.
  change (has_columns (guess_table [0; 1; 1; 0]) (2 ^ 2) (map (fun j => map (fun i => peval (nth j polys' []) (fpow g' i)) (seq 0 (2 ^ 2))) (seq 0 2))) in C'.
  clear P0 P1 V.
  set (h := d_coset_offset d). set (row := fun (ps : list (poly clear)) x => map (fun q => peval q x) ps).
  assert (S : forall ps : list (poly clear), length ps = 2%nat -> forall f : poly clear -> list clear, map (fun j => f (nth j ps [])) (seq 0 2) = map f ps).
  { intros ps Lps f. destruct ps as [|q0 [|q1 [|]]]; try discriminate Lps. reflexivity. }
  pose (K := mk_evaluations (E := clear) [] (map (fun i => row polys (h * fpow w i)) (seq 0 (2 ^ (2 + 1))) ++ map (fun i => row polys' (h * fpow w i)) (seq 0 (2 ^ (2 + 1))))
    (tree_calls (e_node clear) (2 + 1) (row_leaves (2 + 1) h w (row polys)) ++ tree_calls (e_node clear) (2 + 1) (row_leaves (2 + 1) h w (row polys')))).
  assert (HKf : collision_free K).
  { split; [intros x y []|]. split; [intros x y _ _; apply (ph_leaf _ _ clear_rows)|]. intros (x & y & _ & _ & Hne & He). apply Hne.
    destruct (ph_node _ _ clear_rows _ _ _ _ He) as [He1 He2]. exact (injective_projections x y He1 He2). }
  assert (C0 : commits_to K (2 + 1) h w (trace_primitive_root d) (2 ^ 2) (guess_table [1; 1; 1; 1])).
  { exists polys. split; [exact Pf|]. split; [rewrite Hg; rewrite <- (S polys Pl); exact C|]. split.
    - intros i Hi. apply in_or_app. left. apply in_map_iff. exists i. split; [reflexivity|]. apply in_seq. lia.
    - intros x Hx. apply in_or_app. left. exact Hx. }
  assert (C1 : commits_to K (2 + 1) h w (trace_primitive_root d) (2 ^ 2) (guess_table [0; 1; 1; 0])).
  { exists polys'. split; [exact Pf'|]. split; [rewrite Hg'; rewrite <- (S polys' Pl'); exact C'|]. split.
    - intros i Hi. apply in_or_app. right. apply in_map_iff. exists i. split; [reflexivity|]. apply in_seq. lia.
    - intros x Hx. apply in_or_app. right. exact Hx. }
  exists d, w, K, p, p'. split; [exact clear_ok|]. split; [exact A|]. split; [reflexivity|]. split; [reflexivity|]. split; [exact V0|]. split; [exact V1|].
  split; [exact N|]. split; [reflexivity|]. split; [reflexivity|]. split; [exact Hd|]. split; [exact Hw|]. split; [exact HKf|]. split; [exact C0|]. split; [exact C1|]. intro Q.
  apply (C84_first_root_identifies_the_trace clear 20 guess_air (guess_table [1; 1; 1; 1]) (guess_table [0; 1; 1; 0]) 2 1 3 d w K p p' clear_ok A eq_refl eq_refl V0 V1 (N _) (N _) E0 E1 Hd Hw HKf C0 C1) in Q.
  apply (f_equal (fun t => match tt_table t with x :: _ => zval x | [] => 0%Z end)) in Q. vm_compute in Q. discriminate Q.
Qed.
