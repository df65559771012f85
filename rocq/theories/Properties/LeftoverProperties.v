(** C83: code that nothing calls. *)
From Coq Require Import List Arith Lia Bool NArith ZArith.
From Verif.Base Require Import Outcome Bytes Field Poly Zp.
From Verif.Model Require Import Codec Options Trace Air Domain Verifier ExampleAirs Leftover.
From Verif.Proofs Require Import OutcomeFacts FieldFacts PolyFacts DomainFacts LeftoverFacts.
From Verif.Examples Require Import Toy.
Import ListNotations.
Local Open Scope felt_scope.

(** ** The divisibility check of the debug build *)

(** [X - g], the zerofier of the boundary constraint at the point [g]. *)
Definition linear {K : field_ops} (g : K) : poly K := [fopp g; 1].

Section Facts.
Context {K : field_ops} (HK : field_ok K).
Add Field Kfield77 : (fld_th K HK).

Lemma linear_remainder (p : poly K) (g : K) : trim p = p ->
  exists rem, long_remainder p (linear g) = Ok rem /\ (length rem = 0%nat <-> peval p g = 0).
Proof using HK.
  intro Hp.
  assert (Hl : trim (linear g) = linear g).
  { unfold linear. cbn [trim]. destruct (feqb 1 0) eqn:E; [|reflexivity]. apply (feqb_spec K HK) in E. exfalso. exact (one_neq_zero HK E). }
  destruct (long_remainder_spec HK p (linear g) Hp Hl ltac:(discriminate)) as (rem & H1 & H2 & H3 & q & Hq). exists rem. split; [exact H1|].
  specialize (Hq g). assert (Z : peval (linear g) g = 0) by (unfold linear; cbn [peval]; ring). rewrite Z in Hq.
  assert (Q : peval p g = peval rem g) by (rewrite Hq; ring). rewrite Q. cbn [linear length] in H3. destruct rem as [|c [|c' rem]]; [|clear Q Hq|cbn in H3; lia].
  - split; reflexivity.
  - split; [discriminate|]. intro C. exfalso. assert (c = 0) by (rewrite <- C; cbn [peval]; ring). subst c. unfold trimmed in H2. cbn in H2. rewrite (feqb_refl HK) in H2. discriminate H2.
Qed.

Lemma check_acc (ps : list (poly K)) : forall gs o acc, length gs = length ps -> Forall (fun p => trim p = p) ps ->
  exists found, ofold (fun acc (x : nat * (poly K * poly K)) => let '(i, (p, z)) := x in obind (long_remainder p z) (fun b => Ok (if (length b =? 0)%nat then acc else acc ++ [i])))
    (combine (seq o (length ps)) (combine ps (map linear gs))) acc = Ok (acc ++ found) /\
  forall i, In i found <-> (o <= i < o + length ps)%nat /\ peval (nth (i - o) ps []) (nth (i - o) gs 0) <> 0.
Proof using HK.
  induction ps as [|p ps IH]; intros [|g gs] o acc Hl Ht; try discriminate Hl.
  - exists []. cbn. rewrite app_nil_r. split; [reflexivity|]. intro i. split; [intros []|intros [H _]; lia].
  - apply Forall_cons_iff in Ht. destruct Ht as [Ht1 Ht2]. destruct (linear_remainder p g Ht1) as (rem & H1 & H2). injection Hl as Hl.
    cbn [length seq map combine ofold]. rewrite H1. cbn [obind].
    destruct (IH gs (S o) (if (length rem =? 0)%nat then acc else acc ++ [o]) Hl Ht2) as (found & F1 & F2).
    exists ((if (length rem =? 0)%nat then [] else [o]) ++ found). split.
    + etransitivity; [exact F1|]. destruct (length rem =? 0)%nat; [reflexivity|]. now rewrite <- app_assoc.
    + intro i. rewrite in_app_iff, F2. destruct (Nat.eq_dec i o) as [->|Ne].
      * rewrite Nat.sub_diag. cbn [nth]. destruct (length rem =? 0)%nat eqn:E; [apply Nat.eqb_eq in E|apply Nat.eqb_neq in E].
        -- split; [intros [[]|[H _]]; lia|]. intros [_ H]. exfalso. apply H. now apply H2.
        -- split; [intros _|intros _; left; now left]. split; [lia|]. intro C. apply E. now apply H2.
      * assert (Q : ~ In i (if (length rem =? 0)%nat then [] else [o])) by (destruct (length rem =? 0)%nat; [intros []|intros [H|[]]; now symmetry in H]).
        destruct (le_lt_dec o i) as [L|L]; [|split; [intros [H|[H _]]; [now apply Q in H|lia]|intros [H _]; lia]].
        replace (i - o)%nat with (S (i - S o)) by lia. cbn [nth]. split; [intros [H|[H H']]; [now apply Q in H|]; split; [lia|exact H']|]. intros [H H']. right. split; [lia|exact H'].
Qed.

(** ** The sum *)
Lemma fsum_terms (l : list (K * K * K * (K * K))) acc : fold_left (fun acc (x : K * K * K * (K * K)) => let '(ev, degree, inv, (alpha, beta)) := x in acc + ev * (alpha * degree + beta) * inv) l acc =
  acc + fsum (map (fun x : K * K * K * (K * K) => let '(ev, degree, inv, (alpha, beta)) := x in ev * (alpha * degree + beta) * inv) l).
Proof using HK.
  revert acc. induction l as [|[[[ev dg] iv] [al be]] l IH]; intro acc; cbn [fold_left map]; [unfold fsum; cbn; ring|]. rewrite IH. unfold fsum. cbn [fold_right]. ring.
Qed.
Lemma sum_zip : forall (n : nat) (evs ivs dgs : list K) (cs : list (K * K)), length evs = n -> length ivs = n -> length dgs = n -> length cs = n ->
  map (fun x : K * K * K * (K * K) => let '(ev, degree, inv, (alpha, beta)) := x in ev * (alpha * degree + beta) * inv) (combine (combine (combine evs dgs) ivs) cs) =
  map (fun i => nth i evs 0 * (fst (nth i cs (0, 0)) * nth i dgs 0 + snd (nth i cs (0, 0))) * nth i ivs 0) (seq 0 n).
Proof using Type.
  induction n as [|n IH]; intros [|ev evs] [|iv ivs] [|dg dgs] [|[al be] cs] H1 H2 H3 H4; try discriminate; [reflexivity|].
  cbn [combine map seq]. f_equal. rewrite <- seq_shift, map_map. apply IH; cbn in *; lia.
Qed.

Lemma boundary_fold (c : K) : forall (nums dens : list K) (cs : list (K * K)) n acc, (length nums <= n)%nat ->
  fold_left (fun acc (x : K * K * (K * K)) => let '(num, den, (alpha, beta)) := x in acc + num * den * (alpha * c + beta)) (combine (combine nums dens) cs) acc =
  fold_left (fun acc (x : K * K * K * (K * K)) => let '(ev, degree, inv, (alpha, beta)) := x in acc + ev * (alpha * degree + beta) * inv)
    (combine (combine (combine nums (repeat c n)) dens) cs) acc.
Proof using HK.
  induction nums as [|a nums IH]; intros dens cs n acc Hn; [reflexivity|]. destruct n as [|n]; [cbn in Hn; lia|]. cbn [repeat combine].
  destruct dens as [|b dens]; [reflexivity|]. destruct cs as [|[al be] cs]; [reflexivity|]. cbn [combine fold_left]. rewrite <- (IH dens cs n) by (cbn in Hn; lia). f_equal. ring.
Qed.

Lemma transition_fold (den : K) (dadj : list K) (g : nat -> outcome K) (A B : nat -> K) :
  (forall deg k v, usub deg 1 = Ok k -> idx dadj k = Ok v -> v = A deg) -> (forall ex v, g ex = Ok v -> den * v = B ex) ->
  forall (evals : list K) degs exs cs acc s,
  ofold (fun acc (x : K * nat * nat * (K * K)) => let '(eval, degree, except, (alpha, beta)) := x in
    obind (g except) (fun ex => obind (usub degree 1) (fun k => obind (idx dadj k) (fun dj => Ok (acc + den * eval * (alpha * dj + beta) * ex)))))
    (combine (combine (combine evals degs) exs) cs) acc = Ok s ->
  s = fold_left (fun acc (x : K * K * K * (K * K)) => let '(ev, degree, inv, (alpha, beta)) := x in acc + ev * (alpha * degree + beta) * inv)
    (combine (combine (combine evals (map A degs)) (map B exs)) cs) acc.
Proof using HK.
  intros HA HB. induction evals as [|ev evals IH]; intros degs exs cs acc s H; [apply ok_inj in H; now subst|].
  destruct degs as [|deg degs]; [apply ok_inj in H; now subst|]. destruct exs as [|ex exs]; [apply ok_inj in H; now subst|]. destruct cs as [|[al be] cs]; [apply ok_inj in H; now subst|].
  cbn [combine ofold] in H. destruct (g ex) as [v| |] eqn:Eg; [|discriminate H..]. cbn [obind] in H. destruct (usub deg 1) as [k| |] eqn:Ek; [|discriminate H..]. cbn [obind] in H.
  destruct (idx dadj k) as [dj| |] eqn:Ed; [|discriminate H..]. cbn [obind] in H. apply IH in H. rewrite H. cbn [map combine fold_left]. f_equal.
  rewrite (HA deg k dj Ek Ed), <- (HB ex v Eg). ring.
Qed.
End Facts.

(** A working call would report exactly the constraints whose polynomial does not vanish at its point. *)
Theorem C83_divisibility_check :
  forall (K : field_ops) (ps : list (poly K)) (gs : list K), field_ok K -> length gs = length ps -> Forall (fun p => trim p = p) ps ->
  exists found, check_boundary_polys_divisibility ps (map linear gs) = Ok found /\
  forall i, In i found <-> (i < length ps)%nat /\ peval (nth i ps []) (nth i gs 0) <> 0.
Proof.
  intros K ps gs HK Hl Ht. destruct (check_acc HK ps gs 0 [] Hl Ht) as (found & H1 & H2). exists found. split; [exact H1|].
  intro i. rewrite (H2 i), Nat.sub_0_r. split; intros [A B]; (split; [lia|exact B]).
Qed.
Print Assumptions C83_divisibility_check.

(** The call in the code reports nothing, also when a boundary constraint is violated. *)
Theorem C83_debug_build_reports_violations_refuted :
  ~ forall (K : field_ops) (ps : list (poly K)) (gs : list K), field_ok K -> length gs = length ps -> Forall (fun p => trim p = p) ps ->
    (exists i, (i < length ps)%nat /\ peval (nth i ps []) (nth i gs 0) <> 0) -> exists found, debug_boundary_check (K := K) = Ok found /\ found <> [].
Proof.
  intro H. destruct (H toy [[1 : toy]] [1 : toy] (fft_field_ok toy (e_fft_ok toy toy_ok)) eq_refl) as (found & H1 & H2).
  - constructor; [reflexivity|constructor].
  - exists 0%nat. split; [cbn; lia|]. intro Q. apply (f_equal (@zval 97)) in Q. vm_compute in Q. discriminate Q.
  - change (Ok [] = Ok found) in H1. injection H1 as <-. now apply H2.
Qed.
Print Assumptions C83_debug_build_reports_violations_refuted.

(** The sum is the one that its comment describes. *)
Theorem C83_composition_sum :
  forall (K : field_ops) n (evs ivs dgs : list K) (cs : list (K * K)), field_ok K -> length evs = n -> length ivs = n -> length dgs = n -> length cs = n ->
  composition_sum evs ivs dgs cs =
  fsum (map (fun i => nth i evs 0 * (fst (nth i cs (0, 0)) * nth i dgs 0 + snd (nth i cs (0, 0))) * nth i ivs 0) (seq 0 n)).
Proof.
  intros K n evs ivs dgs cs HK H1 H2 H3 H4. unfold composition_sum. rewrite (fsum_terms HK), (sum_zip n evs ivs dgs cs H1 H2 H3 H4).
  destruct (fld_th K HK) as [[R1 R2 R3 R4 R5 R6 R7 R8 R9] _ _ _]. apply R1.
Qed.
Print Assumptions C83_composition_sum.

(** What the verifier computes for the boundary constraints is this sum. *)
Theorem C83_verifier_boundary_sum :
  forall (E : env) bcs (fr : frame E) root z adj coeffs s, env_ok E -> boundary_ood E bcs fr root z adj coeffs = Ok s ->
  exists nums dens, traverse (fun bc => obind (fr_get_row fr 0) (fun row => obind (idx row (bc_col bc)) (fun v => Ok (v - bc_value bc)))) bcs = Ok nums /\
    batch_inverse (map (fun bc => z - fpow root (bc_step bc)) bcs) = Ok dens /\
    s = composition_sum nums dens (repeat (fpow z adj) (length bcs)) coeffs.
Proof.
  intros E bcs fr root z adj coeffs s HE H. unfold boundary_ood in H.
  destruct (traverse _ bcs) as [nums| |] eqn:E1; [|discriminate H..]. cbn [obind] in H. destruct (batch_inverse _) as [dens| |] eqn:E2; [|discriminate H..]. cbn [obind] in H.
  exists nums, dens. split; [reflexivity|]. split; [reflexivity|]. apply ok_inj in H. rewrite <- H. unfold composition_sum. apply (boundary_fold (fft_field_ok E (e_fft_ok E HE))).
  apply traverse_length in E1. lia.
Qed.
Print Assumptions C83_verifier_boundary_sum.

(** And what it computes for the transition constraints, with [x^(D - D_i)] for the degree adjustments and [(z - r) (z - r^2) ... / (z^n - 1)]
    for the inverse denominators, where [r] is the last root of unity of the trace domain. *)
Theorem C83_verifier_transition_sum :
  forall (E : env) (a : air E) evals z r coeffs s, env_ok E -> transition_ood E a evals z r coeffs = Ok s ->
  s = composition_sum evals
    (map (fun e => finv (fpow z (a_trace_length a) - 1) * fprod (map (fun k => z - fpow r k) (seq 1 e))) (transition_exemptions (a_context a)))
    (map (fun deg => fpow z (a_degree_bound a - a_trace_length a * (deg - 1))) (transition_degrees (a_context a))) coeffs.
Proof.
  intros E a evals z r coeffs s HE H. pose proof (fft_field_ok E (e_fft_ok E HE)) as HK. unfold transition_ood in H.
  destruct (inv_o _) as [den| |] eqn:E1; [|discriminate H..]. cbn [obind] in H. unfold transition_exemptions_verifier in H.
  destruct (unwrap (list_max_o (transition_exemptions (a_context a)))) as [mx| |] eqn:E2; [|discriminate H..]. cbn [obind] in H.
  destruct (unwrap (list_max_o (transition_degrees (a_context a)))) as [md| |] eqn:E3; [|discriminate H..]. cbn [obind] in H.
  destruct (traverse _ (seq 1 md)) as [dadj| |] eqn:E4; [|discriminate H..]. cbn [obind] in H.
  assert (Hden : den = finv (fpow z (a_trace_length a) - 1)) by (unfold inv_o in E1; destruct (feqb _ 0); [discriminate E1|]; now apply ok_inj in E1). subst den.
  unfold composition_sum.
  refine (transition_fold HK _ dadj _ (fun deg => fpow z (a_degree_bound a - a_trace_length a * (deg - 1))) _ _ _ evals _ _ coeffs 0 s H).
  - intros deg k v Hk Hv. apply usub_inv in Hk. destruct Hk as [Hk1 Hk2]. pose proof (idx_lt _ _ _ Hv) as L. rewrite (traverse_length _ _ _ E4), seq_length in L.
    pose proof (traverse_nth _ _ _ k 0%nat 0 E4 ltac:(now rewrite seq_length)) as T. rewrite (idx_val _ _ _ 0 Hv), seq_nth in T by exact L. cbn beta in T.
    destruct (usub (a_degree_bound a) (a_trace_length a * (1 + k - 1))) as [e| |] eqn:Eu; [|discriminate T..]. cbn [obind] in T. apply ok_inj in T. subst v.
    apply usub_inv in Eu. destruct Eu as [Eu1 Eu2]. f_equal. replace (deg - 1)%nat with (1 + k - 1)%nat by lia. lia.
  - intros ex v Hv. destruct ex as [|i].
    + apply ok_inj in Hv. subst v. reflexivity.
    + pose proof (idx_lt _ _ _ Hv) as L. rewrite !map_length, seq_length in L. apply (idx_val _ _ _ 0) in Hv. rewrite map_map in Hv.
      rewrite (nth_indep _ 0 ((fun x => peval (fold_left (fun acc k => pmul acc (x_minus (fpow r k))) (seq 1 x) (monomial 1 0)) z) 0%nat)) in Hv by (now rewrite map_length, seq_length).
      rewrite (map_nth (fun x => peval (fold_left (fun acc k => pmul acc (x_minus (fpow r k))) (seq 1 x) (monomial 1 0)) z)), seq_nth in Hv by exact L.
      rewrite <- Hv. f_equal. rewrite (fold_pmul_eval HE (fun k => fpow r k)), (monomial0_eval HE). destruct (fld_th E HK) as [[R1 R2 R3 R4 R5 R6 R7 R8 R9] _ _ _]. apply R4.
Qed.
Print Assumptions C83_verifier_transition_sum.

(** ** The file writer *)

(** If writing appends or fails, the writer appends everything in order and counts it, and the error of a failing write carries the number
    of bytes before it. *)
Theorem C83_file_writer :
  forall (write_all : list byte -> list byte -> option (list byte)) contents parts,
  (forall c b c', write_all c b = Some c' -> c' = c ++ b) ->
  match fw_write_parts write_all (fw_new contents) parts with
  | inl w => buf_writer w = contents ++ concat parts /\ bytes_written w = length (concat parts)
  | inr i => exists before part after, parts = before ++ part :: after /\ write_all (contents ++ concat before) part = None /\ i = length (concat before)
  end.
Proof.
  intros write_all contents parts Hw.
  assert (G : forall parts w0, match fw_write_parts write_all w0 parts with
    | inl w => buf_writer w = buf_writer w0 ++ concat parts /\ bytes_written w = (bytes_written w0 + length (concat parts))%nat
    | inr i => exists before part after, parts = before ++ part :: after /\ write_all (buf_writer w0 ++ concat before) part = None /\ i = (bytes_written w0 + length (concat before))%nat
    end).
  { clear parts. induction parts as [|p ps IH]; intro w0; cbn [fw_write_parts].
    - cbn. rewrite app_nil_r, Nat.add_0_r. now split.
    - unfold fw_write. destruct (write_all (buf_writer w0) p) as [c|] eqn:E.
      + specialize (IH (mk_file_writer c (bytes_written w0 + length p)%nat)). pose proof (Hw _ _ _ E) as ->. destruct (fw_write_parts write_all _ ps) as [w|i].
        * cbn [buf_writer bytes_written] in IH. destruct IH as [I1 I2]. cbn [concat]. rewrite app_assoc, app_length. split; [exact I1|]. rewrite I2. lia.
        * cbn [buf_writer bytes_written] in IH. destruct IH as (before & part & after & I1 & I2 & I3). exists (p :: before), part, after. cbn [concat app]. rewrite app_assoc, app_length.
          split; [now rewrite I1|]. split; [exact I2|]. rewrite I3. lia.
      + exists [], p, ps. cbn [concat app length]. rewrite app_nil_r, Nat.add_0_r. now split. }
  exact (G parts (fw_new contents)).
Qed.
Print Assumptions C83_file_writer.

(** ** Cases *)


(** [X^2 + 2] and [X - 2], at the points 3 and 2: the first is reported. *)
Example C83_divisibility_example :
  check_boundary_polys_divisibility [[f97 2; f97 0; f97 1]; [f97 95; f97 1]] (map linear [f97 3; f97 2]) = Ok [0%nat].
Proof. vm_compute. reflexivity. Qed.

(** A disk with room for three bytes. *)
Example C83_file_writer_example :
  let write_all := fun c b : list byte => if (length (c ++ b) <=? 3)%nat then Some (c ++ b) else None in
  fw_write_parts write_all (fw_new []) [[Byte.x01]; [Byte.x02; Byte.x03]; [Byte.x04]] = inr 3%nat /\ fw_write_parts write_all (fw_new []) [[Byte.x01]; [Byte.x02; Byte.x03]] = inl (mk_file_writer [Byte.x01; Byte.x02; Byte.x03] 3).
Proof. vm_compute. split; reflexivity. Qed.

(** The boundary and transition sums of the Fibonacci example, on four rows and at the point 5, can be computed; the three theorems speak
    of these values. *)
Example C83_sums_example :
  let a := fibonacci_air toy (f97 1) (f97 1) (mk_options 2 2 5 1) 4 in
  (exists s, boundary_ood toy [mk_bc 0%nat 0%nat (f97 1); mk_bc 0%nat 1%nat (f97 1)] (mk_frame [f97 7; f97 3; f97 8] 1) (f97 22) (f97 5) 0 [(f97 2, f97 3); (f97 4, f97 6)] = Ok s /\ s <> 0) /\
  (exists s, transition_ood toy a [f97 9] (f97 5) (f97 22) [(f97 2, f97 3)] = Ok s /\ s <> 0).
Proof.
  split; eexists; (split; [vm_compute; reflexivity|]); intro Q; apply (f_equal (@zval 97)) in Q; vm_compute in Q; discriminate Q.
Qed.
