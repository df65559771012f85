(** C46, C47, C51, C52: trace validation and the example programs. *)
From Coq Require Import List Arith Lia Bool NArith ZArith.
From Verif.Base Require Import Outcome Field Poly Zp.
From Verif.Model Require Import Codec Trace Air Domain Transcript ExampleAirs Debug Prover Verifier.
From Verif.Spec Require Import AirSpec ExampleSpec.
From Verif.Proofs Require Import OutcomeFacts FieldFacts FFTFacts TraceFacts DebugFacts ExampleFacts Completeness.
From Verif.Examples Require Import Toy.
Import ListNotations.
Local Open Scope felt_scope.

(** ** C46 *)

(** The columns obtained by evaluating the trace polynomials on the trace domain satisfy the AIR iff
    the validator returns [true], whenever it returns; boundary constraints must name existing cells. *)
Theorem C46_validate_trace_exact :
  forall (E : env) (a : air E) (polys : list (poly E)) (d : domain E) (rap : a_rap a) r (g : E) bcs b,
    env_ok E -> (1 <= r)%nat -> primitive_root r = Some g -> interpolation_domain_size d = (2 ^ r)%nat ->
    polys <> [] -> Forall (fun p : poly E => (length p <= 2 ^ r)%nat) polys ->
    a_boundary a rap = Ok bcs ->
    (forall bc, In bc bcs -> (bc_step bc < 2 ^ r)%nat /\ (bc_col bc < length polys)%nat) ->
    validate_trace a polys d rap = Ok b ->
    (b = true <->
     trace_satisfies a rap (map (fun p => map (fun i => peval p (fpow g i)) (seq 0 (2 ^ r))) polys) (2 ^ r)).
Proof.
  intros E a polys d rap r g bcs b HE Hr Hg Hd Hne Hl Hb Hrng H.
  exact (validate_trace_sound HE a polys d rap r g Hr Hg Hd Hne Hl bcs Hb Hrng b H).
Qed.
Print Assumptions C46_validate_trace_exact.

(** It returns (does not panic) when the transition function does not panic on the rows, produces no
    more values than there are declared constraints and exemptions, and no exemption exceeds the length. *)
Theorem C46_validate_trace_total :
  forall (E : env) (a : air E) (polys : list (poly E)) (d : domain E) (rap : a_rap a) r (g : E) bcs,
    env_ok E -> (1 <= r)%nat -> primitive_root r = Some g -> interpolation_domain_size d = (2 ^ r)%nat ->
    polys <> [] -> Forall (fun p : poly E => (length p <= 2 ^ r)%nat) polys ->
    a_boundary a rap = Ok bcs ->
    (forall bc, In bc bcs -> (bc_step bc < 2 ^ r)%nat /\ (bc_col bc < length polys)%nat) ->
    let cols := map (fun p => map (fun i => peval p (fpow g i)) (seq 0 (2 ^ r))) polys in
    (forall i, (i < 2 ^ r)%nat -> exists evals,
       a_transition a (mk_frame (concat (map (fun o => map (fun c => nth ((i + o) mod 2 ^ r) c 0) cols)
                                           (transition_offsets (a_context a)))) (length cols)) rap = Ok evals /\
       (length evals <= num_transition_constraints (a_context a))%nat /\
       (length evals <= length (transition_exemptions (a_context a)))%nat) ->
    (forall e, In e (transition_exemptions (a_context a)) -> (e <= 2 ^ r)%nat) ->
    exists b, validate_trace a polys d rap = Ok b.
Proof.
  intros E a polys d rap r g bcs HE Hr Hg Hd Hne Hl Hb Hrng cols Ht He.
  exact (validate_trace_total HE a polys d rap r g Hr Hg Hd Hne Hl bcs Hb Hrng Ht He).
Qed.
Print Assumptions C46_validate_trace_total.

(** Non-vacuity: on the toy field, the validator accepts the Fibonacci trace and rejects another one. *)
Definition toy_opts := mk_options 2 2 5 1.
Definition toy_validate (col : list Z) : outcome bool :=
  (let a := fibonacci_air toy (f97 1) (f97 1) toy_opts 4 in
   obind (domain_new a) (fun d => obind (interpolate_fft (map f97 col : list toy)) (fun p => validate_trace a [p] d tt)))%Z.
Example C46_example : toy_validate [1; 1; 2; 3]%Z = Ok true /\ toy_validate [1; 1; 2; 4]%Z = Ok false.
Proof. split; vm_compute; reflexivity. Qed.

(** ** C47 *)

(** Fibonacci: the builder's table satisfies the AIR, and only the Fibonacci column does. *)
Theorem C47_fibonacci :
  forall (E : env) (a0 a1 : E) opts n, env_ok E -> (2 <= n)%nat ->
    let column := map (fib a0 a1) (seq 0 n) in
    (exists mt, fibonacci_trace E a0 a1 n = Ok mt /\ has_columns mt n [column] /\ tt_n_rows mt = n) /\
    forall c, length c = n -> (trace_satisfies (fibonacci_air E a0 a1 opts n) tt [c] n <-> c = column).
Proof.
  intros E a0 a1 opts n HE Hn column. split; [exact (fibonacci_trace_ok HE a0 a1 n Hn)|].
  intros c Hc. split.
  - intro H. exact (fibonacci_characterised HE a0 a1 opts n c Hn Hc H).
  - intros ->. exact (fibonacci_satisfies HE a0 a1 opts n Hn).
Qed.
Print Assumptions C47_fibonacci.

(** Two columns: the even- and the odd-indexed Fibonacci numbers. *)
Theorem C47_fibonacci_2_columns :
  forall (E : env) (a0 a1 : E) opts n, env_ok E -> (1 <= n)%nat ->
    let evens := map (fun i => fib a0 a1 (2 * i)) (seq 0 n) in
    let odds := map (fun i => fib a0 a1 (2 * i + 1)) (seq 0 n) in
    (exists mt, fibonacci_trace_2_columns E a0 a1 n = Ok mt /\ has_columns mt n [evens; odds] /\ tt_n_rows mt = n) /\
    forall c d, length c = n -> length d = n ->
      (trace_satisfies (fibonacci_2_cols_air E a0 a1 opts n) tt [c; d] n <-> c = evens /\ d = odds).
Proof.
  intros E a0 a1 opts n HE Hn evens odds. split; [exact (fibonacci2_trace_ok HE a0 a1 n Hn)|].
  intros c d Hc Hd. split.
  - intro H. exact (fibonacci2_characterised HE a0 a1 opts n c d Hn Hc Hd H).
  - intros [-> ->]. exact (fibonacci2_satisfies HE a0 a1 opts n Hn).
Qed.
Print Assumptions C47_fibonacci_2_columns.

(** Quadratic: the column is a0, a0^2, a0^4, a0^8, ... *)
Theorem C47_quadratic :
  forall (E : env) (a0 : E) opts n, env_ok E -> (1 <= n)%nat ->
    let column := map (fun i => fpow a0 (2 ^ i)) (seq 0 n) in
    (exists mt, quadratic_trace E a0 n = Ok mt /\ has_columns mt n [column] /\ tt_n_rows mt = n) /\
    forall c, length c = n -> (trace_satisfies (quadratic_air E a0 opts n) tt [c] n <-> c = column).
Proof.
  intros E a0 opts n HE Hn column. split; [exact (quadratic_trace_ok HE a0 n Hn)|].
  intros c Hc. split.
  - intro H. exact (quadratic_characterised HE a0 opts n c Hn Hc H).
  - intros ->. exact (quadratic_satisfies HE a0 opts n Hn).
Qed.
Print Assumptions C47_quadratic.

(** Dummy: the second column is the Fibonacci sequence from 1, 1; the first only has to be 0/1. *)
Theorem C47_dummy :
  forall (E : env) opts n, env_ok E -> (2 <= n)%nat ->
    (exists mt, dummy_trace E n = Ok mt /\ has_columns mt n [repeat 1 n; map (fib 1 1) (seq 0 n)] /\ tt_n_rows mt = n) /\
    forall flags c, length flags = n -> length c = n ->
      (trace_satisfies (dummy_air E opts n) tt [flags; c] n <->
       c = map (fib 1 1) (seq 0 n) /\ forall x, In x flags -> x = 0 \/ x = 1).
Proof.
  intros E opts n HE Hn. split; [exact (dummy_trace_ok HE n Hn)|].
  intros flags c Hf Hc. split.
  - intro H. exact (dummy_characterised HE opts n flags c Hn Hf Hc H).
  - intros [-> Hx]. exact (dummy_satisfies HE opts n flags Hn Hf Hx).
Qed.
Print Assumptions C47_dummy.

(** Fibonacci RAP: on the first [steps] rows the first column is the Fibonacci sequence from 1, 1, and
    the third is the running quotient of the first two columns shifted by the challenge. *)
Theorem C47_fibonacci_rap :
  forall (E : env) opts steps n (gamma : E), env_ok E -> (2 <= steps <= n)%nat ->
    (n = next_pow2 (steps + 1) -> exists mt A B, fibonacci_rap_trace E 1 1 steps = Ok mt /\ has_columns mt n [A; B] /\
        (forall i, (i < steps)%nat -> nth i A 0 = fib 1 1 i) /\
        forall aux, fibonacci_rap_aux E mt gamma = Ok aux ->
          exists Z, has_columns aux n [Z] /\ trace_satisfies (fibonacci_rap_air E steps opts n) gamma [A; B; Z] n) /\
    forall A B Z, length A = n -> length B = n -> length Z = n ->
      (trace_satisfies (fibonacci_rap_air E steps opts n) gamma [A; B; Z] n <->
       (forall i, (i < steps)%nat -> nth i A 0 = fib 1 1 i) /\ nth 0 Z 0 = 1 /\
       forall i, (i + 1 < n)%nat -> nth (i + 1) Z 0 * (nth i B 0 + gamma) = nth i Z 0 * (nth i A 0 + gamma)).
Proof.
  intros E opts steps n gamma HE Hs. split.
  - intros Hn. destruct (rap_trace_ok HE 1 1 steps ltac:(lia)) as [mt [A [B [H1 [H2 [H3 H4]]]]]]. rewrite <- Hn in H2, H3.
    exists mt, A, B. split; [exact H1|]. split; [exact H2|]. split; [exact H4|].
    intros aux Haux. destruct (rap_aux_ok HE mt gamma aux n A B ltac:(lia) H2 Haux) as [Z [HZ Hq]].
    exists Z. split; [exact HZ|]. destruct H2 as [_ [H2 _]].
    apply (rap_satisfies HE); [lia|apply H2; now left|apply H2; right; now left|exact H4|exact Hq].
  - intros A B Z HA HB HZ. split.
    + intro H. destruct (rap_characterised HE opts steps n gamma A B Z Hs HA HB HZ H) as [H1 [_ [H2 H3]]]. auto.
    + intros [H1 [H2 H3]]. apply (rap_satisfies HE); try assumption. now split.
Qed.
Print Assumptions C47_fibonacci_rap.

(** Non-vacuity: the AIR constraints hold for a concrete table and fail for another. *)
Example C47_example : env_ok toy /\ map (@zval 97) (map (fib (f97 1) (f97 1)) (seq 0 8)) = [1; 1; 2; 3; 5; 8; 13; 21]%Z /\
  ~ trace_satisfies (fibonacci_air toy (f97 1) (f97 1) toy_opts 4) tt [[f97 1; f97 1; f97 2; f97 4]] 4.
Proof.
  split; [exact toy_ok|]. split; [vm_compute; reflexivity|]. intro H.
  apply (proj2 (C47_fibonacci toy (f97 1) (f97 1) toy_opts 4 toy_ok ltac:(lia))) in H; [|reflexivity].
  apply (f_equal (map (@zval 97))) in H. vm_compute in H. discriminate.
Qed.

(** ** C51: what the RAP example does not enforce *)

(** The "permuted" column is unconstrained: any column whatsoever has a satisfying auxiliary column,
    for every challenge that is not the negative of one of its entries. *)
Theorem C51_rap_permutation_not_enforced :
  forall (E : env) opts steps n (gamma : E) A B, env_ok E -> (2 <= steps <= n)%nat -> length A = n -> length B = n ->
    (forall i, (i < steps)%nat -> nth i A 0 = fib 1 1 i) ->
    (forall i, (i + 1 < n)%nat -> nth i B 0 + gamma <> 0) ->
    exists Z, trace_satisfies (fibonacci_rap_air E steps opts n) gamma [A; B; Z] n.
Proof.
  intros E opts steps n gamma A B HE Hs HA HB Hf Hg. exists (quotients gamma A B 1 n).
  apply (rap_satisfies HE); try assumption. apply (quotients_ok HE); [lia|exact Hg].
Qed.
Print Assumptions C51_rap_permutation_not_enforced.

(** In particular a constant second column is accepted, although it is no rearrangement of the first. *)
Theorem C51_rap_permutation_refuted :
  exists (A B Z : list toy) (gamma : toy),
    trace_satisfies (fibonacci_rap_air toy 4 toy_opts 8) gamma [A; B; Z] 8 /\
    (exists x, In x A /\ ~ In x B).
Proof.
  exists (map (fib (f97 1) (f97 1)) (seq 0 8)), (repeat (f97 9) 8).
  destruct (C51_rap_permutation_not_enforced toy toy_opts 4 8 (f97 3) (map (fib (f97 1) (f97 1)) (seq 0 8)) (repeat (f97 9) 8) toy_ok ltac:(lia) eq_refl eq_refl) as [Z HZ].
  - intros i Hi. now rewrite nth_map_seq by lia.
  - intros i Hi H. rewrite (nth_indep _ _ (f97 9)), nth_repeat in H by (rewrite repeat_length; lia).
    apply (f_equal (@zval 97)) in H. vm_compute in H. discriminate.
  - exists Z, (f97 3). split; [exact HZ|]. exists (f97 1). split; [now left|].
    intro H. apply repeat_spec in H. apply (f_equal (@zval 97)) in H. vm_compute in H. discriminate.
Qed.
Print Assumptions C51_rap_permutation_refuted.

(** ** C52: the shipped examples prove and verify end to end *)

Theorem C52_fibonacci_end_to_end :
  forall (E : env) (a0 a1 : E) opts r b fuel mt proof, env_ok E -> usable_options E opts r b ->
    fibonacci_trace E a0 a1 (2 ^ r) = Ok mt ->
    prove E fuel (fibonacci_air E a0 a1 opts) mt = Ok proof ->
    verify E fuel (fibonacci_air E a0 a1 opts) opts proof = Ok true.
Proof.
  intros E a0 a1 opts r b fuel mt proof HE Hu Hmt Hp. pose proof (proj1 Hu) as Hr.
  destruct (fibonacci_valid HE a0 a1 opts r mt Hr Hmt) as [Hn Hv].
  pose proof (completeness HE (fibonacci_air E a0 a1 opts) mt r b 3 fuel proof) as C. cbv zeta in C. rewrite Hn in C.
  exact (C (fibonacci_admissible HE a0 a1 opts r b Hu) eq_refl Hv Hp).
Qed.
Print Assumptions C52_fibonacci_end_to_end.

Theorem C52_fibonacci_2_columns_end_to_end :
  forall (E : env) (a0 a1 : E) opts r b fuel mt proof, env_ok E -> usable_options E opts r b ->
    fibonacci_trace_2_columns E a0 a1 (2 ^ r) = Ok mt ->
    prove E fuel (fibonacci_2_cols_air E a0 a1 opts) mt = Ok proof ->
    verify E fuel (fibonacci_2_cols_air E a0 a1 opts) opts proof = Ok true.
Proof.
  intros E a0 a1 opts r b fuel mt proof HE Hu Hmt Hp. pose proof (proj1 Hu) as Hr.
  destruct (fibonacci2_valid HE a0 a1 opts r mt Hr Hmt) as [Hn Hv].
  pose proof (completeness HE (fibonacci_2_cols_air E a0 a1 opts) mt r b 2 fuel proof) as C. cbv zeta in C. rewrite Hn in C.
  exact (C (fibonacci2_admissible HE a0 a1 opts r b Hu) eq_refl Hv Hp).
Qed.
Print Assumptions C52_fibonacci_2_columns_end_to_end.

Theorem C52_quadratic_end_to_end :
  forall (E : env) (a0 : E) opts r b fuel mt proof, env_ok E -> usable_options E opts r b ->
    quadratic_trace E a0 (2 ^ r) = Ok mt ->
    prove E fuel (quadratic_air E a0 opts) mt = Ok proof ->
    verify E fuel (quadratic_air E a0 opts) opts proof = Ok true.
Proof.
  intros E a0 opts r b fuel mt proof HE Hu Hmt Hp. pose proof (proj1 Hu) as Hr.
  destruct (quadratic_valid HE a0 opts r mt Hr Hmt) as [Hn Hv].
  pose proof (completeness HE (quadratic_air E a0 opts) mt r b 2 fuel proof) as C. cbv zeta in C. rewrite Hn in C.
  exact (C (quadratic_admissible HE a0 opts r b Hu) eq_refl Hv Hp).
Qed.
Print Assumptions C52_quadratic_end_to_end.

Theorem C52_dummy_end_to_end :
  forall (E : env) opts r b fuel mt proof, env_ok E -> usable_options E opts r b ->
    dummy_trace E (2 ^ r) = Ok mt ->
    prove E fuel (dummy_air E opts) mt = Ok proof ->
    verify E fuel (dummy_air E opts) opts proof = Ok true.
Proof.
  intros E opts r b fuel mt proof HE Hu Hmt Hp. pose proof (proj1 Hu) as Hr.
  destruct (dummy_valid HE opts r mt Hr Hmt) as [Hn Hv].
  pose proof (completeness HE (dummy_air E opts) mt r b 3 fuel proof) as C. cbv zeta in C. rewrite Hn in C.
  exact (C (dummy_admissible HE opts r b Hu) eq_refl Hv Hp).
Qed.
Print Assumptions C52_dummy_end_to_end.

Theorem C52_fibonacci_rap_end_to_end :
  forall (E : env) steps opts r b fuel mt proof, env_ok E -> usable_options E opts r b ->
    (2 <= steps)%nat -> next_pow2 (steps + 1) = (2 ^ r)%nat ->
    fibonacci_rap_trace E 1 1 steps = Ok mt ->
    prove E fuel (fibonacci_rap_air E steps opts) mt = Ok proof ->
    verify E fuel (fibonacci_rap_air E steps opts) opts proof = Ok true.
Proof.
  intros E steps opts r b fuel mt proof HE Hu Hs Hnp Hmt Hp. pose proof (proj1 Hu) as Hr.
  destruct (rap_valid HE opts steps r mt Hs Hnp Hmt) as [Hn Hv].
  assert (Hle : (steps <= 2 ^ r)%nat).
  { rewrite <- Hnp. unfold next_pow2. pose proof (Nat.log2_up_spec (steps + 1) ltac:(lia)). lia. }
  pose proof (completeness HE (fibonacci_rap_air E steps opts) mt r b 3 fuel proof) as C. cbv zeta in C. rewrite Hn in C.
  exact (C (rap_admissible HE opts steps r b Hu (conj Hs Hle)) eq_refl Hv Hp).
Qed.
Print Assumptions C52_fibonacci_rap_end_to_end.

(** Non-vacuity: the toy field has usable options, and a proof of each kind exists and verifies. *)
Lemma toy_nonsquare (x y : toy) : forallb (fun i => negb (Z.eqb ((Z.of_nat i * Z.of_nat i) mod 97) (zval x))) (seq 0 97) = true -> y * y <> x.
Proof.
  intros H Hxy. rewrite forallb_forall in H. specialize (H (Z.to_nat (zval y))).
  pose proof (zval_bound 97 y) as B. rewrite Z2Nat.id in H by lia.
  assert (Hin : In (Z.to_nat (zval y)) (seq 0 97)) by (apply in_seq; lia). specialize (H Hin).
  assert (Hx : zval x = ((zval y * zval y) mod 97)%Z) by (rewrite <- Hxy; reflexivity).
  rewrite Hx, Z.eqb_refl in H. discriminate.
Qed.
Lemma toy_usable : usable_options toy toy_opts 2 1.
Proof.
  split; [lia|]. split; [lia|]. split; [reflexivity|]. intros y w i Hw.
  assert (Hpow : fpow w i = fpow w (i mod 8)).
  { symmetry. apply (prim_pow_mod (fft_field_ok _ FFT97_ok) w 8 i ltac:(lia)).
    exact (proj1 (primitive_root_prim (K := FFT97) FFT97_ok 3 w ltac:(lia) Hw)). }
  rewrite Hpow. assert (Hi : In (i mod 8) (seq 0 8)) by (apply in_seq; pose proof (Nat.mod_upper_bound i 8); lia).
  assert (Hall : forall j, In j (seq 0 8) -> y * y <> e_u64 toy (coset_offset toy_opts) * fpow w j).
  { injection Hw as <-. intros j Hj. cbn in Hj. 
    repeat (destruct Hj as [<-|Hj]; [apply toy_nonsquare; vm_compute; reflexivity|]). destruct Hj. }
  exact (Hall _ Hi).
Qed.
Definition toy_run (mk : nat -> air toy) (mt : outcome (trace_table toy)) : outcome bool :=
  obind mt (fun mt => obind (prove toy 20 mk mt) (fun p => verify toy 20 mk toy_opts p)).
Example C52_example_fibonacci :
  toy_run (fibonacci_air toy (f97 3) (f97 4) toy_opts) (fibonacci_trace toy (f97 3) (f97 4) 4) = Ok true.
Proof. vm_compute. reflexivity. Qed.
Example C52_example_quadratic :
  toy_run (quadratic_air toy (f97 3) toy_opts) (quadratic_trace toy (f97 3) 4) = Ok true.
Proof. vm_compute. reflexivity. Qed.
Example C52_example_rap :
  toy_run (fibonacci_rap_air toy 3 toy_opts) (fibonacci_rap_trace toy (f97 1) (f97 1) 3) = Ok true.
Proof. vm_compute. reflexivity. Qed.
