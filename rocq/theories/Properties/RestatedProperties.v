(** C90: which other statements an accepted proof is accepted for. *)
From Coq Require Import List Arith NArith ZArith Bool Lia.
From Verif.Base Require Import Outcome Bytes Field Poly Zp.
From Verif.Model Require Import PublicInputs CairoDecode CairoTrace CairoAir CairoRunner Codec Trace Merkle Air Transcript Domain Options Fri Prover Verifier ExampleAirs.
From Verif.Spec Require Import AirSpec ExampleSpec VerifierSpec CairoSpec CairoRun Forgery Restated.
From Verif.Proofs Require Import FieldFacts OutcomeFacts DecodeFacts StatementFacts RestatedFacts.
From Verif.Examples Require Import Toy Stark252 MiniRun RunExamples.
From Verif.Properties Require Import ExampleProperties StarkProperties VerifierProperties CairoHonestProperties.
Import ListNotations.
Local Open Scope felt_scope.

(** The verdict on an accepted proof for another statement about the same cells is a linear equation in the differences of the boundary values. *)
Theorem C90_other_verdicts :
  forall (E : env) fuel (mk : nat -> air E) opts (p : stark_proof E), env_ok E -> let a := mk (trace_length p) in verify E fuel mk opts p = Ok true ->
  exists d c t bcs, domain_new a = Ok d /\ step_1 E fuel a p d tr_new = Ok (c, t) /\ a_boundary a (c_rap E a c) = Ok bcs /\
  forall mk' aux tr bd bcs', mk' (trace_length p) = restated a aux tr bd -> (forall fr, tr fr (c_rap E a c) = a_transition a fr (c_rap E a c)) ->
    bd (c_rap E a c) = Ok bcs' -> same_cells bcs bcs' ->
    verify E fuel mk' opts p = Ok (feqb (boundary_shift (trace_primitive_root d) (c_z E a c) (a_degree_bound a - a_trace_length a) bcs bcs' (c_boundary_coeffs E a c)) 0).
Proof.
  intros E fuel mk opts p HE a H. destruct (other_verdicts HE fuel mk opts p H) as (d & c & t & bcs & Hd & H1 & Hb & _ & _ & V).
  exists d, c, t, bcs. split; [exact Hd|]. split; [exact H1|]. split; [exact Hb|exact V].
Qed.
Print Assumptions C90_other_verdicts.

(** Fibonacci: the first two values for which a proof is accepted are those on a line through the proved ones. *)
Theorem C90_fibonacci_verdicts :
  forall (E : env) fuel a0 a1 o (p : stark_proof E), env_ok E -> verify E fuel (fibonacci_air E a0 a1 o) o p = Ok true ->
  exists k0 k1 : E, forall b0 b1, verify E fuel (fibonacci_air E b0 b1 o) o p = Ok (feqb ((a0 - b0) * k0 + (a1 - b1) * k1) 0).
Proof. intros E fuel a0 a1 o p HE H. exact (fib_verdicts HE fuel a0 a1 o p H). Qed.
Print Assumptions C90_fibonacci_verdicts.

(** FINDING. So no accepted proof is a proof of one statement only. *)
Theorem C90_fibonacci_never_alone :
  forall (E : env) fuel a0 a1 o (p : stark_proof E), env_ok E -> verify E fuel (fibonacci_air E a0 a1 o) o p = Ok true ->
  exists b0 b1, (b0, b1) <> (a0, a1) /\ verify E fuel (fibonacci_air E b0 b1 o) o p = Ok true.
Proof.
  intros E fuel a0 a1 o p HE H. destruct (fib_verdicts HE fuel a0 a1 o p H) as (k0 & k1 & V). destruct (line_has_more HE a0 a1 k0 k1) as (b0 & b1 & Hn & Hs).
  exists b0, b1. split; [exact Hn|]. rewrite V. f_equal. now apply (feqb_spec E (fft_field_ok E (e_fft_ok E HE))).
Qed.
Print Assumptions C90_fibonacci_never_alone.

(** Cairo: the verdict for all public inputs with the same number of steps and the same layout. Segments and the initial frame pointer do not appear. *)
Theorem C90_cairo_verdicts :
  forall (C : cairo_env) fuel (p : stark_proof C) pi opts, env_ok C -> verify_cairo_proof fuel p pi opts = Ok true ->
  exists alpha z lo hi (k : nat -> C), range_check_min pi = Some lo /\ range_check_max pi = Some hi /\ cells_product alpha z (public_memory pi) <> 0 /\
  forall pi' lo' hi', (memory_segments pi' = [] <-> memory_segments pi = []) -> num_steps pi' = num_steps pi -> range_check_min pi' = Some lo' -> range_check_max pi' = Some hi' ->
    cells_product alpha z (public_memory pi') <> 0 ->
    verify_cairo_proof fuel p pi' opts = Ok (feqb (claims_differ pi pi' alpha z lo hi lo' hi' k) 0).
Proof.
  intros C fuel p pi opts HE H. destruct (cairo_verdicts HE fuel p pi opts H) as (alpha & z & lo & hi & k & Hlo & Hhi & Hnz & V).
  exists alpha, z, lo, hi, k. split; [exact Hlo|]. split; [exact Hhi|]. split; [exact Hnz|]. intros pi' lo' hi' Hs. apply V.
  unfold has_rc_builtin. destruct (memory_segments pi'), (memory_segments pi); try reflexivity; [symmetry in Hs|]; now discriminate (proj1 Hs eq_refl) || discriminate (proj2 Hs eq_refl).
Qed.
Print Assumptions C90_cairo_verdicts.

(** A proof is rejected for public inputs that differ in a single claim, unless one combination of challenges is 0: the tests of the repository with a
    modified range bound or program are instances. *)
Theorem C90_one_change :
  forall (C : cairo_env) fuel (p : stark_proof C) pi opts, env_ok C -> let a := cairo_air pi opts (trace_length p) in verify_cairo_proof fuel p pi opts = Ok true ->
  exists d c t, domain_new a = Ok d /\ step_1 C fuel a p d tr_new = Ok (c, t) /\ length (c_boundary_coeffs C a c) = 8%nat /\
  let alpha := alpha_memory (c_rap C a c) in let z := z_memory (c_rap C a c) in
  forall pi' lo hi lo' hi' j, (memory_segments pi' = [] <-> memory_segments pi = []) -> num_steps pi' = num_steps pi ->
    range_check_min pi = Some lo -> range_check_max pi = Some hi -> range_check_min pi' = Some lo' -> range_check_max pi' = Some hi' ->
    cells_product alpha z (public_memory pi') <> 0 -> (j < 8)%nat ->
    (forall i, i <> j -> nth i (claims pi alpha z lo hi) 0 = nth i (claims pi' alpha z lo' hi') 0) -> nth j (claims pi alpha z lo hi) 0 <> nth j (claims pi' alpha z lo' hi') 0 ->
    verify_cairo_proof fuel p pi' opts = Ok (feqb (fst (nth j (c_boundary_coeffs C a c) (0, 0)) * fpow (c_z C a c) (trace_length p) + snd (nth j (c_boundary_coeffs C a c) (0, 0))) 0).
Proof.
  intros C fuel p pi opts HE a H. destruct (cairo_one_change HE fuel p pi opts H) as (d & c & t & Hd & H1 & L & V).
  exists d, c, t. split; [exact Hd|]. split; [exact H1|]. split; [exact L|]. intros alpha z pi' lo hi lo' hi' j Hs. apply V.
  unfold has_rc_builtin. destruct (memory_segments pi'), (memory_segments pi); try reflexivity; [symmetry in Hs|]; now discriminate (proj1 Hs eq_refl) || discriminate (proj2 Hs eq_refl).
Qed.
Print Assumptions C90_one_change.

(** FINDING. Every accepted proof is also accepted for final registers that no run can have: they do not fit in 64 bits. *)
Theorem C90_impossible_ends_accepted :
  forall (C : cairo_env) p fuel (q : stark_proof C) pi opts, cairo_ok C p -> verify_cairo_proof fuel q pi opts = Ok true ->
  exists pc ap, (no_word pc \/ no_word ap) /\ (forall t, in_range t -> s_pc (state_of t) = pc -> s_ap (state_of t) <> ap) /\
    verify_cairo_proof fuel q (with_ends pi pc ap) opts = Ok true.
Proof.
  intros C p fuel q pi opts HC H. destruct (impossible_ends HC fuel q pi opts H) as (pc & ap & Hno & Hv). exists pc, ap. split; [exact Hno|]. split; [|exact Hv].
  intros t (Hpc & Hap & _) E1 E2. cbn in E1, E2. destruct Hno as [N1|N1]; [apply (N1 (r_pc t))|apply (N1 (r_ap t))]; try congruence; lia.
Qed.
Print Assumptions C90_impossible_ends_accepted.

(** FINDING. In particular whatever proof the prover makes of a provable run is also accepted for an end that no run has. *)
Theorem C90_honest_proofs_prove_too_much :
  forall (C : cairo_env) p (m : @cairo_memory C) raw size rc out, cairo_ok C p -> provable_run m raw size rc out ->
  exists t pi r, generate_prover_args raw m size rc out = Ok (t, pi) /\ tt_n_rows t = (2 ^ r)%nat /\
  forall opts b fuel q, usable_options C opts r b -> generate_cairo_proof fuel t pi opts = Ok q ->
    verify_cairo_proof fuel q pi opts = Ok true /\
    exists pc ap, (forall t, in_range t -> s_pc (state_of t) = pc -> s_ap (state_of t) <> ap) /\ verify_cairo_proof fuel q (with_ends pi pc ap) opts = Ok true.
Proof.
  intros C p m raw size rc out HC HP. destruct (C53_cairo_end_to_end C p m raw size rc out HC HP) as (t & pi & r & Hg & Hn & _ & K).
  exists t, pi, r. split; [exact Hg|]. split; [exact Hn|]. intros opts b fuel q Hu Hq. pose proof (K opts b fuel q Hu Hq) as Hv. split; [exact Hv|].
  destruct (C90_impossible_ends_accepted C p fuel q pi opts HC Hv) as (pc & ap & _ & A & B). exists pc, ap. split; assumption.
Qed.
Print Assumptions C90_honest_proofs_prove_too_much.

(** Non-vacuity: the honest proof of the sequence starting with 1, 1 is accepted, and so (C50_example) is it for 42, 7, but not for 42, 8. The example run is provable. *)
Example C90_example :
  obind (prove toy 20 fib_toy (toy_table [1; 1; 2; 3]%Z)) (fun p => verify toy 20 (fibonacci_air toy (f97 1) (f97 1) toy_opts) toy_opts p) = Ok true /\ switched 6 = Ok true /\ switched 7 = Ok false.
Proof. split; [vm_compute; reflexivity|exact C50_example]. Qed.
Example C90_run_example : exists t pi r, generate_prover_args (C := stark) mini_regs mini_memory 5 None None = Ok (t, pi) /\ tt_n_rows t = (2 ^ r)%nat.
Proof. destruct (C90_honest_proofs_prove_too_much stark _ mini_memory mini_regs 5 None None stark_ok mini_provable) as (t & pi & r & A & B & _). eauto. Qed.
