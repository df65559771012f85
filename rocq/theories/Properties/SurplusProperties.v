(** C88: what the verifier does not look at, and what can be left out of an accepted proof. *)
From Coq Require Import List Arith NArith ZArith Bool Lia.
From Verif.Base Require Import Outcome Bytes Field Poly Zp.
From Verif.Model Require Import Codec Trace Merkle Air Transcript Domain Options Fri Prover Verifier ExampleAirs.
From Verif.Spec Require Import Surplus.
From Verif.Proofs Require Import OutcomeFacts SurplusFacts.
From Verif.Examples Require Import Toy.
From Verif.Properties Require Import ExampleProperties StarkProperties VerifierProperties.
Import ListNotations.

(** The answer of the verifier, be it a verdict, an error or a panic, does not depend on the surplus of a proof. *)
Theorem C88_surplus_is_ignored :
  forall (E : env) fuel (mk : nat -> air E) opts (p p' : stark_proof E),
  same_where_checked (fri_number_of_queries (a_options (mk (trace_length p)))) p p' ->
  ((length (query_list p) <? fri_number_of_queries opts) = (length (query_list p') <? fri_number_of_queries opts))%nat ->
  verify E fuel mk opts p' = verify E fuel mk opts p.
Proof. intros E fuel mk opts p p' H Hl. exact (verify_same fuel mk opts p p' H Hl). Qed.
Print Assumptions C88_surplus_is_ignored.

(** Any part of an accepted proof that keeps its header and evaluations is accepted. *)
Theorem C88_parts_are_accepted :
  forall (E : env) fuel (mk : nat -> air E) opts (p p' : stark_proof E),
  part_of (fri_number_of_queries (a_options (mk (trace_length p)))) p p' -> (fri_number_of_queries opts <= length (query_list p'))%nat ->
  verify E fuel mk opts p = Ok true -> verify E fuel mk opts p' = Ok true.
Proof. intros E fuel mk opts p p' H Hl Hv. exact (verify_part fuel mk opts p p' H Hl Hv). Qed.
Print Assumptions C88_parts_are_accepted.

Lemma accepted_queries (E : env) fuel (mk : nat -> air E) opts (p : stark_proof E) : verify E fuel mk opts p = Ok true -> (fri_number_of_queries opts <= length (query_list p))%nat.
Proof. intro H. unfold verify in H. destruct (Nat.ltb_spec (length (query_list p)) (fri_number_of_queries opts)); [discriminate H|assumption]. Qed.

(** So all openings and authentication paths can be left out. *)
Theorem C88_bare_proofs_are_accepted :
  forall (E : env) fuel (mk : nat -> air E) opts (p : stark_proof E), verify E fuel mk opts p = Ok true -> verify E fuel mk opts (bare p) = Ok true.
Proof.
  intros E fuel mk opts p H. apply (verify_part fuel mk opts p (bare p)); [|cbn [bare query_list]; rewrite map_length; exact (accepted_queries E fuel mk opts p H)|exact H].
  constructor.
  - reflexivity.
  - cbn [bare query_list]. rewrite firstn_map. induction (firstn _ (query_list p)) as [|u l IH]; cbn [map]; constructor; [|exact IH].
    split; [reflexivity|]. exists 0%nat. unfold whole_layers. cbn [layers_auth_paths combine]. now rewrite firstn_nil.
  - exists 0%nat. cbn [bare deep_poly_openings]. now rewrite firstn_nil.
Qed.
Print Assumptions C88_bare_proofs_are_accepted.

(** FINDING: every accepted proof can be turned into others, without the trace and without any computation. *)
Theorem C88_accepted_proofs_are_malleable :
  forall (E : env) fuel (mk : nat -> air E) opts (p : stark_proof E) us, us <> [] ->
  fri_number_of_queries (a_options (mk (trace_length p))) = fri_number_of_queries opts -> verify E fuel mk opts p = Ok true ->
  with_more_queries us p <> p /\ verify E fuel mk opts (with_more_queries us p) = Ok true.
Proof.
  intros E fuel mk opts p us Hu Ho H. pose proof (accepted_queries E fuel mk opts p H) as Hl. split.
  - intro Ep. apply (f_equal (fun p => length (query_list p))) in Ep. cbn [with_more_queries query_list] in Ep. rewrite app_length in Ep. destruct us; [now apply Hu|cbn in Ep; lia].
  - rewrite <- H. apply verify_same.
    + constructor; [reflexivity|..|reflexivity]. cbn [with_more_queries query_list]. rewrite firstn_app, Ho.
      replace (fri_number_of_queries opts - length (query_list p))%nat with 0%nat by lia. cbn [firstn]. now rewrite app_nil_r.
    + cbn [with_more_queries query_list]. rewrite app_length. destruct (Nat.ltb_spec (length (query_list p)) (fri_number_of_queries opts)); [lia|].
      symmetry. apply Nat.ltb_ge. lia.
Qed.
Print Assumptions C88_accepted_proofs_are_malleable.

(** Non-vacuity: the Fibonacci example, its bare proof, which differs from it, and one with a query more. *)
Definition toy_proof : outcome (stark_proof toy) := prove toy 20 fib_toy (toy_table [1; 1; 2; 3]%Z).
Example C88_example :
  obind toy_proof (verify toy 20 fib_toy toy_opts) = Ok true /\ obind toy_proof (fun p => verify toy 20 fib_toy toy_opts (bare p)) = Ok true /\
  obind toy_proof (fun p => Ok (Nat.ltb 0 (length (deep_poly_openings p)) && forallb (fun u => Nat.ltb 0 (length (layers_auth_paths u))) (query_list p))) = Ok true /\
  obind toy_proof (fun p => verify toy 20 fib_toy toy_opts (with_more_queries [mk_fri_decommitment [] [] [] []] p)) = Ok true /\
  obind toy_proof (fun p => Ok (fri_number_of_queries (a_options (fib_toy (trace_length p))) =? fri_number_of_queries toy_opts)%nat) = Ok true.
Proof. repeat split; vm_compute; reflexivity. Qed.

(** Leaving out the evaluations is another matter: the verifier panics. *)
Example C88_evaluations_needed :
  obind toy_proof (fun p => verify toy 20 fib_toy toy_opts (mk_stark_proof (trace_length p) (lde_trace_merkle_roots p) (trace_ood_frame_evaluations p) (composition_poly_root p)
    (composition_poly_even_ood_evaluation p) (composition_poly_odd_ood_evaluation p) (fri_layers_merkle_roots p) (fri_last_value p)
    (map (fun _ => mk_fri_decommitment [] [] [] []) (query_list p)) [] (nonce p))) = Panic.
Proof. vm_compute. reflexivity. Qed.
