(** C89: how proofs and verdicts depend on the number of queries and the grinding factor. *)
From Coq Require Import List Arith NArith ZArith Bool Lia.
From Verif.Base Require Import Outcome Bytes Field Poly Zp.
From Verif.Model Require Import Codec Trace Merkle Air Transcript Domain Options Fri Prover Verifier ExampleAirs PublicInputs CairoDecode CairoTrace CairoAir CairoRunner.
From Verif.Spec Require Import AirSpec CairoSpec ExampleSpec Forgery Levels.
From Verif.Proofs Require Import OutcomeFacts StarkFieldFacts LevelFacts.
From Verif.Examples Require Import Toy Stark252.
From Verif.Properties Require Import ExampleProperties StarkProperties VerifierProperties.
Import ListNotations.

(** All AIRs of the repository keep their options. *)
Theorem C89_airs_keep_options :
  (forall (E : env) a0 a1, keeps_options (fibonacci_air E a0 a1)) /\ (forall (E : env) a0 a1, keeps_options (fibonacci_2_cols_air E a0 a1)) /\
  (forall (E : env) a0, keeps_options (quadratic_air E a0)) /\ (forall (E : env), keeps_options (dummy_air E)) /\
  (forall (E : env) steps, keeps_options (fibonacci_rap_air E steps)) /\ (forall (C : cairo_env) (pi : public_inputs C), keeps_options (cairo_air pi)).
Proof. repeat split. Qed.
Print Assumptions C89_airs_keep_options.

(** Who accepts a proof also accepts it when asking for fewer positions and fewer zeros. *)
Theorem C89_fewer_queries_accepted :
  forall (E : env) fuel (mk : proof_options -> nat -> air E) o (p : stark_proof E) q g, keeps_options mk ->
  (q <= fri_number_of_queries o)%nat -> (g <= grinding_factor o)%N ->
  verify E fuel (mk o) o p = Ok true -> verify E fuel (mk (tuned o q g)) (tuned o q g) p = Ok true.
Proof.
  intros E fuel mk o p q g Hk Hq Hg H. destruct (Hk o (trace_length p)) as [Eo Em].
  refine (fewer_queries fuel (mk o) (mk (tuned o q g)) o (tuned o q g) p q g (Em q g) Hq _ _ H); rewrite Eo; assumption.
Qed.
Print Assumptions C89_fewer_queries_accepted.

(** The proof for fewer positions is the beginning of the proof for more. *)
Theorem C89_proofs_are_beginnings :
  forall (E : env) fuel (mk : proof_options -> nat -> air E) o m (p : stark_proof E) q, keeps_options mk -> (q <= fri_number_of_queries o)%nat ->
  prove E fuel (mk o) m = Ok p -> prove E fuel (mk (tuned o q (grinding_factor o))) m = Ok (cut q p).
Proof.
  intros E fuel mk o m p q Hk Hq H. destruct (Hk o (tt_n_rows m)) as [Eo Em].
  refine (prove_cut fuel (mk o) (mk (tuned o q (grinding_factor o))) m p (mk o (tt_n_rows m)) _ q (grinding_factor o) Hq _ (Em _ _) H).
  rewrite <- Em. destruct o as [b q0 c g]. reflexivity.
Qed.
Print Assumptions C89_proofs_are_beginnings.

(** What the prover returns is rejected by who asks for more positions, whatever the AIR and the other options. *)
Theorem C89_more_queries_rejected :
  forall (E : env) fuel fuel' (mk mk' : nat -> air E) o' m (p : stark_proof E), prove E fuel mk m = Ok p ->
  (fri_number_of_queries (a_options (mk (tt_n_rows m))) < fri_number_of_queries o')%nat -> verify E fuel' mk' o' p = Ok false.
Proof.
  intros E fuel fuel' mk mk' o' m p H Hl. apply prove_count in H. unfold verify. destruct (Nat.ltb_spec (length (query_list p)) (fri_number_of_queries o')); [reflexivity|lia].
Qed.
Print Assumptions C89_more_queries_rejected.

(** FINDING: but everyone can repair that, without the trace: any value is an answer to a further query. *)
Theorem C89_more_queries_forged :
  forall (E : env) fuel (mk : proof_options -> nat -> air E) o (p : stark_proof E) r b k v, env_ok E -> sampling_ok E -> keeps_options mk ->
  a_trace_length (mk o (trace_length p)) = (2 ^ r)%nat -> usable_options E o r b -> verify E fuel (mk o) o p = Ok true ->
  let q := fri_number_of_queries o in let o' := tuned o (q + k) (grinding_factor o) in
  verify E fuel (mk o') o' (padded k v (cut q p)) = Ok true.
Proof.
  intros E fuel mk o p r b k v HE HS Hk Hn (Hr & _ & Hb & Hsq) H q o'. destruct (Hk o (trace_length p)) as [Eo Em].
  pose proof (more_queries HE HS fuel (mk o) (mk o') o o' p r b k (grinding_factor o) v) as M. cbv zeta in M. unfold a_blowup in M. rewrite Eo in M.
  apply M; try assumption; try reflexivity; try lia. exact (Em _ _).
Qed.
Print Assumptions C89_more_queries_forged.

(** The six levels of [new_secure] differ only in the number of queries, so for the Cairo verifier: a proof accepted at one level is accepted at all
    levels with fewer queries, and with invented answers also at all others, from 80 conjectured to 128 provable bits. *)
Theorem C89_cairo_levels :
  forall (C : cairo_env) fuel (pi : public_inputs C) (p : stark_proof C) l l' r v,
  cairo_ok C (Z.to_N stark_p) -> two_adicity C = 192%nat -> sampling_ok C -> trace_length p = (2 ^ r)%nat -> (1 <= r)%nat -> (r + 2 <> 192)%nat ->
  verify_cairo_proof fuel p pi (new_secure l 3) = Ok true ->
  let q := fri_number_of_queries (new_secure l 3) in let q' := fri_number_of_queries (new_secure l' 3) in
  verify_cairo_proof fuel (if (q' <=? q)%nat then p else padded (q' - q) v (cut q p)) pi (new_secure l' 3) = Ok true.
Proof.
  intros C fuel pi p l l' r v HC H192 HS Hn Hr Hr2 H q q'. unfold verify_cairo_proof in *.
  pose proof (proj2 (proj2 (proj2 (proj2 (proj2 C89_airs_keep_options)))) C pi) as Hk.
  destruct (Nat.leb_spec q' q) as [Hq|Hq].
  - pose proof (C89_fewer_queries_accepted C fuel (cairo_air pi) (new_secure l 3) p q' 20 Hk Hq) as F.
    replace (tuned (new_secure l 3) q' 20) with (new_secure l' 3) in F by (unfold q'; destruct l, l'; reflexivity).
    apply F; [destruct l; apply N.le_refl|exact H].
  - pose proof (C89_more_queries_forged C fuel (cairo_air pi) (new_secure l 3) p r 2 (q' - q) v (co_env _ _ HC) HS Hk Hn) as F. cbv zeta in F. fold q in F.
    replace (q + (q' - q))%nat with q' in F by lia.
    replace (tuned (new_secure l 3) q' (grinding_factor (new_secure l 3))) with (new_secure l' 3) in F by (unfold q'; destruct l, l'; reflexivity).
    apply F; [|exact H]. apply (default_coset_usable HC); [exact H192|destruct l; reflexivity..|exact Hr|lia|exact Hr2].
Qed.
Print Assumptions C89_cairo_levels.

(** Non-vacuity: the Fibonacci example, proved for two queries and verified with one, two and, after two invented answers, four. *)
Definition toy_at (q : nat) := tuned toy_opts q 1.
Definition toy_proof_at (q : nat) := prove toy 20 (fibonacci_air toy (f97 1) (f97 1) (toy_at q)) (toy_table [1; 1; 2; 3]%Z).
Definition toy_verify_at (q : nat) := verify toy 20 (fibonacci_air toy (f97 1) (f97 1) (toy_at q)) (toy_at q).
Example C89_example :
  obind (toy_proof_at 2) (toy_verify_at 2) = Ok true /\ obind (toy_proof_at 2) (toy_verify_at 1) = Ok true /\ obind (toy_proof_at 2) (toy_verify_at 4) = Ok false /\
  obind (toy_proof_at 2) (fun p => toy_verify_at 4 (padded (E := toy) 2 (f97 77) p)) = Ok true /\
  obind (toy_proof_at 4) (fun p => Ok (length (query_list (cut 2 p)))) = Ok 2%nat.
Proof. repeat split; vm_compute; reflexivity. Qed.
