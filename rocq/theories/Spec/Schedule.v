(** The Fiat-Shamir schedule: which bytes are absorbed, in which order, and what is made of the digests that are squeezed
    in between. Only the record types of the model are used, none of the functions of the prover or the verifier. *)
From Coq Require Import List Arith NArith.
From Verif.Base Require Import Outcome Bytes Field Poly.
From Verif.Model Require Import Codec Air Domain Verifier.
Import ListNotations.

(** What happens to a transcript. *)
Inductive event := Absorb (bs : list byte) | Squeeze.

(** The protocol goes in rounds: messages are absorbed, then a number of digests is squeezed. *)
Definition round := (list (list byte) * nat)%type.
Definition events (rs : list round) : list event := flat_map (fun r => map Absorb (fst r) ++ repeat Squeeze (snd r)) rs.

Section Transcripts.
Context {T : transcript_ops}.
Fixpoint after (es : list event) (t : T) : T :=
  match es with
  | [] => t
  | Absorb bs :: r => after r (tr_append t bs)
  | Squeeze :: r => after r (snd (tr_challenge t))
  end.
Fixpoint digests (es : list event) (t : T) : list (list byte) :=
  match es with
  | [] => []
  | Absorb bs :: r => digests r (tr_append t bs)
  | Squeeze :: r => fst (tr_challenge t) :: digests r (snd (tr_challenge t))
  end.
End Transcripts.

Section Schedule.
Context {E : env}.

(** A digest as a field element: its low [bits - 1] bits. *)
Definition felt_of (dg : list byte) (x : E) : Prop :=
  exists m, length m = length dg /\ be_val m = (be_val dg mod 2 ^ N.of_nat (e_bits E - 1))%N /\ fe_from (e_codec E) m = Some x.

(** A digest as a position among [n]: the number made of its first eight bytes, modulo [n]. *)
Definition index_of (n : nat) (dg : list byte) (i : nat) : Prop := N.of_nat i = (be_val (firstn 8 dg) mod N.of_nat n)%N.

(** The zero bits of a nonce for a digest. *)
Definition zeros_of (dg : list byte) (nonce zeros : N) : Prop :=
  let head := be_val (firstn 8 (e_keccak E (dg ++ le_bytes 8 nonce))) in
  (head = 0 /\ zeros = 64)%N \/ exists odd_part, head = ((2 * odd_part + 1) * 2 ^ zeros)%N.

(** The cells of the out-of-domain frame that form complete rows. *)
Definition whole_rows (f : frame E) : list E := firstn (length (fr_data f) / fr_row_width f * fr_row_width f) (fr_data f).

Definition felt_bytes (x : E) : list byte := fe_to (e_codec E) x.

(** The rounds of the protocol, for a proof [p]: [k] challenges of the randomized AIR, [nb] boundary and [nt] transition
    constraints with two coefficients each, [tries] candidates for the out-of-domain point, two plus [terms] coefficients of the DEEP
    composition, a challenge for every FRI layer, one for grinding, [queries] positions. *)
Definition rounds (p : stark_proof E) (k nb nt tries terms queries : nat) : list round :=
  [(firstn 1 (lde_trace_merkle_roots p), k);
   (firstn 1 (skipn 1 (lde_trace_merkle_roots p)), nb + nb + (nt + nt));
   ([composition_poly_root p], tries);
   (felt_bytes (composition_poly_even_ood_evaluation p) :: felt_bytes (composition_poly_odd_ood_evaluation p) ::
      map felt_bytes (whole_rows (trace_ood_frame_evaluations p)), 2 + terms)] ++
  map (fun root => ([root], 1)) (fri_layers_merkle_roots p) ++
  [([felt_bytes (fri_last_value p)], 1);
   ([be_bytes 8 (nonce p)], queries)].

(** The challenges of the randomized AIR are [pick] of [k] field elements. *)
Definition draws (a : air E) (k : nat) (pick : list E -> a_rap a) : Prop :=
  forall t rap t', a_build_rap a t = Ok (rap, t') ->
    t' = after (repeat Squeeze k) t /\ exists xs, Forall2 felt_of (digests (repeat Squeeze k) t) xs /\ rap = pick xs.

(** The challenges [c] are those that the schedule gives for the proof [p], and [t'] is the transcript at the end: [dr] .. [dq] are the
    digests of the successive phases. *)
Definition follows (a : air E) (k : nat) (pick : list E -> a_rap a) (p : stark_proof E) (d : domain E) (c : challenges E a) (t' : e_tr E) : Prop :=
  let nt := num_transition_constraints (a_context a) in
  let cols := trace_columns (a_context a) in
  let offs := length (transition_offsets (a_context a)) in
  exists bcs zs, a_boundary a (c_rap E a c) = Ok bcs /\
  let rs := rounds p k (length bcs) nt (S (length zs)) (cols * offs) (fri_number_of_queries (a_options a)) in
  t' = after (events rs) (tr_new : e_tr E) /\
  exists dr dc dz dd df dg dq xs ba bb ta tb,
    digests (events rs) (tr_new : e_tr E) = dr ++ dc ++ dz ++ dd ++ df ++ [dg] ++ dq /\
    (Forall2 felt_of dr xs /\ length xs = k /\ c_rap E a c = pick xs) /\
    (Forall2 felt_of dc (ba ++ bb ++ ta ++ tb) /\ length ba = length bcs /\ length bb = length bcs /\ length ta = nt /\ length tb = nt /\
     c_boundary_coeffs E a c = combine ba bb /\ c_transition_coeffs E a c = combine ta tb) /\
    (Forall2 felt_of dz (zs ++ [c_z E a c]) /\
     Forall (fun x => In x (lde_roots_of_unity_coset d) \/ In x (trace_roots_of_unity d)) zs /\
     ~ In (c_z E a c) (lde_roots_of_unity_coset d) /\ ~ In (c_z E a c) (trace_roots_of_unity d)) /\
    (Forall2 felt_of dd (c_gamma_even E a c :: c_gamma_odd E a c :: concat (c_trace_term_coeffs E a c)) /\
     length (c_trace_term_coeffs E a c) = cols /\ Forall (fun row => length row = offs) (c_trace_term_coeffs E a c)) /\
    (Forall2 felt_of df (c_zetas E a c) /\ length (c_zetas E a c) = length (fri_layers_merkle_roots p)) /\
    zeros_of dg (nonce p) (c_leading_zeros E a c) /\
    Forall2 (index_of (2 ^ lde_root_order d)) dq (c_iotas E a c) /\ length (c_iotas E a c) = fri_number_of_queries (a_options a).

(** Two proofs agree on what is absorbed in the first [j] rounds. *)
Definition agree_upto (j : nat) (p p' : stark_proof E) : Prop :=
  let layers := length (fri_layers_merkle_roots p) in
  (1 <= j -> firstn 1 (lde_trace_merkle_roots p) = firstn 1 (lde_trace_merkle_roots p')) /\
  (2 <= j -> firstn 2 (lde_trace_merkle_roots p) = firstn 2 (lde_trace_merkle_roots p')) /\
  (3 <= j -> composition_poly_root p = composition_poly_root p') /\
  (4 <= j -> composition_poly_even_ood_evaluation p = composition_poly_even_ood_evaluation p' /\
    composition_poly_odd_ood_evaluation p = composition_poly_odd_ood_evaluation p' /\
    whole_rows (trace_ood_frame_evaluations p) = whole_rows (trace_ood_frame_evaluations p')) /\
  firstn (j - 4) (fri_layers_merkle_roots p) = firstn (j - 4) (fri_layers_merkle_roots p') /\
  (5 + layers <= j -> fri_last_value p = fri_last_value p') /\
  (6 + layers <= j -> nonce p = nonce p').

(** Roots have [L] bytes, and there is one for the main columns; the nonce is a 64-bit number. *)
Definition sized (L : nat) (p : stark_proof E) : Prop :=
  lde_trace_merkle_roots p <> [] /\ Forall (fun r => length r = L) (lde_trace_merkle_roots p) /\ length (composition_poly_root p) = L /\
  Forall (fun r => length r = L) (fri_layers_merkle_roots p) /\ (nonce p < 2 ^ 64)%N.
End Schedule.

(** ** The transcript of lambdaworks-crypto over a hash function: what is absorbed is appended to a buffer; a challenge is the hash
    of the buffer, which it replaces. *)
Definition sponge (hash : list byte -> list byte) : transcript_ops :=
  mk_transcript_ops (list byte) [] (fun s bs => s ++ bs) (fun s => (hash s, hash s)).

(** An environment with another transcript. *)
Definition with_transcript (E : env) (T : transcript_ops) : env :=
  mk_env (e_K E) (e_codec E) (e_bits E) (e_u64 E) T (e_leaf E) (e_leaves E) (e_node E) (e_keccak E).

(** The strings that are hashed in the course of some events. *)
Fixpoint hashed (hash : list byte -> list byte) (es : list event) (s : list byte) : list (list byte) :=
  match es with
  | [] => []
  | Absorb bs :: r => hashed hash r (s ++ bs)
  | Squeeze :: r => s :: hashed hash r (hash s)
  end.

(** A string hashed here and another one hashed there have the same hash. *)
Definition collide (hash : list byte -> list byte) (here there : list (list byte)) : Prop :=
  exists x y, In x here /\ In y there /\ x <> y /\ hash x = hash y.
