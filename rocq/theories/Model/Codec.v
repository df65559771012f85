(** Byte-level model of the proof serializers and deserializers.
    Sources: src/starks/utils.rs, src/starks/frame.rs, src/starks/fri/fri_decommit.rs,
    src/starks/proof/stark.rs.
    A slice operation that would be out of range is [Panic]; [get(..).ok_or(..)?] is [Err]. *)
From Coq Require Import List NArith Arith.
From Coq.Strings Require Import Byte.
From Verif.Base Require Import Outcome Bytes.
Import ListNotations.
Local Open Scope outcome_scope.

(** A [Commitment] is [[u8; 32]] (src/starks/config.rs:14-18). *)
Definition commitment := list byte.

(** [FieldElement<F>: ByteConversion]: [to_bytes_be] and [from_bytes_be] of lambdaworks-math (external). *)
Record felt_codec (F : Type) := {
  fe_to   : F -> list byte;
  fe_from : list byte -> option F
}.
Arguments fe_to {F}. Arguments fe_from {F}.

(** src/starks/frame.rs:11-15 *)
Record frame (F : Type) := mk_frame { fr_data : list F; fr_row_width : nat }.
Arguments mk_frame {F}. Arguments fr_data {F}. Arguments fr_row_width {F}.

(** src/starks/fri/fri_decommit.rs:12-17; [Proof<Commitment>] is its merkle path. *)
Record fri_decommitment (F : Type) := mk_fri_decommitment {
  layers_auth_paths_sym : list (list commitment);
  layers_evaluations_sym : list F;
  layers_auth_paths : list (list commitment);
  layers_evaluations : list F
}.
Arguments mk_fri_decommitment {F}. Arguments layers_auth_paths_sym {F}.
Arguments layers_evaluations_sym {F}. Arguments layers_auth_paths {F}. Arguments layers_evaluations {F}.

(** src/starks/proof/stark.rs:18-24 *)
Record deep_openings (F : Type) := mk_deep_openings {
  lde_composition_poly_proof : list commitment;
  lde_composition_poly_even_evaluation : F;
  lde_composition_poly_odd_evaluation : F;
  lde_trace_merkle_proofs : list (list commitment);
  lde_trace_evaluations : list F
}.
Arguments mk_deep_openings {F}. Arguments lde_composition_poly_proof {F}.
Arguments lde_composition_poly_even_evaluation {F}. Arguments lde_composition_poly_odd_evaluation {F}.
Arguments lde_trace_merkle_proofs {F}. Arguments lde_trace_evaluations {F}.

(** src/starks/proof/stark.rs:27-51 *)
Record stark_proof (F : Type) := mk_stark_proof {
  trace_length : nat;
  lde_trace_merkle_roots : list commitment;
  trace_ood_frame_evaluations : frame F;
  composition_poly_root : commitment;
  composition_poly_even_ood_evaluation : F;
  composition_poly_odd_ood_evaluation : F;
  fri_layers_merkle_roots : list commitment;
  fri_last_value : F;
  query_list : list (fri_decommitment F);
  deep_poly_openings : list (deep_openings F);
  nonce : N
}.
Arguments mk_stark_proof {F}. Arguments trace_length {F}. Arguments lde_trace_merkle_roots {F}.
Arguments trace_ood_frame_evaluations {F}. Arguments composition_poly_root {F}.
Arguments composition_poly_even_ood_evaluation {F}. Arguments composition_poly_odd_ood_evaluation {F}.
Arguments fri_layers_merkle_roots {F}. Arguments fri_last_value {F}. Arguments query_list {F}.
Arguments deep_poly_openings {F}. Arguments nonce {F}.

(** * Slices *)

(** [bytes.get(..n).ok_or(InvalidAmountOfBytes)?] *)
Definition get_to (n : N) (bs : list byte) : outcome (list byte) :=
  if (N.of_nat (length bs) <? n)%N then Err InvalidAmountOfBytes else Ok (firstn (N.to_nat n) bs).

(** [&bytes[..n]] *)
Definition slice_to (n : N) (bs : list byte) : outcome (list byte) :=
  if (N.of_nat (length bs) <? n)%N then Panic else Ok (firstn (N.to_nat n) bs).

(** [&bytes[n..]] *)
Definition slice_from (n : N) (bs : list byte) : outcome (list byte) :=
  if (N.of_nat (length bs) <? n)%N then Panic else Ok (skipn (N.to_nat n) bs).

(** A reader consumes a prefix of the buffer (the Rust code re-slices [bytes]). *)
Definition reader (A : Type) := list byte -> outcome (A * list byte).

(** [let p = bytes.get(..n).ok_or(..)?; bytes = &bytes[n..];] *)
Definition take (n : N) : reader (list byte) := fun bs =>
  p <- get_to n bs;; r <- slice_from n bs;; Ok (p, r).

(** [usize::from_be_bytes(bytes.get(..8).ok_or(..)?...); bytes = &bytes[8..];] *)
Definition read_usize : reader N := fun bs =>
  '(p, r) <- take 8 bs;; Ok (be_val p, r).

(** [bytes.get(..32).ok_or(..)?.try_into()..; bytes = &bytes[32..];] *)
Definition read_commitment : reader commitment := take 32.

(** [for _ in 0..n { .. push(..) }] *)
Fixpoint read_many {A} (n : nat) (r : reader A) : reader (list A) := fun bs =>
  match n with
  | O => Ok ([], bs)
  | S n' => '(a, bs1) <- r bs;; '(l, bs2) <- read_many n' r bs1;; Ok (a :: l, bs2)
  end.

Section Codec.
Context {F : Type} (C : felt_codec F).

(** [FieldElement::from_bytes_be(bytes.get(..felt_len).ok_or(..)?)?; bytes = &bytes[felt_len..];] *)
Definition read_felt (felt_len : N) : reader F := fun bs =>
  p <- get_to felt_len bs;;
  x <- ok_or FieldFromBytesError (fe_from C p);;
  r <- slice_from felt_len bs;;
  Ok (x, r).

(** * Merkle paths: src/starks/utils.rs *)

(** src/starks/utils.rs:6-13 *)
Definition serialize_proof (p : list commitment) : list byte :=
  be8 (length p) ++ concat p.

(** src/starks/utils.rs:15-38 *)
Definition deserialize_proof : reader (list commitment) := fun bs =>
  '(n, bs) <- read_usize bs;; read_many (N.to_nat n) read_commitment bs.

(** * Frame: src/starks/frame.rs *)

(** src/starks/frame.rs:91-105 *)
Definition frame_serialize (f : frame F) : list byte :=
  be8 (length (fr_data f)) ++
  be8 (match fr_data f with [] => 0 | x :: _ => length (fe_to C x) end) ++
  concat (map (fe_to C) (fr_data f)) ++
  be8 (fr_row_width f).

(** src/starks/frame.rs:113-156; bytes after [row_width] are ignored. *)
Definition frame_deserialize (bs : list byte) : outcome (frame F) :=
  '(data_len, bs) <- read_usize bs;;
  '(felt_len, bs) <- read_usize bs;;
  '(data, bs) <- read_many (N.to_nat data_len) (read_felt felt_len) bs;;
  p <- get_to 8 bs;;
  Ok (mk_frame data (N.to_nat (be_val p))).

(** * FRI decommitments: src/starks/fri/fri_decommit.rs *)

(** src/starks/fri/fri_decommit.rs:24-45; [self.layers_evaluations[0]] panics when empty (line 30). *)
Definition fri_serialize (d : fri_decommitment F) : outcome (list byte) :=
  x <- unwrap (nth_error (layers_evaluations d) 0);;
  Ok (be8 (length (layers_auth_paths_sym d)) ++
      concat (map serialize_proof (layers_auth_paths_sym d)) ++
      be8 (length (fe_to C x)) ++
      be8 (length (layers_evaluations_sym d)) ++
      concat (map (fe_to C) (layers_evaluations_sym d)) ++
      be8 (length (layers_evaluations d)) ++
      concat (map (fe_to C) (layers_evaluations d)) ++
      be8 (length (layers_auth_paths d)) ++
      concat (map serialize_proof (layers_auth_paths d))).

(** src/starks/fri/fri_decommit.rs:53-145; trailing bytes are ignored. *)
Definition fri_deserialize (bs : list byte) : outcome (fri_decommitment F) :=
  '(n1, bs) <- read_usize bs;;
  '(paths_sym, bs) <- read_many (N.to_nat n1) deserialize_proof bs;;
  '(felt_len, bs) <- read_usize bs;;
  '(n2, bs) <- read_usize bs;;
  '(evals_sym, bs) <- read_many (N.to_nat n2) (read_felt felt_len) bs;;
  '(n3, bs) <- read_usize bs;;
  '(evals, bs) <- read_many (N.to_nat n3) (read_felt felt_len) bs;;
  '(n4, bs) <- read_usize bs;;
  '(paths, _) <- read_many (N.to_nat n4) deserialize_proof bs;;
  Ok (mk_fri_decommitment paths_sym evals_sym paths evals).

(** * DEEP openings: src/starks/proof/stark.rs *)

(** src/starks/proof/stark.rs:58-76 *)
Definition deep_serialize (d : deep_openings F) : list byte :=
  serialize_proof (lde_composition_poly_proof d) ++
  be8 (length (fe_to C (lde_composition_poly_even_evaluation d))) ++
  fe_to C (lde_composition_poly_even_evaluation d) ++
  fe_to C (lde_composition_poly_odd_evaluation d) ++
  be8 (length (lde_trace_merkle_proofs d)) ++
  concat (map serialize_proof (lde_trace_merkle_proofs d)) ++
  be8 (length (lde_trace_evaluations d)) ++
  concat (map (fe_to C) (lde_trace_evaluations d)).

(** src/starks/proof/stark.rs:84-158; trailing bytes are ignored. *)
Definition deep_deserialize (bs : list byte) : outcome (deep_openings F) :=
  '(cp, bs) <- deserialize_proof bs;;
  '(felt_len, bs) <- read_usize bs;;
  '(even, bs) <- read_felt felt_len bs;;
  '(odd, bs) <- read_felt felt_len bs;;
  '(n1, bs) <- read_usize bs;;
  '(proofs, bs) <- read_many (N.to_nat n1) deserialize_proof bs;;
  '(n2, bs) <- read_usize bs;;
  '(evals, _) <- read_many (N.to_nat n2) (read_felt felt_len) bs;;
  Ok (mk_deep_openings cp even odd proofs evals).

(** * STARK proofs: src/starks/proof/stark.rs *)

(** A length-prefixed block, lines 199-211. *)
Definition with_len (b : list byte) : list byte := be8 (length b) ++ b.

(** src/starks/proof/stark.rs:166-217; panics when a decommitment has no layer evaluation. *)
Definition stark_serialize (p : stark_proof F) : outcome (list byte) :=
  queries <- traverse fri_serialize (query_list p);;
  Ok (be8 (trace_length p) ++
      be8 (length (lde_trace_merkle_roots p)) ++
      concat (lde_trace_merkle_roots p) ++
      with_len (frame_serialize (trace_ood_frame_evaluations p)) ++
      composition_poly_root p ++
      be8 (length (fe_to C (composition_poly_even_ood_evaluation p))) ++
      fe_to C (composition_poly_even_ood_evaluation p) ++
      fe_to C (composition_poly_odd_ood_evaluation p) ++
      be8 (length (fri_layers_merkle_roots p)) ++
      concat (fri_layers_merkle_roots p) ++
      fe_to C (fri_last_value p) ++
      be8 (length (query_list p)) ++
      concat (map with_len queries) ++
      be8 (length (deep_poly_openings p)) ++
      concat (map (fun d => with_len (deep_serialize d)) (deep_poly_openings p)) ++
      be_bytes 8 (nonce p)).

(** The loop body of lines 355-375 and 388-408: a length, then a nested value in exactly that many bytes. *)
Definition read_block {A} (parse : list byte -> outcome A) : reader A := fun bs =>
  '(n, bs) <- read_usize bs;;
  p <- get_to n bs;;
  x <- parse p;;
  r <- slice_from n bs;;
  Ok (x, r).

(** src/starks/proof/stark.rs:411-422: the nonce is the LAST eight bytes of what remains. *)
Definition read_nonce (bs : list byte) : outcome N :=
  if length bs <? 8 then Err InvalidAmountOfBytes
  else Ok (be_val (skipn (length bs - 8) bs)).

(** src/starks/proof/stark.rs:225-437 *)
Definition stark_deserialize (bs : list byte) : outcome (stark_proof F) :=
  '(tl, bs) <- read_usize bs;;
  '(n_roots, bs) <- read_usize bs;;
  '(roots, bs) <- read_many (N.to_nat n_roots) read_commitment bs;;
  '(fr, bs) <- read_block frame_deserialize bs;;
  '(cproot, bs) <- read_commitment bs;;
  '(felt_len, bs) <- read_usize bs;;
  '(even, bs) <- read_felt felt_len bs;;
  '(odd, bs) <- read_felt felt_len bs;;
  '(n_fri, bs) <- read_usize bs;;
  '(fri_roots, bs) <- read_many (N.to_nat n_fri) read_commitment bs;;
  '(last, bs) <- read_felt felt_len bs;;
  '(n_q, bs) <- read_usize bs;;
  '(queries, bs) <- read_many (N.to_nat n_q) (read_block fri_deserialize) bs;;
  '(n_d, bs) <- read_usize bs;;
  '(deep, bs) <- read_many (N.to_nat n_d) (read_block deep_deserialize) bs;;
  nc <- read_nonce bs;;
  Ok (mk_stark_proof (N.to_nat tl) roots fr cproot even odd fri_roots last queries deep nc).

End Codec.
