(** Specification vocabulary for the byte formats: when a value is representable, what a faithful
    element codec is, and which truncations of a public-input buffer are harmful. *)
From Coq Require Import List NArith Permutation.
From Coq.Strings Require Import Byte.
From Verif.Base Require Import Outcome Bytes.
From Verif.Model Require Import Codec PublicInputs.
Import ListNotations.

Definition no_panic {A} (x : outcome A) : Prop := x <> Panic.

(** A merkle path whose nodes are 32-byte digests. *)
Definition digest (c : commitment) : Prop := length c = 32.
Definition path_wf (p : list commitment) : Prop :=
  (N.of_nat (length p) < two64)%N /\ Forall digest p.

(** * Public inputs *)
Definition opt16_wf (o : option N) : Prop := match o with Some v => (v < 65536)%N | None => True end.
Definition seg_wf (e : memory_segment * (N * N)) : Prop := (fst (snd e) < two64)%N /\ (snd (snd e) < two64)%N.

(** A field of type [Option<u16>] is cut off: its tag says "present" but fewer than two bytes follow. *)
Definition cut16 (t : list byte) : Prop := exists u, t = x01 :: u /\ length u < 2.

(** A complete [Option<u16>] field. *)
Definition whole16 (t : list byte) : Prop := t = [x00] \/ exists b1 b2, t = [x01; b1; b2].

Section Spec.
Context {F : Type} (C : felt_codec F).

(** A fixed-width round-tripping field element codec. *)
Record codec_ok (w : nat) : Prop := {
  codec_width : forall x, length (fe_to C x) = w;
  codec_round : forall x, fe_from C (fe_to C x) = Some x;
  codec_pos   : 0 < w;
  codec_small : (N.of_nat w < two64)%N
}.

(** Well-formedness of values: exactly the Rust type invariants plus "the encoding fits in a 64-bit
    address space". *)
Definition frame_wf (f : frame F) : Prop :=
  (N.of_nat (length (frame_serialize C f)) < two64)%N /\ (N.of_nat (fr_row_width f) < two64)%N.

Definition paths_wf (l : list (list commitment)) : Prop := Forall (Forall digest) l.

Definition fri_wf (d : fri_decommitment F) : Prop :=
  layers_evaluations d <> [] /\ paths_wf (layers_auth_paths_sym d) /\ paths_wf (layers_auth_paths d) /\
  (forall bs, fri_serialize C d = Ok bs -> (N.of_nat (length bs) < two64)%N).

Definition deep_wf (d : deep_openings F) : Prop :=
  Forall digest (lde_composition_poly_proof d) /\ paths_wf (lde_trace_merkle_proofs d) /\
  (N.of_nat (length (deep_serialize C d)) < two64)%N.

Definition stark_wf (p : stark_proof F) : Prop :=
  (N.of_nat (trace_length p) < two64)%N /\ (nonce p < two64)%N /\
  Forall digest (lde_trace_merkle_roots p) /\ digest (composition_poly_root p) /\
  Forall digest (fri_layers_merkle_roots p) /\
  (N.of_nat (fr_row_width (trace_ood_frame_evaluations p)) < two64)%N /\
  Forall (fun d => layers_evaluations d <> [] /\ paths_wf (layers_auth_paths_sym d) /\ paths_wf (layers_auth_paths d))
         (query_list p) /\
  Forall (fun d => Forall digest (lde_composition_poly_proof d) /\ paths_wf (lde_trace_merkle_proofs d))
         (deep_poly_openings p) /\
  (forall bs, stark_serialize C p = Ok bs -> (N.of_nat (length bs) < two64)%N).

(** The Rust type invariants of public inputs: field widths, and hash maps have distinct keys. *)
Definition pub_wf (p : public_inputs F) : Prop :=
  opt16_wf (range_check_min p) /\ opt16_wf (range_check_max p) /\
  Forall seg_wf (memory_segments p) /\ NoDup (map fst (memory_segments p)) /\
  NoDup (map fst (public_memory p)) /\ (N.of_nat (length (public_memory p)) < two64)%N /\
  (N.of_nat (num_steps p) < two64)%N.

(** Same public inputs up to the iteration order of the two maps. *)
Definition same_up_to_order (p q : public_inputs F) : Prop :=
  pc_init p = pc_init q /\ ap_init p = ap_init q /\ fp_init p = fp_init q /\
  pc_final p = pc_final q /\ ap_final p = ap_final q /\
  range_check_min p = range_check_min q /\ range_check_max p = range_check_max q /\
  num_steps p = num_steps q /\
  Permutation (memory_segments p) (memory_segments q) /\ Permutation (public_memory p) (public_memory q).

Definition decodes (b : list byte) : Prop := fe_from C b <> None.

(** The exact shape of inputs that make [PublicInputs::deserialize] panic: an 8-byte element width n,
    five n-byte elements that decode, and then a cut-off range-check bound. *)
Definition pub_panic_shape (bs : list byte) : Prop :=
  exists hdr e1 e2 e3 e4 e5 t,
    bs = hdr ++ e1 ++ e2 ++ e3 ++ e4 ++ e5 ++ t /\ length hdr = 8 /\
    (forall e, In e [e1; e2; e3; e4; e5] -> N.of_nat (length e) = be_val hdr /\ decodes e) /\
    (cut16 t \/ exists t1 t2, t = t1 ++ t2 /\ whole16 t1 /\ cut16 t2).

End Spec.
