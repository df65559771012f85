(** What the benchmarks of the verifier load and time. Sources: benches/criterion_verifier.rs:17-28 and 64-74,
    benches/criterion_verifier_70k.rs:18-29 and 62-72 (the same code). *)
From Coq Require Import List Arith NArith.
From Verif.Base Require Import Outcome Bytes Field Poly.
From Verif.Model Require Import Codec PublicInputs Trace Air Options CairoDecode CairoTrace CairoAir CairoRunner.
Import ListNotations.
Local Open Scope outcome_scope.

Section Bench.
Context {C : cairo_env}.

(** criterion_verifier.rs:17-28: [load_proof_and_pub_inputs] on the contents of the file. The lengths are not compared first, and
    both results are unwrapped. *)
Definition bench_load (bs : list byte) : outcome (stark_proof C * public_inputs C) :=
  h <- slice_to 8 bs;;
  let proof_len := be_val h in
  bs <- slice_from 8 bs;;
  pb <- slice_to proof_len bs;;
  p <- unwrap_r (stark_deserialize (e_codec C) pb);;
  rest <- slice_from proof_len bs;;
  pi <- unwrap_r (pub_deserialize feqb (e_codec C) rest);;
  Ok (p, pi).

(** criterion_verifier.rs:70 *)
Definition bench_options : proof_options := new_secure Provable80Bits 3.

(** criterion_verifier.rs:64-74: the value of the timed call, which [black_box] discards; [order] is the iteration order of the
    maps that were read. *)
Definition bench_timed (order : public_inputs C -> public_inputs C) (fuel : nat) (bs : list byte) : outcome bool :=
  '(p, pi) <- bench_load bs;;
  verify_cairo_proof fuel p (order pi) bench_options.
End Bench.
