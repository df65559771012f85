(** The command line. Source: src/main.rs. Reading and writing files, printing and the VM are not modelled: [prove] starts from the
    VM's relocated trace and memory and ends with the bytes of the file; [verify] starts from these bytes. *)
From Coq Require Import List Arith NArith.
From Verif.Base Require Import Outcome Bytes Field Poly.
From Verif.Model Require Import Codec PublicInputs Trace Air Options CairoDecode CairoTrace CairoAir CairoRunner.
Local Open Scope outcome_scope.

Section Cli.
Context {C : cairo_env}.

(** main.rs:10-50: no output range is given. *)
Definition cli_generate_proof (fuel : nat) (raw : list registers_state) (m : @cairo_memory C) (program_size : N) (rc : option (N * N))
  : outcome (stark_proof C * public_inputs C) :=
  '(main_trace, pub_inputs) <- generate_prover_args raw m program_size rc None;;
  proof <- generate_cairo_proof fuel main_trace pub_inputs default_test_options;;
  Ok (proof, pub_inputs).

(** main.rs:85-109. The public inputs are serialized in the iteration order of their hash maps, which [order] chooses. *)
Definition cli_prove (order : public_inputs C -> public_inputs C) (fuel : nat) (raw : list registers_state) (m : @cairo_memory C)
    (program_size : N) (rc : option (N * N)) : outcome (list byte) :=
  '(proof, pub_inputs) <- cli_generate_proof fuel raw m program_size rc;;
  file_write (e_codec C) proof (order pub_inputs).

(** main.rs:52-70 and 110-144; [order] is the iteration order of the maps that were read. *)
Definition cli_verify (order : public_inputs C -> public_inputs C) (fuel : nat) (file : list byte) : outcome bool :=
  '(proof, pub_inputs) <- file_read feqb (e_codec C) file;;
  verify_cairo_proof fuel proof (order pub_inputs) default_test_options.

(** main.rs:145-156 *)
Definition cli_prove_and_verify (fuel : nat) (raw : list registers_state) (m : @cairo_memory C) (program_size : N) (rc : option (N * N))
  : outcome bool :=
  '(proof, pub_inputs) <- cli_generate_proof fuel raw m program_size rc;;
  verify_cairo_proof fuel proof pub_inputs default_test_options.
End Cli.
