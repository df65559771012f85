(** From a finished VM run to a proof. Sources: src/cairo/runner/vec_writer.rs:27-58,
    src/cairo/register_states.rs:51-78, src/cairo/cairo_mem.rs:35-61, src/cairo/runner/run.rs:195-279,
    src/cairo/air.rs:1165-1182. The Cairo VM itself is not modelled: its relocated trace and memory are inputs. *)
From Coq Require Import List Arith NArith Bool.
From Verif.Base Require Import Outcome Bytes Field Poly.
From Verif.Model Require Import Codec PublicInputs Trace Air Transcript Prover Verifier CairoDecode CairoTrace CairoAir.
Import ListNotations.
Local Open Scope outcome_scope.

(** vec_writer.rs:27-39 *)
Definition write_encoded_trace (entries : list registers_state) : list byte :=
  flat_map (fun e => le_bytes 8 (r_ap e) ++ le_bytes 8 (r_fp e) ++ le_bytes 8 (r_pc e)) entries.

(** vec_writer.rs:46-58; a [Felt252] of the VM is its canonical integer, [to_le_bytes] its 32 bytes. *)
Definition write_encoded_memory (cells : list (option N)) : list byte :=
  flat_map (fun x => match snd x with
                     | None => []
                     | Some v => le_bytes 8 (N.of_nat (fst x)) ++ le_bytes 32 v
                     end) (combine (seq 0 (length cells)) cells).

(** register_states.rs:51-78; slices whose length is fixed by the bounds, so [try_into().unwrap()] cannot fail. *)
Definition regs_from_bytes_le (bs : list byte) : outcome (list registers_state) :=
  if negb (length bs mod 24 =? 0) then Err IncorrectNumberOfBytes else
  traverse (fun i =>
      ap <- slice bs (i * 24) (i * 24 + 8);;
      fp <- slice bs (i * 24 + 8) (i * 24 + 16);;
      pc <- slice bs (i * 24 + 16) (i * 24 + 24);;
      Ok (mk_regs (le_val pc) (le_val fp) (le_val ap))) (seq 0 (length bs / 24)).

Section CairoRunner.
Context {C : cairo_env}.

(** cairo_mem.rs:35-61; [FE::from_bytes_le] of 32 bytes succeeds and gives the element of that integer. *)
Definition mem_from_bytes_le (bs : list byte) : outcome (@cairo_memory C) :=
  if negb (length bs mod 40 =? 0) then Err IncorrectNumberOfBytes else
  ofold (fun m i =>
      a <- slice bs (i * 40) (i * 40 + 8);;
      v <- slice bs (i * 40 + 8) (i * 40 + 40);;
      Ok (map_insert N.eqb (le_val a) (e_u64 C (le_val v)) m)) (seq 0 (length bs / 40)) [].

(** run.rs:265-279 *)
Definition create_memory_segment_map (rc output : option (N * N)) : list (memory_segment * (N * N)) :=
  let m := match rc with Some r => map_insert segment_eqb RangeCheck r [] | None => [] end in
  match output with Some r => map_insert segment_eqb Output r m | None => m end.

(** run.rs:242-263, after the VM has returned its trace, memory, program size and range-check segment. *)
Definition generate_prover_args (raw : list registers_state) (m : @cairo_memory C) (program_size : N)
  (rc output : option (N * N)) : outcome (trace_table C * public_inputs C) :=
  let segments := create_memory_segment_map rc output in
  pi <- from_regs_and_mem raw m program_size segments;;
  build_main_trace raw m pi.

(** air.rs:1165-1171 *)
Definition generate_cairo_proof (fuel : nat) (main : trace_table C) (pi : public_inputs C) (opts : proof_options)
  : outcome (stark_proof C) := prove C fuel (cairo_air pi opts) main.

(** air.rs:1176-1182 *)
Definition verify_cairo_proof (fuel : nat) (p : stark_proof C) (pi : public_inputs C) (opts : proof_options)
  : outcome bool := verify C fuel (cairo_air pi opts) opts p.
End CairoRunner.
