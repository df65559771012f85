(** The whole command, around the Cairo VM and the file system. Sources: src/main.rs, src/cairo/runner/run.rs:37-42 and 195-263,
    src/cairo/cairo_layout.rs. The VM is a function from the version, the name of the layout and the contents of the program file to
    what the code reads off a finished run; timings are not printed, and after a panic neither the messages nor the files matter. *)
From Coq Require Import List Arith NArith Bool.
From Coq.Strings Require Import String Byte.
From Verif.Base Require Import Outcome Bytes Field Poly.
From Verif.Model Require Import Codec PublicInputs Trace Air Options CairoDecode CairoTrace CairoAir CairoRunner Cli.
Import ListNotations.
Local Open Scope outcome_scope.

(** run.rs:39-42 *)
Inductive cairo_version := V0 | V1.

(** cairo_layout.rs:1-31 *)
Inductive cairo_layout :=
  Plain | Small | Dex | Recursive | Starknet | StarknetWithKeccak | RecursiveLargeOutput | AllCairo | AllSolidity | Dynamic.
Definition layout_as_str (l : cairo_layout) : string :=
  match l with
  | Plain => "plain" | Small => "small" | Dex => "dex" | Recursive => "recursive" | Starknet => "starknet"
  | StarknetWithKeccak => "starknet_with_keccak" | RecursiveLargeOutput => "recursive_large_output" | AllCairo => "all_cairo"
  | AllSolidity => "all_solidity" | Dynamic => "dynamic"
  end%string.

(** What run.rs:194-227 reads off the VM and its runner: the relocated trace and memory, the length of the program, the sizes of the
    segments, and the segment and stop offset of the range-check builtin, if the layout has one. *)
Record vm_run := mk_vm_run {
  v_trace : list registers_state;
  v_memory : list (option N);
  v_data_len : N;
  v_segment_size : nat -> option nat;
  v_range_check : option (nat * option nat)
}.

(** run.rs:216-232; [usize] additions do not overflow. *)
Definition range_check_range (v : vm_run) : option (N * N) :=
  match v_range_check v with
  | None => None
  | Some (index, stop_offset) =>
      let stop_offset := match stop_offset with Some s => s | None => 0 end in
      let base := fold_left (fun acc i => acc + match v_segment_size v i with Some s => s | None => 0 end) (seq 0 index) 1 in
      Some (N.of_nat base, N.of_nat (base + stop_offset))
  end.

(** Prefixes and [str::contains]. *)
Fixpoint starts_with (n s : string) : bool :=
  match n, s with
  | EmptyString, _ => true
  | String a n', String b s' => Ascii.eqb a b && starts_with n' s'
  | _, _ => false
  end.
Fixpoint str_contains (n s : string) : bool :=
  starts_with n s || match s with EmptyString => false | String _ s' => str_contains n s' end.

(** The printed lines, without the timings. *)
Inductive message :=
| MUsage | MUsageProve | MUsageVerify | MUsageProveAndVerify | MUnknown (command : string)
| MRunningCasm | MRunning | MErrorOpening (path : string) | MErrorArgs | MMaking | MErrorProof
| MErrorWriting (path : string) | MWritten (path : string) | MErrorReading (path : string)
| MVerifying | MSucceeded | MFailed.

(** [std::fs::read] and [std::fs::write]; a write that fails changes nothing. *)
Record files := mk_files { f_read : string -> option (list byte); f_writable : string -> bool }.
Definition f_write (w : files) (path : string) (bs : list byte) : option files :=
  if f_writable w path then Some (mk_files (fun q => if String.eqb q path then Some bs else f_read w q) (f_writable w)) else None.

Section Main.
Context {C : cairo_env} (vm : cairo_version -> string -> list byte -> outcome vm_run).
(** The iteration orders of the hash maps of the public inputs when they are serialized and when they are traversed. *)
Context (order order' : public_inputs C -> public_inputs C) (fuel : nat).

(** run.rs:64-240 *)
Definition run_program (layout : cairo_layout) (program_content : list byte) (version : cairo_version)
  : outcome (list registers_state * @cairo_memory C * N * option (N * N)) :=
  v <- vm version (layout_as_str layout) program_content;;
  cairo_mem <- unwrap_r (mem_from_bytes_le (C := C) (write_encoded_memory (v_memory v)));;
  register_states <- unwrap_r (regs_from_bytes_le (write_encoded_trace (v_trace v)));;
  Ok (register_states, cairo_mem, v_data_len v, range_check_range v).

(** run.rs:242-263 *)
Definition prover_args_of (program_content : list byte) (version : cairo_version) (output : option (N * N))
  : outcome (trace_table C * public_inputs C) :=
  let layout := match version with V0 => Small | V1 => Plain end in
  '(raw, m, program_size, rc) <- run_program layout program_content version;;
  generate_prover_args raw m program_size rc output.

(** main.rs:14-20 *)
Definition version_of (input_path : string) : cairo_version := if str_contains ".casm" input_path then V1 else V0.

(** main.rs:10-50: the lines printed, and the proof if there is one. *)
Definition generate_proof (w : files) (input_path : string) : outcome (list message * option (stark_proof C * public_inputs C)) :=
  let version := version_of input_path in
  let out := [match version with V1 => MRunningCasm | V0 => MRunning end] in
  match f_read w input_path with
  | None => Ok (out ++ [MErrorOpening input_path], None)
  | Some program_content =>
      match prover_args_of program_content version None with
      | Panic => Panic
      | Err _ => Ok (out ++ [MErrorArgs], None)
      | Ok (main_trace, pub_inputs) =>
          match generate_cairo_proof fuel main_trace pub_inputs default_test_options with
          | Panic => Panic
          | Err _ => Ok (out ++ [MMaking; MErrorProof], None)
          | Ok proof => Ok (out ++ [MMaking], Some (proof, pub_inputs))
          end
      end
  end.

(** main.rs:52-70 *)
Definition verify_proof (proof : stark_proof C) (pub_inputs : public_inputs C) : outcome (list message * bool) :=
  b <- verify_cairo_proof fuel proof pub_inputs default_test_options;;
  Ok ([MVerifying; if b : bool then MSucceeded else MFailed], b).

(** main.rs:85-109 *)
Definition main_prove (w : files) (args : list string) : outcome (files * list message) :=
  match args with
  | _ :: _ :: input_path :: output_path :: _ =>
      '(out, result) <- generate_proof w input_path;;
      match result with
      | None => Ok (w, out)
      | Some (proof, pub_inputs) =>
          bytes <- file_write (e_codec C) proof (order pub_inputs);;
          match f_write w output_path bytes with
          | None => Ok (w, out ++ [MErrorWriting output_path])
          | Some w' => Ok (w', out ++ [MWritten output_path])
          end
      end
  | _ => Ok (w, [MUsageProve])
  end.

(** main.rs:110-144; the result of [verify_proof] is dropped. *)
Definition main_verify (w : files) (args : list string) : outcome (files * list message) :=
  match args with
  | _ :: _ :: input_path :: _ =>
      match f_read w input_path with
      | None => Ok (w, [MErrorOpening input_path])
      | Some program_content =>
          match file_read feqb (e_codec C) program_content with
          | Panic => Panic
          | Err _ => Ok (w, [MErrorReading input_path])
          | Ok (proof, pub_inputs) => '(out, _) <- verify_proof proof (order' pub_inputs);; Ok (w, out)
          end
      end
  | _ => Ok (w, [MUsageVerify])
  end.

(** main.rs:145-156 *)
Definition main_prove_and_verify (w : files) (args : list string) : outcome (files * list message) :=
  match args with
  | _ :: _ :: input_path :: _ =>
      '(out, result) <- generate_proof w input_path;;
      match result with
      | None => Ok (w, out)
      | Some (proof, pub_inputs) => '(out', _) <- verify_proof proof pub_inputs;; Ok (w, out ++ out')
      end
  | _ => Ok (w, [MUsageProveAndVerify])
  end.

(** main.rs:72-161 *)
Definition main (w : files) (args : list string) : outcome (files * list message) :=
  match args with
  | _ :: command :: _ =>
      if String.eqb command "prove" then main_prove w args
      else if String.eqb command "verify" then main_verify w args
      else if String.eqb command "prove_and_verify" then main_prove_and_verify w args
      else Ok (w, [MUnknown command])
  | _ => Ok (w, [MUsage])
  end.

(** The exit status of a Rust process whose [main] returns (): 0, or 101 after a panic. *)
Definition exit_status {A} (x : outcome A) : N := match x with Panic => 101 | _ => 0 end.
End Main.
