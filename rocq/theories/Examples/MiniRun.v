(** A three-step Cairo run on the Stark field: [ap] = 3, ap++; assert [ap-1] = 3; ret. *)
From Coq Require Import List NArith ZArith Bool Lia.
From Verif.Base Require Import Outcome Field Poly Zp.
From Verif.Model Require Import Codec PublicInputs Trace Air CairoDecode CairoTrace CairoAir CairoRunner.
From Verif.Spec Require Import CairoSpec AirSpec CairoColumns.
From Verif.Proofs Require Import CairoAirFacts.
From Verif.Examples Require Import Toy Stark252.
Import ListNotations.

Definition mini_memory : @cairo_memory stark :=
  map (fun av => (fst av, f252 (Z.of_N (snd av)) : stark))
    [(1, 0x480680017fff8000); (2, 3); (3, 0x400680017fff7fff); (4, 3); (5, 0x208b7fff7fff7ffe); (6, 8); (7, 9); (8, 3)]%N.
Definition mini_regs : list registers_state := [mk_regs 1 8 8; mk_regs 3 8 9; mk_regs 5 8 9].
Definition mini_main : outcome (trace_table stark * public_inputs stark) :=
  generate_prover_args mini_regs mini_memory 5 None None.
Definition mini_challenges : cairo_challenges stark := mk_challenges (f252 5 : stark) (f252 1000 : stark) (f252 100000 : stark).

(** The columns of a row-major table. *)
Definition columns_of (t : trace_table stark) : list (list stark) :=
  map (fun j => map (fun i => nth (i * tt_n_cols t + j) (tt_table t) fzero) (seq 0 (tt_n_rows t))) (seq 0 (tt_n_cols t)).
Definition mini_pi : public_inputs stark :=
  match mini_main with Ok (_, pi) => pi | _ => mk_public_inputs fzero fzero fzero fzero fzero None None [] [] 0 end.
Definition mini_table : trace_table stark := match mini_main with Ok (t, _) => t | _ => mk_trace [] 0 end.
Definition mini_aux : outcome (trace_table stark) := cairo_build_aux mini_pi mini_table mini_challenges.
(** The columns of both tables, computed once. *)
Definition mini_values : list (list Z) := Eval vm_compute in
  map (map (fun x : stark => zval (x : zp stark_p)))
    (columns_of mini_table ++ match mini_aux with Ok t => columns_of t | _ => [] end).
Definition mini_cols : list (list stark) := map (map (fun x => f252 x : stark)) mini_values.
Lemma mini_main_values : map (map (fun x : stark => zval (x : zp stark_p))) (columns_of mini_table) = firstn 34 mini_values.
Proof. vm_compute. reflexivity. Qed.

Lemma mini_width : length mini_cols = cairo_width mini_pi. Proof. vm_compute. reflexivity. Qed.
Lemma mini_boundary : boundaryb mini_pi mini_challenges mini_cols 8 = true. Proof. vm_compute. reflexivity. Qed.
Lemma mini_transitions : holdsb mini_pi mini_challenges mini_cols 8 (seq 0 (n_constraints mini_pi)) = true.
Proof. vm_compute. reflexivity. Qed.
Lemma mini_satisfies opts : trace_satisfies (cairo_air mini_pi opts 8) mini_challenges mini_cols 8.
Proof. exact (checked_satisfies (co_env _ _ stark_ok) mini_pi opts mini_challenges mini_cols 8 mini_width mini_boundary mini_transitions). Qed.
