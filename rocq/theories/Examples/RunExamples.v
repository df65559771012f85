(** Concrete valid runs: the three-step program of [MiniRun] with its stack right after the program, and with a gap. *)
From Coq Require Import List NArith ZArith Bool Lia.
From Verif.Base Require Import Outcome Field Poly Zp.
From Verif.Model Require Import Codec PublicInputs Trace Air CairoDecode CairoTrace CairoAir CairoRunner.
From Verif.Spec Require Import CairoSpec AirSpec CairoColumns CairoRun.
From Verif.Proofs Require Import CairoAirFacts.
From Verif.Examples Require Import Toy Stark252 MiniRun.
Import ListNotations.

(** The same program with its stack at 12: cells 6 to 9 are not used. *)
Definition gap_memory : @cairo_memory stark :=
  map (fun av => (fst av, f252 (Z.of_N (snd av)) : stark))
    [(1, 0x480680017fff8000); (2, 3); (3, 0x400680017fff7fff); (4, 3); (5, 0x208b7fff7fff7ffe); (10, 8); (11, 9); (12, 3)]%N.
Definition gap_regs : list registers_state := [mk_regs 1 12 12; mk_regs 3 12 13; mk_regs 5 12 13].

Ltac by_value := apply zp_eq; vm_compute; reflexivity.
Ltac read_at n := exists n; split; [reflexivity|]; split; [by_value|reflexivity].
Ltac defined_tac := unfold defined_instruction, allowed_flags, one_hot; repeat split; try (vm_compute; tauto); try (vm_compute; discriminate).
Ltac one_step pc w d o0 o1 :=
  exists w;
  match goal with |- context[reads ?m] =>
    let get n := (let v := eval cbv [mem_get map_get m map N.eqb Pos.eqb fst snd Z.of_N mini_memory gap_memory] in (mem_get m n) in
                  match v with Some ?x => x end) in
    let vd := get d in let v0 := get o0 in let v1 := get o1 in
    exists vd, v0, v1, v1; split; [constructor|]
  end;
  [reflexivity|read_at pc|read_at d|read_at o0|read_at o1|
   intros _; by_value|by_value|by_value|by_value|vm_compute; discriminate|
   let H := fresh in intro H; solve [by_value|vm_compute in H; discriminate H]|].

Definition after_ret : cpu_state stark := mk_state (f252 9 : stark) (f252 9 : stark) (f252 8 : stark).

Lemma mini_step1 : executes mini_memory (mk_regs 1 8 8) (state_of (mk_regs 3 8 9)).
Proof. one_step 1%N 0x480680017fff8000%N 8%N 7%N 2%N. split; [defined_tac|vm_compute; discriminate]. Qed.
Lemma mini_step2 : executes mini_memory (mk_regs 3 8 9) (state_of (mk_regs 5 8 9)).
Proof. one_step 3%N 0x400680017fff7fff%N 8%N 7%N 4%N. split; [defined_tac|vm_compute; discriminate]. Qed.
Lemma mini_step3 : executes mini_memory (mk_regs 5 8 9) after_ret.
Proof. one_step 5%N 0x208b7fff7fff7ffe%N 6%N 7%N 7%N. split; [defined_tac|vm_compute; discriminate]. Qed.
Lemma gap_step1 : executes gap_memory (mk_regs 1 12 12) (state_of (mk_regs 3 12 13)).
Proof. one_step 1%N 0x480680017fff8000%N 12%N 11%N 2%N. split; [defined_tac|vm_compute; discriminate]. Qed.
Lemma gap_step2 : executes gap_memory (mk_regs 3 12 13) (state_of (mk_regs 5 12 13)).
Proof. one_step 3%N 0x400680017fff7fff%N 12%N 11%N 4%N. split; [defined_tac|vm_compute; discriminate]. Qed.
Lemma gap_step3 : executes gap_memory (mk_regs 5 12 13) (mk_state (f252 9 : stark) (f252 13 : stark) (f252 8 : stark)).
Proof. one_step 5%N 0x208b7fff7fff7ffe%N 10%N 11%N 11%N. split; [defined_tac|vm_compute; discriminate]. Qed.

Lemma three_steps (m : @cairo_memory stark) t1 t2 t3 s : in_range t1 -> in_range t2 -> in_range t3 ->
  executes m t1 (state_of t2) -> executes m t2 (state_of t3) -> executes m t3 s -> valid_run m [t1; t2; t3].
Proof.
  intros R1 R2 R3 E1 E2 E3. split; [discriminate|]. split; [now do 3 (constructor; [assumption|])|].
  intros [|[|[|i]]] t Ht; cbn in Ht; [injection Ht as <-..|now destruct i].
  - exists (state_of t2). split; [exact E1|]. cbn. intros t' H. now injection H as <-.
  - exists (state_of t3). split; [exact E2|]. cbn. intros t' H. now injection H as <-.
  - exists s. split; [exact E3|]. cbn. intros t' H. discriminate H.
Qed.
Lemma mini_valid : valid_run mini_memory mini_regs.
Proof. apply (three_steps _ _ _ _ after_ret); [repeat split..|exact mini_step1|exact mini_step2|exact mini_step3]. Qed.
Lemma gap_valid : valid_run gap_memory gap_regs.
Proof. eapply three_steps; [repeat split..|exact gap_step1|exact gap_step2|exact gap_step3]. Qed.

(** [mini] can be proved: no outputs, and the program is in memory. *)
Lemma mini_provable : provable_run mini_memory mini_regs 5 None None.
Proof.
  constructor; try discriminate.
  - exact mini_valid.
  - intros t H. injection H as <-. discriminate.
  - reflexivity.
  - intros i Hi. assert (Hc : In i (nrange 1 6)).
    { apply in_map_iff. exists (N.to_nat (i - 1)). split; [lia|]. apply in_seq. lia. }
    vm_compute in Hc. repeat (destruct Hc as [<-|Hc]; [vm_compute; discriminate|]). destruct Hc.
  - left. reflexivity.
Qed.

(** With cell 8 as output and range-checked cell: it is written by the first step, and cell 6 is read by the return. *)
Lemma mini_touches_8 : touches mini_memory (mk_regs 1 8 8) (e_u64 stark 8).
Proof.
  exists 0x480680017fff8000%N, (f252 9 : stark). split; [reflexivity|]. split; [read_at 1%N|]. cbv zeta. split; [read_at 7%N|].
  right. left. by_value.
Qed.
Lemma mini_touches_6 : touches mini_memory (mk_regs 5 8 9) (e_u64 stark 6).
Proof.
  exists 0x208b7fff7fff7ffe%N, (f252 9 : stark). split; [reflexivity|]. split; [read_at 5%N|]. cbv zeta. split; [read_at 7%N|].
  right. left. by_value.
Qed.
Lemma mini_provable_output : provable_run mini_memory mini_regs 5 (Some (8, 9)%N) (Some (8, 9)%N).
Proof.
  constructor.
  - exact mini_valid.
  - intros t H. injection H as <-. discriminate.
  - reflexivity.
  - apply (pr_program _ _ _ _ _ mini_provable).
  - left. reflexivity.
  - intros lo hi a H Ha. injection H as <- <-. assert (a = 8%N) as -> by lia. eexists. split; [reflexivity|]. vm_compute. reflexivity.
  - intros lo hi H. injection H as <- <-. split; [discriminate|]. split; [lia|]. split; [lia|]. split.
    + intros i Hi. assert (i = 8%N) as -> by lia. split; [discriminate|]. exists (mk_regs 1 8 8). split; [now left|exact mini_touches_8].
    + intros i Hi _. assert (i = 6%N) as -> by lia. exists (mk_regs 5 8 9). split; [now do 2 right; left|exact mini_touches_6].
Qed.

(** The run with a gap, with cell 12 as its output and an empty range-check segment. *)
Definition gap_main : outcome (trace_table stark * public_inputs stark) :=
  generate_prover_args gap_regs gap_memory 5 (Some (13, 13)%N) (Some (12, 13)%N).
Definition gap_pi : public_inputs stark :=
  match gap_main with Ok (_, pi) => pi | _ => mk_public_inputs fzero fzero fzero fzero fzero None None [] [] 0 end.
Definition gap_table : trace_table stark := match gap_main with Ok (t, _) => t | _ => mk_trace [] 0 end.
Lemma gap_main_ok : gap_main = Ok (gap_table, gap_pi).
Proof.
  assert (H : match gap_main with Ok _ => true | _ => false end = true) by (vm_compute; reflexivity).
  unfold gap_table, gap_pi. destruct gap_main as [[t pi]| |]; [reflexivity|discriminate H..].
Qed.
(** Eight rows of 43 columns; no access goes to cell 6, which is not public, but the first step accesses cell 12. *)
Lemma gap_shape : tt_n_cols gap_table = 43%nat /\ length (tt_table gap_table) = 344%nat /\ cairo_width gap_pi = 61%nat.
Proof. vm_compute. repeat split. Qed.
Lemma gap_not_accessed : forallb (fun k => negb (feqb (nth (k / 4 * 43 + (19 + k mod 4))%nat (tt_table gap_table) fzero) (f252 6 : stark))) (seq 0 32) = true.
Proof. vm_compute. reflexivity. Qed.
Lemma gap_not_public : existsb (feqb (f252 6 : stark)) (map fst (public_memory gap_pi)) = false.
Proof. vm_compute. reflexivity. Qed.
Lemma gap_above : (ce_repr (f252 6 : stark) < ce_repr (nth (0 / 4 * 43 + (19 + 1)) (tt_table gap_table) fzero))%N.
Proof. vm_compute. reflexivity. Qed.
