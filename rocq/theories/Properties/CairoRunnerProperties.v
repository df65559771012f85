(** C43, C44, C45: dumps, declared columns and public inputs of a run. *)
From Coq Require Import List Arith NArith ZArith Bool Lia.
From Coq.Strings Require Import Byte.
From Verif.Base Require Import Outcome Bytes Field Poly Zp.
From Verif.Model Require Import Codec PublicInputs Trace Air Transcript Prover CairoDecode CairoTrace CairoAir CairoRunner.
From Verif.Spec Require Import CairoSpec.
From Verif.Proofs Require Import OutcomeFacts DecodeFacts CairoAirFacts RunnerFacts WidthFacts PublicInputsFacts TraceFacts.
From Verif.Examples Require Import Toy Stark252 MiniRun.
Import ListNotations.

(** ** C43 *)
Theorem C43_trace_roundtrip : forall entries,
  Forall (fun e => r_pc e < 2 ^ 64 /\ r_fp e < 2 ^ 64 /\ r_ap e < 2 ^ 64)%N entries ->
  regs_from_bytes_le (write_encoded_trace entries) = Ok entries.
Proof. exact trace_roundtrip. Qed.
Print Assumptions C43_trace_roundtrip.
Theorem C43_trace_bad_length_rejected : forall bs,
  (length bs mod 24 <> 0)%nat -> regs_from_bytes_le bs = Err IncorrectNumberOfBytes.
Proof.
  intros bs H. unfold regs_from_bytes_le. destruct (length bs mod 24 =? 0)%nat eqn:E; [apply Nat.eqb_eq in E; congruence|reflexivity].
Qed.
Print Assumptions C43_trace_bad_length_rejected.
(** No buffer makes either reader panic. *)
Theorem C43_trace_reader_total : forall bs, regs_from_bytes_le bs <> Panic.
Proof.
  intros bs H. unfold regs_from_bytes_le in H. destruct (length bs mod 24 =? 0)%nat eqn:E; cbn [negb] in H; [|discriminate].
  apply Nat.eqb_eq in E. pose proof (Nat.div_mod (length bs) 24 ltac:(lia)) as D. rewrite E in D.
  erewrite (traverse_map _ (fun i => mk_regs (le_val (firstn 8 (skipn (i * 24 + 16) bs))) (le_val (firstn 8 (skipn (i * 24 + 8) bs)))
      (le_val (firstn 8 (skipn (i * 24) bs))))) in H; [discriminate|].
  intros i Hi. apply in_seq in Hi. rewrite !slice_in by lia. cbn [obind].
  replace (i * 24 + 8 - i * 24)%nat with 8%nat by lia. replace (i * 24 + 16 - (i * 24 + 8))%nat with 8%nat by lia.
  now replace (i * 24 + 24 - (i * 24 + 16))%nat with 8%nat by lia.
Qed.
Print Assumptions C43_trace_reader_total.
Theorem C43_memory_roundtrip : forall (C : cairo_env) (cells : list (option N)),
  (N.of_nat (length cells) <= 2 ^ 64)%N -> (forall v, In (Some v) cells -> v < 2 ^ 256)%N ->
  exists m, mem_from_bytes_le (C:=C) (write_encoded_memory cells) = Ok m /\
  forall a, mem_get m a = match nth_error cells (N.to_nat a) with Some (Some v) => Some (e_u64 C v) | _ => None end.
Proof. exact @memory_roundtrip. Qed.
Print Assumptions C43_memory_roundtrip.
Theorem C43_memory_bad_length_rejected : forall (C : cairo_env) bs,
  (length bs mod 40 <> 0)%nat -> mem_from_bytes_le (C:=C) bs = Err IncorrectNumberOfBytes.
Proof.
  intros C bs H. unfold mem_from_bytes_le. destruct (length bs mod 40 =? 0)%nat eqn:E; [apply Nat.eqb_eq in E; congruence|reflexivity].
Qed.
Print Assumptions C43_memory_bad_length_rejected.
Theorem C43_memory_reader_total : forall (C : cairo_env) bs, mem_from_bytes_le (C:=C) bs <> Panic.
Proof.
  intros C bs H. unfold mem_from_bytes_le in H. destruct (length bs mod 40 =? 0)%nat eqn:E; cbn [negb] in H; [|discriminate].
  apply Nat.eqb_eq in E. pose proof (Nat.div_mod (length bs) 40 ltac:(lia)) as D. rewrite E in D.
  erewrite (ofold_pure _ (fun m i => map_insert N.eqb (le_val (firstn 8 (skipn (i * 40) bs))) (e_u64 C (le_val (firstn 32 (skipn (i * 40 + 8) bs)))) m)) in H; [discriminate|].
  intros i m Hi. apply in_seq in Hi. rewrite !slice_in by lia. cbn [obind].
  replace (i * 40 + 8 - i * 40)%nat with 8%nat by lia. now replace (i * 40 + 40 - (i * 40 + 8))%nat with 32%nat by lia.
Qed.
Print Assumptions C43_memory_reader_total.
Example C43_example : regs_from_bytes_le (write_encoded_trace mini_regs) = Ok mini_regs /\
  regs_from_bytes_le (tl (write_encoded_trace mini_regs)) = Err IncorrectNumberOfBytes.
Proof. split; vm_compute; reflexivity. Qed.
Example C43_example_memory : match mem_from_bytes_le (C:=stark) (write_encoded_memory [None; Some 7%N; None; Some (2 ^ 200)%N]) with
  | Ok m => match mem_get m 1, mem_get m 2, mem_get m 3 with
            | Some a, None, Some b => feqb a (f252 7 : stark) && feqb b (f252 (2 ^ 200) : stark)
            | _, _, _ => false
            end
  | _ => false
  end = true.
Proof. vm_compute. reflexivity. Qed.

(** ** C44 *)

(** The table of the prover, with its auxiliary columns, has the width the AIR declares exactly when there is no
    segment or the range-check one is there. *)
Theorem C44_declared_width_iff :
  forall (C : cairo_env) raw (m : @cairo_memory C) pi t pi' opts n, build_main_trace raw m pi = Ok (t, pi') ->
  (tt_n_cols t + a_n_aux (cairo_air pi' opts n) = trace_columns (a_context (cairo_air pi' opts n)) <->
   memory_segments pi = [] \/ map_get segment_eqb RangeCheck (memory_segments pi) <> None)%nat.
Proof.
  intros C raw m pi t pi' opts n H. apply main_trace_width in H. destruct H as [H Hs].
  cbn [cairo_air a_n_aux a_context]. unfold number_auxiliary_rap_columns. rewrite cairo_width_declared. unfold cairo_width, builtin_offset, has_rc_builtin.
  rewrite Hs, H. unfold rc_present. destruct (memory_segments pi) as [|sg sgs]; [cbn; tauto|].
  destruct (map_get segment_eqb RangeCheck (sg :: sgs)); unfold BUILTIN_OFFSET; split; intro G.
  - right. discriminate.
  - lia.
  - exfalso. lia.
  - destruct G as [G|G]; [discriminate|]. now destruct G.
Qed.
Print Assumptions C44_declared_width_iff.

(** The segment maps of the runner: the two disagree exactly for a run with an output segment and no range checks. *)
Theorem C44_runner_segments_agree_iff :
  forall (C : cairo_env) raw (m : @cairo_memory C) size rc out t pi opts n,
  generate_prover_args raw m size rc out = Ok (t, pi) ->
  (tt_n_cols t + a_n_aux (cairo_air pi opts n) = trace_columns (a_context (cairo_air pi opts n)) <->
   ~ (rc = None /\ out <> None))%nat.
Proof.
  intros C raw m size rc out t pi opts n H. unfold generate_prover_args in H. apply obind_ok in H. destruct H as (pi0 & Hp & H).
  rewrite (C44_declared_width_iff C raw m pi0 t pi opts n H). apply from_regs_ok in Hp. destruct Hp as (_ & _ & ->).
  cbn [memory_segments]. unfold create_memory_segment_map. 
  destruct rc as [r|], out as [o|]; cbn; split; intro G;
    first [ intros [G1 G2]; first [discriminate | now apply G2 | destruct G as [G|G]; [discriminate|now apply G]]
          | right; discriminate | now left | exfalso; apply G; split; [reflexivity|discriminate] ].
Qed.
Print Assumptions C44_runner_segments_agree_iff.

(** Such a run cannot be proved: whatever the options, [generate_cairo_proof] does not return a proof. *)
Theorem C44_output_only_runs_cannot_be_proved :
  forall (C : cairo_env) raw (m : @cairo_memory C) size out t pi opts fuel prf,
  generate_prover_args raw m size None (Some out) = Ok (t, pi) ->
  (1 <= blowup_factor opts)%nat -> (1 <= tt_n_rows t)%nat ->
  generate_cairo_proof fuel t pi opts <> Ok prf.
Proof.
  intros C raw m size out t pi opts fuel prf H Hb Hn Hp.
  unfold generate_cairo_proof in Hp. apply prove_reads_wide_rows in Hp.
  2:{ cbn [cairo_air a_trace_length a_options]. unfold a_options. cbn [a_context cairo_air cairo_context ctx_options]. nia. }
  destruct Hp as (rap & aux & fr & evals & Haux & Htr & Hw).
  unfold generate_prover_args in H. apply obind_ok in H. destruct H as (pi0 & Hp & H). apply main_trace_width in H. destruct H as [W Hs].
  assert (Hseg : memory_segments pi = [(Output, out)]).
  { rewrite Hs. apply from_regs_ok in Hp. destruct Hp as (_ & _ & ->). reflexivity. }
  cbn [cairo_air a_build_aux a_transition] in Haux, Htr.
  assert (Wa : tt_n_cols aux = 18%nat).
  { unfold cairo_build_aux in Haux. repeat (apply obind_ok in Haux; destruct Haux as (? & _ & Haux)).
    destruct x1. destruct (sort_columns_by_memory_address l l0). repeat (apply obind_ok in Haux; destruct Haux as (? & _ & Haux)).
    apply ok_inj in Haux. now subst aux. }
  assert (Wm : tt_n_cols t = 34%nat).
  { rewrite W. unfold rc_present. rewrite <- Hs, Hseg. reflexivity. }
  unfold cairo_transition in Htr. apply obind_ok in Htr. destruct Htr as (curr & Hc & Htr). apply obind_ok in Htr. destruct Htr as (next & _ & Htr).
  unfold fr_get_row in Hc. apply slice_ok in Hc. destruct Hc as (_ & Hl & ->).
  unfold builtin_offset, has_rc_builtin in Htr. rewrite Hseg in Htr.
  assert (L : (length (firstn (0 * fr_row_width fr + fr_row_width fr - 0 * fr_row_width fr) (skipn (0 * fr_row_width fr) (fr_data fr))) = 52)%nat).
  { rewrite firstn_length, skipn_length. lia. }
  rewrite L in Htr. cbn in Htr. discriminate.
Qed.
Print Assumptions C44_output_only_runs_cannot_be_proved.
Example C44_example : match generate_prover_args mini_regs mini_memory 5 None (Some (7, 8)%N) with
  | Ok (t, _) => Nat.eqb (tt_n_cols t) 34 && Nat.leb 1 (tt_n_rows t) | _ => false end = true /\
  match generate_prover_args mini_regs mini_memory 5 (Some (7, 9)%N) None with
  | Ok (t, _) => Nat.eqb (tt_n_cols t) 43 | _ => false end = true.
Proof. split; vm_compute; reflexivity. Qed.

(** ** C45 *)
Definition public_cell (size : N) (output : option (N * N)) (i : N) : Prop :=
  (1 <= i <= size)%N \/ match output with Some (lo, hi) => (lo <= i < hi)%N | None => False end.

Lemma public_list_cell size out i : In i (public_list size out) <-> public_cell size out i.
Proof.
  unfold public_list, public_cell. rewrite in_app_iff, nrange_in. destruct out as [[lo hi]|]; [rewrite nrange_in|cbn [In]]; lia.
Qed.

Theorem C45_public_inputs_of_a_run :
  forall (C : cairo_env) p, cairo_ok C p -> forall raw (m : @cairo_memory C) size segments pi,
  let output := map_get segment_eqb Output segments in
  (forall i, public_cell size output i -> (i < p)%N) ->
  from_regs_and_mem raw m size segments = Ok pi ->
  (forall a v, map_get feqb a (public_memory pi) = Some v <->
     exists i, public_cell size output i /\ a = e_u64 C i /\ mem_get m i = Some v) /\
  NoDup (map fst (public_memory pi)) /\
  num_steps pi = length raw /\ memory_segments pi = segments /\
  (exists r0 rl rest pre, raw = r0 :: rest /\ raw = pre ++ [rl] /\
     pc_init pi = e_u64 C (r_pc r0) /\ ap_init pi = e_u64 C (r_ap r0) /\ fp_init pi = e_u64 C (r_fp r0) /\
     pc_final pi = e_u64 C (r_pc rl) /\ ap_final pi = e_u64 C (r_ap rl)) /\
  range_check_min pi = None /\ range_check_max pi = None.
Proof.
  intros C p HC raw m size segments pi output Hlt H. apply from_regs_ok in H. fold output in H. destruct H as (Hr & Hf & ->). cbv zeta.
  cbn [public_memory num_steps memory_segments pc_init ap_init fp_init pc_final ap_final range_check_min range_check_max].
  split; [|split; [|split; [|split; [|split]]]]; try reflexivity.
  - intros a v. rewrite (public_get HC) by (try exact Hf; intros i Hi; apply Hlt; now apply public_list_cell).
    split; intros (i & Hi & E); exists i; (split; [now apply public_list_cell|exact E]).
  - apply (public_nodup HC).
  - destruct raw as [|r0 rest] eqn:E; [congruence|]. destruct (exists_last Hr) as (pre & rl & El).
    exists r0, rl, rest, pre. repeat split; try reflexivity; try exact El.
    + rewrite El, last_last. reflexivity.
    + rewrite El, last_last. reflexivity.
  - auto.
Qed.
Print Assumptions C45_public_inputs_of_a_run.

(** It succeeds exactly on non-empty traces whose public cells are all in memory. *)
Theorem C45_public_inputs_succeed_iff :
  forall (C : cairo_env) raw (m : @cairo_memory C) size segments,
  (exists pi, from_regs_and_mem raw m size segments = Ok pi) <->
  raw <> [] /\ forall i, public_cell size (map_get segment_eqb Output segments) i -> mem_get m i <> None.
Proof.
  intros C raw m size segments. split.
  - intros (pi & H). apply from_regs_ok in H. destruct H as (Hr & Hf & _). split; [exact Hr|].
    intros i Hi. rewrite Forall_forall in Hf. apply Hf. now apply public_list_cell.
  - intros [Hr Hf]. eexists. apply from_regs_ok. split; [exact Hr|]. split; [|reflexivity].
    apply Forall_forall. intros i Hi. apply Hf. now apply public_list_cell.
Qed.
Print Assumptions C45_public_inputs_succeed_iff.

(** When the output cells lie after the program, the addresses the AIR takes for public memory are the keys of the
    map, program first. *)
Theorem C45_public_addresses_are_the_keys :
  forall (C : cairo_env) p, cairo_ok C p -> forall raw (m : @cairo_memory C) size segments pi,
  let output := map_get segment_eqb Output segments in
  (forall i, public_cell size output i -> (i < p)%N) ->
  match output with Some (lo, hi) => (size < lo /\ lo <= hi)%N | None => True end ->
  from_regs_and_mem raw m size segments = Ok pi ->
  get_pub_memory_addrs pi = Ok (map fst (public_memory pi)) /\
  map fst (public_memory pi) = map (e_u64 C) (nrange 1 (size + 1)) ++
    match output with Some (lo, hi) => map (e_u64 C) (nrange lo hi) | None => [] end.
Proof.
  intros C p HC raw m size segments pi output Hlt Hd H. apply from_regs_ok in H. fold output in H. destruct H as (_ & _ & ->). cbv zeta.
  unfold get_pub_memory_addrs. cbn [public_memory memory_segments]. fold output.
  rewrite (public_entries HC); [|intros i Hi; apply Hlt; now apply public_list_cell|].
  2:{ apply public_list_nodup. destruct output as [[lo hi]|]; tauto. }
  rewrite map_length, public_keys. unfold public_list. destruct output as [[lo hi]|].
  - rewrite app_length, !nrange_length, map_app.
    destruct (N.ltb_spec hi lo); [lia|]. destruct (N.ltb_spec (N.of_nat (N.to_nat (size + 1 - 1) + N.to_nat (hi - lo))) (hi - lo)); [lia|].
    split; [|reflexivity]. do 3 f_equal. f_equal. lia.
  - rewrite !app_nil_r, nrange_length. split; [|reflexivity]. do 2 f_equal. f_equal. lia.
Qed.
Print Assumptions C45_public_addresses_are_the_keys.
Example C45_example : exists pi, from_regs_and_mem mini_regs mini_memory 5 [(Output, (7, 9)%N)] = Ok pi /\
  length (public_memory pi) = 7%nat /\ num_steps pi = 3%nat /\
  map_get feqb (f252 8 : stark) (public_memory pi) <> None /\ map_get feqb (f252 6 : stark) (public_memory pi) = None.
Proof.
  destruct (proj2 (C45_public_inputs_succeed_iff stark mini_regs mini_memory 5 [(Output, (7, 9)%N)])) as [pi H].
  - split; [discriminate|]. intros i [Hi|Hi]; cbn in Hi.
    + assert (Hc : In i (nrange 1 6)) by (apply nrange_in; lia). vm_compute in Hc.
      repeat (destruct Hc as [<-|Hc]; [vm_compute; discriminate|]). destruct Hc.
    + assert (Hc : In i (nrange 7 9)) by (apply nrange_in; lia). vm_compute in Hc.
      repeat (destruct Hc as [<-|Hc]; [vm_compute; discriminate|]). destruct Hc.
  - exists pi. split; [exact H|]. apply from_regs_ok in H. destruct H as (_ & _ & ->). cbv zeta. cbn [public_memory num_steps].
    split; [vm_compute; reflexivity|]. split; [reflexivity|]. split; [vm_compute; discriminate|vm_compute; reflexivity].
Qed.
