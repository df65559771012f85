(** The row built for a step of a valid run satisfies the CPU constraints. *)
From Coq Require Import List Arith NArith ZArith Bool Lia.
From Verif.Base Require Import Outcome Field Poly.
From Verif.Model Require Import Codec PublicInputs Trace Air CairoDecode CairoTrace CairoAir.
From Verif.Spec Require Import CairoSpec CairoRun.
From Verif.Proofs Require Import FieldFacts OutcomeFacts FFTFacts TraceFacts DecodeFacts CpuFacts BuildFacts.
Import ListNotations.
Local Open Scope felt_scope.

Section Step.
Context {C : cairo_env} {p : N} (HC : cairo_ok C p).
Let HK : field_ok C := fft_field_ok _ (e_fft_ok _ (co_env _ _ HC)).
Add Field Kfield38 : (fld_th C HK).
Local Notation "r .[ i ]" := (nth i r (fzero : C)) (at level 2, format "r .[ i ]").

Lemma big_p : (2 ^ 65 < p)%N. Proof using HC. apply (co_p _ _ HC). Qed.

(** The value of a u64 plus a biased offset. *)
Lemma address_value base o n : (base < 2 ^ 64)%N -> (o < 2 ^ 16)%N -> (n < 2 ^ 64)%N ->
  e_u64 C n = e_u64 C base + offset_value o <-> (n + 2 ^ 15 = base + o)%N.
Proof using HC.
  intros Hb Ho Hn. pose proof big_p as Hp. change (2 ^ 65)%N with 36893488147419103232%N in *. change (2 ^ 64)%N with 18446744073709551616%N in *.
  change (2 ^ 16)%N with 65536%N in *. change (2 ^ 15)%N with 32768%N.
  unfold offset_value. change (2 ^ 15)%N with 32768%N. split; intro H.
  - apply (u64_inj HC); [lia|lia|]. rewrite !(co_add _ _ HC), H. ring.
  - assert (E : e_u64 C n + e_u64 C 32768 = e_u64 C base + e_u64 C o) by (rewrite <- !(co_add _ _ HC); now rewrite H).
    transitivity (e_u64 C n + e_u64 C 32768 - e_u64 C 32768); [ring|]. rewrite E. ring.
Qed.

Lemma addr_value_reads m base o v : (base < 2 ^ 64)%N -> (o < 2 ^ 16)%N -> reads m (e_u64 C base + offset_value o) v ->
  addr_value m base (Z.of_N o - 2 ^ 15) = Ok (e_u64 C base + offset_value o, v).
Proof using HC.
  intros Hb Ho (n & Hn & En & Hm). symmetry in En. pose proof (proj1 (address_value base o n Hb Ho Hn) En) as E.
  unfold addr_value, checked_add_signed.
  assert (Ez : (Z.of_N base + (Z.of_N o - 2 ^ 15) = Z.of_N n)%Z) by (change (2 ^ 15)%N with 32768%N in *; change (2 ^ 15)%Z with 32768%Z; lia).
  rewrite Ez. change (2 ^ 64)%N with 18446744073709551616%N in *. change (2 ^ 64)%Z with 18446744073709551616%Z.
  destruct (Z.leb_spec 0 (Z.of_N n)); [|lia]. destruct (Z.ltb_spec (Z.of_N n) 18446744073709551616); [|lia].
  cbn [andb unwrap obind]. rewrite N2Z.id, Hm. cbn [unwrap obind]. now rewrite En.
Qed.
Lemma addr_value_inv m base o x : addr_value m base o = Ok x ->
  exists n, (n < 2 ^ 64)%N /\ (Z.of_N n = Z.of_N base + o)%Z /\ mem_get m n = Some (snd x) /\ fst x = e_u64 C n.
Proof using Type.
  unfold addr_value, checked_add_signed. intro H. apply obind_ok in H. destruct H as (n & En & H). apply unwrap_ok in En.
  apply obind_ok in H. destruct H as (v & Ev & H). apply unwrap_ok in Ev. apply ok_inj in H. subst x. cbn [fst snd].
  destruct ((0 <=? Z.of_N base + o)%Z && (Z.of_N base + o <? 2 ^ 64)%Z)%bool eqn:B; [|discriminate].
  apply andb_prop in B. destruct B as [B1 B2]. apply Z.leb_le in B1. apply Z.ltb_lt in B2. injection En as <-.
  exists (Z.to_N (Z.of_N base + o)). change (2 ^ 64)%Z with 18446744073709551616%Z in *. change (2 ^ 64)%N with 18446744073709551616%N.
  repeat split; [lia|lia|exact Ev].
Qed.

(** What decoding a step gives. *)
Lemma step_decoded m s : step_ok m s -> let w := ce_repr (sd_inst s) in
  flags_match w (sd_flags s) /\ sd_offsets s = decode_offsets (sd_inst s) /\ sd_rf s = map (flag_bit w) (seq 0 15) ++ [0] /\
  sd_ro s = [e_u64 C (off_dst w); e_u64 C (off_op0 w); e_u64 C (off_op1 w)].
Proof using HC.
  intros H w. destruct H as [Hd _ _ _ _ _ Hrf Hro Hi]. unfold instruction_flags_and_offsets in Hd. rewrite Hi in Hd. cbn [ok_or obind] in Hd.
  apply obind_ok in Hd. destruct Hd as (f & Ef & Hd). apply ok_inj in Hd. injection Hd as Ef' Eo. subst f.
  apply decode_flags_ok in Ef. fold w in Ef. rewrite <- Eo in Hro. rewrite offsets_repr_value in Hro. apply ok_inj in Hro.
  rewrite (flags_repr_bits _ _ Ef) in Hrf. apply ok_inj in Hrf. auto.
Qed.

(** ** A row with the right cells satisfies the formulas *)
Definition row_of (c : list C) (w : N) (f : instruction_flags) (dst op0 op1 res : C) (t : cpu_state C) : Prop :=
  firstn 16 c = map (flag_bit w) (seq 0 15) ++ [0] /\ flags_match w f /\
  c.[16] = res /\ c.[17] = s_ap t /\ c.[18] = s_fp t /\ c.[19] = s_pc t /\
  c.[20] = (if (dst_reg_of w =? 1)%N then s_fp t else s_ap t) + offset_value (off_dst w) /\
  c.[21] = (if (op0_reg_of w =? 1)%N then s_fp t else s_ap t) + offset_value (off_op0 w) /\
  c.[22] = op1_base w t op0 + offset_value (off_op1 w) /\
  c.[23] = e_u64 C w /\ c.[24] = dst /\ c.[25] = op0 /\ c.[26] = op1 /\
  c.[27] = e_u64 C (off_dst w) /\ c.[28] = e_u64 C (off_op0 w) /\ c.[29] = e_u64 C (off_op1 w) /\
  c.[30] = c.[9] * dst /\ c.[31] = c.[30] * res /\ c.[32] = op0 * op1.

Lemma row_flags c w f : firstn 16 c = map (flag_bit w) (seq 0 15) ++ [0] -> flags_match w f ->
  (c.[0] = dst_reg_repr (if_dst_reg f) /\ c.[1] = op0_reg_repr (if_op0_reg f)) /\
  (c.[4], c.[3], c.[2]) = op1_src_repr (if_op1_src f) /\
  Ok (c.[6], c.[5]) = res_logic_repr (if_res_logic f) /\
  (c.[9], c.[8], c.[7]) = pc_update_repr (if_pc_update f) /\
  Ok (c.[11], c.[10]) = ap_update_repr (if_ap_update f) /\
  (c.[14], c.[13], c.[12]) = opcode_repr (if_opcode f).
Proof using HC.
  intros H M. pose proof (flags_repr_bits (C := C) w f M) as R. rewrite <- H in R. unfold flags_repr in R.
  assert (G : forall i, (i < 16)%nat -> nth i (firstn 16 c) 0 = c.[i]).
  { intros i Hi. rewrite <- (firstn_skipn 16 c) at 2. rewrite app_nth1; [reflexivity|].
    apply (f_equal (@length _)) in H. rewrite H, app_length, map_length, seq_length. cbn. lia. }
  destruct (op1_src_repr _) as [[x y] z]. apply obind_ok in R. destruct R as ([r1 r2] & Er & R).
  destruct (pc_update_repr _) as [[a b] d]. apply obind_ok in R. destruct R as ([a1 a2] & Ea & R). destruct (opcode_repr _) as [[o1 o2] o3].
  apply ok_inj in R. rewrite <- !G, <- R by lia. cbn [nth]. rewrite Er, Ea. repeat split.
Qed.

Ltac bits3 H := let a := fresh in let b := fresh in let c := fresh in injection H as a b c; rewrite ?a, ?b, ?c.
Ltac bits2 H := let a := fresh in let b := fresh in injection H as a b; rewrite ?a, ?b.
Lemma b15 : fpow (e_u64 C 2) 15 = e_u64 C (2 ^ 15).
Proof using HC. symmetry. apply (u64_pow2 HC 15). Qed.
Lemma two_u64 : e_u64 C 2 = 1 + 1. Proof using HC. apply (u64_two HC). Qed.

Lemma cpu_complete M w f dst op0 op1 res t t' (c n : list C) : (34 <= length c)%nat ->
  cpu_step M w dst op0 op1 res t t' -> defined_instruction w ->
  (pc_update_of w = 4%N -> dst <> 0 -> dst * res = 1) ->
  row_of c w f dst op0 op1 res t -> n.[17] = s_ap t' -> n.[18] = s_fp t' -> n.[19] = s_pc t' ->
  forall i, (i < 15)%nat -> nth i (cpu_formulas c n) 0 = 0.
Proof using HC.
  intros Hlen St [Hallow [Hdef1 Hdef2]] Hjnz R N17 N18 N19 i Hi.
  destruct R as (Hfl & M1 & E16 & E17 & E18 & E19 & E20 & E21 & E22 & E23 & E24 & E25 & E26 & E27 & E28 & E29 & E30 & E31 & E32).
  destruct (row_flags _ _ _ Hfl M1) as ([B0 B1] & B2 & B3 & B4 & B5 & B6).
  destruct M1 as (Md & M0 & Mo1 & Mr & Mp & Ma & Mo).
  destruct St as [Sw Si Sd S0 S1 Sr Spc Sap Sfp Sc Sa].
  unfold cpu_formulas. cbv zeta. rewrite b15, two_u64, N17, N18, N19, E31, E30, E16, E17, E18, E19, E20, E21, E22, E23, E24, E25, E26, E27, E28, E29, E32.
  assert (Hsize : c.[2] + 1 = instruction_size w).
  { unfold instruction_size. rewrite Mo1. destruct (if_op1_src f); cbn in *; bits3 B2; cbn; ring. }
  rewrite Hsize.
  destruct i as [|[|[|[|[|[|[|[|[|[|[|[|[|[|[|i]]]]]]]]]]]]]]]; cbn [nth]; [..|exfalso; lia].
  - (* INST *)
    assert (Hsq : squiggle c = e_u64 C (word_of_bits (map (fun i => N.testbit w (48 + N.of_nat i)) (seq 0 15)))).
    { apply (squiggle_bits HC). rewrite map_map. unfold of_bool. change (map (fun x => if N.testbit w (48 + N.of_nat x) then 1 else 0) (seq 0 15))
        with (map (flag_bit (C := C) w) (seq 0 15)).
      transitivity (firstn 15 (firstn 16 c)); [now rewrite firstn_firstn|]. rewrite Hfl. rewrite firstn_app, map_length, seq_length, firstn_all2, Nat.sub_diag; [apply app_nil_r|].
      rewrite map_length, seq_length. lia. }
    rewrite Hsq. rewrite <- two_u64. rewrite <- (u64_pow2 HC 16), <- (u64_pow2 HC 32), <- (u64_pow2 HC 48).
    change (N.of_nat 16) with 16%N. change (N.of_nat 32) with 32%N. change (N.of_nat 48) with 48%N.
    rewrite <- !(co_mul _ _ HC), <- !(co_add _ _ HC), <- word_fields by exact Sw. ring.
  - rewrite B0, Md. unfold offset_value. destruct (if_dst_reg f); cbn; ring.
  - rewrite B1, M0. unfold offset_value. destruct (if_op0_reg f); cbn; ring.
  - unfold op1_base, offset_value. rewrite Mo1. destruct (if_op1_src f); cbn in *; bits3 B2; ring.
  - (* NEXT_AP *)
    rewrite Sap, Ma, Mo. rewrite Ma, Mo in Hdef2.
    destruct (if_ap_update f) eqn:Ea; cbn in B5; try discriminate; bits2 B5;
      destruct (if_opcode f) eqn:Eo; cbn in *; bits3 B6; try ring;
      exfalso; specialize (Hdef2 eq_refl); discriminate.
  - rewrite Sfp, Mo. destruct (if_opcode f); cbn in *; bits3 B6; ring.
  - (* NEXT_PC_1 *)
    rewrite Spc, Mp. rewrite Mp in Hjnz. destruct (if_pc_update f); cbn in *; bits3 B4; try ring.
    destruct (feqb dst 0) eqn:Ez; [apply (feqb_spec C HK) in Ez; rewrite Ez; ring|].
    apply (feqb_false HK) in Ez. replace (1 * dst * res) with (dst * res) by ring. rewrite (Hjnz eq_refl Ez). ring.
  - (* NEXT_PC_2 *)
    rewrite Spc, Mp. destruct (if_pc_update f); cbn in *; bits3 B4; try ring.
    destruct (feqb dst 0) eqn:Ez; [apply (feqb_spec C HK) in Ez; rewrite Ez; ring|]. ring.
  - ring.
  - ring.
  - ring.
  - (* MUL_2 *)
    rewrite Mp, Mr in *. destruct (if_pc_update f) eqn:Ep; cbn in B4; bits3 B4.
    4:{ destruct (Hdef1 eq_refl) as [Hr0 _]. destruct (if_res_logic f); cbn in *; try discriminate. bits2 B3. ring. }
    all: assert (Er : res = match res_code (if_res_logic f) with 1%N => op0 + op1 | 2%N => op0 * op1 | _ => op1 end) by (apply Sr; discriminate);
      rewrite Er; destruct (if_res_logic f); cbn in *; try discriminate; bits2 B3; ring.
  - (* CALL_1 *) rewrite Mo in Sc. destruct (if_opcode f); cbn in *; bits3 B6; try ring. destruct (Sc eq_refl) as [-> _]. ring.
  - rewrite Mo in Sc. destruct (if_opcode f); cbn in *; bits3 B6; try ring. destruct (Sc eq_refl) as [_ ->]. ring.
  - rewrite Mo in Sa. destruct (if_opcode f); cbn in *; bits3 B6; try ring. rewrite (Sa eq_refl). ring.
Qed.

(** ** The builder produces such a row *)
Lemma defined_flags w : allowed_flags w -> exists f, flags_match w f.
Proof using Type.
  intros (H1 & H2 & H3 & H4 & H5). apply one_hot_op1 in H1. apply one_hot_res in H2. apply one_hot_pc in H3. apply one_hot_ap in H4. apply one_hot_opc in H5.
  destruct H1 as (o & H1), H2 as (r & H2), H3 as (pu & H3), H4 as (a & H4), H5 as (oc & H5), (dst_exists w) as (d & Hd), (op0_exists w) as (o0 & H0).
  exists (mk_flags oc a pu r o o0 d). unfold flags_match. auto 10.
Qed.

Lemma reads_functional (m : @cairo_memory C) a v v' : reads m a v -> reads m a v' -> v = v'.
Proof using HC.
  intros (n & Hn & En & Mn) (n' & Hn' & En' & Mn'). pose proof big_p as Hp. rewrite En in En'.
  apply (u64_inj HC) in En'; [subst n'; congruence|..]; change (2 ^ 65)%N with 36893488147419103232%N in *; change (2 ^ 64)%N with 18446744073709551616%N in *; lia.
Qed.
Theorem step_built m t s' : in_range t -> executes m t s' ->
  exists s, sd_regs s = t /\ (step_ok m s /\ fst (sd_upd s) = (snd (sd_op0 s), snd (sd_dst s)) /\
      forall a, touches m t a <-> In a [e_u64 C (r_pc t); fst (sd_dst s); fst (sd_op0 s); fst (sd_op1 s)]) /\
    forall sel extra (n : list C), n.[17] = s_ap s' -> n.[18] = s_fp s' -> n.[19] = s_pc s' ->
      forall i, (i < 15)%nat -> nth i (cpu_formulas (step_row s sel ++ extra) n) 0 = 0.
Proof using HC.
  intros (Rpc & Rap & Rfp) (w & dst & op0 & op1 & res & St & Hdef & Hop0). pose proof big_p as Hp.
  destruct (defined_flags w (proj1 Hdef)) as (f & M).
  pose proof St as St0. destruct St0 as [Sw Si Sd S0 S1 Sr Spc Sap Sfp Sc Sa].
  assert (Hw : ce_repr (e_u64 C w) = w).
  { apply (repr_small HC). change (2 ^ 65)%N with 36893488147419103232%N in *. change (2 ^ 63)%N with 9223372036854775808%N in *. lia. }
  assert (Hbits : forall a, (bits_of w a 16 < 2 ^ 16)%N) by (intro a; apply bits_of_lt).
  assert (Hi : mem_get m (r_pc t) = Some (e_u64 C w)).
  { destruct Si as (n & Hn & En & Hm). cbn [state_of s_pc] in En. apply (u64_inj HC) in En;
      [now rewrite En|change (2 ^ 65)%N with 36893488147419103232%N in *; change (2 ^ 64)%N with 18446744073709551616%N in *; lia..]. }
  assert (Hoff : decode_offsets (e_u64 C w) = mk_offsets (Z.of_N (off_dst w) - 2 ^ 15) (Z.of_N (off_op0 w) - 2 ^ 15) (Z.of_N (off_op1 w) - 2 ^ 15)).
  { unfold decode_offsets. rewrite !(decode_offset_value) by lia. now rewrite Hw. }
  pose (ad := (if (dst_reg_of w =? 1)%N then e_u64 C (r_fp t) else e_u64 C (r_ap t)) + offset_value (off_dst w)).
  pose (a0 := (if (op0_reg_of w =? 1)%N then e_u64 C (r_fp t) else e_u64 C (r_ap t)) + offset_value (off_op0 w)).
  pose (a1 := op1_base w (state_of t) op0 + offset_value (off_op1 w)).
  pose proof M as (Md & M0 & Mo1 & Mr & Mp & Ma & Mo).
  (* the computed operands *)
  assert (Ed : compute_dst m f (decode_offsets (e_u64 C w)) t = Ok (ad, dst)).
  { unfold compute_dst. rewrite Hoff. cbn [io_dst]. unfold ad. rewrite Md in Sd |- *. cbn [state_of s_fp s_ap] in Sd.
    destruct (if_dst_reg f); cbn [dst_code N.eqb Pos.eqb] in Sd |- *; (apply addr_value_reads; [assumption|apply Hbits|exact Sd]). }
  assert (E0 : compute_op0 m f (decode_offsets (e_u64 C w)) t = Ok (a0, op0)).
  { unfold compute_op0. rewrite Hoff. cbn [io_op0]. unfold a0. rewrite M0 in S0 |- *. cbn [state_of s_fp s_ap] in S0.
    destruct (if_op0_reg f); cbn [op0_code N.eqb Pos.eqb] in S0 |- *; (apply addr_value_reads; [assumption|apply Hbits|exact S0]). }
  assert (E1 : compute_op1 m f (decode_offsets (e_u64 C w)) op0 t = Ok (a1, op1)).
  { unfold compute_op1. rewrite Hoff. cbn [io_op1]. unfold a1. unfold op1_base in S1 |- *. rewrite Mo1 in S1, Hop0 |- *. cbn [state_of s_fp s_ap s_pc] in S1 |- *.
    destruct (if_op1_src f); cbn [op1_code] in S1, Hop0 |- *;
      [|apply addr_value_reads; [change (2 ^ 64)%N with 18446744073709551616%N in *; lia|apply Hbits|exact S1]..].
    assert (El : e_u64 C (last_nim op0) = op0).
    { unfold last_nim. rewrite N.mod_small by (now apply Hop0). apply (co_u64_repr _ _ HC). }
    pose proof (addr_value_reads m (last_nim op0) (off_op1 w) op1) as A. rewrite El in A. apply A; [apply N.mod_lt; discriminate|apply Hbits|exact S1]. }
  set (upd_res := if (pc_update_of w =? 4)%N then (if feqb dst 0 then dst else finv dst) else res).
  assert (Er : compute_res f op0 op1 dst = Ok upd_res).
  { unfold compute_res, upd_res. rewrite Mp in *. destruct Hdef as (_ & Hd1 & _). rewrite Mp, Mr, Mo, Ma in Hd1.
    destruct (if_pc_update f) eqn:Ep; cbn [pc_code N.eqb Pos.eqb] in *.
    4:{ destruct (Hd1 eq_refl) as (R1 & R2 & R3). destruct (if_res_logic f); cbn in R1; try discriminate. destruct (if_opcode f); cbn in R2; try discriminate.
        destruct (if_ap_update f); cbn in R3; try congruence; (destruct (feqb dst 0) eqn:Ez; [reflexivity|]; unfold inv_o; now rewrite Ez). }
    all: rewrite (Sr ltac:(discriminate)), Mr; destruct (if_res_logic f) eqn:Erl; cbn [res_code]; try reflexivity;
      exfalso; unfold res_logic_of in Mr; pose proof (bits_of_lt w 53 2) as L; rewrite Mr in L; cbn in L; lia. }
  (* update_values leaves the operands as they are *)
  assert (Eu : update_values f t op0 dst upd_res = Ok (op0, dst, if (opcode_of w =? 4)%N then dst else upd_res)).
  { unfold update_values. rewrite Mo in *. destruct (if_opcode f) eqn:Eo; cbn [opc_code N.eqb Pos.eqb] in *; try reflexivity.
    destruct (Sc eq_refl) as [Sc1 Sc2]. cbn [state_of s_fp s_pc] in Sc1, Sc2.
    assert (Hsz : e_u64 C (r_pc t + match if_op1_src f with Op1Imm => 2 | _ => 1 end) = op0).
    { rewrite Sc2. unfold instruction_size. rewrite Mo1. destruct (if_op1_src f); cbn [op1_code N.eqb Pos.eqb]; rewrite (co_add _ _ HC), ?(u64_two HC), ?(co_one _ _ HC); reflexivity. }
    rewrite (proj2 (N.ltb_lt _ _)) by (destruct (if_op1_src f); change (2 ^ 64)%N with 18446744073709551616%N in *; lia).
    now rewrite Hsz, Sc1. }
  assert (Eres : (if (opcode_of w =? 4)%N then dst else upd_res) = upd_res).
  { destruct (N.eqb_spec (opcode_of w) 4) as [E|]; [|reflexivity]. rewrite (Sa E). unfold upd_res.
    destruct (N.eqb_spec (pc_update_of w) 4) as [E'|]; [|reflexivity].
    destruct Hdef as (_ & Hd1 & _). destruct (Hd1 E') as (_ & Z & _). congruence. }
  rewrite Eres in Eu.
  pose (rf := map (flag_bit (C := C) w) (seq 0 15) ++ [0]). pose (ro := [e_u64 C (off_dst w); e_u64 C (off_op0 w); e_u64 C (off_op1 w)]).
  pose (s := mk_step t f (decode_offsets (e_u64 C w)) (ad, dst) (a0, op0) (a1, op1) upd_res (op0, dst, upd_res) rf ro (e_u64 C w)).
  exists s. split; [reflexivity|]. split.
  - split; [|split; [reflexivity|]].
    2:{ intro a. split.
        2:{ intro Ha. exists w, op0. split; [exact Sw|]. split; [exact Si|]. cbv zeta. fold a0 ad a1.
            split; [|cbn [s sd_dst sd_op0 sd_op1 fst In] in Ha; destruct Ha as [<-|[<-|[<-|[<-|[]]]]]; tauto].
            unfold a0. exact S0. }
        intros (w' & op0' & Hw' & Hi' & H0' & Ha). cbv zeta in H0', Ha. cbn [s sd_dst sd_op0 sd_op1 fst].
        assert (w' = w).
        { pose proof (reads_functional m _ _ _ Hi' Si) as E. apply (u64_inj HC) in E; [exact E|..];
            change (2 ^ 65)%N with 36893488147419103232%N in *; change (2 ^ 63)%N with 9223372036854775808%N in *; lia. }
        subst w'. fold a0 in H0', Ha. fold ad in Ha.
        assert (E0' : op0' = op0) by (apply (reads_functional m a0); assumption).
        subst op0'. fold a1 in Ha. destruct Ha as [->|[->|[->| ->]]]; cbn [In]; tauto. }
    constructor; cbn [s sd_regs sd_flags sd_offsets sd_dst sd_op0 sd_op1 sd_res sd_upd sd_rf sd_ro sd_inst snd]; try assumption.
    + unfold instruction_flags_and_offsets. rewrite Hi. cbn [ok_or obind]. assert (D : decode_flags (e_u64 C w) = Ok f) by (apply decode_flags_ok; now rewrite Hw).
      now rewrite D.
    + now apply flags_repr_bits.
    + unfold ro. rewrite offsets_repr_value. now rewrite Hw.
  - intros sel extra n N17 N18 N19.
    assert (Lrf : length rf = 16%nat) by reflexivity.
    apply (cpu_complete (reads m) w f dst op0 op1 upd_res (state_of t) s').
    + unfold step_row. cbn [s sd_upd sd_rf sd_ro]. rewrite !app_length, Lrf. cbn. lia.
    + constructor; try assumption.
      * intro Hn. unfold upd_res. rewrite (proj2 (N.eqb_neq _ _) Hn). now apply Sr.
      * rewrite Spc. unfold upd_res. destruct (N.eqb_spec (pc_update_of w) 4) as [->|]; reflexivity.
      * rewrite Sap. unfold upd_res. destruct (N.eqb_spec (pc_update_of w) 4) as [E|]; [|reflexivity].
        destruct Hdef as (_ & Hd1 & _). destruct (Hd1 E) as (_ & _ & Z). destruct (ap_update_of w) as [|[q|[q|q|]|]]; try reflexivity. congruence.
      * intro E. unfold upd_res. destruct (N.eqb_spec (pc_update_of w) 4) as [E'|]; [|now apply Sa].
        destruct Hdef as (_ & Hd1 & _). destruct (Hd1 E') as (_ & Z & _). congruence.
    + exact Hdef.
    + intros E Hnz. unfold upd_res. rewrite E. cbn [N.eqb Pos.eqb]. destruct (feqb dst 0) eqn:Ez; [apply (feqb_spec C HK) in Ez; contradiction|].
      field. exact Hnz.
    + unfold row_of, step_row. cbn [s sd_upd sd_rf sd_ro sd_regs sd_dst sd_op0 sd_op1 sd_inst fst snd].
      split; [|split; [exact M|]].
      * rewrite <- app_assoc, firstn_app, Lrf, Nat.sub_diag, firstn_all2 by lia. apply app_nil_r.
      * unfold rf. cbn [seq map app nth ro]. repeat split.
    + exact N17.
    + exact N18.
    + exact N19.
Qed.
End Step.
