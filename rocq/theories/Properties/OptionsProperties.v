(** C38, C39: checked construction of proof options. *)
From Coq Require Import List Arith NArith ZArith Lia Bool.
From Verif.Base Require Import Outcome Bytes Poly.
From Verif.Model Require Import Air Options.
Import ListNotations.
Local Open Scope N_scope.

Lemma tz_pow2 k : u8_trailing_zeros (2 ^ N.of_nat k) = N.of_nat k.
Proof.
  unfold u8_trailing_zeros. destruct (2 ^ N.of_nat k) as [|p] eqn:E.
  - exfalso. pose proof (N.pow_nonzero 2 (N.of_nat k)). lia.
  - f_equal. revert p E. induction k as [|k IH]; intros p E.
    + injection E as <-. reflexivity.
    + rewrite Nat2N.inj_succ, N.pow_succ_r' in E. destruct (2 ^ N.of_nat k) as [|q]; [discriminate|].
      injection E as <-. cbn. f_equal. now apply IH.
Qed.
Lemma lz_pow2 k : u8_leading_zeros (2 ^ k) = 7 - k.
Proof.
  unfold u8_leading_zeros. destruct (2 ^ k) as [|p] eqn:E.
  - exfalso. pose proof (N.pow_nonzero 2 k). lia.
  - rewrite <- E. now rewrite N.log2_pow2 by lia.
Qed.
Lemma usize_ok m x : (0 <= x < 2 ^ 64)%Z -> usize_arith m x = Ok (Z.to_N x).
Proof.
  intros H. unfold usize_arith.
  now rewrite (proj2 (Z.leb_le 0 x)), (proj2 (Z.ltb_lt x (2 ^ 64))) by lia.
Qed.

(** ** C38 *)

(** For a power-of-two blowup the options are accepted iff the field is large enough for the target and
    the conjectured security, [grinding + log2 blowup * queries - 1], strictly exceeds the target. *)
Theorem C38_checked_security_exact :
  forall m bits k queries offset grinding target,
    (k <= 7)%nat -> queries < 2 ^ 60 -> grinding < 256 -> 1 <= grinding + N.of_nat k * queries ->
    new_with_checked_security m bits (2 ^ N.of_nat k) queries offset grinding target =
    if (target + 40 <? bits) && (target <? grinding + N.of_nat k * queries - 1)
    then Ok (mk_options (2 ^ k) (N.to_nat queries) offset grinding) else Err OtherError.
Proof.
  intros m bits k queries offset grinding target Hk Hq Hg H1.
  unfold new_with_checked_security, check_field_security. rewrite N.mul_1_r.
  destruct (N.ltb_spec (target + 40) bits) as [Hb|Hb].
  2:{ rewrite (proj2 (N.leb_le _ _) Hb). reflexivity. }
  rewrite (proj2 (N.leb_gt _ _) Hb). cbn [obind]. rewrite tz_pow2.
  assert (Hkq : N.of_nat k * queries <= 7 * 2 ^ 60) by (apply N.mul_le_mono; lia).
  change (7 * 2 ^ 60) with 8070450532247928832 in Hkq.
  change (2 ^ 64)%Z with 18446744073709551616%Z in *.
  rewrite usize_ok by (change (2 ^ 64)%Z with 18446744073709551616%Z; lia). cbn [obind].
  rewrite usize_ok by (change (2 ^ 64)%Z with 18446744073709551616%Z; lia). cbn [obind].
  rewrite usize_ok by (change (2 ^ 64)%Z with 18446744073709551616%Z; lia). cbn [obind andb].
  replace (Z.to_N (Z.of_N (Z.to_N (Z.of_N grinding + Z.of_N (Z.to_N (Z.of_N (N.of_nat k) * Z.of_N queries)))) - 1))
    with (grinding + N.of_nat k * queries - 1) by lia.
  replace (N.to_nat (2 ^ N.of_nat k)) with (2 ^ k)%nat
    by (rewrite N2Nat.inj_pow, Nat2N.id; reflexivity).
  destruct (N.ltb_spec target (grinding + N.of_nat k * queries - 1)) as [H|H].
  - now rewrite (proj2 (N.leb_gt _ _) H).
  - now rewrite (proj2 (N.leb_le _ _) H).
Qed.
Print Assumptions C38_checked_security_exact.

(** The conjectured-security presets pass the check at the level they are named after, in every field
    large enough for that level, for every coset offset. *)
Theorem C38_presets_reach_their_level :
  forall m bits offset level target queries,
    In (level, target, queries) [(Conjecturable80Bits, 80, 31); (Conjecturable100Bits, 100, 41); (Conjecturable128Bits, 128, 55)] ->
    target + 40 < bits ->
    new_with_checked_security m bits 4 queries offset 20 target = Ok (new_secure level offset).
Proof.
  intros m bits offset level target queries Hin Hb.
  assert (Hq : queries < 2 ^ 60 /\ new_secure level offset = mk_options (2 ^ 2) (N.to_nat queries) offset 20 /\ target < 20 + 2 * queries - 1)
    by (cbn in Hin; repeat (destruct Hin as [Hin|Hin]; [injection Hin as <- <- <-; repeat split; reflexivity|]); destruct Hin).
  destruct Hq as [Hq [Hs Ht]].
  change 4 with (2 ^ N.of_nat 2). rewrite C38_checked_security_exact by lia.
  rewrite (proj2 (N.ltb_lt _ _) Hb). change (N.of_nat 2) with 2. rewrite (proj2 (N.ltb_lt _ _) Ht). now rewrite Hs.
Qed.
Print Assumptions C38_presets_reach_their_level.

(** FINDING: with no grinding and an odd blowup (or no queries) the subtraction underflows: a debug
    build panics, a release build accepts these worthless options at every target. *)
Theorem C38_underflow_refuted :
  forall bits blowup queries offset target,
    target < 256 -> target + 40 < bits -> u8_trailing_zeros blowup * queries = 0 ->
    new_with_checked_security Debug bits blowup queries offset 0 target = Panic /\
    new_with_checked_security Release bits blowup queries offset 0 target
      = Ok (mk_options (N.to_nat blowup) (N.to_nat queries) offset 0).
Proof.
  intros bits blowup queries offset target Ht Hb H0.
  unfold new_with_checked_security, check_field_security. rewrite N.mul_1_r, (proj2 (N.leb_gt _ _) Hb). cbn [obind].
  replace (Z.of_N (u8_trailing_zeros blowup) * Z.of_N queries)%Z with 0%Z by lia.
  split; [reflexivity|]. cbn. now rewrite (proj2 (N.leb_gt _ _)) by lia.
Qed.
Print Assumptions C38_underflow_refuted.

(** FINDING: a blowup factor of zero counts as eight bits per query. *)
Theorem C38_zero_blowup_accepted :
  forall m bits queries offset grinding target,
    queries < 2 ^ 60 -> grinding < 256 -> target + 40 < bits -> target + 1 < grinding + 8 * queries ->
    new_with_checked_security m bits 0 queries offset grinding target = Ok (mk_options 0 (N.to_nat queries) offset grinding).
Proof.
  intros m bits queries offset grinding target Hq Hg Hb Ht.
  change (2 ^ 60) with 1152921504606846976 in Hq.
  unfold new_with_checked_security, check_field_security. rewrite N.mul_1_r, (proj2 (N.leb_gt _ _) Hb). cbn [obind u8_trailing_zeros].
  rewrite usize_ok by (change (2 ^ 64)%Z with 18446744073709551616%Z; lia). cbn [obind].
  rewrite usize_ok by (change (2 ^ 64)%Z with 18446744073709551616%Z; lia). cbn [obind].
  rewrite usize_ok by (change (2 ^ 64)%Z with 18446744073709551616%Z; lia). cbn [obind].
  now rewrite (proj2 (N.leb_gt _ _)) by lia.
Qed.
Print Assumptions C38_zero_blowup_accepted.

Example C38_example : new_with_checked_security Debug 252 4 31 3 20 80 = Ok (mk_options 4 31 3 20) /\
  new_with_checked_security Debug 252 4 30 3 20 80 = Err OtherError /\
  new_with_checked_security Release 252 1 1 3 0 128 = Ok (mk_options 1 1 3 0).
Proof. repeat split; vm_compute; reflexivity. Qed.

(** ** C39 *)

(** The exact acceptance condition for blowup [2^k]: the level is computed from [7 - k] instead of [k],
    and acceptance requires that it does NOT exceed the target. *)
Theorem C39_checked_provable_security_exact :
  forall m bits k queries offset grinding target,
    (k <= 7)%nat -> queries < 2 ^ 60 -> grinding < 256 ->
    new_with_checked_provable_security m bits (2 ^ N.of_nat k) queries offset grinding target =
    if (target + 40 <? bits) && (grinding + ((7 - N.of_nat k) * queries) / 2 <=? target)
    then Ok (mk_options (2 ^ k) (N.to_nat queries) offset grinding) else Err OtherError.
Proof.
  intros m bits k queries offset grinding target Hk Hq Hg.
  unfold new_with_checked_provable_security, check_field_security. rewrite N.mul_1_r.
  destruct (N.ltb_spec (target + 40) bits) as [Hb|Hb].
  2:{ rewrite (proj2 (N.leb_le _ _) Hb). reflexivity. }
  rewrite (proj2 (N.leb_gt _ _) Hb). cbn [obind]. rewrite lz_pow2.
  remember (7 - N.of_nat k) as w eqn:Ew. assert (Hw : w <= 7) by lia.
  assert (Hkq : w * queries <= 7 * 2 ^ 60) by (apply N.mul_le_mono; lia). clear Ew.
  change (7 * 2 ^ 60) with 8070450532247928832 in Hkq.
  rewrite usize_ok by (change (2 ^ 64)%Z with 18446744073709551616%Z; lia). cbn [obind].
  replace (Z.to_N (Z.of_N w * Z.of_N queries)) with (w * queries) by lia.
  pose proof (N.div_le_upper_bound (w * queries) 2 (w * queries) ltac:(lia) ltac:(lia)) as Hd.
  set (lvl := w * queries / 2) in *.
  rewrite usize_ok by (change (2 ^ 64)%Z with 18446744073709551616%Z; lia). cbn [obind andb].
  replace (Z.to_N (Z.of_N grinding + Z.of_N lvl)) with (grinding + lvl) by lia.
  replace (N.to_nat (2 ^ N.of_nat k)) with (2 ^ k)%nat
    by (rewrite N2Nat.inj_pow, Nat2N.id; reflexivity).
  destruct (N.leb_spec (grinding + lvl) target) as [H|H].
  - now rewrite (proj2 (N.ltb_ge _ _) H).
  - now rewrite (proj2 (N.ltb_lt _ _) H).
Qed.
Print Assumptions C39_checked_provable_security_exact.

(** FINDING: no queries and no grinding - no security at all - is accepted at every target... *)
Theorem C39_no_security_accepted_refuted :
  forall m bits k offset target, (k <= 7)%nat -> target + 40 < bits ->
    new_with_checked_provable_security m bits (2 ^ N.of_nat k) 0 offset 0 target = Ok (mk_options (2 ^ k) 0 offset 0).
Proof.
  intros m bits k offset target Hk Hb. rewrite C39_checked_provable_security_exact by lia.
  rewrite (proj2 (N.ltb_lt _ _) Hb), N.mul_0_r. cbn [andb N.add N.div]. now rewrite (proj2 (N.leb_le _ _)) by (cbn; lia).
Qed.
Print Assumptions C39_no_security_accepted_refuted.

(** ... and adding queries only ever turns acceptance into rejection. *)
Theorem C39_enough_queries_rejected :
  forall m bits k queries offset grinding target,
    (k <= 6)%nat -> queries < 2 ^ 60 -> grinding < 256 -> 2 * (target + 1) <= queries ->
    new_with_checked_provable_security m bits (2 ^ N.of_nat k) queries offset grinding target = Err OtherError.
Proof.
  intros m bits k queries offset grinding target Hk Hq Hg Ht.
  rewrite C39_checked_provable_security_exact by lia.
  assert (target + 1 <= ((7 - N.of_nat k) * queries) / 2).
  { apply N.div_le_lower_bound; [lia|]. assert (1 * queries <= (7 - N.of_nat k) * queries) by (apply N.mul_le_mono_r; lia). lia. }
  rewrite (proj2 (N.leb_gt (grinding + _) target)) by lia. now rewrite andb_false_r.
Qed.
Print Assumptions C39_enough_queries_rejected.

(** The library's own presets for provable security are rejected by its provable-security check. *)
Theorem C39_own_presets_rejected :
  forall m bits offset target queries, In (target, queries) [(80, 80); (100, 104); (128, 140)] ->
    new_with_checked_provable_security m bits 4 queries offset 20 target = Err OtherError.
Proof.
  intros m bits offset target queries Hin. change 4 with (2 ^ N.of_nat 2).
  assert (Hq : queries < 2 ^ 60 /\ 20 + (7 - N.of_nat 2) * queries / 2 <=? target = false)
    by (cbn in Hin; repeat (destruct Hin as [Hin|Hin]; [injection Hin as <- <-; repeat split; reflexivity|]); destruct Hin).
  destruct Hq as [Hq Hl]. rewrite C39_checked_provable_security_exact by lia. now rewrite Hl, andb_false_r.
Qed.
Print Assumptions C39_own_presets_rejected.

Example C39_example :
  new_with_checked_provable_security Debug 252 4 8 3 20 80 = Ok (mk_options 4 8 3 20) /\
  new_secure Provable80Bits 3 = mk_options 4 80 3 20 /\
  new_with_checked_provable_security Debug 252 4 80 3 20 80 = Err OtherError.
Proof. repeat split; vm_compute; reflexivity. Qed.
