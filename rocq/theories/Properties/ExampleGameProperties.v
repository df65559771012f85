(** C93: the error of the remaining example airs, against a prover in the interactive game of C77 and against one with access to the oracle of C82. *)
From Coq Require Import List Arith Lia Bool NArith ZArith.
From Verif.Base Require Import Outcome Bytes Field Poly Zp.
From Verif.Model Require Import Codec Trace Merkle Air Transcript Domain Options Fri Prover Verifier ExampleAirs.
From Verif.Spec Require Import AirSpec CairoColumns ExampleSpec ProvingSpec Forgery VerifierSpec LowDegree FriTree OodSpec StarkTree Proximity Rounds Game Oracle.
From Verif.Proofs Require Import OutcomeFacts FieldFacts PolyFacts FFTFacts MultisetFacts TraceFacts DomainFacts ExampleFacts PolyAir CpuFacts
  VerifierTotal OodFacts LowDegreeFacts RoundFacts RoundSoundness CountFacts TapeFacts OracleCount.
From Verif.Examples Require Import Toy.
From Verif.Properties Require Import ExampleProperties StarkProperties OodProperties LowDegreeProperties
  ProverTotalProperties ScheduleProperties StarkSoundnessProperties RoundProperties GameProperties GameAirProperties OracleProperties OracleAirProperties.
Import ListNotations.
Local Open Scope felt_scope.

(** The values of a polynomial on the trace domain, and what a prover can be said to have committed to: polynomials near its columns. *)
Definition values {E : env} (r : nat) (d : domain E) (f : poly E) : list E := map (fun i => peval f (fpow (trace_primitive_root d) i)) (seq 0 (2 ^ r)).
Definition decodes {E : env} (r b e : nat) (d : domain E) (w : E) (f : poly E) (column : E -> E) : Prop :=
  near_poly (points (d_coset_offset d) w (2 ^ (r + b))) e (2 ^ r + 1) column f.

(** ** The airs can be played. *)
Section Playable.
Context {E : env} (HE : env_ok E) (opts : proof_options) (r b : nat) (Hu : usable_options E opts r b) (Ht : (r + b <= two_adicity E)%nat).
Let HK : field_ok E := fft_field_ok _ (e_fft_ok E HE).

Lemma fibonacci2_playable (a0 a1 : E) e d w : domain_new (fibonacci_2_cols_air E a0 a1 opts (2 ^ r)) = Ok d -> primitive_root (r + b) = Some w ->
  (3 * e + 2 ^ r <= 2 ^ (r + b))%nat -> playable (fibonacci_2_cols_air E a0 a1 opts (2 ^ r)) 2 r b e d w.
Proof using HE Hu Ht.
  intros Hd Hw He. pose proof (pow2_ge2 r (proj1 Hu)) as H2. constructor; try assumption.
  - exact (fibonacci2_admissible HE a0 a1 opts r b Hu).
  - constructor; cbn; try easy; try lia; try (intros x [<-|[<-|[]]]; lia); eauto.
  - intros g _. apply (transition_polynomial_exprs HK _ _ _ (fun _ => [Sub (Sub (Cell 1 0) (Cell 0 0)) (Cell 0 1);
      Sub (Sub (Cell 1 1) (Cell 0 1)) (Cell 1 0)])); [lia| |].
    + intros rap polys x Hp. cbn [a_transition fibonacci_2_cols_air a_context transition_offsets].
      rewrite !shifted_frame_row by (cbn; lia). cbn [obind]. cbn in Hp. rewrite !shifted_row_cell by lia. reflexivity.
    + intros rap [|[|j]] H1 H3; cbn in *; lia.
  - cbn. lia.
  - cbn. intros rap bcs Hb. apply ok_inj in Hb. subst bcs. split; [reflexivity|]. intros bc Hin. destruct Hin as [<-|[<-|[]]]; cbn; lia.
Qed.

Lemma quadratic_playable (a0 : E) e d w : domain_new (quadratic_air E a0 opts (2 ^ r)) = Ok d -> primitive_root (r + b) = Some w ->
  (3 * e + 2 ^ r <= 2 ^ (r + b))%nat -> playable (quadratic_air E a0 opts (2 ^ r)) 1 r b e d w.
Proof using HE Hu Ht.
  intros Hd Hw He. pose proof (pow2_ge2 r (proj1 Hu)) as H2. constructor; try assumption.
  - exact (quadratic_admissible HE a0 opts r b Hu).
  - constructor; cbn; try easy; try lia; try (intros x [<-|[]]; lia); eauto.
  - intros g _. apply (transition_polynomial_exprs HK _ _ _ (fun _ => [Sub (Cell 1 0) (Mul (Cell 0 0) (Cell 0 0))])); [lia| |].
    + intros rap polys x Hp. cbn [a_transition quadratic_air a_context transition_offsets].
      rewrite !shifted_frame_row by (cbn; lia). cbn [obind]. cbn in Hp. rewrite !shifted_row_cell by lia. reflexivity.
    + intros rap [|j] H1 H3; cbn in *; lia.
  - cbn. lia.
  - cbn. intros rap bcs Hb. apply ok_inj in Hb. subst bcs. split; [reflexivity|]. intros bc Hin. destruct Hin as [<-|[]]; cbn; lia.
Qed.

Lemma dummy_playable e d w : (2 <= r)%nat -> domain_new (dummy_air E opts (2 ^ r)) = Ok d -> primitive_root (r + b) = Some w ->
  (3 * e + 2 ^ r <= 2 ^ (r + b))%nat -> playable (dummy_air E opts (2 ^ r)) 2 r b e d w.
Proof using HE Hu Ht.
  intros Hr Hd Hw He. assert (H4 : (4 <= 2 ^ r)%nat) by (change 4%nat with (2 ^ 2)%nat; apply Nat.pow_le_mono_r; lia). constructor; try assumption.
  - exact (dummy_admissible HE opts r b Hu).
  - constructor; cbn; try easy; try lia; try (intros x [<-|[<-|[]]]; lia); eauto.
  - intros g _. apply (transition_polynomial_exprs HK _ _ _ (fun _ => [Mul (Cell 0 0) (Sub (Cell 0 0) (Const 1));
      Sub (Sub (Cell 2 1) (Cell 1 1)) (Cell 0 1)])); [lia| |].
    + intros rap polys x Hp. cbn [a_transition dummy_air a_context transition_offsets].
      rewrite !shifted_frame_row by (cbn; lia). cbn [obind]. cbn in Hp. rewrite !shifted_row_cell by lia. reflexivity.
    + intros rap [|[|j]] H1 H3; cbn in *; lia.
  - cbn. lia.
  - cbn. intros rap bcs Hb. apply ok_inj in Hb. subst bcs. split; [reflexivity|]. intros bc Hin. destruct Hin as [<-|[<-|[]]]; cbn; lia.
Qed.

Lemma rap_playable (HS : sampling_ok E) steps e d w : (3 <= steps <= 2 ^ r)%nat -> domain_new (fibonacci_rap_air E steps opts (2 ^ r)) = Ok d -> primitive_root (r + b) = Some w ->
  (3 * e + 2 ^ r <= 2 ^ (r + b))%nat -> playable (fibonacci_rap_air E steps opts (2 ^ r)) 3 r b e d w.
Proof using HE Hu Ht.
  intros Hst Hd Hw He. pose proof (pow2_ge2 r (proj1 Hu)) as H2. constructor; try assumption.
  - exact (rap_admissible HE opts steps r b Hu ltac:(lia)).
  - constructor; cbn [fibonacci_rap_air a_context a_degree_bound transition_exemptions transition_degrees a_build_rap]; try easy; try lia; try (intros x [<-|[<-|[]]]; lia). intro t. destruct (field_total HS t) as (z & t' & H). eauto.
  - intros g _. apply (transition_polynomial_exprs HK (fibonacci_rap_air E steps opts (2 ^ r)) _ _ (fun gamma : E => [Sub (Sub (Cell 2 0) (Cell 1 0)) (Cell 0 0);
      Sub (Mul (Cell 1 2) (Add (Cell 0 1) (Const gamma))) (Mul (Cell 0 2) (Add (Cell 0 0) (Const gamma)))])); [lia| |].
    + intros rap polys x Hp. cbn [a_transition fibonacci_rap_air a_context transition_offsets].
      rewrite !shifted_frame_row by (cbn; lia). cbn [obind]. cbn in Hp. rewrite !shifted_row_cell by lia. reflexivity.
    + intros rap [|[|j]] H1 H3; cbn in *; lia.
  - cbn. lia.
  - cbn. intros rap bcs Hb. apply ok_inj in Hb. subst bcs. split; [reflexivity|]. intros bc Hin. destruct Hin as [<-|[<-|[<-|[]]]]; cbn; lia.
Qed.
End Playable.

(** ** What the columns decode to when they are near a solution. *)
Section Solutions.
Context {E : env} (HE : env_ok E) (opts : proof_options) (r b e : nat) (d : domain E) (w : E) (Hr : (1 <= r)%nat) (cols : nat -> E -> E).
Local Notation near polys := (near_polys (points (d_coset_offset d) w (2 ^ (r + b))) e (2 ^ r + 1) cols polys).
Local Notation table polys := (domain_columns polys (trace_primitive_root d) (2 ^ r)).

Lemma values_length (f : poly E) : length (values r d f) = (2 ^ r)%nat.
Proof using. unfold values. now rewrite map_length, seq_length. Qed.

Lemma fibonacci2_solution (a0 a1 : E) polys : length polys = 2%nat -> near polys -> trace_satisfies (fibonacci_2_cols_air E a0 a1 opts (2 ^ r)) tt (table polys) (2 ^ r) ->
  exists f g, decodes r b e d w f (cols 0%nat) /\ decodes r b e d w g (cols 1%nat) /\
    values r d f = map (fun i => fib a0 a1 (2 * i)) (seq 0 (2 ^ r)) /\ values r d g = map (fun i => fib a0 a1 (2 * i + 1)) (seq 0 (2 ^ r)).
Proof using HE Hr.
  intros Hl Hp Hs. destruct polys as [|f [|g [|? ?]]]; try discriminate Hl. exists f, g.
  split; [exact (Hp 0%nat ltac:(cbn; lia))|]. split; [exact (Hp 1%nat ltac:(cbn; lia))|]. pose proof (pow2_ge2 r Hr).
  apply (fibonacci2_characterised HE a0 a1 opts (2 ^ r) (values r d f) (values r d g)); [lia|apply values_length|apply values_length|exact Hs].
Qed.

Lemma quadratic_solution (a0 : E) polys : length polys = 1%nat -> near polys -> trace_satisfies (quadratic_air E a0 opts (2 ^ r)) tt (table polys) (2 ^ r) ->
  exists f, decodes r b e d w f (cols 0%nat) /\ values r d f = map (squaring a0) (seq 0 (2 ^ r)).
Proof using HE Hr.
  intros Hl Hp Hs. destruct polys as [|f [|? ?]]; try discriminate Hl. exists f.
  split; [exact (Hp 0%nat ltac:(cbn; lia))|]. pose proof (pow2_ge2 r Hr).
  apply (quadratic_characterised HE a0 opts (2 ^ r) (values r d f)); [lia|apply values_length|exact Hs].
Qed.

Lemma dummy_solution polys : length polys = 2%nat -> near polys -> trace_satisfies (dummy_air E opts (2 ^ r)) tt (table polys) (2 ^ r) ->
  exists f g, decodes r b e d w f (cols 0%nat) /\ decodes r b e d w g (cols 1%nat) /\
    (forall x, In x (values r d f) -> x = 0 \/ x = 1) /\ values r d g = fibs 1 1 (2 ^ r).
Proof using HE Hr.
  intros Hl Hp Hs. destruct polys as [|f [|g [|? ?]]]; try discriminate Hl. exists f, g.
  split; [exact (Hp 0%nat ltac:(cbn; lia))|]. split; [exact (Hp 1%nat ltac:(cbn; lia))|]. pose proof (pow2_ge2 r Hr).
  destruct (dummy_characterised HE opts (2 ^ r) (values r d f) (values r d g)) as [H1 H2]; [lia|apply values_length|apply values_length|exact Hs|]. now split.
Qed.

Lemma rap_solution steps gamma polys : (2 <= steps <= 2 ^ r)%nat -> length polys = 3%nat -> near polys -> trace_satisfies (fibonacci_rap_air E steps opts (2 ^ r)) gamma (table polys) (2 ^ r) ->
  exists f, decodes r b e d w f (cols 0%nat) /\ firstn steps (values r d f) = fibs 1 1 steps.
Proof using HE Hr.
  intros Hst Hl Hp Hs. destruct polys as [|f [|g [|z [|? ?]]]]; try discriminate Hl. exists f.
  split; [exact (Hp 0%nat ltac:(cbn; lia))|].
  destruct (rap_characterised HE opts steps (2 ^ r) gamma (values r d f) (values r d g) (values r d z)) as [H1 _]; [lia|apply values_length|apply values_length|apply values_length|exact Hs|].
  apply (nth_ext _ _ 0 0); [rewrite firstn_length, values_length, fibs_length; lia|].
  intros i Hi. rewrite firstn_length, values_length in Hi. rewrite <- (firstn_skipn steps (values r d f)) in H1. specialize (H1 i ltac:(lia)).
  rewrite app_nth1 in H1 by (rewrite firstn_length, values_length; lia). rewrite H1. unfold fibs. rewrite nth_map_seq by lia. reflexivity.
Qed.
End Solutions.

(** ** The interactive game. A prover whose committed columns do not decode to the computation wins with at most this fraction of challenges. *)
Theorem C93_fibonacci_2_columns_error :
  forall (E : env) (a0 a1 : E) opts r b e d w s samples size q W, let a := fibonacci_2_cols_air E a0 a1 opts (2 ^ r) in
  env_ok E -> usable_options E opts r b -> (r + b <= two_adicity E)%nat -> domain_new a = Ok d -> primitive_root (r + b) = Some w ->
  (3 * e + 2 ^ r <= 2 ^ (r + b))%nat -> well_formed a s -> fair a 0 2 r d size samples -> winning a 0 2 r (fun _ => tt) s d w b q samples W ->
  (forall f g, decodes r b e d w f (s_columns s [] 0%nat) -> decodes r b e d w g (s_columns s [] 1%nat) ->
     ~ (values r d f = map (fun i => fib a0 a1 (2 * i)) (seq 0 (2 ^ r)) /\ values r d g = map (fun i => fib a0 a1 (2 * i + 1)) (seq 0 (2 ^ r)))) ->
  (size * length W <= (3 * 2 ^ r + 7 * e + r + 13) * (volume samples * (2 ^ (r + b)) ^ q) + size * (volume samples * (2 ^ (r + b) - e - 1) ^ q))%nat.
Proof.
  intros E a0 a1 opts r b e d w s samples size q W a HE Hu Ht Hd Hw He Hs Hfa HW Hno.
  etransitivity; [apply (C77_winning_runs_are_few E a 0 2 r b (fun _ => tt) d w e s samples size 0 q W HE); try assumption|].
  - now apply fibonacci2_playable.
  - intros X _ HX. destruct X as [|xs X]; [cbn; lia|]. exfalso. destruct (HX xs (or_introl eq_refl)) as (H1 & polys & Hl & Hp & Hsat).
    cbn [firstn product In] in H1. destruct H1 as [<-|[]].
    destruct (fibonacci2_solution HE opts r b e d w (proj1 Hu) _ a0 a1 polys Hl Hp Hsat) as (f & g & D1 & D2 & V). exact (Hno f g D1 D2 V).
  - apply Nat.add_le_mono_r, Nat.mul_le_mono_r. pose proof (C77_error_weight E a 2 r e) as H. cbn in H. rewrite Nat.add_0_l. etransitivity; [exact H|]. lia.
Qed.
Print Assumptions C93_fibonacci_2_columns_error.

Theorem C93_quadratic_error :
  forall (E : env) (a0 : E) opts r b e d w s samples size q W, let a := quadratic_air E a0 opts (2 ^ r) in
  env_ok E -> usable_options E opts r b -> (r + b <= two_adicity E)%nat -> domain_new a = Ok d -> primitive_root (r + b) = Some w ->
  (3 * e + 2 ^ r <= 2 ^ (r + b))%nat -> well_formed a s -> fair a 0 1 r d size samples -> winning a 0 1 r (fun _ => tt) s d w b q samples W ->
  (forall f, decodes r b e d w f (s_columns s [] 0%nat) -> values r d f <> map (squaring a0) (seq 0 (2 ^ r))) ->
  (size * length W <= (4 * 2 ^ r + 5 * e + r + 7) * (volume samples * (2 ^ (r + b)) ^ q) + size * (volume samples * (2 ^ (r + b) - e - 1) ^ q))%nat.
Proof.
  intros E a0 opts r b e d w s samples size q W a HE Hu Ht Hd Hw He Hs Hfa HW Hno. pose proof (pow2_ge2 r (proj1 Hu)) as H2.
  etransitivity; [apply (C77_winning_runs_are_few E a 0 1 r b (fun _ => tt) d w e s samples size 0 q W HE); try assumption|].
  - now apply quadratic_playable.
  - intros X _ HX. destruct X as [|xs X]; [cbn; lia|]. exfalso. destruct (HX xs (or_introl eq_refl)) as (H1 & polys & Hl & Hp & Hsat).
    cbn [firstn product In] in H1. destruct H1 as [<-|[]].
    destruct (quadratic_solution HE opts r b e d w (proj1 Hu) _ a0 polys Hl Hp Hsat) as (f & D1 & V). exact (Hno f D1 V).
  - apply Nat.add_le_mono_r, Nat.mul_le_mono_r. pose proof (C77_error_weight E a 1 r e) as H. cbn in H. rewrite Nat.add_0_l. etransitivity; [exact H|]. lia.
Qed.
Print Assumptions C93_quadratic_error.

Theorem C93_dummy_error :
  forall (E : env) opts r b e d w s samples size q W, let a := dummy_air E opts (2 ^ r) in
  env_ok E -> usable_options E opts r b -> (2 <= r)%nat -> (r + b <= two_adicity E)%nat -> domain_new a = Ok d -> primitive_root (r + b) = Some w ->
  (3 * e + 2 ^ r <= 2 ^ (r + b))%nat -> well_formed a s -> fair a 0 2 r d size samples -> winning a 0 2 r (fun _ => tt) s d w b q samples W ->
  (forall f g, decodes r b e d w f (s_columns s [] 0%nat) -> decodes r b e d w g (s_columns s [] 1%nat) ->
     ~ ((forall x, In x (values r d f) -> x = 0 \/ x = 1) /\ values r d g = fibs 1 1 (2 ^ r))) ->
  (size * length W <= (3 * 2 ^ r + 9 * e + r + 15) * (volume samples * (2 ^ (r + b)) ^ q) + size * (volume samples * (2 ^ (r + b) - e - 1) ^ q))%nat.
Proof.
  intros E opts r b e d w s samples size q W a HE Hu Hr Ht Hd Hw He Hs Hfa HW Hno.
  etransitivity; [apply (C77_winning_runs_are_few E a 0 2 r b (fun _ => tt) d w e s samples size 0 q W HE); try assumption|].
  - now apply dummy_playable.
  - intros X _ HX. destruct X as [|xs X]; [cbn; lia|]. exfalso. destruct (HX xs (or_introl eq_refl)) as (H1 & polys & Hl & Hp & Hsat).
    cbn [firstn product In] in H1. destruct H1 as [<-|[]].
    destruct (dummy_solution HE opts r b e d w (proj1 Hu) _ polys Hl Hp Hsat) as (f & g & D1 & D2 & V). exact (Hno f g D1 D2 V).
  - apply Nat.add_le_mono_r, Nat.mul_le_mono_r. pose proof (C77_error_weight E a 2 r e) as H. cbn in H. rewrite Nat.add_0_l. etransitivity; [exact H|]. lia.
Qed.
Print Assumptions C93_dummy_error.

(** Of the randomized air only the first [steps] entries of the first column: by C51 nothing can be said of the second. *)
Theorem C93_fibonacci_rap_error :
  forall (E : env) steps opts r b e d w s samples size q W, let a := fibonacci_rap_air E steps opts (2 ^ r) in
  env_ok E -> sampling_ok E -> usable_options E opts r b -> (3 <= steps <= 2 ^ r)%nat ->
  (r + b <= two_adicity E)%nat -> domain_new a = Ok d -> primitive_root (r + b) = Some w ->
  (3 * e + 2 ^ r <= 2 ^ (r + b))%nat -> well_formed a s -> fair a 1 3 r d size samples -> winning a 1 3 r (fun xs => nth 0 xs 0) s d w b q samples W ->
  (forall gamma f, In gamma (nth 0 samples []) -> decodes r b e d w f (s_columns s [gamma] 0%nat) -> firstn steps (values r d f) <> fibs 1 1 steps) ->
  (size * length W <= (3 * 2 ^ r + 12 * e + r + 19) * (volume samples * (2 ^ (r + b)) ^ q) + size * (volume samples * (2 ^ (r + b) - e - 1) ^ q))%nat.
Proof.
  intros E steps opts r b e d w s samples size q W a HE HS Hu Hst Ht Hd Hw He Hs Hfa HW Hno.
  etransitivity; [apply (C77_winning_runs_are_few E a 1 3 r b (fun xs => nth 0 xs 0) d w e s samples size 0 q W HE); try assumption|].
  - now apply rap_playable.
  - intros X _ HX. destruct X as [|xs X]; [cbn; lia|]. exfalso. destruct (HX xs (or_introl eq_refl)) as (H1 & polys & Hl & Hp & Hsat).
    destruct samples as [|l samples]; [pose proof (fa_length _ _ _ _ _ _ _ Hfa) as Q; discriminate Q|]. cbn [firstn product] in H1.
    apply in_flat_map in H1. destruct H1 as (gamma & H1 & [<-|[]]).
    destruct (rap_solution HE opts r b e d w (proj1 Hu) _ steps gamma polys ltac:(lia) Hl Hp Hsat) as (f & D1 & V). exact (Hno gamma f H1 D1 V).
  - apply Nat.add_le_mono_r, Nat.mul_le_mono_r. pose proof (C77_error_weight E a 3 r e) as H. cbn in H. rewrite Nat.add_0_l. etransitivity; [exact H|]. lia.
Qed.
Print Assumptions C93_fibonacci_rap_error.

(** ** The oracle. A root is lost if the columns behind it do not decode to the computation, whatever is committed to next. *)
Section Lost.
Context {E : env} (r b e : nat) (d : domain E) (w : E) (wo : words (E := E)).
Definition no_fibonacci_2_columns (a0 a1 : E) (c0 : commitment) : Prop :=
  forall c1 f g, decodes r b e d w f (w_columns wo c0 c1 0%nat) -> decodes r b e d w g (w_columns wo c0 c1 1%nat) ->
    ~ (values r d f = map (fun i => fib a0 a1 (2 * i)) (seq 0 (2 ^ r)) /\ values r d g = map (fun i => fib a0 a1 (2 * i + 1)) (seq 0 (2 ^ r))).
Definition no_squaring (a0 : E) (c0 : commitment) : Prop :=
  forall c1 f, decodes r b e d w f (w_columns wo c0 c1 0%nat) -> values r d f <> map (squaring a0) (seq 0 (2 ^ r)).
Definition no_dummy (c0 : commitment) : Prop :=
  forall c1 f g, decodes r b e d w f (w_columns wo c0 c1 0%nat) -> decodes r b e d w g (w_columns wo c0 c1 1%nat) ->
    ~ ((forall x, In x (values r d f) -> x = 0 \/ x = 1) /\ values r d g = fibs 1 1 (2 ^ r)).
Definition no_fibonacci_steps (steps : nat) (c0 : commitment) : Prop :=
  forall c1 f, decodes r b e d w f (w_columns wo c0 c1 0%nat) -> firstn steps (values r d f) <> fibs 1 1 steps.
End Lost.

Theorem C93_fibonacci_2_columns_forgeries :
  forall (E : env) (a0 a1 : E) opts r b e d w wo samples size q eqd adv Q m M W, let a := fibonacci_2_cols_air E a0 a1 opts (2 ^ r) in
  env_ok E -> usable_options E opts r b -> (r + b <= two_adicity E)%nat -> domain_new a = Ok d -> primitive_root (r + b) = Some w ->
  (3 * e + 2 ^ r <= 2 ^ (r + b))%nat -> fair a 0 2 r d size samples ->
  (Nat.max (3 * 2 ^ r + 3) (6 * (e + 1)) * M <= m * size)%nat -> ((2 ^ (r + b) - e - 1) ^ q * M <= m * (2 ^ (r + b)) ^ q)%nat ->
  NoDup W -> (forall cs, In cs W -> length cs = Q /\ Forall (fresh r b q samples) cs /\
    forges a 0 2 r (fun _ => tt) eqd adv wo d w (no_fibonacci_2_columns r b e d w wo a0 a1) cs) ->
  (M * length W <= Q * m * (volume samples * (2 ^ (r + b)) ^ q) ^ Q)%nat.
Proof.
  intros E a0 a1 opts r b e d w wo samples size q eqd adv Q m M W a HE Hu Ht Hd Hw He Hfa Hm1 Hm2 HN HW.
  apply (C82_forgeries_are_few E a 0 2 r b (fun _ => tt) d w e wo (no_fibonacci_2_columns r b e d w wo a0 a1) samples size 0 q eqd adv); try assumption.
  - now apply fibonacci2_playable.
  - intros c0 X Hlost _ HX. destruct X as [|xs X]; [cbn; lia|]. exfalso. destruct (HX xs (or_introl eq_refl)) as (_ & c1 & polys & Hl & Hp & Hsat).
    destruct (fibonacci2_solution HE opts r b e d w (proj1 Hu) _ a0 a1 polys Hl Hp Hsat) as (f & g & D1 & D2 & V). exact (Hlost c1 f g D1 D2 V).
  - etransitivity; [|exact Hm1]. apply Nat.mul_le_mono_r. unfold worst, stark_bound, ood_bound.
    change (num_transition_constraints (a_context a)) with 2%nat. change (trace_columns (a_context a) * length (transition_offsets (a_context a)))%nat with 4%nat.
    change (a_degree_bound a) with (2 ^ r)%nat. lia.
Qed.
Print Assumptions C93_fibonacci_2_columns_forgeries.

Theorem C93_quadratic_forgeries :
  forall (E : env) (a0 : E) opts r b e d w wo samples size q eqd adv Q m M W, let a := quadratic_air E a0 opts (2 ^ r) in
  env_ok E -> usable_options E opts r b -> (r + b <= two_adicity E)%nat -> domain_new a = Ok d -> primitive_root (r + b) = Some w ->
  (3 * e + 2 ^ r <= 2 ^ (r + b))%nat -> fair a 0 1 r d size samples ->
  (Nat.max (4 * 2 ^ r + 1) (4 * (e + 1)) * M <= m * size)%nat -> ((2 ^ (r + b) - e - 1) ^ q * M <= m * (2 ^ (r + b)) ^ q)%nat ->
  NoDup W -> (forall cs, In cs W -> length cs = Q /\ Forall (fresh r b q samples) cs /\
    forges a 0 1 r (fun _ => tt) eqd adv wo d w (no_squaring r b e d w wo a0) cs) ->
  (M * length W <= Q * m * (volume samples * (2 ^ (r + b)) ^ q) ^ Q)%nat.
Proof.
  intros E a0 opts r b e d w wo samples size q eqd adv Q m M W a HE Hu Ht Hd Hw He Hfa Hm1 Hm2 HN HW.
  apply (C82_forgeries_are_few E a 0 1 r b (fun _ => tt) d w e wo (no_squaring r b e d w wo a0) samples size 0 q eqd adv); try assumption.
  - now apply quadratic_playable.
  - intros c0 X Hlost _ HX. destruct X as [|xs X]; [cbn; lia|]. exfalso. destruct (HX xs (or_introl eq_refl)) as (_ & c1 & polys & Hl & Hp & Hsat).
    destruct (quadratic_solution HE opts r b e d w (proj1 Hu) _ a0 polys Hl Hp Hsat) as (f & D1 & V). exact (Hlost c1 f D1 V).
  - etransitivity; [|exact Hm1]. apply Nat.mul_le_mono_r. unfold worst, stark_bound, ood_bound. pose proof (pow2_ge2 r (proj1 Hu)) as H2.
    change (num_transition_constraints (a_context a)) with 1%nat. change (trace_columns (a_context a) * length (transition_offsets (a_context a)))%nat with 2%nat.
    change (a_degree_bound a) with (2 * 2 ^ r)%nat. lia.
Qed.
Print Assumptions C93_quadratic_forgeries.

Theorem C93_dummy_forgeries :
  forall (E : env) opts r b e d w wo samples size q eqd adv Q m M W, let a := dummy_air E opts (2 ^ r) in
  env_ok E -> usable_options E opts r b -> (2 <= r)%nat -> (r + b <= two_adicity E)%nat -> domain_new a = Ok d -> primitive_root (r + b) = Some w ->
  (3 * e + 2 ^ r <= 2 ^ (r + b))%nat -> fair a 0 2 r d size samples ->
  (Nat.max (3 * 2 ^ r + 3) (8 * (e + 1)) * M <= m * size)%nat -> ((2 ^ (r + b) - e - 1) ^ q * M <= m * (2 ^ (r + b)) ^ q)%nat ->
  NoDup W -> (forall cs, In cs W -> length cs = Q /\ Forall (fresh r b q samples) cs /\
    forges a 0 2 r (fun _ => tt) eqd adv wo d w (no_dummy r b e d w wo) cs) ->
  (M * length W <= Q * m * (volume samples * (2 ^ (r + b)) ^ q) ^ Q)%nat.
Proof.
  intros E opts r b e d w wo samples size q eqd adv Q m M W a HE Hu Hr Ht Hd Hw He Hfa Hm1 Hm2 HN HW.
  apply (C82_forgeries_are_few E a 0 2 r b (fun _ => tt) d w e wo (no_dummy r b e d w wo) samples size 0 q eqd adv); try assumption.
  - now apply dummy_playable.
  - intros c0 X Hlost _ HX. destruct X as [|xs X]; [cbn; lia|]. exfalso. destruct (HX xs (or_introl eq_refl)) as (_ & c1 & polys & Hl & Hp & Hsat).
    destruct (dummy_solution HE opts r b e d w (proj1 Hu) _ polys Hl Hp Hsat) as (f & g & D1 & D2 & V). exact (Hlost c1 f g D1 D2 V).
  - etransitivity; [|exact Hm1]. apply Nat.mul_le_mono_r. unfold worst, stark_bound, ood_bound.
    change (num_transition_constraints (a_context a)) with 2%nat. change (trace_columns (a_context a) * length (transition_offsets (a_context a)))%nat with 6%nat.
    change (a_degree_bound a) with (2 ^ r)%nat. lia.
Qed.
Print Assumptions C93_dummy_forgeries.

Theorem C93_fibonacci_rap_forgeries :
  forall (E : env) steps opts r b e d w wo samples size q eqd adv Q m M W, let a := fibonacci_rap_air E steps opts (2 ^ r) in
  env_ok E -> sampling_ok E -> usable_options E opts r b -> (3 <= steps <= 2 ^ r)%nat -> (r + b <= two_adicity E)%nat -> domain_new a = Ok d -> primitive_root (r + b) = Some w ->
  (3 * e + 2 ^ r <= 2 ^ (r + b))%nat -> fair a 1 3 r d size samples ->
  (Nat.max (3 * 2 ^ r + 3) (11 * (e + 1)) * M <= m * size)%nat -> ((2 ^ (r + b) - e - 1) ^ q * M <= m * (2 ^ (r + b)) ^ q)%nat ->
  NoDup W -> (forall cs, In cs W -> length cs = Q /\ Forall (fresh r b q samples) cs /\
    forges a 1 3 r (fun xs => nth 0 xs 0) eqd adv wo d w (no_fibonacci_steps r b e d w wo steps) cs) ->
  (M * length W <= Q * m * (volume samples * (2 ^ (r + b)) ^ q) ^ Q)%nat.
Proof.
  intros E steps opts r b e d w wo samples size q eqd adv Q m M W a HE HS Hu Hst Ht Hd Hw He Hfa Hm1 Hm2 HN HW.
  apply (C82_forgeries_are_few E a 1 3 r b (fun xs => nth 0 xs 0) d w e wo (no_fibonacci_steps r b e d w wo steps) samples size 0 q eqd adv); try assumption.
  - now apply rap_playable.
  - intros c0 X Hlost _ HX. destruct X as [|xs X]; [cbn; lia|]. exfalso. destruct (HX xs (or_introl eq_refl)) as (_ & c1 & polys & Hl & Hp & Hsat).
    destruct (rap_solution HE opts r b e d w (proj1 Hu) _ steps _ polys ltac:(lia) Hl Hp Hsat) as (f & D1 & V). exact (Hlost c1 f D1 V).
  - etransitivity; [|exact Hm1]. apply Nat.mul_le_mono_r. unfold worst, stark_bound, ood_bound. pose proof (pow2_ge2 r (proj1 Hu)) as H2.
    change (num_transition_constraints (a_context a)) with 2%nat. change (trace_columns (a_context a) * length (transition_offsets (a_context a)))%nat with 9%nat.
    change (a_degree_bound a) with (2 ^ r)%nat. lia.
Qed.
Print Assumptions C93_fibonacci_rap_forgeries.

(** ** FINDING. Nothing is guaranteed about the second column of the randomized air: with any second column, and anything in the first one
    after [steps] entries, the prover's own code yields an accepted proof, unless the challenge is the negative of an entry. *)
Theorem C93_fibonacci_rap_any_second_column :
  forall (E : env) steps opts r b fuel mt A B, env_ok E -> sampling_ok E -> usable_options E opts r b -> (3 <= steps <= 2 ^ r)%nat -> (r + b <= two_adicity E)%nat ->
  z_found E fuel (fibonacci_rap_air E steps opts (2 ^ r)) -> nonce_found E (grinding_factor opts) ->
  has_columns mt (2 ^ r) [A; B] -> firstn steps A = fibs 1 1 steps ->
  (exists proof, prove E fuel (fibonacci_rap_air E steps opts) mt = Ok proof /\ verify E fuel (fibonacci_rap_air E steps opts) opts proof = Ok true) \/
  exists gamma x, first_challenges (fibonacci_rap_air E steps opts (2 ^ r)) mt gamma /\ In x B /\ x + gamma = 0.
Proof.
  intros E steps opts r b fuel mt A B HE HS Hu Hs Ht Hz Hno Hc HA. pose proof (fft_field_ok _ (e_fft_ok _ HE)) as HK. pose proof (pow2_ge2 r (proj1 Hu)) as H2.
  destruct (has_columns_table mt (2 ^ r) [A; B] ltac:(easy) Hc) as [_ Hn].
  assert (LA : length A = (2 ^ r)%nat) by (destruct Hc as (_ & Hl & _); apply Hl; now left).
  assert (LB : length B = (2 ^ r)%nat) by (destruct Hc as (_ & Hl & _); apply Hl; right; now left).
  assert (Hf : forall i, (i < steps)%nat -> nth i A 0 = fib 1 1 i).
  { intros i Hi. rewrite <- (firstn_skipn steps A), app_nth1, HA by (rewrite firstn_length; lia). now apply fibs_nth. }
  assert (Hv : valid_trace (fibonacci_rap_air E steps opts (2 ^ r)) r mt).
  { exists [A; B]. split; [easy|]. split; [exact Hc|]. intros t rap t' aux _ Haux. cbn [a_build_aux fibonacci_rap_air] in Haux.
    destruct (rap_aux_ok HE mt rap aux (2 ^ r) A B ltac:(lia) Hc Haux) as [Z [HZ Hq]].
    exists [Z]. split; [exact HZ|]. split; [reflexivity|]. apply (rap_satisfies HE); [lia|exact LA|exact LB|exact Hf|exact Hq]. }
  destruct (C55_proof_or_bad_challenges E (fibonacci_rap_air E steps opts) mt r b 3 fuel HE HS Hn (rap_admissible HE opts steps r b Hu ltac:(lia)))
    as [H|(gamma & H1 & H3)]; try assumption.
  - constructor; cbn [fibonacci_rap_air a_context a_degree_bound a_build_rap a_boundary transition_exemptions transition_degrees]; try easy.
    + intros e [<-|[<-|[]]]; lia.
    + intros deg [<-|[<-|[]]]; lia.
    + intro t. destruct (field_total HS t) as (z & t' & H). eauto.
  - intros gamma aux _. cbn. eauto.
  - left. exact H.
  - right. cbn [a_build_aux fibonacci_rap_air a_rap] in H3, gamma. exists gamma.
    destruct (existsb (fun x => feqb (x + gamma) 0) B) eqn:X.
    + apply existsb_exists in X. destruct X as (x & P1 & P2). apply (feqb_spec E HK) in P2. now exists x.
    + exfalso. destruct (rap_aux_total E HE mt gamma (2 ^ r) A B ltac:(lia) Hc) as [aux Haux]; [|now destruct (H3 aux)].
      intros i Hi Q. assert (F : existsb (fun x => feqb (x + gamma) 0) B = true); [|congruence].
      apply existsb_exists. exists (nth i B 0). split; [apply nth_In; lia|]. now apply (feqb_spec E HK).
Qed.
Print Assumptions C93_fibonacci_rap_any_second_column.

(** ** Examples: the cheating prover of C77, for any air with four rows: it commits to zero columns, states zeros in the frame and for the odd half, and chooses the value
    of the even half so that the out-of-domain check succeeds. *)
Section Cheating.
Context (a : air toy) (kr nb : nat) (pick : list toy -> a_rap a).
Definition idle_tape : list toy := map (fun i => f97 (Z.of_nat (i + 3))) (seq 0 (tape_length a kr nb 2)).
Definition idle_frame : list (list toy) := repeat (repeat 0 (trace_columns (a_context a))) (length (transition_offsets (a_context a))).
Definition idle_proof (v : toy) : stark_proof toy := mk_stark_proof 0 [] (mk_frame (concat idle_frame) (trace_columns (a_context a))) [] v 0 [] 0 [] [] 0%N.
Definition idle_passes (v : toy) : bool :=
  match step_2 toy a (idle_proof v) ood_domain (tape_challenges a kr nb 2 pick idle_tape []) with Ok true => true | _ => false end.
Definition idle_value : toy := match find idle_passes (map (fun i => f97 (Z.of_nat i)) (seq 0 97)) with Some v => v | None => 0 end.
Definition idle_layer (x : toy) : toy := let z := nth (at_point a kr nb) idle_tape 0 in (0 - idle_value) * finv (x - z * z) * nth (at_point a kr nb + 1) idle_tape 0.
Definition idle_last : toy := fold_value (nth (at_folding a kr nb) idle_tape 0) idle_layer (d_coset_offset ood_domain).
Definition idle : strategy (E := toy) :=
  mk_strategy (fun _ _ _ => 0) (fun _ _ => 0) (fun _ _ => 0) (fun _ => idle_value) (fun _ => 0) (fun _ => idle_frame)
    (fun l _ => match l with O => idle_layer | S _ => fun _ => idle_last end) (fun _ => idle_last).
Definition idle_samples : list (list toy) := map (fun x => [x]) idle_tape.
Definition idle_consistentb (i : nat) : bool :=
  let x := d_coset_offset ood_domain * fpow honest_w i in
  feqb_toy (fold_value (nth (at_folding a kr nb) idle_tape 0) idle_layer x) idle_last &&
  feqb_toy (fold_value (nth (at_folding a kr nb + 1) idle_tape 0) (fun _ => idle_last) (x * x)) idle_last &&
  feqb_toy (idle_layer x) (deep_word (play_proof a kr nb idle idle_tape) (tape_challenges a kr nb 2 pick idle_tape []) (trace_primitive_root ood_domain)
    idle_frame (opened (trace_columns (a_context a)) (fun _ _ => 0) (fun _ => 0) (fun _ => 0)) x).
Definition idle_fine : bool := idle_passes idle_value && forallb idle_consistentb [0; 4]%nat && forallb (fun y : toy => negb (feqb_toy (nth (at_point a kr nb) idle_tape 0) y)) (lde_roots_of_unity_coset ood_domain).

Context (Hfine : idle_fine = true).
Lemma idle_wins : wins a kr nb 2 pick idle ood_domain honest_w idle_tape [0; 4]%nat.
Proof using Hfine.
  unfold idle_fine in Hfine. apply andb_prop in Hfine. destruct Hfine as [H _]. apply andb_prop in H. destruct H as [H0 H]. split.
  - unfold idle_passes in H0. change (step_2 toy a (idle_proof idle_value) ood_domain (tape_challenges a kr nb 2 pick idle_tape []) = Ok true).
    destruct (step_2 toy a (idle_proof idle_value) ood_domain (tape_challenges a kr nb 2 pick idle_tape [])) as [[|]| |]; try discriminate H0. reflexivity.
  - rewrite forallb_forall in H. intros i Hi. specialize (H i Hi).
    unfold idle_consistentb in H. cbv zeta in H. apply andb_prop in H. destruct H as [H H3]. apply andb_prop in H. destruct H as [H1 H2].
    apply feqb_toy_true in H1, H2, H3. split; [|exact H3].
    assert (P : part (at_folding a kr nb) 2 idle_tape = [nth (at_folding a kr nb) idle_tape 0; nth (at_folding a kr nb + 1) idle_tape 0]).
    { assert (L : length idle_tape = (at_folding a kr nb + 2)%nat) by (unfold idle_tape; now rewrite map_length, seq_length).
      unfold part. apply (nth_ext _ _ 0 0); [rewrite firstn_length, skipn_length, L; cbn [length]; lia|].
      intros j Hj. rewrite firstn_length, skipn_length, L in Hj. rewrite <- (firstn_skipn (at_folding a kr nb) idle_tape) at 2 3.
      rewrite !app_nth2 by (rewrite firstn_length; lia). rewrite firstn_length, Nat.min_l, Nat.sub_diag by lia. replace (at_folding a kr nb + 1 - at_folding a kr nb)%nat with 1%nat by lia.
      assert (L2 : length (skipn (at_folding a kr nb) idle_tape) = 2%nat) by (rewrite skipn_length; lia).
      destruct (skipn (at_folding a kr nb) idle_tape) as [|x [|y [|? ?]]]; try discriminate L2. reflexivity. }
    cbn [c_zetas tape_challenges]. rewrite P. split; [exact H1|]. split; [exact H2|exact I].
Qed.
Lemma idle_fair : fair a kr nb 2 ood_domain 1 idle_samples.
Proof using Hfine.
  unfold idle_fine in Hfine. apply andb_prop in Hfine. destruct Hfine as [_ H]. constructor.
  - unfold idle_samples, idle_tape. now rewrite !map_length, seq_length.
  - intros l Hl. apply in_map_iff in Hl. destruct Hl as (x & <- & _). split; [constructor; [intros []|constructor]|cbn; lia].
  - intros z Hz Hi. unfold idle_samples in Hz. rewrite (nth_indep _ [] [0]) in Hz.
    2:{ unfold idle_samples, idle_tape. rewrite !map_length, seq_length. unfold tape_length, at_folding, at_terms. lia. }
    change [0] with ((fun x : toy => [x]) 0) in Hz. rewrite map_nth in Hz. destruct Hz as [<-|[]].
    rewrite forallb_forall in H. specialize (H _ Hi). unfold feqb_toy in H. rewrite Z.eqb_refl in H. discriminate H.
Qed.
Lemma idle_well_formed : well_formed a idle.
Proof using.
  intro u. cbn [idle s_frame]. unfold idle_frame. split; [apply repeat_length|]. apply Forall_forall. intros row Hr. apply repeat_spec in Hr. subst row. apply repeat_length.
Qed.
Lemma idle_drawn : In idle_tape (product idle_samples).
Proof using.
  unfold idle_samples. induction idle_tape as [|x l IH]; [now left|]. cbn [map product flat_map]. rewrite app_nil_r. now apply in_map.
Qed.
Lemma idle_winning : winning a kr nb 2 pick idle ood_domain honest_w 1 2 idle_samples [(idle_tape, [0; 4]%nat)].
Proof using Hfine.
  split; [constructor; [intros []|constructor]|]. intros t v [Q|[]]. apply pair_equal_spec in Q. destruct Q as [<- <-]. split; [exact idle_drawn|].
  split; [reflexivity|]. split; [intros i [<-|[<-|[]]]; cbn; lia|exact idle_wins].
Qed.
Definition idle_words : words (E := toy) :=
  mk_words (fun _ _ _ _ => 0) (fun _ _ => 0) (fun _ _ => 0) (fun l _ => match l with O => idle_layer | S _ => fun _ => idle_last end).
Definition idle_messages : list (message toy) := [Root []; Root []; Root []; Values idle_value 0 idle_frame; Root []; Root []; Last idle_last 0%N].
Definition idle_coins : list (coin (E := toy)) := repeat (idle_tape, [0; 4]%nat) 7.
Lemma idle_fresh : Forall (fresh 2 1 2 idle_samples) idle_coins.
Proof using.
  apply Forall_forall. intros c Hc. apply repeat_spec in Hc. subst c. split; [exact idle_drawn|]. split; [reflexivity|]. intros i [<-|[<-|[]]]; cbn; lia.
Qed.
Lemma idle_forges eqd (lost : commitment -> Prop) : lost [] -> forges a kr nb 2 pick eqd (scripted idle_messages) idle_words ood_domain honest_w lost idle_coins.
Proof using Hfine.
  intro Hl. apply (C82_scripted_prover toy a kr nb 2 pick idle_messages (idle_tape, [0; 4]%nat) idle_words ood_domain honest_w lost eqd eq_refl).
  - unfold idle_tape. cbn [fst]. now rewrite map_length, seq_length.
  - exact idle_well_formed.
  - exact Hl.
  - exact idle_wins.
Qed.
End Cheating.

(** Zero columns decode to zero only. *)
Lemma idle_zero (f : poly toy) : decodes 2 1 1 ood_domain honest_w f (fun _ => 0) -> values 2 ood_domain f = repeat 0 4.
Proof.
  intro Hf.
  pose proof (playable_nodup toy_ok _ _ _ _ _ _ _ (fibonacci_playable toy_ok (f97 1) (f97 1) toy_opts 2 1 1 ood_domain honest_w toy_usable (le_n 2) ltac:(cbn; lia) ood_domain_ok honest_root ltac:(cbn; lia))) as HN.
  assert (Z0 : near_poly (points (d_coset_offset ood_domain) honest_w (2 ^ (2 + 1))) 1 (2 ^ 2 + 1) (fun _ : toy => (0 : toy)) []).
  { split; [cbn; lia|]. exists (points (d_coset_offset ood_domain) honest_w (2 ^ (2 + 1))). split; [split; [exact HN|split; [apply incl_refl|lia]]|]. intros x _. reflexivity. }
  pose proof (near_unique toy_ok _ 1 (2 ^ 2 + 1) _ f [] HN ltac:(unfold points; rewrite map_length, seq_length; cbn; lia) Hf Z0) as U.
  unfold values. change (2 ^ 2)%nat with 4%nat. cbn [seq map repeat]. now rewrite !U.
Qed.
Lemma zeros_differ (l : list toy) : zval (nth 0 l 0) <> 0%Z -> repeat 0 4 <> l.
Proof. intros H Q. apply H. now rewrite <- Q. Qed.

Definition two_air := fibonacci_2_cols_air toy (f97 1) (f97 2) toy_opts 4.
Definition square_air := quadratic_air toy (f97 3) toy_opts 4.
Definition flag_air := dummy_air toy toy_opts 4.
Definition rap_air := fibonacci_rap_air toy 3 toy_opts 4.
Lemma two_fine : idle_fine two_air 0 2 (fun _ => tt) = true. Proof. vm_compute. reflexivity. Qed.
Lemma square_fine : idle_fine square_air 0 1 (fun _ => tt) = true. Proof. vm_compute. reflexivity. Qed.
Lemma flag_fine : idle_fine flag_air 0 2 (fun _ => tt) = true. Proof. vm_compute. reflexivity. Qed.
Lemma rap_fine : idle_fine rap_air 1 3 (fun xs => nth 0 xs 0) = true. Proof. vm_compute. reflexivity. Qed.

(** Both provers of the four airs, and the conditions that the four airs share. *)
Example C93_shared_example :
  usable_options toy toy_opts 2 1 /\ sampling_ok toy /\ (2 + 1 <= two_adicity toy)%nat /\ primitive_root (K := toy) (2 + 1) = Some honest_w /\ (3 * 1 + 2 ^ 2 <= 2 ^ (2 + 1))%nat /\
  domain_new two_air = Ok ood_domain /\ domain_new square_air = Ok ood_domain /\ domain_new flag_air = Ok ood_domain /\ domain_new rap_air = Ok ood_domain.
Proof.
  split; [exact toy_usable|]. split; [exact toy_sampling|]. split; [cbn; lia|]. split; [exact honest_root|]. split; [cbn; lia|].
  split; [exact ood_domain_ok|]. split; [exact ood_domain_ok|]. split; [exact ood_domain_ok|exact ood_domain_ok].
Qed.
Example C93_two_columns_example : let s := idle two_air 0 2 (fun _ => tt) in let wo := idle_words two_air 0 2 (fun _ => tt) in
  well_formed two_air s /\ fair two_air 0 2 2 ood_domain 1 (idle_samples two_air 0 2) /\
  winning two_air 0 2 2 (fun _ => tt) s ood_domain honest_w 1 2 (idle_samples two_air 0 2) [(idle_tape two_air 0 2, [0; 4]%nat)] /\
  (forall f g, decodes 2 1 1 ood_domain honest_w f (s_columns s [] 0%nat) -> decodes 2 1 1 ood_domain honest_w g (s_columns s [] 1%nat) ->
     ~ (values 2 ood_domain f = map (fun i => fib (f97 1 : toy) (f97 2) (2 * i)) (seq 0 (2 ^ 2)) /\ values 2 ood_domain g = map (fun i => fib (f97 1 : toy) (f97 2) (2 * i + 1)) (seq 0 (2 ^ 2)))) /\
  forall eqd, forges two_air 0 2 2 (fun _ => tt) eqd (scripted (idle_messages two_air 0 2 (fun _ => tt))) wo ood_domain honest_w (no_fibonacci_2_columns 2 1 1 ood_domain honest_w wo (f97 1) (f97 2)) (idle_coins two_air 0 2).
Proof.
  intros s wo. assert (N : forall f g, decodes 2 1 1 ood_domain honest_w f (fun _ => 0) -> decodes 2 1 1 ood_domain honest_w g (fun _ => 0) ->
     ~ (values 2 ood_domain f = map (fun i => fib (f97 1 : toy) (f97 2) (2 * i)) (seq 0 (2 ^ 2)) /\ values 2 ood_domain g = map (fun i => fib (f97 1 : toy) (f97 2) (2 * i + 1)) (seq 0 (2 ^ 2)))).
  { intros f g Hf _ [Q _]. rewrite (idle_zero f Hf) in Q. revert Q. apply zeros_differ. vm_compute. discriminate. }
  split; [apply idle_well_formed|]. split; [exact (idle_fair _ _ _ _ two_fine)|]. split; [exact (idle_winning _ _ _ _ two_fine)|]. split; [exact N|].
  intro eqd. apply (idle_forges _ _ _ _ two_fine). intro c1. exact N.
Qed.
Example C93_quadratic_example : let s := idle square_air 0 1 (fun _ => tt) in let wo := idle_words square_air 0 1 (fun _ => tt) in
  well_formed square_air s /\ fair square_air 0 1 2 ood_domain 1 (idle_samples square_air 0 1) /\
  winning square_air 0 1 2 (fun _ => tt) s ood_domain honest_w 1 2 (idle_samples square_air 0 1) [(idle_tape square_air 0 1, [0; 4]%nat)] /\
  (forall f, decodes 2 1 1 ood_domain honest_w f (s_columns s [] 0%nat) -> values 2 ood_domain f <> map (squaring (f97 3 : toy)) (seq 0 (2 ^ 2))) /\
  forall eqd, forges square_air 0 1 2 (fun _ => tt) eqd (scripted (idle_messages square_air 0 1 (fun _ => tt))) wo ood_domain honest_w (no_squaring 2 1 1 ood_domain honest_w wo (f97 3)) (idle_coins square_air 0 1).
Proof.
  intros s wo. assert (N : forall f, decodes 2 1 1 ood_domain honest_w f (fun _ => 0) -> values 2 ood_domain f <> map (squaring (f97 3 : toy)) (seq 0 (2 ^ 2))).
  { intros f Hf. rewrite (idle_zero f Hf). apply zeros_differ. vm_compute. discriminate. }
  split; [apply idle_well_formed|]. split; [exact (idle_fair _ _ _ _ square_fine)|]. split; [exact (idle_winning _ _ _ _ square_fine)|]. split; [exact N|].
  intro eqd. apply (idle_forges _ _ _ _ square_fine). intro c1. exact N.
Qed.
Example C93_dummy_example : let s := idle flag_air 0 2 (fun _ => tt) in let wo := idle_words flag_air 0 2 (fun _ => tt) in
  well_formed flag_air s /\ fair flag_air 0 2 2 ood_domain 1 (idle_samples flag_air 0 2) /\
  winning flag_air 0 2 2 (fun _ => tt) s ood_domain honest_w 1 2 (idle_samples flag_air 0 2) [(idle_tape flag_air 0 2, [0; 4]%nat)] /\
  (forall f g, decodes 2 1 1 ood_domain honest_w f (s_columns s [] 0%nat) -> decodes 2 1 1 ood_domain honest_w g (s_columns s [] 1%nat) ->
     ~ ((forall x, In x (values 2 ood_domain f) -> x = 0 \/ x = 1) /\ values 2 ood_domain g = fibs 1 1 (2 ^ 2))) /\
  forall eqd, forges flag_air 0 2 2 (fun _ => tt) eqd (scripted (idle_messages flag_air 0 2 (fun _ => tt))) wo ood_domain honest_w (no_dummy 2 1 1 ood_domain honest_w wo) (idle_coins flag_air 0 2).
Proof.
  intros s wo. assert (N : forall f g, decodes 2 1 1 ood_domain honest_w f (fun _ => 0) -> decodes 2 1 1 ood_domain honest_w g (fun _ => 0) ->
     ~ ((forall x, In x (values 2 ood_domain f) -> x = 0 \/ x = 1) /\ values 2 ood_domain g = fibs 1 1 (2 ^ 2))).
  { intros f g _ Hg [_ Q]. rewrite (idle_zero g Hg) in Q. revert Q. apply zeros_differ. vm_compute. discriminate. }
  split; [apply idle_well_formed|]. split; [exact (idle_fair _ _ _ _ flag_fine)|]. split; [exact (idle_winning _ _ _ _ flag_fine)|]. split; [exact N|].
  intro eqd. apply (idle_forges _ _ _ _ flag_fine). intro c1. exact N.
Qed.
Example C93_rap_example : let pick := fun xs => nth 0 xs (0 : toy) in let s := idle rap_air 1 3 pick in let wo := idle_words rap_air 1 3 pick in
  well_formed rap_air s /\ fair rap_air 1 3 2 ood_domain 1 (idle_samples rap_air 1 3) /\
  winning rap_air 1 3 2 pick s ood_domain honest_w 1 2 (idle_samples rap_air 1 3) [(idle_tape rap_air 1 3, [0; 4]%nat)] /\
  (forall gamma f, decodes 2 1 1 ood_domain honest_w f (s_columns s [gamma] 0%nat) -> firstn 3 (values 2 ood_domain f) <> fibs 1 1 3) /\
  forall eqd, forges rap_air 1 3 2 pick eqd (scripted (idle_messages rap_air 1 3 pick)) wo ood_domain honest_w (no_fibonacci_steps 2 1 1 ood_domain honest_w wo 3) (idle_coins rap_air 1 3).
Proof.
  intros pick s wo. assert (N : forall f, decodes 2 1 1 ood_domain honest_w f (fun _ => 0) -> firstn 3 (values 2 ood_domain f) <> fibs 1 1 3).
  { intros f Hf Q. rewrite (idle_zero f Hf) in Q. apply (f_equal (fun l : list toy => zval (nth 0 l 0))) in Q. vm_compute in Q. discriminate Q. }
  split; [apply idle_well_formed|]. split; [exact (idle_fair _ _ _ _ rap_fine)|]. split; [exact (idle_winning _ _ _ _ rap_fine)|]. split; [intro gamma; exact N|].
  intro eqd. apply (idle_forges _ _ _ _ rap_fine). intro c1. exact N.
Qed.
(** A second column that is no rearrangement of the first. *)
Definition odd_table : trace_table toy := mk_trace (map f97 [1; 50; 1; 60; 2; 70; 3; 80]%Z) 2.
Example C93_any_second_column_example :
  has_columns odd_table (2 ^ 2) [map f97 [1; 1; 2; 3]%Z; map f97 [50; 60; 70; 80]%Z] /\ firstn 3 (map f97 [1; 1; 2; 3]%Z) = fibs (1 : toy) 1 3 /\
  toy_run (fibonacci_rap_air toy 3 toy_opts) (Ok odd_table) = Ok true.
Proof. split; [|split; vm_compute; reflexivity]. split; [reflexivity|]. split; [intros c [<-|[<-|[]]]; reflexivity|]. vm_compute. reflexivity. Qed.
