(** C60, C61, C62: what the DEEP quotients, the FRI layers and the queries say about the committed words. *)
From Coq Require Import List Arith Lia Bool NArith ZArith.
From Verif.Base Require Import Outcome Bytes Field Poly Zp.
From Verif.Model Require Import Codec Trace Merkle Air Transcript Domain Fri Prover Verifier ExampleAirs.
From Verif.Spec Require Import AirSpec VerifierSpec HashSpec LowDegree FriTree.
From Verif.Proofs Require Import OutcomeFacts FieldFacts PolyFacts FFTFacts MerkleFacts BindingFacts DomainFacts FriFacts VerifierFacts OodFacts
  LowDegreeFacts FriSoundness.
From Verif.Examples Require Import Toy Stark252.
From Verif.Properties Require Import ExampleProperties StarkProperties.
Import ListNotations.
Local Open Scope felt_scope.

(** ** C60 *)

(** The word that step 4 of the verifier expects as the first FRI layer: if it is a polynomial with [m] coefficients on
    a set of points away from the pole for two values of the coefficient of column [col] and frame row [row], then on
    these points the opened column is a polynomial with [m + 1] coefficients, and the out-of-domain value that the proof
    states for this column and row is its value. *)
Theorem C60_column_is_polynomial :
  forall (E : env) (p : stark_proof E) (a : air E) (c : challenges E a) g rows (op : E -> deep_openings E) (S : E -> Prop) m col row cl gamma gamma',
    env_ok E ->
    nth_error (c_trace_term_coeffs E a c) col = Some cl -> (row < length cl)%nat -> (row < length rows)%nat ->
    (col < fr_num_columns (trace_ood_frame_evaluations p))%nat ->
    gamma <> gamma' -> (forall x, S x -> x <> c_z E a c * fpow g row) ->
    low_degree S (deep_word p (with_trace_coeff col row gamma c) g rows op) m ->
    low_degree S (deep_word p (with_trace_coeff col row gamma' c) g rows op) m ->
    exists q : poly E, (length q <= m + 1)%nat /\ peval q (c_z E a c * fpow g row) = nth col (nth row rows []) 0 /\
      forall x, S x -> nth col (lde_trace_evaluations (op x)) 0 = peval q x.
Proof.
  intros E p a c g rows op S m col row cl gamma gamma' HE Hc Hr Hrows Hcol Hne Hpole L1 L2.
  pose proof (fft_field_ok E (e_fft_ok E HE)) as HK.
  destruct (nth_error cl row) as [old|] eqn:Ho; [|apply nth_error_None in Ho; lia].
  apply (quotient_low_degree HE S (fun x => nth col (lde_trace_evaluations (op x)) 0) _ _ (gamma - gamma')
     (nth col (nth row rows []) 0) (c_z E a c * fpow g row) m) with (4 := L1) (5 := L2).
  - intro H. apply Hne. exact (proj1 (sub_zero HK _ _) H).
  - exact Hpole.
  - intros x _. exact (deep_value_two HE p c g rows x (op x) col row gamma gamma' cl old Hc Ho Hcol Hrows).
Qed.
Print Assumptions C60_column_is_polynomial.

(** The two halves of the composition polynomial. *)
Theorem C60_composition_is_polynomial :
  forall (E : env) (p : stark_proof E) (a : air E) (c : challenges E a) g rows (op : E -> deep_openings E) (S : E -> Prop) m gamma gamma' delta,
    env_ok E -> gamma <> gamma' -> (forall x, S x -> x <> c_z E a c * c_z E a c) ->
    (low_degree S (deep_word p (with_gammas gamma delta c) g rows op) m -> low_degree S (deep_word p (with_gammas gamma' delta c) g rows op) m ->
     exists q : poly E, (length q <= m + 1)%nat /\ peval q (c_z E a c * c_z E a c) = composition_poly_even_ood_evaluation p /\
       forall x, S x -> lde_composition_poly_even_evaluation (op x) = peval q x) /\
    (low_degree S (deep_word p (with_gammas delta gamma c) g rows op) m -> low_degree S (deep_word p (with_gammas delta gamma' c) g rows op) m ->
     exists q : poly E, (length q <= m + 1)%nat /\ peval q (c_z E a c * c_z E a c) = composition_poly_odd_ood_evaluation p /\
       forall x, S x -> lde_composition_poly_odd_evaluation (op x) = peval q x).
Proof.
  intros E p a c g rows op S m gamma gamma' delta HE Hne Hpole. pose proof (fft_field_ok E (e_fft_ok E HE)) as HK.
  assert (Hd : gamma - gamma' <> 0) by (intro H; apply Hne; exact (proj1 (sub_zero HK _ _) H)).
  split; intros L1 L2.
  - apply (quotient_low_degree HE S (fun x => lde_composition_poly_even_evaluation (op x)) _ _ (gamma - gamma') _ _ m Hd Hpole) with (2 := L1) (3 := L2).
    intros x _. exact (proj1 (deep_value_gammas HE p c g rows x (op x) gamma gamma' delta)).
  - apply (quotient_low_degree HE S (fun x => lde_composition_poly_odd_evaluation (op x)) _ _ (gamma - gamma') _ _ m Hd Hpole) with (2 := L1) (3 := L2).
    intros x _. exact (proj2 (deep_value_gammas HE p c g rows x (op x) gamma gamma' delta)).
Qed.
Print Assumptions C60_composition_is_polynomial.

(** ** C61 *)

(** Rounds of folding: a word on [2^m] points that folds down to a constant in [k] rounds, for two challenges in every
    round, is a polynomial with [2^k] coefficients. *)
Theorem C61_folding_words :
  forall (E : env) k m (h w : E) f, env_ok E -> (k <= m)%nat -> h <> 0 -> primitive_root m = Some w -> (1 <= m)%nat ->
    folds_to_constants k (on_coset h w) f -> low_degree (on_coset h w) f (2 ^ k).
Proof.
  intros E k m h w f HE Hk Hh Hw Hm. apply (folds_low_degree HE k m h w f Hk Hh).
  exact (proj1 (primitive_root_prim (e_fft_ok E HE) m w Hm Hw)).
Qed.
Print Assumptions C61_folding_words.

(** FRI: a committed word that is continued for two challenges in every round, such that in every run the verifier's
    query checks pass at every point with answers in which no two evaluated hashes coincide, is a polynomial with [2^k]
    coefficients. *)
Theorem C61_fri_low_degree :
  forall (E : env) (t : fri_tree E) k m (h w : E), env_ok E -> (k <= m)%nat -> h <> 0 -> primitive_root m = Some w -> (1 <= m)%nat ->
    rounds k t -> all_answered m h w t -> low_degree (on_coset h w) (first_word t) (2 ^ k).
Proof.
  intros E t k m h w HE Hk Hh Hw Hm Hr Ha. apply (fri_tree_low_degree HE t k m h w Hk Hh); [|exact Hr|exact Ha].
  exact (proj1 (primitive_root_prim (e_fft_ok E HE) m w Hm Hw)).
Qed.
Print Assumptions C61_fri_low_degree.

(** ** C62 *)

(** The verifier accepts, the FRI roots in the proof are those of the words [words], and the answer to a query is
    complete: then two evaluated hashes of this answer coincide, or at this query's point every word folds into the next
    and the last one into the last value, and the first word has the value of the DEEP composition there. *)
Theorem C62_accepted_query :
  forall (E : env) fuel (mk : nat -> air E) opts (p : stark_proof E) r b d c t W words j iota q, env_ok E ->
    let a := mk (trace_length p) in
    a_trace_length a = (2 ^ r)%nat -> (1 <= r)%nat -> a_blowup a = (2 ^ b)%nat ->
    (forall e, In e (transition_exemptions (a_context a)) -> (e <= 2 ^ r)%nat) ->
    verify E fuel mk opts p = Ok true -> domain_new a = Ok d -> step_1 E fuel a p d tr_new = Ok (c, t) ->
    primitive_root (r + b) = Some W -> (length words <= r + b)%nat ->
    fri_layers_merkle_roots p = layer_roots (r + b) (d_coset_offset d) W words ->
    nth_error (c_iotas E a c) j = Some iota -> nth_error (query_list p) j = Some q ->
    answer_shape (length words) q -> clash_free (r + b) (d_coset_offset d) W words iota q ->
    folds_at words (c_zetas E a c) (fri_last_value p) (nth iota (lde_roots_of_unity_coset d) 0) /\
    forall o f words', words = f :: words' -> nth_error (deep_poly_openings p) j = Some o ->
      exists rows, fr_num_rows (trace_ood_frame_evaluations p) = Ok (length rows) /\
        (forall i, (i < length rows)%nat -> fr_get_row (trace_ood_frame_evaluations p) i = Ok (nth i rows [])) /\
        f (nth iota (lde_roots_of_unity_coset d) 0) = deep_value p c (trace_primitive_root d) rows (nth iota (lde_roots_of_unity_coset d) 0) o.
Proof. intros E fuel mk opts p r b d c t W words j iota q HE. exact (accepted_query HE fuel mk opts p r b d c t W words j iota q). Qed.
Print Assumptions C62_accepted_query.

(** So query vectors that hit no point where the words do not fold are few: of the [N^q] vectors of [q] indices, at most
    [(N - k)^q] avoid a set of [k] bad ones. *)
Theorem C62_escaping_queries :
  forall N q (bad : nat -> bool) escaping, NoDup escaping ->
    (forall v, In v escaping -> length v = q /\ forall i, In i v -> (i < N)%nat /\ bad i = false) ->
    (length escaping <= (N - length (filter bad (seq 0 N))) ^ q)%nat.
Proof. exact escaping_count. Qed.
Print Assumptions C62_escaping_queries.

(** FINDING. The verifier does not compare the length of an opening's path with the depth of the tree, and leaves of two
    elements are hashed like inner nodes. Whenever an inner node's two children are encodings of field elements, these two
    elements are an accepted opening, at an index that also has its proper opening. *)
Theorem C62_inner_nodes_open_refuted :
  forall (E : env) (H : list byte -> commitment) (enc : E -> list byte) k (leaves : list commitment) j (x y : E),
    (forall u v, e_leaves E [u; v] = H (enc u ++ enc v)) -> (forall u v, e_node E u v = H (u ++ v)) ->
    length leaves = (2 ^ S k)%nat -> (j < 2 ^ k)%nat ->
    nth (2 * j) leaves [] = enc x -> nth (2 * j + 1) leaves [] = enc y ->
    exists path, length path = k /\ path_verify (e_node E) path (mt_root (e_node E) (S k) leaves) j (e_leaves E [x; y]) = true.
Proof.
  intros E H enc k leaves j x y Hl Hn Hlen Hj Hx Hy.
  exists (mt_path (e_node E) k (pair_up (e_node E) leaves) j). split; [apply mt_path_length|].
  assert (L : length (pair_up (e_node E) leaves) = (2 ^ k)%nat) by (apply pair_up_length; rewrite Hlen; reflexivity).
  assert (Lj : (2 * j + 1 < length leaves)%nat) by (rewrite Hlen; cbn [Nat.pow]; lia).
  replace (e_leaves E [x; y]) with (nth j (pair_up (e_node E) leaves) []).
  2: { rewrite pair_up_nth by exact Lj. rewrite Hn, Hx, Hy, Hl. reflexivity. }
  cbn [mt_root]. apply honest_opening_verifies; [exact L|exact Hj|now apply Nat.mod_small].
Qed.
Print Assumptions C62_inner_nodes_open_refuted.

(** ** Examples *)

Lemma low_degree_check (pts : list toy) (f : toy -> toy) (q : poly toy) m : (length q <=? m)%nat = true ->
  forallb (fun x => feqb (f x) (peval q x)) pts = true -> low_degree (fun x => In x pts) f m.
Proof.
  intros Hq H. exists q. split; [now apply Nat.leb_le|]. intros x Hx. rewrite forallb_forall in H.
  apply (feqb_spec toy (fft_field_ok toy (e_fft_ok toy toy_ok))), H, Hx.
Qed.

(** C60: a column [1 + 2 x] opened on sixteen points, with the stated value 7 at the pole 3. *)
Definition deep_proof : stark_proof toy :=
  mk_stark_proof 4 [] (mk_frame [f97 7] 1) [] (f97 0) (f97 0) [] (f97 0) [] [] 0%N.
Definition deep_air : air toy := fibonacci_air toy (f97 1) (f97 1) toy_opts 4.
Definition deep_challenges : challenges toy deep_air := mk_challenges toy deep_air (f97 3) [] [] [[f97 5]] (f97 1) (f97 1) [] [] tt 0%N.
Definition deep_op (x : toy) : deep_openings toy := mk_deep_openings [] (f97 0) (f97 0) [] [f97 1 + f97 2 * x].
Definition deep_points : list toy := map (fun i => f97 (Z.of_nat i)) (seq 10 16).
Example C60_example :
  (forall x, In x deep_points -> x <> c_z toy deep_air deep_challenges * fpow (f97 1 : toy) 0) /\ f97 1 <> f97 2 /\
  low_degree (fun x => In x deep_points) (deep_word deep_proof (with_trace_coeff (E := toy) 0 0 (f97 1) deep_challenges) (f97 1 : toy) [[f97 7 : toy]] deep_op) 1 /\
  low_degree (fun x => In x deep_points) (deep_word deep_proof (with_trace_coeff (E := toy) 0 0 (f97 2) deep_challenges) (f97 1 : toy) [[f97 7 : toy]] deep_op) 1 /\
  map (fun x => zval (nth 0 (lde_trace_evaluations (deep_op x)) (f97 0))) (firstn 3 deep_points) = [21; 23; 25]%Z.
Proof.
  split.
  - assert (H : forallb (fun x => negb (feqb x ((f97 3 : toy) * fpow (f97 1 : toy) 0))) deep_points = true) by (vm_compute; reflexivity).
    intros x Hx. rewrite forallb_forall in H. specialize (H x Hx). intros ->. apply negb_true_iff in H.
    apply not_true_iff_false in H. apply H. now apply (feqb_spec toy (fft_field_ok toy (e_fft_ok toy toy_ok))).
  - split; [intro H; apply (f_equal (@zval 97)) in H; vm_compute in H; discriminate|].
    split; [apply (low_degree_check _ _ [f97 2]); vm_compute; reflexivity|].
    split; [apply (low_degree_check _ _ [f97 4]); vm_compute; reflexivity|]. vm_compute. reflexivity.
Qed.

(** Deciding acceptance of one answer in the toy environment. *)
Lemma toy_leaf_inj (x y : toy) : e_leaf toy x = e_leaf toy y -> x = y.
Proof.
  set (decode := fun bs : list byte => ((be_val bs + 65521 - be_val (be_bytes 4 (mix (be_bytes 8 0)))) mod 65521)%N).
  assert (T : forallb (fun n => N.eqb (decode (be_bytes 4 (mix (be_bytes 8 n)))) n) (map N.of_nat (seq 0 97)) = true) by (vm_compute; reflexivity).
  rewrite forallb_forall in T.
  assert (D : forall z : toy, decode (e_leaf toy z) = Z.to_N (zval z)).
  { intros [z Hz]. unfold in_range in Hz. apply N.eqb_eq, (T (Z.to_N z)). apply andb_true_iff in Hz. rewrite Z.leb_le, Z.ltb_lt in Hz.
    apply in_map_iff. exists (Z.to_nat z). split; [lia|]. apply in_seq. lia. }
  intro H. apply (f_equal decode) in H. rewrite !D in H. apply zp_eq. destruct x as [x Hx], y as [y Hy]. cbn [zval] in *.
  unfold in_range in Hx, Hy. apply andb_true_iff in Hx, Hy. rewrite Z.leb_le, Z.ltb_lt in Hx, Hy. lia.
Qed.
Definition opening_clashb (m : nat) (h w : toy) (f : toy -> toy) path index x : bool :=
  let calls := path_calls (e_node toy) path index (e_leaf toy x) ++ tree_calls (e_node toy) m (word_leaves m h w f) in
  node_clashb (e_node toy) calls || leaf_clashb (e_node toy) calls (e_leaf toy x :: word_leaves m h w f).
Lemma opening_clashb_false m h w f path index x : opening_clashb m h w f path index x = false -> ~ opening_clash m h w f path index x.
Proof.
  intros H [C|[C|(Hne & He)]]; unfold opening_clashb in H; apply orb_false_iff in H; destruct H as [H1 H2].
  - exact (node_clashb_false _ _ H1 C).
  - exact (leaf_clashb_false _ _ _ H2 C).
  - apply Hne. now apply toy_leaf_inj.
Qed.
Fixpoint clash_freeb (m : nat) (h w : toy) (fs : list (toy -> toy)) (iota : nat) (q : fri_decommitment toy) : bool :=
  match fs with
  | [] => true
  | f :: fs' =>
      negb (opening_clashb m h w f (hd [] (layers_auth_paths q)) iota (hd 0 (layers_evaluations q))) &&
      negb (opening_clashb m h w f (hd [] (layers_auth_paths_sym q)) ((iota + 2 ^ m / 2) mod 2 ^ m) (hd 0 (layers_evaluations_sym q))) &&
      clash_freeb (m - 1) (h * h) (w * w) fs' iota (later_layers q)
  end.
Lemma clash_freeb_true fs : forall m h w iota q, clash_freeb m h w fs iota q = true -> clash_free m h w fs iota q.
Proof.
  induction fs as [|f fs IH]; intros m h w iota q H; [exact I|]. cbn [clash_freeb] in H. apply andb_true_iff in H. destruct H as [H H3].
  apply andb_true_iff in H. destruct H as [H1 H2]. apply negb_true_iff in H1, H2. cbn [clash_free].
  split; [now apply opening_clashb_false|]. split; [now apply opening_clashb_false|]. now apply IH.
Qed.
Definition answer_shapeb (k : nat) (q : fri_decommitment toy) : bool :=
  (length (layers_auth_paths q) =? k)%nat && (length (layers_evaluations q) =? k)%nat &&
  (length (layers_auth_paths_sym q) =? k)%nat && (length (layers_evaluations_sym q) =? k)%nat.
Lemma answer_shapeb_true k q : answer_shapeb k q = true -> answer_shape k q.
Proof. unfold answer_shapeb, answer_shape. rewrite !andb_true_iff, !Nat.eqb_eq. tauto. Qed.

(** C61: [3 + 5 x] on four points, folded with the challenges 1 and 2. *)
Definition one_round : fri_tree toy :=
  fri_round (E := toy) (peval [f97 3; f97 5]) (f97 1) (f97 2) (fri_last (E := toy) (f97 8)) (fri_last (E := toy) (f97 13)).
Definition one_h : toy := f97 5.
Definition one_w : toy := f97 22.
Definition one_answer (iota : nat) : fri_decommitment toy :=
  let l := word_leaves (E := toy) 2 one_h one_w (peval [f97 3; f97 5]) in
  let j := ((iota + 2) mod 4)%nat in
  mk_fri_decommitment [mt_path (e_node toy) 2 l j] [peval [f97 3; f97 5] (one_h * fpow one_w j)]
    [mt_path (e_node toy) 2 l iota] [peval [f97 3; f97 5] (one_h * fpow one_w iota)].
Definition one_check (zeta last : toy) (iota : nat) : bool :=
  let q := one_answer iota in
  let f := peval [f97 3; f97 5] in
  let root := word_commit (E := toy) 2 one_h one_w f in
  let x := one_h * fpow one_w iota in
  let ev := hd 0 (layers_evaluations q) in let esym := hd 0 (layers_evaluations_sym q) in
  clash_freeb 2 one_h one_w [f] iota q &&
  list_byte_eqb (fold_path (e_node toy) (hd [] (layers_auth_paths q)) iota (e_leaf toy ev)) root &&
  list_byte_eqb (fold_path (e_node toy) (hd [] (layers_auth_paths_sym q)) ((iota + 4 / 2) mod 4) (e_leaf toy esym)) root &&
  feqb ((ev + esym) * finv (1 + 1) + zeta * (ev - esym) * finv ((1 + 1) * fpow x (2 ^ 0))) last.
Lemma one_answers zeta last iota : one_check zeta last iota = true ->
  answers (E := toy) 2 one_h one_w [peval [f97 3; f97 5]] [zeta] last iota (one_answer iota).
Proof.
  unfold one_check. rewrite !andb_true_iff, !list_byte_eqb_spec, (feqb_spec toy (fft_field_ok toy (e_fft_ok toy toy_ok))).
  intros (((H1 & H2) & H3) & H4). split; [repeat split|]. split; [now apply clash_freeb_true|].
  intros [|k] root path ev psym esym zeta' E1 E2 E3 E4 E5 E6; [|cbn in E2; destruct k; discriminate].
  cbn [nth_error layer_roots one_answer layers_auth_paths layers_evaluations layers_auth_paths_sym layers_evaluations_sym] in *.
  injection E1 as <-. injection E2 as <-. injection E3 as <-. injection E4 as <-. injection E5 as <-. injection E6 as <-.
  cbv zeta. split; [exact H2|]. split; [exact H3|exact H4].
Qed.
Example C61_example : primitive_root (K := toy) 2 = Some one_w /\ rounds 1 one_round /\ all_answered 2 one_h one_w one_round /\
  ~ (exists v, forall x, on_coset one_h one_w x -> first_word one_round x = v).
Proof.
  split; [vm_compute; f_equal; apply zp_eq; reflexivity|]. split.
  { split; [|split; exact I]. intro H. apply (f_equal (@zval 97)) in H. vm_compute in H. discriminate. }
  split.
  - intros fs zs v iota Hb Hi. exists (one_answer iota). cbn [one_round branches map app] in Hb.
    assert (T : forall zeta last, forallb (one_check zeta last) (seq 0 4) = true -> one_check zeta last iota = true).
    { intros zeta last T. rewrite forallb_forall in T. apply T. apply in_seq. cbn in Hi. lia. }
    destruct Hb as [Hb|[Hb|[]]]; injection Hb as <- <- <-; apply one_answers, T; vm_compute; reflexivity.
  - intros [v Hv]. assert (H0 := Hv (one_h * fpow one_w 0) (ex_intro _ 0%nat eq_refl)). assert (H1 := Hv (one_h * fpow one_w 1) (ex_intro _ 1%nat eq_refl)).
    rewrite <- H1 in H0. apply (f_equal (@zval 97)) in H0. vm_compute in H0. discriminate.
Qed.

(** C62: the queries of an honest proof. The two words are the prover's first polynomial and its folding. *)
Definition query_air := fibonacci_air toy (f97 1) (f97 1) toy_opts.
Definition query_words : list (toy -> toy) := [peval (map f97 [80; 89; 74]%Z); peval (map f97 [61; 74]%Z)].
Definition roots_eqb (a b : list commitment) : bool := if list_eq_dec (list_eq_dec Byte.byte_eq_dec) a b then true else false.
Definition query_check : bool :=
  match prove toy 20 query_air (toy_table [1; 1; 2; 3]%Z), domain_new (query_air 4), primitive_root (K := toy) 3 with
  | Ok p, Ok d, Some W =>
      roots_eqb (fri_layers_merkle_roots p) (layer_roots (E := toy) 3 (d_coset_offset d) W query_words) &&
      match step_1 toy 20 (query_air 4) p d tr_new with
      | Ok (c, _) => forallb (fun x : nat * fri_decommitment toy => answer_shapeb 2 (snd x) && clash_freeb 3 (d_coset_offset d) W query_words (fst x) (snd x))
          (combine (c_iotas toy _ c) (query_list p)) && (length (c_iotas toy _ c) =? 2)%nat && (length (query_list p) =? 2)%nat
      | _ => false end
  | _, _, _ => false end.
Example C62_example : query_check = true /\
  obind (prove toy 20 query_air (toy_table [1; 1; 2; 3]%Z)) (fun p => verify toy 20 query_air toy_opts p) = Ok true.
Proof. split; vm_compute; reflexivity. Qed.

(** Two openings of one root at index 1, with different values: the proper one and the children of an inner node. *)
Definition pair_leaves : list commitment := map (fun i => e_leaves stark_env [f252 i; f252 (i + 1)]) [10; 20; 30; 40]%Z.
Definition as_felt (bs : commitment) : stark_env := f252 (Z.of_N (be_val bs)).
Example C62_inner_node_example :
  let root := mt_root (e_node stark_env) 2 pair_leaves in
  path_verify (e_node stark_env) (mt_path (e_node stark_env) 2 pair_leaves 1) root 1 (e_leaves stark_env [f252 20; f252 21]) = true /\
  path_verify (e_node stark_env) (mt_path (e_node stark_env) 1 (pair_up (e_node stark_env) pair_leaves) 1) root 1
    (e_leaves stark_env [as_felt (nth 2 pair_leaves []); as_felt (nth 3 pair_leaves [])]) = true /\
  zval (as_felt (nth 2 pair_leaves [])) <> 20%Z.
Proof. split; [vm_compute; reflexivity|]. split; [vm_compute; reflexivity|]. vm_compute. discriminate. Qed.
