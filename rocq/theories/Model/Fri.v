(** FRI. Sources: src/starks/fri/mod.rs, fri_functions.rs, fri_commitment.rs. *)
From Coq Require Import List Arith NArith.
From Verif.Base Require Import Outcome Field Poly.
From Verif.Model Require Import Codec Trace Merkle Air Transcript.
Import ListNotations.
Local Open Scope outcome_scope.

(** fri_functions.rs:4-27 *)
Definition fold_polynomial {K : field_ops} (p : poly K) (beta : K) : poly K :=
  let even_coef := evens p in
  let odd_coef_mul_beta := map (fun v => fmul v beta) (odds p) in
  padd (trim even_coef) (trim odd_coef_mul_beta).

Section Fri.
Context (E : env).
Notation T := (e_tr E).

(** fri_commitment.rs:14-23 *)
Record fri_layer := mk_fri_layer {
  fl_evaluation : list E;
  fl_tree : merkle_tree;
  fl_coset_offset : E;
  fl_domain_size : nat
}.

(** fri_commitment.rs:30-47 *)
Definition fri_layer_new (p : poly E) (offset : E) (domain_size : nat) : outcome fri_layer :=
  evaluation <- unwrap_r (evaluate_offset_fft p 1 domain_size offset);;
  tree <- merkle_build (map (e_leaf E) evaluation);;
  Ok (mk_fri_layer evaluation tree offset domain_size).

Definition fl_root (l : fri_layer) : commitment := tree_root (e_node E) (fl_tree l).

(** The loop of fri/mod.rs:41-55. *)
Fixpoint fri_loop (rounds : nat) (p : poly E) (offset : E) (domain_size : nat) (t : T)
  : outcome (list fri_layer * poly E * T) :=
  match rounds with
  | O => Ok ([], p, t)
  | S r =>
      '(zeta, t) <- transcript_to_field E t;;
      let offset := fsquare offset in
      let domain_size := domain_size / 2 in
      let p := fold_polynomial p zeta in
      layer <- fri_layer_new p offset domain_size;;
      let t := tr_append t (fl_root layer) in
      '(layers, p', t) <- fri_loop r p offset domain_size t;;
      Ok (layer :: layers, p', t)
  end.

(** fri/mod.rs:20-72 *)
Definition fri_commit_phase (number_layers : nat) (p_0 : poly E) (t : T) (offset : E) (domain_size : nat)
  : outcome (E * list fri_layer * T) :=
  layer0 <- fri_layer_new p_0 offset domain_size;;
  let t := tr_append t (fl_root layer0) in
  '(layers, p, t) <- fri_loop (number_layers - 1) p_0 offset domain_size t;;
  '(zeta, t) <- transcript_to_field E t;;
  let last_poly := fold_polynomial p zeta in
  let last_value := nth 0 last_poly fzero in
  let t := tr_append t (fe_to (e_codec E) last_value) in
  Ok (last_value, layer0 :: layers, t).

(** fri/mod.rs:100-112: the openings of one layer; [x % 0] is a panic. *)
Definition fri_open_layer (iota : nat) (l : fri_layer)
  : outcome (list commitment * E * list commitment * E) :=
  if fl_domain_size l =? 0 then Panic else
  let index := iota mod fl_domain_size l in
  let index_sym := (iota + fl_domain_size l / 2) mod fl_domain_size l in
  evaluation_sym <- idx (fl_evaluation l) index_sym;;
  auth_path_sym <- unwrap (tree_path (e_node E) (fl_tree l) index_sym);;
  evaluation <- idx (fl_evaluation l) index;;
  auth_path <- unwrap (tree_path (e_node E) (fl_tree l) index);;
  Ok (auth_path_sym, evaluation_sym, auth_path, evaluation).

Definition fri_decommit (layers : list fri_layer) (iota : nat) : outcome (fri_decommitment E) :=
  os <- traverse (fri_open_layer iota) layers;;
  Ok (mk_fri_decommitment (map (fun o => fst (fst (fst o))) os) (map (fun o => snd (fst (fst o))) os)
        (map (fun o => snd (fst o)) os) (map snd os)).

(** fri/mod.rs:74-127 *)
Definition fri_query_phase (queries domain_size : nat) (layers : list fri_layer) (t : T)
  : outcome (list (fri_decommitment E) * list nat * T) :=
  match layers with
  | [] => Ok ([], [], t)
  | _ =>
      '(iotas, t) <- sample_indices E queries domain_size t;;
      ql <- traverse (fri_decommit layers) iotas;;
      Ok (ql, iotas, t)
  end.
End Fri.
Arguments fl_evaluation {E}. Arguments fl_tree {E}. Arguments fl_coset_offset {E}. Arguments fl_domain_size {E}.
Arguments mk_fri_layer {E}.
