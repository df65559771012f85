(** Evaluation domains. Source: src/starks/domain.rs. *)
From Coq Require Import List Arith NArith.
From Verif.Base Require Import Outcome Field Poly.
From Verif.Model Require Import Codec Trace Air.
Import ListNotations.
Local Open Scope outcome_scope.

(** domain.rs:8-17 *)
Record domain (K : Type) := mk_domain {
  root_order : nat;
  lde_roots_of_unity_coset : list K;
  lde_root_order : nat;
  trace_primitive_root : K;
  trace_roots_of_unity : list K;
  d_coset_offset : K;
  d_blowup_factor : nat;
  interpolation_domain_size : nat
}.
Arguments mk_domain {K}. Arguments root_order {K}. Arguments lde_roots_of_unity_coset {K}.
Arguments lde_root_order {K}. Arguments trace_primitive_root {K}. Arguments trace_roots_of_unity {K}.
Arguments d_coset_offset {K}. Arguments d_blowup_factor {K}. Arguments interpolation_domain_size {K}.

(** domain.rs:20-56 *)
Definition domain_new {E : env} (a : air E) : outcome (domain E) :=
  let blowup := blowup_factor (a_options a) in
  let offset := e_u64 E (coset_offset (a_options a)) in
  let n := a_trace_length a in
  let root_order := trailing_zeros n in
  root <- unwrap (primitive_root root_order);;
  trace_roots <- unwrap_r (powers_coset root_order n (fone : E));;
  let lde_root_order := trailing_zeros (n * blowup) in
  lde <- unwrap_r (powers_coset lde_root_order (n * blowup) offset);;
  Ok (mk_domain root_order lde lde_root_order root trace_roots offset blowup n).
