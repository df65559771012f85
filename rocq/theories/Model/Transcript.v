(** Challenge derivation and grinding. Sources: src/starks/transcript.rs, src/starks/grinding.rs. *)
From Coq Require Import List Arith NArith Bool PArith.
From Verif.Base Require Import Outcome Bytes Field Poly.
From Verif.Model Require Import Codec Trace Air.
Import ListNotations.
Local Open Scope outcome_scope.

Section Transcript.
Context (E : env).
Notation T := (e_tr E).

(** transcript.rs:23-43: clears the high bits so that [field_bit_size - 1] random bits remain.
    [b & mask] with [mask = 2^(8-k) - 1] is the remainder modulo [2^(8-k)]. *)
Definition mask_randomness (bits : nat) (randomness : list byte) : outcome (list byte) :=
  required <- usub bits 1;;
  bits_to_clear <- usub (length randomness * 8) required;;
  let i := bits_to_clear / 8 in
  let rem := bits_to_clear mod 8 in
  b <- idx randomness i;;
  Ok (repeat Byte.x00 i ++ byte_of (bval b mod 2 ^ N.of_nat (8 - rem)) :: skipn (S i) randomness).

Definition randomness_to_field (randomness : list byte) : outcome E :=
  bs <- mask_randomness (e_bits E) randomness;;
  unwrap (fe_from (e_codec E) bs).

(** transcript.rs:13-19 *)
Definition transcript_to_field (t : T) : outcome (E * T) :=
  let '(r, t) := tr_challenge t in
  x <- randomness_to_field r;; Ok (x, t).

(** transcript.rs:45-51 *)
Definition transcript_to_usize (t : T) : outcome (N * T) :=
  let '(r, t) := tr_challenge t in
  b <- slice r 0 8;; Ok (be_val b, t).

(** transcript.rs:71-79 *)
Fixpoint batch_sample_challenges (size : nat) (t : T) : outcome (list E * T) :=
  match size with
  | O => Ok ([], t)
  | S n => '(x, t) <- transcript_to_field t;; '(xs, t) <- batch_sample_challenges n t;; Ok (x :: xs, t)
  end.

(** transcript.rs:53-69: the unbounded loop is bounded by [fuel]; running out is [Panic]
    (no answer), and the theorems hold for every fuel. *)
Fixpoint sample_z_ood (fuel : nat) (lde trace : list E) (t : T) : outcome (E * T) :=
  match fuel with
  | O => Panic
  | S fuel' =>
      '(v, t) <- transcript_to_field t;;
      if negb (existsb (fun x => feqb x v) lde) && negb (existsb (fun x => feqb x v) trace)
      then Ok (v, t) else sample_z_ood fuel' lde trace t
  end.

(** [(0..n).map(|_| transcript_to_usize(transcript) % m)] *)
Fixpoint sample_indices (n m : nat) (t : T) : outcome (list nat * T) :=
  match n with
  | O => Ok ([], t)
  | S n' =>
      '(v, t) <- transcript_to_usize t;;
      i <- (if m =? 0 then Panic else Ok (N.to_nat (v mod N.of_nat m)));;
      '(is, t) <- sample_indices n' m t;; Ok (i :: is, t)
  end.

(** ** Grinding *)

(** [u64::trailing_zeros] *)
Definition tz64 (n : N) : N := match n with N0 => 64 | Npos p => N.of_nat (tz_pos p) end.

(** grinding.rs:17-29 *)
Definition grind_zeros (challenge : list byte) (value : N) : outcome N :=
  d <- slice (e_keccak E (challenge ++ le_bytes 8 value)) 0 8;;
  Ok (tz64 (be_val d)).

(** The first number from [c] on, among [p] of them, satisfying [f]; a panic of [f] stops the search. *)
Fixpoint search (f : N -> outcome bool) (p : positive) (c : N) : outcome (option N) :=
  let leaf c := b <- f c;; Ok (if b : bool then Some c else None) in
  match p with
  | xH => leaf c
  | xO q =>
      r <- search f q c;;
      match r with Some v => Ok (Some v) | None => search f q (c + Npos q) end
  | xI q =>
      r <- search f q c;;
      match r with
      | Some v => Ok (Some v)
      | None =>
          r <- search f q (c + Npos q);;
          match r with Some v => Ok (Some v) | None => leaf (c + Npos q + Npos q)%N end
      end
  end.

(** [u64::MAX]: the range [0..u64::MAX] has that many elements. *)
Definition u64_max : positive := 18446744073709551615.

(** grinding.rs:40-48 *)
Definition generate_nonce (challenge : list byte) (factor : N) : outcome (option N) :=
  search (fun c => z <- grind_zeros challenge c;; Ok (factor <=? z)%N) u64_max 0.
End Transcript.
