(** Proof option constructors and their security checks. Source: src/starks/proof/options.rs. *)
From Coq Require Import NArith ZArith Bool.
From Verif.Base Require Import Outcome Bytes Poly.
From Verif.Model Require Import Air.
Local Open Scope outcome_scope.

(** Overflowing [usize] arithmetic panics in debug builds and wraps in release builds. *)
Inductive build := Debug | Release.
Definition usize_arith (m : build) (x : Z) : outcome N :=
  if ((0 <=? x) && (x <? 2 ^ 64))%Z then Ok (Z.to_N x)
  else match m with Debug => Panic | Release => Ok (Z.to_N (x mod 2 ^ 64)) end.

(** [u8::trailing_zeros], [u8::leading_zeros] *)
Definition u8_trailing_zeros (n : N) : N := match n with N0 => 8 | Npos p => N.of_nat (tz_pos p) end.
Definition u8_leading_zeros (n : N) : N := match n with N0 => 8 | Npos _ => 7 - N.log2 n end.

(** options.rs:5-12 *)
Inductive security_level :=
  Conjecturable80Bits | Conjecturable100Bits | Conjecturable128Bits
| Provable80Bits | Provable100Bits | Provable128Bits.

(** options.rs:35-74 *)
Definition new_secure (l : security_level) (offset : N) : proof_options :=
  match l with
  | Conjecturable80Bits => mk_options 4 31 offset 20
  | Conjecturable100Bits => mk_options 4 41 offset 20
  | Conjecturable128Bits => mk_options 4 55 offset 20
  | Provable80Bits => mk_options 4 80 offset 20
  | Provable100Bits => mk_options 4 104 offset 20
  | Provable128Bits => mk_options 4 140 offset 20
  end.

(** options.rs:130-140; [bits] is [F::field_bit_size()]; the constants are 1 and 40. *)
Definition check_field_security (bits target : N) : outcome unit :=
  if (bits * 1 <=? target + 40)%N then Err OtherError else Ok tt.

(** options.rs:77-100 *)
Definition new_with_checked_security (m : build) (bits blowup queries offset grinding target : N)
  : outcome proof_options :=
  _ <- check_field_security bits target;;
  let num_bits := u8_trailing_zeros blowup in
  prod <- usize_arith m (Z.of_N num_bits * Z.of_N queries);;
  sum <- usize_arith m (Z.of_N grinding + Z.of_N prod);;
  level <- usize_arith m (Z.of_N sum - 1);;
  if (level <=? target)%N then Err OtherError
  else Ok (mk_options (N.to_nat blowup) (N.to_nat queries) offset grinding).

(** options.rs:105-128 *)
Definition new_with_checked_provable_security (m : build) (bits blowup queries offset grinding target : N)
  : outcome proof_options :=
  _ <- check_field_security bits target;;
  let num_bits := u8_leading_zeros blowup in
  prod <- usize_arith m (Z.of_N num_bits * Z.of_N queries);;
  level <- usize_arith m (Z.of_N grinding + Z.of_N (prod / 2));;
  if (target <? level)%N then Err OtherError
  else Ok (mk_options (N.to_nat blowup) (N.to_nat queries) offset grinding).

(** options.rs:144-151 *)
Definition default_test_options : proof_options := mk_options 4 3 3 1.
