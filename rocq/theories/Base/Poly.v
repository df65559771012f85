(** Dense univariate polynomials: the interface of [lambdaworks_math::polynomial::Polynomial]
    and of its FFT trait that the code uses, as executable reference definitions.
    A polynomial is the list of its coefficients, lowest degree first, as the Rust [Vec]. *)
From Coq Require Import List Arith Bool PArith NArith.
From Verif.Base Require Import Outcome Field.
Import ListNotations.

Section Poly.
Context {K : field_ops}.
Local Open Scope felt_scope.

Definition poly := list K.

(** [Polynomial::evaluate] (Horner). *)
Fixpoint peval (p : poly) (x : K) : K :=
  match p with [] => 0 | c :: p' => c + x * peval p' x end.

(** [Polynomial::new]: strips the trailing zero coefficients. *)
Fixpoint trim (p : poly) : poly :=
  match p with
  | [] => []
  | c :: p' => match trim p' with [] => if feqb c 0 then [] else [c] | q => c :: q end
  end.

(** [&p + &q]: pads with zeros to a common length, adds, and normalises. *)
Fixpoint padd_raw (p q : poly) : poly :=
  match p, q with
  | [], _ => q
  | _, [] => p
  | a :: p', b :: q' => (a + b) :: padd_raw p' q'
  end.
Definition padd (p q : poly) : poly := trim (padd_raw p q).

(** [c * &p]. *)
Definition pscale_raw (c : K) (p : poly) : poly := map (fun a => c * a) p.
Definition pscale (c : K) (p : poly) : poly := trim (pscale_raw c p).

(** [&p - &c] for a field element [c]. *)
Definition psub_const (p : poly) (c : K) : poly := trim (padd_raw p [ - c ]).

(** [&p * &q] (schoolbook product). *)
Fixpoint pmul_raw (p q : poly) : poly :=
  match p with
  | [] => []
  | c :: p' => padd_raw (pscale_raw c q) (0 :: pmul_raw p' q)
  end.
Definition pmul (p q : poly) : poly := trim (pmul_raw p q).

(** [Polynomial::new_monomial(c, d)]. *)
Definition monomial (c : K) (d : nat) : poly := trim (repeat 0 d ++ [c]).

(** [Polynomial::ruffini_division_inplace(b)]: Horner's scheme from the top coefficient, each
    entry swapped with the running value, and the last entry popped. *)
Fixpoint horner_list (p : poly) (b : K) : poly :=
  match p with
  | [] => []
  | c :: p' => let t := horner_list p' b in (c + b * hd 0 t) :: t
  end.
Definition ruffini (p : poly) (b : K) : poly := tl (horner_list p b).

(** [iter().step_by(2)] *)
Fixpoint evens {A} (l : list A) : list A :=
  match l with [] => [] | [a] => [a] | a :: _ :: r => a :: evens r end.
(** [iter().skip(1).step_by(2)] *)
Definition odds {A} (l : list A) : list A := evens (tl l).

(** [Polynomial::even_odd_decomposition] *)
Definition even_odd (p : poly) : poly * poly := (trim (evens p), trim (odds p)).
End Poly.
Arguments poly K : clear implicits.

(** ** FFT fields *)

(** [IsFFTField]: a two-adic generator. [root_zero] is what [get_primitive_root_of_unity(0)]
    returns: it differs between versions of the library and nothing below depends on it. *)
Record fft_ops := mk_fft_ops {
  fft_field :> field_ops;
  two_adicity : nat;
  two_adic_root : fft_field;
  root_zero : option fft_field
}.

Record fft_ok (K : fft_ops) : Prop := {
  fft_field_ok : field_ok K;
  (* the generator has order exactly 2^two_adicity; in particular -1 <> 1 *)
  fft_adicity_pos : (1 <= two_adicity K)%nat;
  fft_root_half : fsquare_n (two_adicity K - 1) (two_adic_root K) = fopp (fone : K);
  fft_char : fadd (fone : K) fone <> fzero
}.

Section FFT.
Context {K : fft_ops}.
Local Open Scope felt_scope.

(** [F::get_primitive_root_of_unity(order)]: squares the generator down to the wanted order. *)
Definition primitive_root (order : nat) : option K :=
  if order =? 0 then root_zero K
  else if two_adicity K <? order then None
  else Some (fsquare_n (two_adicity K - order) (two_adic_root K)).

(** [get_powers_of_primitive_root_coset(n, count, offset)]. *)
Definition powers_coset (order count : nat) (offset : K) : outcome (list K) :=
  match primitive_root order with
  | None => Err OtherError
  | Some w => Ok (map (fun i => fpow w i * offset) (seq 0 count))
  end.

(** [usize::trailing_zeros]; on zero it is the width of the type. *)
Fixpoint tz_pos (p : positive) : nat :=
  match p with xO q => S (tz_pos q) | _ => 0 end.
Definition trailing_zeros (n : nat) : nat :=
  match N.of_nat n with N0 => 64 | Npos p => tz_pos p end.

(** [usize::next_power_of_two] *)
Definition next_pow2 (n : nat) : nat := 2 ^ Nat.log2_up n.
Definition is_pow2 (n : nat) : bool := next_pow2 n =? n.

(** [Polynomial::evaluate_offset_fft(blowup, Some(domain_size), offset)]: zero-pads the scaled
    coefficients to [next_power_of_two(max(len, domain_size)) * blowup] and runs the FFT; the
    result is the list of the evaluations on the coset, reference semantics of the FFT. *)
Definition evaluate_offset_fft (p : poly K) (blowup domain_size : nat) (offset : K) : outcome (list K) :=
  let len := (next_pow2 (Nat.max (length p) domain_size) * blowup)%nat in
  if is_pow2 len then
    match primitive_root (Nat.log2 len) with
    | None => Err OtherError
    | Some w => Ok (map (fun i => peval p (offset * fpow w i)) (seq 0 len))
    end
  else Err OtherError.

(** Inverse discrete Fourier transform on the coset [offset * <w>], as a formula. *)
Definition idft (w offset : K) (evals : list K) : poly K :=
  let n := length evals in
  map (fun k => finv (fnat n) * (fpow (finv offset) k *
         fsum (map (fun ie => snd ie * fpow (fpow (finv w) (fst ie)) k) (combine (seq 0 n) evals))))
      (seq 0 n).

(** [Polynomial::interpolate_offset_fft(evals, offset)]; the size must be a power of two. *)
Definition interpolate_offset_fft (evals : list K) (offset : K) : outcome (poly K) :=
  if is_pow2 (length evals) then
    match primitive_root (Nat.log2 (length evals)) with
    | None => Err OtherError
    | Some w => Ok (trim (idft w offset evals))
    end
  else Err OtherError.

(** [Polynomial::interpolate_fft(evals)] *)
Definition interpolate_fft (evals : list K) : outcome (poly K) := interpolate_offset_fft evals 1.
End FFT.
