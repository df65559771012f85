(** Cairo public inputs and their byte format, and the CLI proof file.
    Sources: src/cairo/air.rs:156-449, src/main.rs:94-144.
    A [HashMap] is an association list without duplicate keys whose order is the iteration order. *)
From Coq Require Import List NArith Arith.
From Coq.Strings Require Import Byte.
From Verif.Base Require Import Outcome Bytes.
From Verif.Model Require Import Codec.
Import ListNotations.
Local Open Scope outcome_scope.

(** * Hash maps *)
Section Maps.
Context {K V : Type} (eqk : K -> K -> bool).

Fixpoint map_get (k : K) (m : list (K * V)) : option V :=
  match m with
  | [] => None
  | (k', v) :: m' => if eqk k k' then Some v else map_get k m'
  end.

(** [HashMap::insert]: overwrite the value of an existing key, otherwise a new entry. *)
Fixpoint map_insert (k : K) (v : V) (m : list (K * V)) : list (K * V) :=
  match m with
  | [] => [(k, v)]
  | (k', v') :: m' => if eqk k k' then (k', v) :: m' else (k', v') :: map_insert k v m'
  end.
End Maps.

(** src/cairo/air.rs:156-160 *)
Inductive memory_segment := RangeCheck | Output.

Definition segment_eqb (a b : memory_segment) : bool :=
  match a, b with RangeCheck, RangeCheck | Output, Output => true | _, _ => false end.

(** src/cairo/air.rs:162-183; a [Range<u64>] is its (start, end). *)
Record public_inputs (F : Type) := mk_public_inputs {
  pc_init : F;
  ap_init : F;
  fp_init : F;
  pc_final : F;
  ap_final : F;
  range_check_min : option N;
  range_check_max : option N;
  memory_segments : list (memory_segment * (N * N));
  public_memory : list (F * F);
  num_steps : nat
}.
Arguments mk_public_inputs {F}. Arguments pc_init {F}. Arguments ap_init {F}. Arguments fp_init {F}.
Arguments pc_final {F}. Arguments ap_final {F}. Arguments range_check_min {F}. Arguments range_check_max {F}.
Arguments memory_segments {F}. Arguments public_memory {F}. Arguments num_steps {F}.

Section PublicInputs.
Context {F : Type} (feqb : F -> F -> bool) (C : felt_codec F).

(** src/cairo/air.rs:235-247 *)
Definition ser_opt16 (o : option N) : list byte :=
  match o with Some v => x01 :: be_bytes 2 v | None => [x00] end.

(** src/cairo/air.rs:250-258 *)
Definition ser_segment (e : memory_segment * (N * N)) : list byte :=
  let '(s, (lo, hi)) := e in
  (match s with RangeCheck => x00 | Output => x01 end) :: be_bytes 8 lo ++ be_bytes 8 hi.

(** src/cairo/air.rs:264-267 *)
Definition ser_cell (e : F * F) : list byte := fe_to C (fst e) ++ fe_to C (snd e).

(** src/cairo/air.rs:224-275 *)
Definition pub_serialize (p : public_inputs F) : list byte :=
  be8 (length (fe_to C (pc_init p))) ++
  fe_to C (pc_init p) ++ fe_to C (ap_init p) ++ fe_to C (fp_init p) ++
  fe_to C (pc_final p) ++ fe_to C (ap_final p) ++
  ser_opt16 (range_check_min p) ++ ser_opt16 (range_check_max p) ++
  be8 (length (memory_segments p)) ++ concat (map ser_segment (memory_segments p)) ++
  be8 (length (public_memory p)) ++ concat (map ser_cell (public_memory p)) ++
  be8 (num_steps p).

(** [bytes[0]] after an [is_empty] check. *)
Definition head_byte (bs : list byte) : outcome byte :=
  match bs with [] => Err InvalidAmountOfBytes | b :: _ => Ok b end.

(** src/cairo/air.rs:323-342 and 344-363; [bytes[..2]] is an unchecked slice (lines 334 and 355). *)
Definition read_opt16 : reader (option N) := fun bs =>
  b <- head_byte bs;;
  match b with
  | x00 => r <- slice_from 1 bs;; Ok (None, r)
  | x01 =>
      bs1 <- slice_from 1 bs;;
      p <- slice_to 2 bs1;;
      r <- slice_from 2 bs1;;
      Ok (Some (be_val p), r)
  | _ => Err FieldFromBytesError
  end.

(** src/cairo/air.rs:374-401, one iteration *)
Definition read_segment : reader (memory_segment * (N * N)) := fun bs =>
  b <- head_byte bs;;
  s <- match b with x00 => Ok RangeCheck | x01 => Ok Output | _ => Err FieldFromBytesError end;;
  bs <- slice_from 1 bs;;
  '(lo, bs) <- read_usize bs;;
  '(hi, bs) <- read_usize bs;;
  Ok ((s, (lo, hi)), bs).

(** src/cairo/air.rs:412-426, one iteration *)
Definition read_cell (felt_len : N) : reader (F * F) := fun bs =>
  '(a, bs) <- read_felt C felt_len bs;;
  '(v, bs) <- read_felt C felt_len bs;;
  Ok ((a, v), bs).

(** The maps are filled by inserting in reading order. *)
Definition of_entries {K V} (eqk : K -> K -> bool) (l : list (K * V)) : list (K * V) :=
  fold_left (fun m e => map_insert eqk (fst e) (snd e) m) l [].

(** src/cairo/air.rs:279-448 *)
Definition pub_deserialize (bs : list byte) : outcome (public_inputs F) :=
  '(felt_len, bs) <- read_usize bs;;
  '(pci, bs) <- read_felt C felt_len bs;;
  '(api, bs) <- read_felt C felt_len bs;;
  '(fpi, bs) <- read_felt C felt_len bs;;
  '(pcf, bs) <- read_felt C felt_len bs;;
  '(apf, bs) <- read_felt C felt_len bs;;
  '(rmin, bs) <- read_opt16 bs;;
  '(rmax, bs) <- read_opt16 bs;;
  '(n_seg, bs) <- read_usize bs;;
  '(segs, bs) <- read_many (N.to_nat n_seg) read_segment bs;;
  '(n_mem, bs) <- read_usize bs;;
  '(mem, bs) <- read_many (N.to_nat n_mem) (read_cell felt_len) bs;;
  p <- get_to 8 bs;;
  Ok (mk_public_inputs pci api fpi pcf apf rmin rmax
        (of_entries segment_eqb segs) (of_entries feqb mem) (N.to_nat (be_val p))).

(** * The CLI proof file *)

(** src/main.rs:98-102 *)
Definition file_write (p : stark_proof F) (pi : public_inputs F) : outcome (list byte) :=
  pb <- stark_serialize C p;; Ok (be8 (length pb) ++ pb ++ pub_serialize pi).

(** src/main.rs:121-141; every printed "Error reading proof from file" is [Err]. *)
Definition file_read (bs : list byte) : outcome (stark_proof F * public_inputs F) :=
  if length bs <? 8 then Err OtherError else
  h <- slice_to 8 bs;;
  let proof_len := be_val h in
  bs <- slice_from 8 bs;;
  if (N.of_nat (length bs) <? proof_len)%N then Err OtherError else
  pb <- slice_to proof_len bs;;
  p <- stark_deserialize C pb;;
  rest <- slice_from proof_len bs;;
  pi <- pub_deserialize rest;;
  Ok (p, pi).
End PublicInputs.
