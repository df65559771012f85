(** What the constraints ask of the execution columns when the prover completes them itself. *)
From Coq Require Import List Arith NArith.
From Verif.Base Require Import Outcome Field Poly.
From Verif.Model Require Import Codec PublicInputs Trace Air Options CairoDecode CairoTrace CairoAir.
From Verif.Spec Require Import AirSpec CairoColumns Fitting Contradiction Offsets.
Import ListNotations.

Section SoundTable.
Context {C : cairo_env}.
(** Nothing here depends on a challenge: the rows have the claimed registers and follow each other (whatever the eighteen
    columns after them); the cells used have one value each and leave no gap; the low half-words of the offsets go from the
    one claimed bound to the other and leave no gap. *)
Record sound_columns (pi : public_inputs C) (opts : proof_options) (main : list (list C)) (n : nat) (lo hi : N) : Prop := {
  sc_rows : forall acols, length acols = 18%nat -> main_fits pi opts (main ++ acols) n;
  sc_values : ~ two_values pi main n;
  sc_addresses : ~ skipped_address pi main n;
  sc_least : least lo (map low16 (offsets_of main n));
  sc_greatest : greatest hi (map low16 (offsets_of main n));
  sc_offsets : ~ missing_value (map low16 (offsets_of main n))
}.
End SoundTable.
