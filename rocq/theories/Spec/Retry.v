(** A prover against the oracle of Spec/Oracle.v that follows a strategy of Spec/Game.v and, once all challenges but the positions are
    known, asks for positions with one nonce after the other. *)
From Coq Require Import List Arith NArith.
From Verif.Base Require Import Outcome Bytes Field Poly.
From Verif.Model Require Import Codec Air Domain Verifier.
From Verif.Spec Require Import Game Oracle.
Import ListNotations.
Local Open Scope felt_scope.

Section Retry.
Context {E : env} (a : air E) (kr nb r : nat) (s : strategy (E := E)).
(** Roots that name the challenges which the committed words depend on, so that the words behind the roots are a fixed assignment. *)
Context (enc : list E -> commitment) (dec : commitment -> list E) (c0 : commitment).

Definition named_words : words (E := E) := mk_words
  (fun _ c => s_columns s (dec c)) (fun c => s_even s (dec c)) (fun c => s_odd s (dec c)) (fun l c => s_layer s l (dec c)).

(** Message [j], given the challenges so far. *)
Definition say (j : nat) (u : list E) : message E :=
  match j with
  | 0 => Root c0
  | 3 => Values (s_even_value s u) (s_odd_value s u) (s_frame s u)
  | _ => Root (enc u)
  end%nat.
Definition speech (t : list E) (n : nat) : list (message E) := map (fun j => say j (firstn (start a kr nb j) t)) (seq 0 n).
Definition whole (t : list E) (nonce : nat) : list (message E) := speech t (4 + r) ++ [Last (s_last s t) (N.of_nat nonce)].

(** The challenges in the replies so far; replies with positions contain none. *)
Definition challenges_in (tbl : list (question (E := E) * reply (E := E))) : list E := concat (map (fun e => fst (snd e)) (rev tbl)).

(** [good] recognizes the positions that win. *)
Definition retrying (good : list nat -> bool) : adversary (E := E) := mk_adversary
  (fun tbl => let t := challenges_in tbl in
    if (length tbl <? 4 + r)%nat then (speech t (S (length tbl)), t) else (whole t (length tbl - (4 + r)), t))
  (fun tbl => let t := challenges_in tbl in
    match find (fun e => (length (fst (fst e)) =? 5 + r)%nat && good (snd (snd e)))%bool tbl with
    | Some e => (fst (fst e), t, snd (snd e))
    | None => ([], [], [])
    end).
End Retry.
