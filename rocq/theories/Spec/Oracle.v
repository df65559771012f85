(** The non-interactive protocol with an ideal hash function. The challenges of each round of C76 are the reply of an oracle to everything
    said so far; a prover may ask the oracle as it likes, in any order, about any messages, and then claim a proof. What is counted is the
    oracle's randomness: one fresh tape and one fresh vector of positions, as in Spec/Game.v, for every question. *)
From Coq Require Import List Arith NArith.
From Verif.Base Require Import Outcome Bytes Field Poly.
From Verif.Model Require Import Codec Air Domain Verifier.
From Verif.Spec Require Import StarkTree Game.
Import ListNotations.
Local Open Scope felt_scope.

(** What a prover says in one round. The nonce goes with the last value, before the positions are drawn. *)
Inductive message (K : Type) := Root (c : commitment) | Values (even odd : K) (frame : list (list K)) | Last (v : K) (nonce : N).
Arguments Root {K}. Arguments Values {K}. Arguments Last {K}.

Section Oracle.
Context {E : env} (a : air E) (kr nb r : nat) (pick : list E -> a_rap a).
Local Notation width := (trace_columns (a_context a)).
Local Notation k := (length (transition_offsets (a_context a))).

(** The words behind the commitments: any fixed assignment. *)
Record words := mk_words {
  w_columns : commitment -> commitment -> nat -> E -> E;
  w_even : commitment -> E -> E;
  w_odd : commitment -> E -> E;
  w_layer : nat -> commitment -> E -> E
}.

(** The messages, in order: the roots of the main and the auxiliary columns, the root of the composition polynomial, the values at the
    out-of-domain point, the roots of the FRI layers, the last value. *)
Definition root_at (n : nat) (ms : list (message E)) : commitment := match nth_error ms n with Some (Root c) => c | _ => [] end.
Definition values_at (ms : list (message E)) : E * E * list (list E) :=
  match nth_error ms 3 with Some (Values even odd f) => (even, odd, f) | _ => (0, 0, repeat (repeat 0 width) k) end.
Definition last_at (ms : list (message E)) : E := match nth_error ms (4 + r) with Some (Last v _) => v | _ => 0 end.

(** The prover of Spec/Game.v that says [ms] whatever the challenges are. *)
Definition committed (wo : words) (ms : list (message E)) : strategy (E := E) := mk_strategy
  (fun _ => w_columns wo (root_at 0 ms) (root_at 1 ms))
  (fun _ => w_even wo (root_at 2 ms)) (fun _ => w_odd wo (root_at 2 ms))
  (fun _ => fst (fst (values_at ms))) (fun _ => snd (fst (values_at ms))) (fun _ => snd (values_at ms))
  (fun l _ => w_layer wo l (root_at (4 + l) ms)) (fun _ => last_at ms).

(** Where the challenges that follow message [j] start on the tape. *)
Definition start (j : nat) : nat :=
  match j with
  | 0 => 0
  | 1 => kr
  | 2 => at_point a kr nb
  | 3 => at_point a kr nb + 1
  | S (S (S (S l))) => at_folding a kr nb + l
  end%nat.
(** The challenges that follow message [j]. *)
Definition segment (j : nat) (t : list E) : list E := part (start j) (start (S j) - start j) t.

(** A question: the messages so far and the challenges so far. The reply: the challenges that follow the last message, or the positions. *)
Definition question : Type := list (message E) * list E.
Definition reply : Type := list E * list nat.
Definition coin : Type := list E * list nat.
Definition reply_to (q : question) (c : coin) : reply :=
  let j := pred (length (fst q)) in
  if (j <? 4 + r)%nat then (segment j (fst c), []) else ([], snd c).

(** A prover sees its questions and the replies, latest first. *)
Record adversary := mk_adversary {
  ask : list (question * reply) -> question;
  claim : list (question * reply) -> list (message E) * list E * list nat
}.

Section Play.
Context (eqd : forall x y : question, {x = y} + {x <> y}) (adv : adversary).
Definition lookup (q : question) (tbl : list (question * reply)) : option reply :=
  option_map snd (find (fun e => if eqd (fst e) q then true else false) tbl).
(** One question; the oracle repeats itself when it is asked the same again. *)
Definition turn (tbl : list (question * reply)) (c : coin) : list (question * reply) :=
  let q := ask adv tbl in
  (q, match lookup q tbl with Some x => x | None => reply_to q c end) :: tbl.
Definition table (cs : list coin) : list (question * reply) := fold_left turn cs [].

(** The prover succeeds when it claims messages, challenges and positions such that the oracle gave every challenge in reply to what precedes it,
    the game of Spec/Game.v is won with them, and the root of the main columns is one of those [lost] refers to. *)
Definition forges (wo : words) (d : domain E) (w : E) (lost : commitment -> Prop) (cs : list coin) : Prop :=
  let tbl := table cs in
  let '(ms, t, v) := claim adv tbl in
  length ms = (5 + r)%nat /\ length t = tape_length a kr nb r /\
  (forall j, (j < 4 + r)%nat -> lookup (firstn (S j) ms, firstn (start j) t) tbl = Some (segment j t, [])) /\
  lookup (ms, t) tbl = Some ([], v) /\
  well_formed a (committed wo ms) /\ lost (root_at 0 ms) /\
  wins a kr nb r pick (committed wo ms) d w t v.
End Play.

(** Of the challenges of the randomized AIR, at most [rho] in [size] let a root in [lost] be completed to columns near a solution. *)
Definition hopeless (wo : words) (d : domain E) (b e : nat) (w : E) (samples : list (list E)) (size rho : nat) (lost : commitment -> Prop) : Prop :=
  forall c0 X, lost c0 -> NoDup X ->
  (forall xs, In xs X -> In xs (product (firstn kr samples)) /\
     exists c1, commits_to_solution a r pick (committed wo [Root c0; Root c1]) d b e w xs) ->
  (size * length X <= rho * volume (firstn kr samples))%nat.

(** What the oracle's randomness is drawn from: tapes from [samples] and [q] positions. *)
Definition fresh (b q : nat) (samples : list (list E)) (c : coin) : Prop :=
  In (fst c) (product samples) /\ length (snd c) = q /\ forall i, In i (snd c) -> (i < 2 ^ (r + b))%nat.

(** The largest number of exceptional values, summed over the challenges that follow one message. *)
Definition worst (rho e : nat) : nat :=
  Nat.max rho (Nat.max (nb + num_transition_constraints (a_context a)) (Nat.max (stark_bound a (2 ^ r)) ((e + 1) * (2 + width * k))))%nat.

(** The messages of a proof. *)
Definition messages (rows : list (list E)) (p : stark_proof E) : list (message E) :=
  [Root (nth 0 (lde_trace_merkle_roots p) []); Root (nth 1 (lde_trace_merkle_roots p) []); Root (composition_poly_root p);
   Values (composition_poly_even_ood_evaluation p) (composition_poly_odd_ood_evaluation p) rows] ++
  map Root (fri_layers_merkle_roots p) ++ [Last (fri_last_value p) (nonce p)].
End Oracle.
