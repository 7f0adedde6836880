(** C02: composition of stopping criteria. *)
From Coq Require Import List Bool.
From Verif Require Import M_StopCrit L_StopCrit.
Import ListNotations.

(** Decision: the Boolean formula.  State: the consulted criteria are called
    once each, in order, and no others. *)
Theorem C02_decision : forall A S (basic : nat -> criterion A S) d e a s,
  decides basic d -> fst (build basic e a s) = Val (formula (d a) e).
Proof. intros. apply build_formula. assumption. Qed.
Print Assumptions C02_decision.

Theorem C02_calls : forall A S (basic : nat -> criterion A S) d e a s,
  decides basic d -> snd (build basic e a s) = calls basic a (consulted (d a) e) s.
Proof. intros. apply build_calls. assumption. Qed.
Print Assumptions C02_calls.

(** Re-association changes nothing, also for criteria with effects and
    exceptions. *)
Theorem C02_and_reassociate : forall A S (basic : nat -> criterion A S) e f,
  and_tree e -> and_tree f -> leaves e = leaves f ->
  forall a s, build basic e a s = build basic f a s.
Proof. intros A S. exact and_reassoc. Qed.
Print Assumptions C02_and_reassociate.

Theorem C02_or_reassociate : forall A S (basic : nat -> criterion A S) e f,
  or_tree e -> or_tree f -> leaves e = leaves f ->
  forall a s, build basic e a s = build basic f a s.
Proof. intros A S. exact or_reassoc. Qed.
Print Assumptions C02_or_reassociate.

(** De Morgan and double negation, also with effects and exceptions. *)
Theorem C02_de_morgan : forall A S (c1 c2 : criterion A S) a s,
  c_not (c_and c1 c2) a s = c_or (c_not c1) (c_not c2) a s
  /\ c_not (c_or c1 c2) a s = c_and (c_not c1) (c_not c2) a s
  /\ c_not (c_not c1) a s = c1 a s.
Proof. intros. repeat split; [apply not_and|apply not_or|apply not_not]. Qed.
Print Assumptions C02_de_morgan.

Theorem C02_no_new_exceptions : forall A S (basic : nat -> criterion A S) e,
  (forall i, In i (leaves e) -> forall a s, fst (basic i a s) <> Exn) ->
  forall a s, fst (build basic e a s) <> Exn.
Proof. intros A S. exact no_raise. Qed.
Print Assumptions C02_no_new_exceptions.

(** Non-vacuity: counting criteria "argument >= i". *)
Definition ex_basic (i : nat) : criterion nat nat := fun a s => (Val (Nat.leb i a), S s).
Example ex_decides : decides ex_basic (fun a i => Nat.leb i a).
Proof. intros i a s. reflexivity. Qed.
Example ex_short : build ex_basic (Or (Base 3) (And (Base 9) (Base 1))) 5 0 = (Val true, 1)
  /\ build ex_basic (And (Base 9) (Not (Base 1))) 5 0 = (Val false, 1)
  /\ build ex_basic (Or (Not (Base 3)) (And (Base 4) (Base 1))) 5 0 = (Val true, 3).
Proof. repeat split. Qed.
Example ex_trees : and_tree (And (And (Base 0) (Base 1)) (Base 2))
  /\ and_tree (And (Base 0) (And (Base 1) (Base 2))).
Proof. split; repeat constructor. Qed.
(** Commutation does change effects, so order matters for stateful criteria. *)
Example ex_order : snd (build ex_basic (And (Base 9) (Base 1)) 5 0)
  <> snd (build ex_basic (And (Base 1) (Base 9)) 5 0).
Proof. discriminate. Qed.
