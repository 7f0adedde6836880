(** Model of _pnmethod/_stopping_criterion.py.  A criterion is a callable; it
    may raise and may change state (filtsmooth/optim/_stopping_criterion.py
    counts its calls), so a call is a state transformer. *)
From Coq Require Import List Bool.
Import ListNotations.

Section StopCrit.
(** [A]: call arguments; [S]: everything the criteria can read and write. *)
Context {A S : Type}.

(** Result of a call: a decision or an exception. *)
Inductive outcome := Val (b : bool) | Exn.
Definition criterion := A -> S -> outcome * S.

(** [__and__] (91-95): Python's short-circuit [and] of two calls. *)
Definition c_and (self other : criterion) : criterion :=
  fun a s => match self a s with
             | (Val true, s') => other a s'
             | r => r
             end.

(** [__or__] (97-101). *)
Definition c_or (self other : criterion) : criterion :=
  fun a s => match self a s with
             | (Val false, s') => other a s'
             | r => r
             end.

(** [__invert__] (103-106). *)
Definition c_not (self : criterion) : criterion :=
  fun a s => match self a s with
             | (Val b, s') => (Val (negb b), s')
             | r => r
             end.

(** [LambdaStoppingCriterion] (109-134): wraps and forwards. *)
Definition c_lambda (f : A -> S -> outcome * S) : criterion := fun a s => f a s.

(** What a user writes. *)
Inductive expr := Base (i : nat) | And (e f : expr) | Or (e f : expr) | Not (e : expr).

Fixpoint build (basic : nat -> criterion) (e : expr) : criterion :=
  match e with
  | Base i => basic i
  | And e f => c_lambda (c_and (build basic e) (build basic f))
  | Or e f => c_lambda (c_or (build basic e) (build basic f))
  | Not e => c_lambda (c_not (build basic e))
  end.
End StopCrit.
Arguments criterion A S : clear implicits.
