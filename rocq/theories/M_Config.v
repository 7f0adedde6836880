(** Model of probnum/_config.py (class [Configuration]). *)
From Coq Require Import List String Bool.
Import ListNotations.

Section Config.
Context {V : Type}.

(** [_options_registry] (_config.py 54-58): a dict from option name to
    [Option]; only the field [value] is observable through the API modelled
    here, so an entry is a (name, value) pair.  Simplification: description
    and default value are dropped. *)
Definition registry := list (string * V).

(** [key in self._options_registry] / [self._options_registry[key].value]
    (_config.py 60-63 [__getattr__]); [None] is the AttributeError. *)
Fixpoint get (r : registry) (k : string) : option V :=
  match r with
  | [] => None
  | (k', v) :: r' => if String.eqb k k' then Some v else get r' k
  end.

(** [self._options_registry[key].value = value] on a registered key. *)
Fixpoint put (r : registry) (k : string) (v : V) : registry :=
  match r with
  | [] => []
  | (k', v') :: r' =>
      if String.eqb k k' then (k', v) :: r' else (k', v') :: put r' k v
  end.

(** [__setattr__] (_config.py 65-69); the boolean says "raised". *)
Definition setattr (r : registry) (k : string) (v : V) : registry * bool :=
  match get r k with
  | None => (r, true)
  | Some _ => (put r k v, false)
  end.

(** [register] (_config.py 92-121). *)
Definition register (r : registry) (k : string) (v : V) : registry * bool :=
  match get r k with
  | Some _ => (r, true)
  | None => (r ++ [(k, v)], false)
  end.

(** The loop at the head of [__call__] (_config.py 77-84).  [old] is the
    dict [old_options] in insertion order; keyword arguments have distinct
    names in Python, so insertion never overwrites. The boolean says that the
    AttributeError of line 79 was raised (before the [try]). *)
Fixpoint enter (r : registry) (old : list (string * V))
         (kw : list (string * V)) : registry * list (string * V) * bool :=
  match kw with
  | [] => (r, old, false)
  | (k, v) :: kw' =>
      match get r k with
      | None => (r, old, true)
      | Some o => enter (put r k v) (old ++ [(k, o)]) kw'
      end
  end.

(** The [finally] clause (_config.py 88-90). *)
Fixpoint restore (r : registry) (old : list (string * V)) : registry :=
  match old with
  | [] => r
  | (k, o) :: old' => restore (put r k o) old'
  end.

(** User programs: attribute assignment, registration, an exception, a
    try/except around a block, and a with-block. *)
Inductive cmd :=
| CSet (k : string) (v : V)
| CRegister (k : string) (v : V)
| CRaise
| CTry (body : list cmd)
| CWith (kw : list (string * V)) (body : list cmd).

(** Execution; the boolean says that an exception propagates.  The with
    statement on a [contextlib.contextmanager] generator: an exception of the
    set-up loop propagates without running body or [finally]; an exception of
    the body is re-raised at the [yield], runs [finally] and propagates. *)
Fixpoint exec (c : cmd) (r : registry) {struct c} : registry * bool :=
  let fix execs (cs : list cmd) (r : registry) : registry * bool :=
      match cs with
      | [] => (r, false)
      | c :: cs' =>
          let (r', raised) := exec c r in
          if raised then (r', true) else execs cs' r'
      end in
  match c with
  | CSet k v => setattr r k v
  | CRegister k v => register r k v
  | CRaise => (r, true)
  | CTry body => (fst (execs body r), false)
  | CWith kw body =>
      match enter r [] kw with
      | (r1, _, true) => (r1, true)
      | (r1, old, false) =>
          let (r2, raised) := execs body r1 in (restore r2 old, raised)
      end
  end.

Fixpoint execs (cs : list cmd) (r : registry) : registry * bool :=
  match cs with
  | [] => (r, false)
  | c :: cs' =>
      let (r', raised) := exec c r in
      if raised then (r', true) else execs cs' r'
  end.
End Config.
Arguments registry V : clear implicits.
Arguments cmd V : clear implicits.
