(** Model of time series containers and problems:
    filtsmooth/_timeseriesposterior.py ([TimeSeriesPosterior]),
    filtsmooth/gaussian/_kalmanposterior.py (grid part of [interpolate]),
    problems/_problems.py ([TimeSeriesRegressionProblem]),
    filtsmooth/utils/_merge_regression_problems.py.
    Locations are elements of an ordered field (no NaN). *)
From mathcomp Require Import all_ssreflect all_algebra.
Set Implicit Arguments.
Unset Strict Implicit.
Unset Printing Implicit Defensive.
Import Order.Theory GRing.Theory Num.Theory.
Local Open Scope ring_scope.

Section Posterior.
Variables (T : realFieldType) (St : Type) (st0 : St).

(** [_timeseriesposterior.py] 33-41. *)
Record posterior := Post { locs : seq T; states : seq St; frozen : bool }.
Definition empty_post := Post [::] [::] false.

(** [append] (50-60) with [_check_location] (43-48). *)
Definition append (p : posterior) (t : T) (s : St) : option posterior :=
  if frozen p then None
  else if (0 < size (locs p))%N && (t <= last 0 (locs p)) then None
  else Some (Post (rcons (locs p) t) (rcons (states p) s) (frozen p)).
(** [freeze] (62-64). *)
Definition freeze p := Post (locs p) (states p) true.

Inductive op := Append of T & St | Freeze.
(** A caller that catches the exception; the flag says whether it was raised. *)
Definition step p o : posterior * bool :=
  match o with
  | Append t s => if append p t s is Some q then (q, false) else (p, true)
  | Freeze => (freeze p, false)
  end.
Fixpoint run p os : posterior * seq bool :=
  if os is o :: os' then
    let: (q, b) := step p o in let: (r, bs) := run q os' in (r, b :: bs)
  else (p, [::]).

(** [interpolate] of the filtering and smoothing posterior (_kalmanposterior.py
    169-195, 369-398): grid points return the stored states; [None] as an index is
    Python's [None]. Off the grid: [left] is an exception, [dense] the model-specific
    value, computed from the indices. *)
Definition interpolate (p : posterior) (dense : nat -> option nat -> T -> option St)
    (t : T) (prev next : option nat) : option St :=
  let at_ i := nth 0 (locs p) i in
  if (if prev is Some i then t == at_ i else false) then
    omap (nth st0 (states p)) prev
  else if (if next is Some j then t == at_ j else false) then
    omap (nth st0 (states p)) next
  else if prev is Some i then dense i next t else None.

(** [np.searchsorted(l, t, side="left")]: the number of entries before the first one
    that is not smaller. *)
Definition searchsorted (l : seq T) (t : T) : nat := find (fun x => t <= x) l.

Definition amin (l : seq T) := foldr Num.min (head 0 l) l.
Definition amax (l : seq T) := foldr Num.max (head 0 l) l.

Fixpoint seqo A (l : seq (option A)) : option (seq A) :=
  match l with
  | [::] => Some [::]
  | o :: l' => obind (fun a => omap (cons a) (seqo l')) o
  end.

(** Index [indices - 1] (147-150): Python's [-1] is the last entry. *)
Definition pyprev n j := if j is k.+1 then k else n.-1.

(** [__call__] with an array (127-167). [np.amin] of an empty array raises. *)
Definition call (p : posterior) dense (t : seq T) : option (seq St) :=
  if ~~ sorted <=%O t then None
  else if size (locs p) == 0%N then None
  else
    let t0 := amin (locs p) in let tmax := amax (locs p) in
    let n := size (locs p) in
    let extra_left := [seq x <- t | x < t0] in
    let extra_right := [seq x <- t | tmax < x] in
    let inter := [seq x <- t | t0 <= x & x <= tmax] in
    let vinter := [seq (let j := searchsorted (locs p) x in
                        interpolate p dense x (Some (pyprev n j)) (Some j)) | x <- inter] in
    let vleft := [seq interpolate p dense x None (Some 0%N) | x <- extra_left] in
    let vright := [seq interpolate p dense x (Some n.-1) None | x <- extra_right] in
    seqo (vleft ++ vinter ++ vright).
(** ... and with a scalar (121-125, 165-166). *)
Definition call1 p dense (t : T) : option St := obind ohead (call p dense [:: t]).
End Posterior.

Section Problem.
(** [V]: a row of the observation array, [zero] the row of zeros, [Mo] measurement
    models; the entry [None] of a model array is the integer zero [np.zeros] puts there. *)
Variables (T : realFieldType) (V Mo : eqType) (zero : V).
Record problem := Prob {
  plocs : seq T; pdata : seq V; pmodels : seq (option Mo); psol : option (seq V);
  pshape : seq nat;       (** [observations.shape[1:]] *)
  psolshape : seq nat     (** [solution.shape[1:]] *) }.

(** [__post_init__] (79-105): lengths are checked, but not that of the solution. *)
Definition mk_problem l d m s sh ssh : option problem :=
  if (size d == size l) && (size l == size m) then Some (Prob l d m s sh ssh) else None.

(** [a[idx] = vals]: one value is broadcast, other lengths raise; the last of several
    writes wins. *)
Definition write A (a : seq A) (idx : seq nat) (x0 : A) (vals : seq A) : option (seq A) :=
  let go vs := foldl (fun z (p : nat * A) => set_nth x0 z p.1 p.2) a (zip idx vs) in
  if size vals == size idx then Some (go vals)
  else if size vals == 1%N then Some (go (nseq (size idx) (head x0 vals))) else None.

Definition write2 A (a : seq A) x0 idx1 vals1 idx2 vals2 :=
  obind (fun b => write b idx2 x0 vals2) (write a idx1 x0 vals1).

(** [merge_regression_problems] (90-145). *)
Definition merge (p1 p2 : problem) : option problem :=
  if has (mem (plocs p2)) (plocs p1) then None
  else
    let new_locs := sort <=%O (plocs p1 ++ plocs p2) in
    let i1 := [seq searchsorted new_locs x | x <- plocs p1] in
    let i2 := [seq searchsorted new_locs x | x <- plocs p2] in
    let n := (size (pdata p1) + size (pdata p2))%N in
    if pshape p1 != pshape p2 then None
    else obind (fun new_data =>
      let new_sol :=
        match psol p1, psol p2 with
        | Some s1, Some s2 =>
            if psolshape p1 != psolshape p2 then None
            else omap Some (write2 (nseq n zero) zero i1 s1 i2 s2)
        | _, _ => Some None
        end in
      obind (fun sol =>
        obind (fun new_models =>
          mk_problem new_locs new_data new_models sol (pshape p1) (psolshape p1))
          (write2 (nseq n None) None i1 (pmodels p1) i2 (pmodels p2)))
        new_sol)
      (write2 (nseq n zero) zero i1 (pdata p1) i2 (pdata p2)).
End Problem.
