(** Model of linalg/solvers/policies/_random_unit_vector.py 11-69: [RandomUnitVectorPolicy.__call__].
    Numbers are exact; arrays are lists, matrices lists of rows (square, dense). [None] as the value of the
    cached probabilities: they are NaN; [None] as a result: an exception.

    [rng.choice(a=n, size=1, p=p)] is NumPy's algorithm with a uniform draw [0 <= u < 1]: the first
    index at which the cumulated probabilities exceed [u]; it raises for NaN and for [n = 0]. *)
From mathcomp Require Import all_ssreflect all_algebra.
Set Implicit Arguments.
Unset Strict Implicit.
Unset Printing Implicit Defensive.
Import Order.Theory GRing.Theory Num.Theory.
Local Open Scope ring_scope.

Section Policy.
Variable F : realFieldType.
Definition ssum (p : seq F) : F := \sum_(x <- p) x.
(** [p / p.sum()] *)
Definition normalise (p : seq F) : option (seq F) :=
  if ssum p == 0 then None else Some [seq x / ssum p | x <- p].
Variant probabilities := Uniform | Rownorm.
(** Initial sampling probabilities (41-51); [(A ** 2).T @ np.ones(n)]. *)
Definition initial (pr : probabilities) (A : seq (seq F)) : option (seq F) :=
  match pr with
  | Uniform => Some (nseq (size A) (1 / (size A)%:R))
  | Rownorm => normalise [seq \sum_(row <- A) nth 0 row j ^+ 2 | j <- iota 0 (size A)]
  end.
Definition cumsum (p : seq F) : seq F := [seq ssum (take i.+1 p) | i <- iota 0 (size p)].
Definition choice (p : option (seq F)) (u : F) : option nat :=
  if p is Some p then
    let i := find (fun c => u < c) (cumsum p) in
    if (i < size p)%N then Some i else None
  else None.
Definition unit_vector (n i : nat) : seq F := [seq (j == i)%:R | j <- iota 0 n].
(** [__call__] (33-69) with the cached probabilities, if there are any, and a draw. *)
Definition call (pr : probabilities) (replace : bool) (A : seq (seq F)) (cache : option (option (seq F))) (u : F) :
    option (seq F * option (seq F)) :=
  let p := if cache is Some p then p else initial pr A in
  if choice p u is Some i then
    Some (unit_vector (size A) i,
      if replace then p else if p is Some p then normalise (set_nth 0 p i 0) else None)
  else None.
(** Successive calls with the same solver state. *)
Fixpoint calls pr replace A cache (us : seq F) : option (seq (seq F)) :=
  if us is u :: us then
    if call pr replace A cache u is Some (a, p) then omap (cons a) (calls pr replace A (Some p) us) else None
  else Some [::].
End Policy.
