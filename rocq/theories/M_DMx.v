(** Matrices that carry their shape (two-dimensional numpy arrays) and the dense
    operations used by the linear operators: elementwise arithmetic with numpy's
    broadcasting, [@], [np.kron], [scipy.linalg.block_diag], [np.concatenate],
    row slices. Entries are exact numbers of a field. *)
From mathcomp Require Import all_ssreflect all_algebra.
Set Implicit Arguments.
Unset Strict Implicit.
Unset Printing Implicit Defensive.
Import Order.Theory GRing.Theory Num.Theory.
Local Open Scope ring_scope.

Section DMx.
Variable R : fieldType.

Record dmx := DMx { drow : nat; dcol : nat; dval : 'M[R]_(drow, dcol) }.

(** The array with entries [f i j]. *)
Definition mk (m n : nat) (f : nat -> nat -> R) : dmx := DMx (\matrix_(i < m, j < n) f i j).
(** Entry [i, j]; zero outside the shape (never used there by the operations below). *)
Definition get (A : dmx) (i j : nat) : R :=
  if insub i is Some i' then if insub j is Some j' then dval A i' j' else 0 else 0.

Definition dshape (A : dmx) : nat * nat := (drow A, dcol A).
Definition deq (A B : dmx) : bool :=
  (dshape A == dshape B)
  && [forall i : 'I_(drow A), forall j : 'I_(dcol A), get A i j == get B i j].

Definition dzero m n : dmx := mk m n (fun _ _ => 0).
Definition did n : dmx := mk n n (fun i j => (i == j)%:R).
Definition ddiag (d : seq R) : dmx :=
  mk (size d) (size d) (fun i j => if i == j then d`_i else 0).
Definition dtr (A : dmx) : dmx := mk (dcol A) (drow A) (fun i j => get A j i).
Definition dscale (c : R) (A : dmx) : dmx := mk (drow A) (dcol A) (fun i j => c * get A i j).
Definition dopp (A : dmx) : dmx := mk (drow A) (dcol A) (fun i j => - get A i j).
Definition dadd (A B : dmx) : dmx :=
  mk (drow A) (dcol A) (fun i j => get A i j + get B i j).
Definition dmul (A B : dmx) : dmx :=
  mk (drow A) (dcol B) (fun i j => \sum_(k < dcol A) get A i k * get B k j).
(** [np.kron]. *)
Definition dkron (A B : dmx) : dmx :=
  mk (drow A * drow B) (dcol A * dcol B)
     (fun i j => get A (i %/ drow B) (j %/ dcol B) * get B (i %% drow B) (j %% dcol B)).
(** [scipy.linalg.block_diag]. *)
Definition dblock2 (A B : dmx) : dmx :=
  mk (drow A + drow B) (dcol A + dcol B)
     (fun i j => if (i < drow A)%N && (j < dcol A)%N then get A i j
                 else if (drow A <= i)%N && (dcol A <= j)%N
                      then get B (i - drow A) (j - dcol A) else 0).
Definition dblock (l : seq dmx) : dmx := foldr dblock2 (dzero 0 0) l.
(** [np.concatenate((A, B), axis=-2)]; both have the same number of columns. *)
Definition dvcat (A B : dmx) : dmx :=
  mk (drow A + drow B) (dcol A)
     (fun i j => if (i < drow A)%N then get A i j else get B (i - drow A) j).
(** Rows [k], ..., [k + m - 1]. *)
Definition drows (k m : nat) (A : dmx) : dmx := mk m (dcol A) (fun i j => get A (k + i) j).
(** [np.take(A, idx, axis=-2)]. *)
Definition dtake (idx : seq nat) (A : dmx) : dmx :=
  mk (size idx) (dcol A) (fun i j => get A (nth 0%N idx i) j).

(** numpy's broadcasting of a two-dimensional elementwise operation: axes of length one
    are stretched; [None] is the [ValueError]. *)
Definition bdim (m n : nat) : option nat :=
  if m == n then Some m else if m == 1%N then Some n else if n == 1%N then Some m else None.
Definition bidx (m i : nat) : nat := if m == 1%N then 0%N else i.
Definition bcast (op : R -> R -> R) (A B : dmx) : option dmx :=
  match bdim (drow A) (drow B), bdim (dcol A) (dcol B) with
  | Some m, Some n =>
      Some (mk m n (fun i j => op (get A (bidx (drow A) i) (bidx (dcol A) j))
                                  (get B (bidx (drow B) i) (bidx (dcol B) j))))
  | _, _ => None
  end.

(** The inverse matrix (only meaningful for invertible square arrays). *)
Definition sq (n : nat) (A : dmx) : 'M[R]_n := \matrix_(i < n, j < n) get A i j.
Definition dunit (A : dmx) : bool := (drow A == dcol A) && (sq (drow A) A \in unitmx).
Definition dinv (A : dmx) : dmx := DMx (invmx (sq (drow A) A)).
Definition dtrace (A : dmx) : R := \sum_(i < drow A) get A i i.
Definition ddet (A : dmx) : R := \det (sq (drow A) A).
End DMx.
