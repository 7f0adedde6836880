(** Model of the posterior contraction criterion
    (linalg/solvers/stopping_criteria/_posterior_contraction.py) and of random linear
    systems (problems/zoo/linalg/_random_linear_system.py). Exact arithmetic. *)
From mathcomp Require Import all_ssreflect all_algebra.
Set Implicit Arguments.
Unset Strict Implicit.
Unset Printing Implicit Defensive.
Import Order.Theory GRing.Theory Num.Theory.
Local Open Scope ring_scope.

Section LinMisc.
Variable R : rcfType.

(** [np.linalg.norm] with [ord=2] of a vector. *)
Definition norm2 n (b : 'cV[R]_n) : R := Num.sqrt (\sum_i b i 0 ^+ 2).
(** [__call__] (39-56); [C]: the covariance of the quantity of interest. *)
Definition contracted n m (atol rtol : R) (C : 'M[R]_n) (b : 'cV[R]_m) : bool :=
  (`|\tr C| <= atol ^+ 2) || (`|\tr C| <= (rtol * norm2 b) ^+ 2).

(** [random_linear_system] (85-103): [A] is the given or generated matrix, [std] the
    standard normal sample (one number per column), [sol] the sample from [solution_rv],
    whose length is [k]. The result: [A], [b], [solution]. *)
Definition random_linear_system m n (A : 'M[R]_(m, n)) (std : 'cV[R]_n) (sol : option {k : nat & 'cV[R]_k})
  : option ('M[R]_(m, n) * 'cV[R]_m * 'cV[R]_n) :=
  match sol with
  | None => Some (A, A *m std, std)
  | Some (existT k x) =>
      if n =P k is ReflectT e then let x' := castmx (esym e, erefl 1%N) x in Some (A, A *m x', x')
      else None
  end.
End LinMisc.
