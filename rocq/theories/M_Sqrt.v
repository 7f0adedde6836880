(** Model of the square-root implementations:
    randprocs/markov/discrete/_linear_gaussian.py ([_forward_rv_sqrt],
    [_backward_rv_sqrt]), utils/linalg/_cholesky_updates.py, and the Kalman filter and
    smoother run with them (filtsmooth/gaussian/_kalman.py).

    [np.linalg.qr(., mode="r")] and [np.sqrt] are parameters; theorems assume of
    them what is documented, for the arguments that occur. *)
From mathcomp Require Import all_ssreflect all_algebra.
From Verif Require Import M_Gauss.
Set Implicit Arguments.
Unset Strict Implicit.
Unset Printing Implicit Defensive.
Import Order.Theory GRing.Theory Num.Theory.
Local Open Scope ring_scope.

Section Sqrt.
Variable R : realFieldType.
(** The [R] factor of a [p] x [q] matrix is [min p q] x [q]. *)
Variable qr : forall p q, 'M[R]_(p, q) -> 'M[R]_(minn p q, q).
Variable sqrt : R -> R.

(** [lower_sqrtm]: an [n] x [k] matrix written into the first columns of a zero
    matrix (for [k = n]: the matrix itself). *)
Definition fit n k (L : 'M[R]_(n, k)) : 'M[R]_n :=
  \matrix_(i, j) (if insub (val j) : option 'I_k is Some j' then L i j' else 0).

(** [tril_to_positive_tril] (81-101): columns times the sign of their diagonal
    entry (one if that is zero). *)
Definition pos_tril n (L : 'M[R]_n) : 'M[R]_n :=
  \matrix_(i, j) (L i j * (if L j j < 0 then -1 else 1)).

(** [cholesky_update] (11-78) for two-dimensional [S1], [S2]. If [S1] is taller than
    wide, the [R] factor is written to as many columns as [S1] has (75-76), which
    raises when [S2] contributes columns. Matrices have at least one column. *)
Definition cholesky_update n a b (S1 : 'M[R]_(n, a)) (S2 : option 'M[R]_(n, b))
  : option 'M[R]_n :=
  match S2 with
  | Some S2 =>
      let r := qr (col_mx S1^T S2^T) in
      if (n <= a)%N || (minn (a + b) n == a)%N then Some (pos_tril (fit r^T)) else None
  | None => Some (pos_tril (fit (qr S1^T)^T))
  end.

(** A [Normal] with its [cov_cholesky]; [Constant]s have factor zero
    (randvars/_constant.py 109-112). *)
Record snormal n := SNormal { s_mean : 'cV[R]_n; s_cov : 'M[R]_n; s_chol : 'M[R]_n }.
Definition sconstant n (x : 'cV[R]_n) : snormal n := SNormal x 0 0.
(** A transition with the Cholesky factor of its noise. *)
Record slingauss n m := SLinGauss {
  s_tmat : 'M[R]_(m, n); s_shift : 'cV[R]_m; s_ncov : 'M[R]_m; s_nchol : 'M[R]_m }.

Section Transition.
Variables n m : nat.
Implicit Types (T : slingauss n m) (d : R) (rv : snormal n).

(** [_forward_rv_sqrt] (185-212). *)
Definition fwd_sqrt T d rv : option (snormal m) :=
  omap (fun L => SNormal (s_tmat T *m s_mean rv + s_shift T) (L *m L^T) L)
    (cholesky_update (s_tmat T *m s_chol rv) (Some (sqrt d *: s_nchol T))).
(** [cho_solve((L, True), crosscov.T).T]; a zero pivot gives non-finite numbers. *)
Definition gain_sqrt T d rv : option 'M[R]_(n, m) :=
  obind (fun f : snormal m =>
    if s_chol f \in unitmx
    then Some (invmx (s_chol f *m (s_chol f)^T) *m (s_cov rv *m (s_tmat T)^T)^T)^T
    else None) (fwd_sqrt T d rv).

(** [_backward_rv_sqrt] (214-287). *)
Definition sqrt_block T d (obtained : snormal m) rv (g : 'M[R]_(n, m))
  : 'M[R]_(n + m + m, m + n) :=
  col_mx (col_mx (row_mx ((s_chol rv)^T *m (s_tmat T)^T) (s_chol rv)^T)
                 (row_mx (sqrt d *: s_nchol T)^T 0))
         (row_mx 0 ((s_chol obtained)^T *m g^T)).
Definition big_triu T d obtained rv g : 'M[R]_(m + n) :=
  (fit (qr (sqrt_block T d obtained rv g))^T)^T.
Definition bwd_sqrt_with T d (obtained : snormal m) rv (g0 : 'M[R]_(n, m))
  : option (snormal n) :=
  let B := big_triu T d obtained rv g0 in
  let gain :=
    if g0 == 0 then
      (if ulsubmx B \in unitmx then Some (invmx (ulsubmx B) *m ursubmx B)^T else None)
    else Some g0 in
  omap (fun g =>
    let L := pos_tril (drsubmx B)^T in
    SNormal (s_mean rv + g *m (s_mean obtained - s_tmat T *m s_mean rv - s_shift T))
            (L *m L^T) L) gain.
Definition bwd_sqrt T d (obtained : snormal m) rv (gain : option 'M[R]_(n, m))
  : option (snormal n) :=
  obind (bwd_sqrt_with T d obtained rv)
    (match gain with
     | Some g => Some g
     | None => if s_cov obtained != 0 then gain_sqrt T d rv else Some 0
     end).
End Transition.

(** Filter and smoother with square-root transitions: as in M_Gauss. *)
Record sssm n (m : nat -> nat) := SSsm {
  s_trans : R -> R -> slingauss n n;
  s_meas : forall k, option R -> slingauss n (m k);
  s_loc : nat -> R;
  s_initarg : R;
  s_init : snormal n }.

Section Filter.
Variables (n : nat) (m : nat -> nat).
Variable M : sssm n m.
Variable y : forall k, 'cV[R]_(m k).
Definition s_told k := if k is k'.+1 then s_loc M k' else s_initarg M.
Definition s_predict k (rv : snormal n) : option (snormal n) :=
  if s_loc M k - s_told k > 0
  then fwd_sqrt (s_trans M (s_loc M k) (s_loc M k - s_told k)) 1 rv
  else Some rv.
Definition s_update k (rv : snormal n) : option (snormal n) :=
  bwd_sqrt (s_meas M k None) 1 (sconstant (y k)) rv None.
Fixpoint s_filtered k : option (snormal n) :=
  if k is k'.+1 then obind (fun rv => obind (s_update k') (s_predict k' rv)) (s_filtered k')
  else Some (s_init M).
Fixpoint s_smoothed_back N i : option (snormal n) :=
  if i is i'.+1 then
    let idx := (N.-1 - i')%N in
    obind (fun curr =>
      obind (fun rv =>
        bwd_sqrt (s_trans M (s_loc M idx.-1) (s_loc M idx - s_loc M idx.-1)) 1 curr rv None)
        (s_filtered idx))
      (s_smoothed_back N i')
  else s_filtered N.
End Filter.
End Sqrt.
