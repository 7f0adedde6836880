(** Model of initial value problems as regression problems
    (diffeq/odefilter/utils/_problem_utils.py), of the initialisation by stacking
    (diffeq/odefilter/init_routines/_stack.py), and of the projection of states to
    solutions (diffeq/odefilter/_odefilter_solution.py).

    Arithmetic is exact. Arrays in which only the position matters are functions of
    indices; [d] is the dimension of the equation, [nu] the number of derivatives. *)
From mathcomp Require Import all_ssreflect all_algebra.
From Verif Require Import M_Gauss M_Sqrt M_IWP.
Set Implicit Arguments.
Unset Strict Implicit.
Unset Printing Implicit Defensive.
Import Order.Theory GRing.Theory Num.Theory.
Local Open Scope ring_scope.

Section OdeInit.
Variable R : rcfType.

(** ** Orders of [reshape] *)
(** Flattening an array with [n] columns by rows, flattening one with [m] rows by
    columns, and filling an array with [m] rows by columns. *)
Definition ravelC (n : nat) (A : nat -> nat -> R) (k : nat) : R := A (k %/ n)%N (k %% n)%N.
Definition ravelF (m : nat) (A : nat -> nat -> R) (k : nat) : R := A (k %% m)%N (k %/ m)%N.
Definition fillF (m : nat) (v : nat -> R) (i j : nat) : R := v (i + j * m)%N.
(** [np.eye] of a rectangular shape. *)
Definition eye (i j : nat) : R := (i == j)%:R.

(** ** [ivp_to_regression_problem] (16-76) *)
(** [transition_matrix] (86-89) for the shape [d] x [D]. *)
Definition init_matrix d D : 'M[R]_(d, D) :=
  \matrix_(i, j) fillF d (ravelC D eye) i j.

(** Laws of measurements, given time and state: [forward_realization] of [LTIGaussian]
    (_linear_gaussian.py 105-109 for a constant) and of [NonlinearGaussian]
    (_nonlinear_gaussian.py 65-70), both with diffusion one. With an [approx_strategy]
    the second is wrapped for linearisation; this is not part of this model. *)
Definition measmod d D := R -> 'cV[R]_D -> normal R d.
Definition lti d D (H : 'M[R]_(d, D)) (noise : normal R d) : measmod d D :=
  fun _ x => Normal (H *m x + mean noise) (cov noise).
Definition nonlinear d D (g : R -> 'cV[R]_D -> 'cV[R]_d) (noise : normal R d) : measmod d D :=
  fun t x => Normal (g t x + mean noise) (cov noise).

(** [_construct_measurement_models] (79-146); [g]: the information operator. *)
Definition measurement_models d D (g : R -> 'cV[R]_D -> 'cV[R]_d) (y0 : 'cV[R]_d) (var : R)
  : measmod d D * measmod d D :=
  let H := init_matrix d D in
  let shift := - y0 in
  if 0 < var then
    let noise := Normal shift (var *: 1%:M) in (lti H noise, nonlinear g noise)
  else (lti H (Normal shift 0), nonlinear g (Normal 0 0)).

(** The observations and measurement models (50-76); the locations are kept. *)
Definition regression d D (g : R -> 'cV[R]_D -> 'cV[R]_d) (y0 : 'cV[R]_d) (N : nat) (var : R)
    (exclude : bool) : seq 'cV[R]_d * seq (measmod d D) :=
  let (mi, mo) := measurement_models g y0 var in
  (nseq N 0, if exclude then nseq N mo else mi :: nseq N.-1 mo).

(** [ODEResidual.__call__] (_ode_residual.py 67-69) for a prior with [nu.+1] derivatives. *)
Definition ode_residual nu d (f : R -> 'cV[R]_(d * 1) -> 'cV[R]_(d * 1)) (t : R) (x : 'cV[R]_(d * nu.+2))
  : 'cV[R]_(d * 1) :=
  proj2coord R d (inord 1 : 'I_nu.+2) *m x - f t (proj2coord R d (ord0 : 'I_nu.+2) *m x).

(** ** [Stack] (39-51) and [StackWithJacobian] (54-68) *)
(** Rows of [mean] and [std]; a negative number of copies gives the empty list. *)
Definition stack_mean (nu : nat) (y0 fy : nat -> R) : seq (nat -> R) :=
  [:: y0; fy] ++ nseq (nu.+1 - 2) (fun _ => 0).
Definition stack_std (nu : nat) (scale : R) (y0 fy : nat -> R) : seq (nat -> R) :=
  [:: (fun a => 0 * y0 a); (fun a => 0 * fy a)] ++ nseq (nu.+1 - 2) (fun _ => scale * 1).
Definition matvec d (J : nat -> nat -> R) (v : nat -> R) (a : nat) : R := \sum_(b < d) J a b * v b.
Definition stackj_mean (d nu : nat) (y0 fy : nat -> R) (J : nat -> nat -> R) : seq (nat -> R) :=
  [:: y0; fy; matvec d J fy] ++ nseq (nu.+1 - 3) (fun _ => 0).
Definition stackj_std (d nu : nat) (scale : R) (y0 fy : nat -> R) (J : nat -> nat -> R) : seq (nat -> R) :=
  [:: (fun a => 0 * y0 a); (fun a => 0 * fy a); (fun a => 0 * matvec d J fy a)]
  ++ nseq (nu.+1 - 3) (fun _ => scale * 1).

(** [_StackBase.__call__] (16-33). The dimension is the number of entries of [mean]. *)
Definition rows_fun (rows : seq (nat -> R)) (i j : nat) : R := nth (fun _ => 0) rows i j.
Definition stack_rv d (mrows srows : seq (nat -> R)) : snormal R (d * size mrows) :=
  let m := ravelF (size mrows) (rows_fun mrows) in
  let s := ravelF (size srows) (rows_fun srows) in
  SNormal (\col_i m i) (\matrix_(i, j) (if i == j then s i ^+ 2 else 0))
    (\matrix_(i, j) (if i == j then s i else 0)).
Definition stack d nu scale y0 fy := stack_rv d (stack_mean nu y0 fy) (stack_std nu scale y0 fy).
Definition stackj d nu scale y0 fy J :=
  stack_rv d (stackj_mean d nu y0 fy J) (stackj_std d nu scale y0 fy J).

(** ** [_project_rv] (143-154) *)
Definition project_rv (qr : forall p q, 'M[R]_(p, q) -> 'M[R]_(minn p q, q)) n m
    (P : 'M[R]_(m, n)) (rv : snormal R n) : option (snormal R m) :=
  omap (fun L => SNormal (P *m s_mean rv) (P *m s_cov rv *m P^T) L)
    (cholesky_update qr (b := 0) (P *m s_chol rv) None).
(** [states], [derivatives] (81-86) and [interpolate] (91-100) of the solution. *)
Definition sol_state qr nu d (rv : snormal R (d * nu.+2)) := project_rv qr (proj2coord R d (ord0 : 'I_nu.+2)) rv.
Definition sol_deriv qr nu d (rv : snormal R (d * nu.+2)) := project_rv qr (proj2coord R d (inord 1 : 'I_nu.+2)) rv.
End OdeInit.
