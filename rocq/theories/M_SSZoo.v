(** State space models and linear systems of the zoo (problems/zoo/filtsmooth/_filtsmooth_problems.py,
    problems/zoo/linalg). *)
From Coq Require Import Reals.
From mathcomp Require Import all_ssreflect all_algebra.
From Verif Require Import M_Gauss M_Sqrt M_IWP L_RStruct M_Integ.
Set Implicit Arguments.
Unset Strict Implicit.
Unset Printing Implicit Defensive.
Import GRing.Theory Num.Theory.
Delimit Scope R_scope with coqR.
Local Open Scope ring_scope.
Local Notation K := R_rcfType.

(** [car_tracking] (20-146): the transition matrix of the measurement model, [np.eye(2, model_dim)] (109),
    and the dynamics (99-107); the argument [process_diffusion] is not used. *)
Definition car_measurement (R : rcfType) (nu : nat) : 'M[R]_(2, 2 * nu.+1) := \matrix_(i, j) (i == j :> nat)%:R.
Definition car_dynamics (R : rcfType) (cholesky : forall n, 'M[R]_n -> option 'M[R]_n) (nu : nat) (process_diffusion step : R)
  : option (slingauss R (2 * nu.+1) (2 * nu.+1)) := M_IWP.discretise nu 2 cholesky step.

(** [ornstein_uhlenbeck] (149-248): drift and dispersion of the dynamics (205-211); [process_diffusion] is not used. *)
Definition ou_dynamics (driftspeed process_diffusion : R) : 'M[R]_(1 * 1) * 'M[R]_(1 * 1, 1 * 1) :=
  (ioup_drift 0 1 driftspeed, disp 0 1).

(** [pendulum] (251-398): [f], [df], [h], [dh] (328-346) and [noise_cov] (348-352). *)
Definition gravity : R := (981 / 100)%coqR.
Definition pend_f (step : R) (x : seq R) : option (seq R) :=
  if x is [:: x1; x2] then Some [:: x1 + x2 * step; x2 - gravity * sin x1 * step]%coqR else None.
Definition pend_df (step : R) (x : seq R) : option (seq (seq R)) :=
  if x is [:: x1; _] then Some [:: [:: 1; step]; [:: - gravity * cos x1 * step; 1]]%coqR else None.
Definition pend_h (x : seq R) : option (seq R) := if x is [:: x1; _] then Some [:: sin x1] else None.
Definition pend_dh (x : seq R) : option (seq (seq R)) := if x is [:: x1; _] then Some [:: [:: cos x1; 0%coqR]] else None.
Definition pend_noise (step : R) : 'M[R]_2 :=
  \matrix_(i, j) (if i == j then (if i == 0%N :> nat then (step ^ 3 / 3)%coqR else step) else (step ^ 2 / 2)%coqR).

(** [benes_daum] (401-505): [f] and [df] (451-455), which act entry by entry. *)
Definition benes_f (x : R) : R := tanh x.
Definition benes_df (x : R) : R := (1 - tanh x ^ 2)%coqR.

(** [logistic_ode] (508-616): the mean of the initial random variable for [initrv=None] (596-599) and the number of
    entries of the state of the prior (600-605). *)
Definition logistic_initmean (y0 : seq R) (order : nat) : seq R := [:: 1 / 10; 0; 0; 0]%coqR.
Definition logistic_statedim (order : nat) : nat := (1 * order.+1)%N.

(** ** problems/zoo/linalg *)
Section Linalg.
Variable R : rcfType.
Variable n : nat.
(** [random_spd_matrix] (_random_spd_matrix.py 12-91). [gamma]: the values drawn from the Gamma distribution;
    [orth]: the matrix drawn from the special orthogonal group. Products of matrices of wrong shape raise. *)
Definition random_spd (gamma : seq R) (orth : 'M[R]_n.+1) (spectrum : option (seq R)) : option 'M[R]_n.+1 :=
  obind (fun s : seq R =>
    if size s == n.+1 then
      Some (if n.+1 == 1%N then \matrix_(i, j) s`_0
            else let A := orth *m (\matrix_(i, j) if i == j then s`_i else 0) *m orth^T in 2%:R^-1 *: (A + A^T))
    else None)
  (match spectrum with
   | None => Some (rev (sort <=%R gamma))
   | Some s => if all (fun x => 0 < x) s then Some s else None
   end).
(** [random_sparse_spd_matrix] (94-171). [mask] and [u]: the positions and values of [scipy.sparse.rand]. *)
Definition sparse_chol (dense : bool) (mask : 'M[bool]_n.+1) (u : 'M[R]_n.+1) (lo hi : R) : 'M[R]_n.+1 :=
  1%:M + \matrix_(i, j) (if dense && (j < i)%N && mask i j then u i j * (hi - lo) + lo else 0).
Definition random_sparse_spd (density : R) (mask : 'M[bool]_n.+1) (u : 'M[R]_n.+1) (lo hi : R) : option 'M[R]_n.+1 :=
  if (0 <= density) && (density <= 1) then
    let L := sparse_chol (1 <= 2%:R^-1 * n.+1%:R * n%:R * density) mask u lo hi in Some (L *m L^T)
  else None.
End Linalg.
