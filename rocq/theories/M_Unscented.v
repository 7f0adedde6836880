(** Model of filtsmooth/gaussian/approx/_unscentedkalman.py: the discrete unscented (spherical cubature)
    Kalman filter component. Exact arithmetic over a real closed field; means are column vectors, sigma
    points rows. [rv.cov_cholesky] is an argument; [scipy.linalg.solve] is multiplication with the inverse.
    The number [eps] is the constant [1e-12] in [_linearization_system_matrices]. *)
From mathcomp Require Import all_ssreflect all_algebra.
Set Implicit Arguments.
Unset Strict Implicit.
Unset Printing Implicit Defensive.
Import Order.Theory GRing.Theory Num.Theory.
Local Open Scope ring_scope.

Section Unscented.
Variable R : rcfType.
Variables d k : nat.
(** The number of sigma points. *)
Notation n := (1 + (d + d))%N.

(** [_spherical_cubature_unit_params] (58-67) *)
Definition unit_points : 'M[R]_(n, d) := Num.sqrt d%:R *: col_mx (0 : 'rV_d) (col_mx 1%:M (- 1%:M)).
(** [_weights] (70-76), [_weights_mean] (79-83), [_weights_cov] (86-90) *)
Definition spread : R := 1.
Definition priorpar : R := 0.
Definition special_scale : R := 0.
Definition scale : R := spread ^+ 2 * (d%:R + special_scale) - d%:R.
Definition weights_mean : 'rV[R]_n :=
  row_mx (const_mx (scale / (d%:R + scale))) (const_mx (1 / (2%:R * (d%:R + scale)))).
Definition weights_cov : 'rV[R]_n :=
  row_mx (const_mx (scale / (d%:R + scale) + (1 - spread ^+ 2 + priorpar))) (const_mx (1 / (2%:R * (d%:R + scale)))).

(** [x[None, :]] broadcast to all points. *)
Definition rows (c : nat) (m : 'cV[R]_c) : 'M[R]_(n, c) := (const_mx 1 : 'cV_n) *m m^T.
(** The sigma points (97) and their images (99-101). *)
Definition sigma_points (m : 'cV[R]_d) (L : 'M[R]_d) : 'M[R]_(n, d) := unit_points *m L^T + rows m.
Definition transitioned (f : 'cV[R]_d -> 'cV[R]_k) (pts : 'M[R]_(n, d)) : 'M[R]_(n, k) :=
  \matrix_(i, j) f (row i pts)^T j 0.
(** [_approx_outer_product] (158-161) *)
Definition outer (a b : nat) (w : 'rV[R]_n) (A : 'M[R]_(n, a)) (B : 'M[R]_(n, b)) : 'M[R]_(a, b) :=
  \sum_i w 0 i *: ((row i A)^T *m row i B).
(** [_match_moments] (145-155): mean, covariance and cross-covariance. *)
Definition fx_mean (fx : 'M[R]_(n, k)) : 'cV[R]_k := (weights_mean *m fx)^T.
Definition fx_cov (fx : 'M[R]_(n, k)) : 'M[R]_k := outer weights_cov (fx - rows (fx_mean fx)) (fx - rows (fx_mean fx)).
Definition crosscov (xc : 'M[R]_(n, d)) (fx : 'M[R]_(n, k)) : 'M[R]_(d, k) := outer weights_cov xc (fx - rows (fx_mean fx)).
(** [_linearization_system_matrices] (127-142): matrix, mean and covariance of the noise. *)
Variable eps : R.
Definition lin_mat (m : 'cV[R]_d) (P : 'M[R]_d) (pts : 'M[R]_(n, d)) (fx : 'M[R]_(n, k)) : 'M[R]_(k, d) :=
  (invmx (P + eps *: 1%:M) *m crosscov (pts - rows m) fx)^T.
Definition lin_mean m P pts fx : 'cV[R]_k := fx_mean fx - lin_mat m P pts fx *m m.
Definition lin_cov m P pts fx : 'M[R]_k :=
  fx_cov fx - (crosscov (pts - rows m) fx)^T *m (lin_mat m P pts fx)^T.

(** [_linearize_via_cubature] (93-124), for the random variable with mean [m], covariance [P] and
    Cholesky factor [L], and additive noise with mean [b] and covariance [Q]: the resulting linear
    Gaussian transition (matrix, mean and covariance of its noise). *)
Definition linearize (f : 'cV[R]_d -> 'cV[R]_k) (b : 'cV[R]_k) (Q : 'M[R]_k) (m : 'cV[R]_d) (P L : 'M[R]_d) :=
  let pts := sigma_points m L in
  let fx := transitioned f pts in
  (lin_mat m P pts fx, b + lin_mean m P pts fx, Q + lin_cov m P pts fx).
(** Moments of the image under a linear Gaussian transition
    (randprocs/markov/discrete/_linear_gaussian.py 166-183): mean, covariance and
    cross-covariance with the state. *)
Definition forward (T : 'M[R]_(k, d) * 'cV[R]_k * 'M[R]_k) (m : 'cV[R]_d) (P : 'M[R]_d) :=
  let '(F, c, Sg) := T in (F *m m + c, F *m (P *m F^T) + Sg, P *m F^T).
End Unscented.
