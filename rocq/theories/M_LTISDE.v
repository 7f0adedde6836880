(** Model of the discretisation of linear time-invariant SDEs, dx = [F x + f] dt + L dw:
    randprocs/markov/continuous/_mfd.py (8-26) and _lti_sde.py (137-175), and of the vector fields of the moment
    equations of linear SDEs (_linear_sde.py 285-445).

    Real numbers instead of floats; [scipy.linalg.expm] is the matrix exponential ([L_Expm.expm]: the entrywise
    limit of the exponential series); [solve_triangular] and [np.linalg.solve] are multiplication with the inverse. *)
From Coq Require Import Reals.
From mathcomp Require Import all_ssreflect all_algebra.
From Verif Require Import L_RStruct L_Expm.
Set Implicit Arguments.
Unset Strict Implicit.
Unset Printing Implicit Defensive.
Import Order.Theory GRing.Theory Num.Theory.
Local Open Scope ring_scope.

(** [matrix_fraction_decomposition] (_mfd.py 8-26), without the unused third result. *)
Definition mfd n w (F : 'M[R]_n) (L : 'M[R]_(n, w)) (dt : R) : 'M[R]_n * 'M[R]_n :=
  let Phi := block_mx F (L *m L^T) 0 (- F^T) in
  let M := expm (dt *: Phi) in
  let Ah := ulsubmx M in
  (Ah, ursubmx M *m Ah^T).
(** [np.eye(m, k)] and [np.flip(A, axis=1)]. *)
Definition eye m k : 'M[R]_(m, k) := \matrix_(i, j) (i == j :> nat)%:R.
Definition flip_cols m k (A : 'M[R]_(m, k)) : 'M[R]_(m, k) := \matrix_(i, j) A i (rev_ord j).
(** A transition [x | y ~ N(A y + s, Q)]. *)
Record lti n := LTI { tmat : 'M[R]_n; nmean : 'cV[R]_n; ncov : 'M[R]_n }.
(** [LTISDE.discretise] (_lti_sde.py 137-175). *)
Definition discretise n w (F : 'M[R]_n) (f : 'cV[R]_n) (L : 'M[R]_(n, w)) (dt : R) : lti n :=
  if f != 0 then
    let Fs := block_mx F 1%:M 0 0 in
    let Ls := col_mx L 0 in
    let: (Ah, Qh) := mfd Fs Ls dt in
    let proj := eye n (n + n) in
    let proj_rev := flip_cols proj in
    LTI (proj *m Ah *m proj^T) (proj *m Ah *m proj_rev^T *m f) (proj *m Qh *m proj^T)
  else
    let: (Ah, Qh) := mfd F L dt in LTI Ah 0 Qh.

(** [forward_rv] (_lti_sde.py 94-111): mean and covariance, for the model with process noise scaled by the diffusion. *)
Definition lti_forward n (T : lti n) (m : 'cV[R]_n) (P : 'M[R]_n) (d : R) : 'cV[R]_n * 'M[R]_n :=
  (tmat T *m m + nmean T, tmat T *m P *m (tmat T)^T + d *: ncov T).

(** ** Moment equations of linear SDEs, for the matrices at the current time *)
(** [_setup_vectorized_mde_forward_classic] (_linear_sde.py 285-313). *)
Definition mde_forward n w (G : 'M[R]_n) (u : 'cV[R]_n) (L : 'M[R]_(n, w)) (d : R) (m : 'cV[R]_n) (P : 'M[R]_n) :=
  (G *m m + u, G *m P + P *m G^T + d *: L *m L^T).
(** [tril_to_positive_tril] (utils/linalg/_cholesky_updates.py 81-101): columns with negative diagonal entry change their sign. *)
Definition pos_tril n (A : 'M[R]_n) : 'M[R]_n := \matrix_(i, j) (A i j * (if A j j < 0 then -1 else 1)).
(** [np.tril(M, -1) + 1 / 2 * np.diag(np.diag(M))]. *)
Definition lt n (M : 'M[R]_n) : 'M[R]_n := \matrix_(i, j) (if (j < i)%N then M i j else if i == j then 1 / 2%:R * M i j else 0).
(** [_setup_vectorized_mde_forward_sqrt] (_linear_sde.py 315-409): derivative of the mean and of the Cholesky factor. *)
Definition mde_forward_sqrt n w (G : 'M[R]_n) (u : 'cV[R]_n) (L : 'M[R]_(n, w)) (d : R) (m : 'cV[R]_n) (S : 'M[R]_n) :=
  let G_bar : 'M[R]_n := invmx S *m (G *m S) in
  let L_bar : 'M[R]_(n, w) := sqrt d *: (invmx S *m L) in
  let M : 'M[R]_n := G_bar + G_bar^T + L_bar *m L_bar^T in
  (G *m m + u, pos_tril (S *m lt M)).
(** [_setup_vectorized_mde_backward] (_linear_sde.py 411-445); [mf], [Pf]: the forward solution at the current time. *)
Definition mde_backward n w (G : 'M[R]_n) (u : 'cV[R]_n) (L : 'M[R]_(n, w)) (d : R) (mf : 'cV[R]_n) (Pf : 'M[R]_n) (m : 'cV[R]_n) (P : 'M[R]_n) :=
  let LL := d *: L *m L^T in
  let K := (invmx Pf *m LL^T)^T in
  (G *m m + K *m (m - mf) + u, (G + K) *m P + P *m (G + K)^T - LL).
