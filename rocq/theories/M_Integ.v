(** Model of integrated Ornstein-Uhlenbeck and Matern transitions:
    randprocs/markov/integrator/_ioup.py (146-258) and _matern.py (146-262). The methods [forward_rv] and [backward_rv]
    of the two classes have the same code.

    Real numbers instead of floats, dense arrays, positive steps. The discretisation of the preconditioned SDE is that
    of M_LTISDE.v; random variables, the preconditioner and the discrete transitions are those of M_IWP.v. The factor
    of the process noise is computed always (in the program: only by the square-root implementations). *)
From Coq Require Import Reals.
From mathcomp Require Import all_ssreflect all_algebra.
From Verif Require Import M_Gauss M_Sqrt M_IWP L_RStruct L_Expm M_LTISDE.
Set Implicit Arguments.
Unset Strict Implicit.
Unset Printing Implicit Defensive.
Import Order.Theory GRing.Theory Num.Theory.
Delimit Scope R_scope with coqR.
Local Open Scope ring_scope.

Section Integ.
Local Notation K := R_rcfType.
(** [num_derivatives] and [wiener_process_dimension]. *)
Variables nu d : nat.
Notation dim := (d * nu.+1)%N.

(** [_drift_matrix_ioup] (_ioup.py 146-149). *)
Definition ioup_drift (speed : R) : 'M[R]_dim :=
  ikron d (\matrix_(i, j < nu.+1) (if (i == nu :> nat) && (j == nu :> nat) then - speed else (i.+1 == j :> nat)%:R)).
(** [_drift_matrix_matern] (_matern.py 146-153); [nu + 1/2] is the smoothness. *)
Definition rate (scale : R) : R := (sqrt (2 * (INR nu + / 2)) / scale)%coqR.
Definition matern_drift (scale : R) : 'M[R]_dim :=
  ikron d (\matrix_(i, j < nu.+1) (if i == nu :> nat then - ('C(nu.+1, j)%:R * rate scale ^+ (nu.+1 - j))
                                   else (i.+1 == j :> nat)%:R)).
(** [_force_vector_...] and [_dispersion_matrix_...] (_ioup.py 151-158, _matern.py 155-162). *)
Definition force : 'cV[R]_dim := 0.
Definition disp : 'M[R]_(dim, d * 1) := ikron d (\matrix_(i < nu.+1, j < 1) ((i == nu :> nat)%:R)).

Variable cholesky : forall n, 'M[R]_n -> option 'M[R]_n.
Variable qr : forall p q, 'M[R]_(p, q) -> 'M[R]_(minn p q, q).
Variable damping : R.

(** The discretised model of an [LTISDE] (_lti_sde.py 137-175). *)
Definition lti_model n w (F : 'M[R]_n) (f : 'cV[R]_n) (L : 'M[R]_(n, w)) (h : R) : option (slingauss K n n) :=
  let T := M_LTISDE.discretise F f L h in
  omap (SLinGauss (tmat T) (nmean T) (ncov T)) (cholesky (ncov T + damping *: 1%:M)).
(** The SDE in preconditioned coordinates (_ioup.py 177-189). *)
Definition precond_model (F : 'M[R]_dim) (h : R) (Pi : 'M[R]_dim) : option (slingauss K dim dim) :=
  lti_model (Pi *m F *m precon nu d h) (Pi *m force) (Pi *m disp) h.
(** [forward_rv] (_ioup.py 160-204): the result, [info["crosscov"]] and [info["gain"]]. *)
Definition integ_fwd F f (h g : R) (rv : rvar K dim) : option (snormal K dim) :=
  obind (fun Pi => obind (fun rv1 => obind (fun T =>
    obind (apply_precon cholesky damping (precon nu d h)) (disc_fwd qr f T g rv1))
    (precond_model F h Pi)) (apply_precon cholesky damping Pi rv)) (precon_inv nu d h).
Definition integ_crosscov F (h : R) (rv : rvar K dim) : option 'M[R]_dim :=
  obind (fun Pi => obind (fun rv1 => omap (fun T =>
    precon nu d h *m (s_cov rv1 *m (s_tmat T)^T) *m (precon nu d h)^T)
    (precond_model F h Pi)) (apply_precon cholesky damping Pi rv)) (precon_inv nu d h).
Definition integ_gain F f (h g : R) (rv : rvar K dim) : option 'M[R]_dim :=
  obind (fun Pi => obind (fun rv1 => obind (fun T =>
    omap (fun G => precon nu d h *m G *m Pi^T) (disc_gain qr f T g rv1))
    (precond_model F h Pi)) (apply_precon cholesky damping Pi rv)) (precon_inv nu d h).
(** [backward_rv] (_ioup.py 206-258). *)
Definition integ_bwd F f b (h g : R) (ob rv : rvar K dim) (fwded : option (rvar K dim)) (gain : option 'M[R]_dim)
  : option (snormal K dim) :=
  obind (fun Pi => obind (fun ob1 => obind (fun rv1 => obind (fun fw1 => obind (fun T =>
    obind (apply_precon cholesky damping (precon nu d h))
      (disc_bwd qr f b T g ob1 rv1 fw1 (omap (fun G => Pi *m G *m Pi^T) gain)))
    (precond_model F h Pi)) (opt_app (apply_precon cholesky damping Pi) fwded))
    (apply_precon cholesky damping Pi rv)) (apply_precon cholesky damping Pi ob)) (precon_inv nu d h).
End Integ.
