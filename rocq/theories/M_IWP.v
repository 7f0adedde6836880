(** Model of integrated Wiener process transitions:
    randprocs/markov/integrator/_iwp.py, _preconditioner.py, _integrator.py.

    Numbers are elements of a real closed field; arrays are dense (the branches for
    [config.matrix_free] build the same matrices as Kronecker operators). [None]:
    an exception or non-finite numbers. [cholesky] is [scipy.linalg.cholesky] /
    [np.linalg.cholesky], [qr] is [np.linalg.qr]. *)
From mathcomp Require Import all_ssreflect all_algebra.
From Verif Require Import M_Gauss M_Sqrt.
Set Implicit Arguments.
Unset Strict Implicit.
Unset Printing Implicit Defensive.
Import Order.Theory GRing.Theory Num.Theory.
Local Open Scope ring_scope.

Section IWP.
Variable R : rcfType.

(** [np.kron(np.eye(d), B)]. *)
Definition ikron d p q (B : 'M[R]_(p.+1, q.+1)) : 'M[R]_(d * p.+1, d * q.+1) :=
  \matrix_(i, j) (if (i %/ p.+1 == j %/ q.+1)%N
                  then B (inord (i %% p.+1)) (inord (j %% q.+1)) else 0).

(** [np.flip] of a square matrix (both axes). *)
Definition flip n (M : 'M[R]_n) : 'M[R]_n := \matrix_(i, j) M (rev_ord i) (rev_ord j).
(** [scipy.linalg.pascal(n, kind="lower")], [scipy.linalg.hilbert(n)]. *)
Definition pascal n : 'M[R]_n := \matrix_(i, j) ('C(i, j))%:R.
Definition hilbert n : 'M[R]_n := \matrix_(i, j) ((i + j).+1)%:R^-1.

Section Process.
(** [num_derivatives] and [wiener_process_dimension]. *)
Variables nu d : nat.

(** [NordsieckLikeCoordinates.from_order] (_preconditioner.py 65-74): powers
    [nu, ..., 0] plus one half, scales their factorials. [__call__] (76-82);
    [np.abs(step) ** (p + 0.5)] is [|h|^p * sqrt |h|]. *)
Definition power (i : 'I_nu.+1) : nat := (nu - i)%N.
Definition precon (h : R) : 'M[R]_(d * nu.+1) :=
  ikron d (\matrix_(i, j < nu.+1)
    ((`|h| ^+ power i * Num.sqrt `|h|) / (power i)`!%:R *+ (i == j))).
(** [inverse] (84-90): negative powers, reciprocal scales; infinite for a zero step. *)
Definition precon_inv (h : R) : option 'M[R]_(d * nu.+1) :=
  if h == 0 then None else
  Some (ikron d (\matrix_(i, j < nu.+1)
    ((`|h| ^+ power i * Num.sqrt `|h|)^-1 / (1 / (power i)`!%:R) *+ (i == j)))).

(** [_drift_matrix_iwp], [_dispersion_matrix_iwp] (_iwp.py 142-163). *)
Definition drift : 'M[R]_(d * nu.+1) :=
  ikron d (\matrix_(i, j < nu.+1) ((i.+1 == j :> nat)%:R)).
Definition dispersion : 'M[R]_(d * nu.+1, d * 1) :=
  ikron d (\matrix_(i < nu.+1, j < 1) ((i == nu :> nat)%:R)).

Variable cholesky : forall n, 'M[R]_n -> option 'M[R]_n.
Variable qr : forall p q, 'M[R]_(p, q) -> 'M[R]_(minn p q, q).
(** [config.covariance_inversion_damping]. *)
Variable damping : R.

(** [equivalent_discretisation_preconditioned] (165-215). *)
Definition precond_disc : option (slingauss R (d * nu.+1) (d * nu.+1)) :=
  let H := flip (hilbert nu.+1) in
  omap (fun L => SLinGauss (ikron d (flip (pascal nu.+1))) 0 (ikron d H) (ikron d L))
       (cholesky H).

(** [discretise] (282-317). *)
Definition discretise (h : R) : option (slingauss R (d * nu.+1) (d * nu.+1)) :=
  obind (fun T =>
    omap (fun Pi => let P := precon h in
      SLinGauss (P *m s_tmat T *m Pi) 0 (P *m s_ncov T *m P^T) (P *m s_nchol T))
    (precon_inv h)) precond_disc.

(** The choice of implementations of an LTI transition, and those of the transition
    that [discretise] returns (315-316). *)
Inductive fwd_impl := FClassic | FSqrt.
Inductive bwd_impl := BClassic | BSqrt | BJoseph.
Definition as_bwd f := match f with FClassic => BClassic | FSqrt => BSqrt end.
Definition discretise_impls (f : fwd_impl) (b : bwd_impl) : fwd_impl * bwd_impl :=
  (f, as_bwd f).

(** A [Normal] with a factor that may have been computed before;
    [cov_cholesky] (randvars/_normal.py 240-257, 457-470). *)
Record rvar n := Rvar { r_mean : 'cV[R]_n; r_cov : 'M[R]_n; r_cached : option 'M[R]_n }.
Definition factor n (rv : rvar n) : option 'M[R]_n :=
  match r_cached rv with
  | Some L => Some L
  | None => cholesky (r_cov rv + damping *: 1%:M)
  end.
Definition cached n (rv : snormal R n) : rvar n :=
  Rvar (s_mean rv) (s_cov rv) (Some (s_chol rv)).
Definition uncached n (rv : normal R n) : rvar n := Rvar (mean rv) (cov rv) None.

(** [apply_precon] (_preconditioner.py 12-31). *)
Definition apply_precon n (P : 'M[R]_n) (rv : rvar n) : option (snormal R n) :=
  omap (fun L => SNormal (P *m r_mean rv) ((P *m L) *m (P *m L)^T) (P *m L)) (factor rv).

(** [forward_rv] and [backward_rv] of a discrete transition, by implementation
    (_linear_gaussian.py 67-81, 166-319; _nonlinear_gaussian.py 109-133). The classic and Joseph forms return a
    [Normal] without factor. *)
Section Disc.
Variables n m : nat.
Implicit Types (T : slingauss R n m).
Definition cls k (rv : snormal R k) : normal R k := Normal (s_mean rv) (s_cov rv).
Definition clsT T : lingauss R n m := LinGauss (s_tmat T) (s_shift T) (s_ncov T).
Definition disc_fwd f T (g : R) (rv : snormal R n) : option (rvar m) :=
  match f with
  | FClassic => Some (uncached (fwd_classic (clsT T) g (cls rv)))
  | FSqrt => omap (@cached m) (fwd_sqrt qr Num.sqrt T g rv)
  end.
Definition disc_gain f T (g : R) (rv : snormal R n) : option 'M[R]_(n, m) :=
  match f with
  | FClassic => gain_classic (clsT T) g (cls rv)
  | FSqrt => gain_sqrt qr Num.sqrt T g rv
  end.
(** [f] computes what is not given. Joseph and square-root forms ignore
    [rv_forwarded]. *)
Definition disc_bwd f b T (g : R) (ob : snormal R m) (rv : snormal R n)
    (fwded : option (snormal R m)) (gain : option 'M[R]_(n, m)) : option (rvar n) :=
  match b with
  | BClassic =>
      match fwded, gain with
      | Some fw, Some G =>
          Some (uncached (condition_state_on_rv (cls ob) (cls fw) (cls rv) G))
      | _, _ =>
          obind (fun fw => omap (fun G =>
            uncached (condition_state_on_rv (cls ob) (Normal (r_mean fw) (r_cov fw)) (cls rv) G))
            (disc_gain f T g rv)) (disc_fwd f T g rv)
      end
  | BSqrt =>
      obind (fun G => omap (@cached n) (bwd_sqrt_with qr Num.sqrt T g ob rv G))
        (match gain with
         | Some G => Some G
         | None => if s_cov ob != 0 then disc_gain f T g rv else Some 0
         end)
  | BJoseph =>
      omap (fun G => uncached (joseph_with (clsT T) g (cls ob) (cls rv) G))
        (match gain with Some G => Some G | None => disc_gain f T g rv end)
  end.
End Disc.

(** [forward_rv] (217-240): the result, its cross-covariance and gain. *)
Definition iwp_fwd f (h g : R) (rv : rvar (d * nu.+1)) : option (snormal R (d * nu.+1)) :=
  obind (fun Pi => obind (fun T => obind (fun rv1 =>
    obind (apply_precon (precon h)) (disc_fwd f T g rv1))
    (apply_precon Pi rv)) precond_disc) (precon_inv h).
Definition iwp_crosscov (h : R) (rv : rvar (d * nu.+1)) : option 'M[R]_(d * nu.+1) :=
  obind (fun Pi => obind (fun T => omap (fun rv1 =>
    precon h *m (s_cov rv1 *m (s_tmat T)^T) *m (precon h)^T)
    (apply_precon Pi rv)) precond_disc) (precon_inv h).
Definition iwp_gain f (h g : R) (rv : rvar (d * nu.+1)) : option 'M[R]_(d * nu.+1) :=
  obind (fun Pi => obind (fun T => obind (fun rv1 =>
    omap (fun G => precon h *m G *m Pi^T) (disc_gain f T g rv1))
    (apply_precon Pi rv)) precond_disc) (precon_inv h).

(** [backward_rv] (242-280). The gain, when given, is multiplied with the inverse
    preconditioner on both sides (265-269). *)
Definition opt_app A B (F : A -> option B) (x : option A) : option (option B) :=
  match x with Some a => omap some (F a) | None => Some None end.
Definition iwp_bwd f b (h g : R) (ob rv : rvar (d * nu.+1))
    (fwded : option (rvar (d * nu.+1))) (gain : option 'M[R]_(d * nu.+1))
  : option (snormal R (d * nu.+1)) :=
  obind (fun Pi => obind (fun T => obind (fun ob1 => obind (fun rv1 => obind (fun fw1 =>
    obind (apply_precon (precon h))
      (disc_bwd f b T g ob1 rv1 fw1 (omap (fun G => Pi *m G *m Pi^T) gain)))
    (opt_app (apply_precon Pi) fwded)) (apply_precon Pi rv)) (apply_precon Pi ob))
    precond_disc) (precon_inv h).
End Process.

(** ** Coordinates (_integrator.py) *)
(** [proj2coord] (43-73). *)
Definition proj2coord nu d (coord : 'I_nu.+1) : 'M[R]_(d * 1, d * nu.+1) :=
  ikron d (\matrix_(i < 1, j < nu.+1) ((j == coord)%:R)).
(** [_derivwise2coordwise_projmat] (75-109): for every [q], the rows
    [q, q + (nu + 1), ...] are the rows [q * d, ..., q * d + d - 1] of the identity. *)
Definition derivwise2coordwise nu d : 'M[R]_(d * nu.+1) :=
  \matrix_(i, j) ((j == (i %% nu.+1) * d + i %/ nu.+1 :> nat)%N%:R).
Definition coordwise2derivwise nu d : 'M[R]_(d * nu.+1) := (derivwise2coordwise nu d)^T.
End IWP.
