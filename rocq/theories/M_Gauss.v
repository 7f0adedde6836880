(** Model of linear Gaussian transitions and Kalman filtering/smoothing:
    randprocs/markov/discrete/_linear_gaussian.py, _nonlinear_gaussian.py
    ([_backward_rv_classic]), _condition_state.py, randprocs/markov/_transition.py
    ([smooth_list], sampling), filtsmooth/gaussian/_kalman.py,
    utils/linalg/_cholesky_updates.py.

    Numbers are elements of an ordered field; dense arrays are matrices. A raised
    [LinAlgError] (or a division by a zero pivot, giving non-finite numbers) is
    [None]. Matrix-free operators and warnings are not modelled. *)
From mathcomp Require Import all_ssreflect all_algebra.
Set Implicit Arguments.
Unset Strict Implicit.
Unset Printing Implicit Defensive.
Import Order.Theory GRing.Theory Num.Theory.
Local Open Scope ring_scope.

Section Gauss.
Variable R : realFieldType.

(** [randvars.Normal] / [randvars.Constant] (covariance zero) restricted to mean
    and covariance. *)
Record normal n := Normal { mean : 'cV[R]_n; cov : 'M[R]_n }.
Definition constant n (x : 'cV[R]_n) : normal n := Normal x 0.

(** A [LinearGaussian] transition at a fixed time: [transition_matrix_fun(t)],
    mean and covariance of [noise_fun(t)]. *)
Record lingauss n m := LinGauss {
  tmat : 'M[R]_(m, n); shift : 'cV[R]_m; ncov : 'M[R]_m }.

Section Transition.
Variables n m : nat.
Implicit Types (T : lingauss n m) (d : R) (rv : normal n).

(** [_forward_rv_classic] (166-183). *)
Definition fwd_crosscov T rv : 'M[R]_(n, m) := cov rv *m (tmat T)^T.
Definition fwd_classic T d rv : normal m :=
  Normal (tmat T *m mean rv + shift T)
         (tmat T *m fwd_crosscov T rv + d *: ncov T).
(** [scipy.linalg.solve(new_cov.T, crosscov.T, assume_a="sym").T]; raises for
    singular matrices. *)
Definition gain_classic T d rv : option 'M[R]_(n, m) :=
  let S := cov (fwd_classic T d rv) in
  if S^T \in unitmx then Some (invmx S^T *m (fwd_crosscov T rv)^T)^T else None.

(** [condition_state_on_rv] (_condition_state.py 13-17). *)
Definition condition_state_on_rv (attained forwarded : normal m) rv (gain : 'M[R]_(n, m))
  : normal n :=
  Normal (mean rv + gain *m (mean attained - mean forwarded))
         (cov rv + gain *m (cov attained - cov forwarded) *m gain^T).

(** [_backward_rv_classic] (_nonlinear_gaussian.py 109-133). [given]: both
    [rv_forwarded] and [gain] when passed by the caller. *)
Definition bwd_classic T d (obtained : normal m) rv (given : option (normal m * 'M[R]_(n, m)))
  : option (normal n) :=
  match given with
  | Some (f, g) => Some (condition_state_on_rv obtained f rv g)
  | None =>
      omap (condition_state_on_rv obtained (fwd_classic T d rv) rv) (gain_classic T d rv)
  end.

(** [_backward_rv_joseph] (289-319). *)
Definition joseph_with T d (obtained : normal m) rv (g : 'M[R]_(n, m)) : normal n :=
  let J := 1%:M - g *m tmat T in
  Normal (mean rv + g *m (mean obtained - tmat T *m mean rv - shift T))
         (J *m cov rv *m J^T + g *m (d *: ncov T) *m g^T + g *m cov obtained *m g^T).
Definition bwd_joseph T d (obtained : normal m) rv (gain : option 'M[R]_(n, m))
  : option (normal n) :=
  match gain with
  | Some g => Some (joseph_with T d obtained rv g)
  | None => omap (joseph_with T d obtained rv) (gain_classic T d rv)
  end.
End Transition.

(** ** The filter *)
(** Regression problem (problems/_problems.py, TimeSeriesRegressionProblem) with
    [N] data [y k] at [loc k] and a measurement model for each; [meas k t] is the
    model evaluated at time [t] ([None] in Python when no time is passed).
    [trans t dt]: the (discretised) transition of the prior process, of which
    [initarg] and [init] are the initial time and state. *)
Record ssm n (m : nat -> nat) := Ssm {
  trans : R -> R -> lingauss n n;
  meas : forall k, option R -> lingauss n (m k);
  loc : nat -> R;
  initarg : R;
  init : normal n }.

Section Filter.
Variables (n : nat) (m : nat -> nat).
Variable M : ssm n m.
Variable y : forall k, 'cV[R]_(m k).

(** Time of the state before datum [k] is processed ([t_old]). *)
Definition told k := if k is k'.+1 then loc M k' else initarg M.

(** One pass of the loop in [filtered_states_generator] (_kalman.py 263-287):
    predict if time has passed, with the transition at the NEW time; update with
    [backward_realization], which is called without a time (282-284). *)
Definition predict k (rv : normal n) : normal n :=
  if loc M k - told k > 0
  then fwd_classic (trans M (loc M k) (loc M k - told k)) 1 rv
  else rv.
Definition update k (rv : normal n) : option (normal n) :=
  bwd_classic (meas M k None) 1 (constant (y k)) rv None.

(** State after the first [k] data. *)
Fixpoint filtered k : option (normal n) :=
  if k is k'.+1 then obind (fun rv => update k' (predict k' rv)) (filtered k')
  else Some (init M).

(** [np.all(np.diff(locations) > 0)] (253-256). *)
Definition sorted_locs N := [forall k : 'I_N, (k.+1 < N)%N ==> (loc M k < loc M k.+1)].

(** [filter]: the state at the [k]-th of [N] locations. *)
Definition filter_state N k : option (normal n) :=
  if sorted_locs N then filtered k.+1 else None.

(** ** The smoother *)
(** [smooth_list] (_transition.py 293-345), unit diffusion (_kalman.py 306): the
    smoothed state [i] steps before the last of [N] locations. *)
Fixpoint smoothed_back N i : option (normal n) :=
  if i is i'.+1 then
    let idx := (N.-1 - i')%N in
    obind (fun curr =>
      obind (fun rv =>
        bwd_classic (trans M (loc M idx.-1) (loc M idx - loc M idx.-1)) 1 curr rv None)
        (filtered idx))
      (smoothed_back N i')
  else filtered N.
Definition smooth_state N k : option (normal n) :=
  if sorted_locs N then smoothed_back N (N.-1 - k)%N else None.
End Filter.
End Gauss.
