(** Model of the Gaussian ODE filter: diffeq/odefilter/_odefilter.py ([attempt_step],
    [postprocess]), information_operators/_ode_residual.py, approx_strategies/_ek.py,
    filtsmooth/gaussian/approx/_extendedkalman.py (linearisation of discrete models), and
    of diffusion models: randprocs/markov/continuous/_diffusions.py.

    Numbers are exact; non-finite results and exceptions are [None]. Transitions use the
    square-root implementations (the defaults of [probsolve_ivp] and of the approximation
    strategies). The prior's backward transition is that of its discretisation (for
    integrated Wiener processes, see P_IWP). A time that is not passed is [None]; vector
    fields are total functions of the possibly missing time. *)
From mathcomp Require Import all_ssreflect all_algebra.
From Verif Require Import M_Gauss M_Sqrt M_Series.
Set Implicit Arguments.
Unset Strict Implicit.
Unset Printing Implicit Defensive.
Import Order.Theory GRing.Theory Num.Theory.
Local Open Scope ring_scope.

Section Diffusion.
Variable R : rcfType.

(** ** Diffusion models *)
(** [ConstantDiffusion]: [diffusion] and [_seen_diffusions] (52-54);
    [PiecewiseConstantDiffusion]: [_locations] and [_diffusions] (123-125). *)
Inductive diffusion :=
| ConstD (v : option R) (seen : nat)
| PieceD (locs diffs : seq R).
Definition new_constant := ConstD None 0.
Definition new_piecewise (t0 : R) := PieceD [:: t0] [::].

(** [update_in_place] (85-93, 174-177). [1 / seen] is only evaluated with positive [seen]. *)
Definition d_update (dm : diffusion) (e t : R) : diffusion :=
  match dm with
  | ConstD v seen =>
      let v' := if v is Some s then
                  let a := 1 / seen%:R in let b := 1 - a in a * e + b * s
                else e in
      ConstD (Some v') seen.+1
  | PieceD locs diffs => PieceD (rcons locs t) (rcons diffs e)
  end.

(** Indexing with [i - 1], where [-1] is the last entry. *)
Definition at_pred (l : seq R) (i : nat) : option R :=
  let j := if i is i'.+1 then i' else (size l).-1 in
  if (j < size l)%N then Some (nth 0 l j) else None.
(** [__call__] with a number (59-65, 130-151). *)
Definition d_call (dm : diffusion) (t : R) : option R :=
  match dm with
  | ConstD v _ => v
  | PieceD locs diffs =>
      if (size locs <= 1)%N then None
      else if last 0 locs < t then at_pred diffs 0
      else if t < head 0 locs then at_pred diffs 1
      else at_pred diffs (searchsorted locs t)
  end.
(** [__call__] with an array. *)
Definition d_calls (dm : diffusion) (ts : seq R) : option (seq R) :=
  foldr (fun t acc => obind (fun v => omap (cons v) acc) (d_call dm t)) (Some [::]) ts.
Definition dynamic (dm : diffusion) := if dm is PieceD _ _ then true else false.

(** [_compute_local_quasi_mle] (196-200); [solve_triangular] raises for a singular factor. *)
Definition quasi_mle d (m : snormal R d) : option R :=
  if s_chol m \in unitmx then
    let w := invmx (s_chol m) *m s_mean m in Some ((w^T *m w) 0 0 / d%:R)
  else None.
(** [estimate_locally] (76-83, 161-172). *)
Definition d_estimate d (dm : diffusion) (meas meas_ef : snormal R d) (t : R) : option R :=
  match dm with
  | ConstD _ _ => quasi_mle meas
  | PieceD locs _ => if last 0 locs <= t then quasi_mle meas_ef else None
  end.
End Diffusion.

Section ODEFilter.
Variables (R : rcfType) (qr : forall p q, 'M[R]_(p, q) -> 'M[R]_(minn p q, q)).
Local Notation sqrt := (@Num.sqrt R).
Variables n d k : nat.

(** ** Linearisation *)
(** A [NonlinearGaussian] model: [transition_fun], [transition_fun_jacobian], [noise_fun]. *)
Record nonlin := NonLin {
  nl_fun : option R -> 'cV[R]_n -> 'cV[R]_d;
  nl_jac : option R -> 'cV[R]_n -> 'M[R]_(d, n);
  nl_noise : option R -> snormal R d }.
(** [DiscreteEKFComponent.linearize] (113-136) at the mean [x0], evaluated at time [t]. *)
Definition linearize (N : nonlin) (x0 : 'cV[R]_n) (t : option R) : slingauss R n d :=
  let noise := nl_noise N t in
  SLinGauss (nl_jac N t x0) (nl_fun N t x0 - nl_jac N t x0 *m x0 + s_mean noise)
            (s_cov noise) (s_chol noise).

(** [forward_rv] and [backward_rv] of the component (_interface.py 45-64, 89-112), with
    square-root implementations; [at_]: [_linearise_at]. *)
Definition lin_point (rv : snormal R n) (at_ : option (snormal R n)) : 'cV[R]_n :=
  s_mean (if at_ is Some r then r else rv).
Definition ekf_forward (N : nonlin) t s rv at_ : option (snormal R d) :=
  fwd_sqrt qr sqrt (linearize N (lin_point rv at_) t) s rv.
Definition ekf_backward (N : nonlin) t s obtained rv gain at_ : option (snormal R n) :=
  bwd_sqrt qr sqrt (linearize N (lin_point rv at_) t) s obtained rv gain.

(** [ODEResidual] (67-75) without noise (_information_operator.py 51-61,
    _nonlinear_gaussian.py 135-152); [h0], [h1]: the projections to the state and to its
    derivative. *)
Definition residual (h0 h1 : 'M[R]_(d, n)) (f : option R -> 'cV[R]_d -> 'cV[R]_d) t x :=
  h1 *m x - f t (h0 *m x).
Definition residual_jac (h0 h1 : 'M[R]_(d, n)) (df : option R -> 'cV[R]_d -> 'M[R]_d) t x :=
  h1 - df t (h0 *m x) *m h0.
(** EK1 (_ek.py 14-34) and EK0 (37-86). *)
Definition ek1 h0 h1 f df : nonlin :=
  NonLin (residual h0 h1 f) (residual_jac h0 h1 df) (fun _ => sconstant 0).
Definition ek0 h0 h1 f : nonlin := ek1 h0 h1 f (fun _ _ => 0).

(** ** The solver *)
(** [prior_process.transition.discretise]; the measurement model; the projection of
    [_reference_coordinates]; [steprule.is_accepted(steprule.errorest_to_norm(...))]. *)
Record odefilter := ODEFilter {
  of_dyn : R -> slingauss R n n;
  of_meas : nonlin;
  of_proj : 'M[R]_(k, n);
  of_accept : 'cV[R]_d -> 'cV[R]_k -> bool }.

(** What an attempted step returns (the new time; not the problem): if rejected a state
    without finite numbers, else the new state and the changed diffusion model. *)
Inductive attempt :=
| Rejected (t : R) (err : 'cV[R]_d) (ref : 'cV[R]_k)
| Accepted (t : R) (rv : snormal R n) (err : 'cV[R]_d) (ref : 'cV[R]_k) (dm : diffusion R).

(** [cho_solve((chol, True), crosscov.T).T]. *)
Definition chol_gain (L : 'M[R]_d) (crosscov : 'M[R]_(n, d)) : option 'M[R]_(n, d) :=
  if L \in unitmx then Some (invmx (L *m L^T) *m crosscov^T)^T else None.

(** [attempt_step] (146-348). *)
Definition attempt_step (S : odefilter) (dm : diffusion R) (t : R) (rv : snormal R n) (dt : R)
  : option attempt :=
  let dyn := of_dyn S dt in
  obind (fun pred_ef : snormal R n =>
  let lin := linearize (of_meas S) (s_mean pred_ef) (Some (t + dt)) in
  obind (fun meas_ef : snormal R d =>
  let H := s_tmat lin in
  let pred_sqrtm := s_tmat dyn *m s_chol rv in
  let meas_sqrtm := H *m pred_sqrtm in
  obind (fun Lm : 'M[R]_d =>
  let meas := SNormal (s_mean meas_ef) (Lm *m Lm^T) Lm in
  obind (fun s : R =>
  let err := \col_i (sqrt s * sqrt (s_cov meas_ef i i)) in
  let ref := \col_i `|(of_proj S *m s_mean rv) i 0| in
  if ~~ of_accept S err ref then Some (Rejected (t + dt) err ref)
  else
  let dm' := d_update dm s t in
  let scale := if dynamic dm then sqrt s else 1 in
  obind (fun Lp : 'M[R]_n =>
  let pred := SNormal (s_mean pred_ef) (Lp *m Lp^T) Lp in
  obind (fun Lm' : 'M[R]_d =>
  obind (fun gain =>
  omap (fun filt => Accepted (t + dt) filt err ref dm')
    (ekf_backward (of_meas S) None 1 (sconstant 0) pred (Some gain) None))
    (chol_gain Lm' (s_cov pred *m H^T)))
    (if dynamic dm then cholesky_update qr (sqrt s *: s_chol meas_ef) (Some meas_sqrtm) else Some Lm))
    (cholesky_update qr (if dynamic dm then sqrt s *: s_chol pred_ef else s_chol pred_ef)
       (Some pred_sqrtm)))
    (d_estimate dm meas meas_ef (t + dt)))
    (cholesky_update qr (s_chol meas_ef) (Some meas_sqrtm)))
    (fwd_sqrt qr sqrt lin 1 pred_ef))
    (fwd_sqrt qr sqrt dyn 1 (sconstant (s_mean rv))).

(** Attempts with the step sizes [dts], as made by the solver loop: a rejected step is
    retried from the same state. The times and states that were reached, latest first, and
    the diffusion model. *)
Record progress := Prog { p_states : seq (R * snormal R n); p_diff : diffusion R }.
Definition attempt1 (S : odefilter) (p : option progress) (dt : R) : option progress :=
  obind (fun p =>
    if p_states p is (t, rv) :: _ then
      omap (fun a => match a with
                     | Rejected _ _ _ => p
                     | Accepted t' rv' _ _ dm' => Prog ((t', rv') :: p_states p) dm'
                     end) (attempt_step S (p_diff p) t rv dt)
    else None) p.
Definition attempts S t0 rv0 dm dts : option progress :=
  foldl (attempt1 S) (Some (Prog [:: (t0, rv0)] dm)) dts.

(** ** Postprocessing *)
(** [smooth_list] (randprocs/markov/_transition.py 293-345), latest state first; [diffs]:
    the diffusions of the intervals, latest first. *)
Fixpoint smooth_steps (S : odefilter) (curr : snormal R n) (t : R) (rvs : seq (R * snormal R n))
    (diffs : seq R) : option (seq (snormal R n)) :=
  match rvs, diffs with
  | (t', rv) :: rvs', s :: diffs' =>
      obind (fun new => omap (cons curr) (smooth_steps S new t' rvs' diffs'))
        (bwd_sqrt qr sqrt (of_dyn S (t - t')) s curr rv None)
  | [::], _ => Some [:: curr]
  | _, _ => None
  end.
(** [postprocess] (362-403): the calibrated filtering states, and the smoothed states if
    [with_smoothing]; latest first. *)
Definition calibrate (s : R) (rv : snormal R n) : snormal R n :=
  SNormal (s_mean rv) (s *: s_cov rv) (sqrt s *: s_chol rv).
Definition postprocess (S : odefilter) (smoothing : bool) (p : progress)
  : option (seq (snormal R n) * option (seq (snormal R n))) :=
  obind (fun s : R =>
    let filt := [seq calibrate s tr.2 | tr <- p_states p] in
    if smoothing then
      match p_states p with
      | (t, rv) :: rest =>
          obind (fun ds =>
            omap (fun sm => (filt, Some sm)) (smooth_steps S rv t rest ds))
            (d_calls (p_diff p) (if rest is [::] then [::] else t :: [seq tr.1 | tr <- take (size rest).-1 rest]))
      | [::] => None
      end
    else Some (filt, None))
    (if p_diff p is ConstD v _ then v else Some 1).
End ODEFilter.
