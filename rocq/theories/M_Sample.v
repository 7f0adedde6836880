(** Model of sampling and dense output of Gauss-Markov processes:
    randprocs/markov/_transition.py ([jointly_transform_base_measure_realization_list_*]),
    randprocs/markov/_markov.py ([_sample_at_input]),
    filtsmooth/gaussian/_kalmanposterior.py (sampling, [interpolate]).

    [chol] stands for [Normal.cov_cholesky]; the damping added to the diagonal before
    factorising (config.covariance_inversion_damping) is taken to be zero. Diffusions
    are one. *)
From mathcomp Require Import all_ssreflect all_algebra.
From Verif Require Import M_Gauss.
Set Implicit Arguments.
Unset Strict Implicit.
Unset Printing Implicit Defensive.
Import Order.Theory GRing.Theory Num.Theory.
Local Open Scope ring_scope.

Section Sample.
Variables (R : realFieldType) (n : nat).
Variable chol : 'M[R]_n -> 'M[R]_n.

(** [rv.mean + rv.cov_cholesky @ base]. *)
Definition draw (rv : normal R n) (b : 'cV[R]_n) : 'cV[R]_n := mean rv + chol (cov rv) *m b.

(** [..._forward] (416-477): step [idx] uses the base realisation [idx - 1] (474). *)
Fixpoint fwd_sample (trans : R -> R -> lingauss R n n) (t : nat -> R) (initrv : normal R n)
    (base : nat -> 'cV[R]_n) idx : 'cV[R]_n :=
  if idx is i.+1 then
    draw (fwd_classic (trans (t i) (t i.+1 - t i)) 1
            (constant (fwd_sample trans t initrv base i))) (base i)
  else draw initrv (base 0%N).

(** [MarkovProcess._sample_at_input] (_markov.py 49-84): the initial random variable
    is used at the first argument, whatever [initarg] is. *)
Definition prior_sample trans (initarg : R) initrv (args : nat -> R) base :=
  fwd_sample trans args initrv base.

(** [..._backward] (347-414) with the filtering states: the sample [i] steps before
    the last of [N] locations. *)
Fixpoint bwd_sample (m : nat -> nat) (M : ssm R n m) (y : forall k, 'cV[R]_(m k)) N
    (base : nat -> 'cV[R]_n) i : option 'cV[R]_n :=
  if i is i'.+1 then
    let idx := (N.-1 - i')%N in
    obind (fun curr =>
      obind (fun rv =>
        omap (fun r => draw r (base idx.-1))
          (bwd_classic (trans M (loc M idx.-1) (loc M idx - loc M idx.-1)) 1
             (constant curr) rv None))
        (filtered M y idx))
      (bwd_sample M y N base i')
  else omap (fun rv => draw rv (base N.-1)) (filtered M y N).

(** [FilteringPosterior.interpolate] (370-427) at [t] strictly between locations
    [k] and [k + 1] (or after the last location, if [k] is the last one). *)
Definition interpolate_filter (m : nat -> nat) (M : ssm R n m) y N k (t : R)
  : option (normal R n) :=
  omap (fwd_classic (trans M (loc M k) (t - loc M k)) 1) (filter_state M y N k).
(** [SmoothingPosterior.interpolate] (170-259): extrapolation to the right, and
    interpolation starting from the smoothed state at [k] (185-187, 247-252). *)
Definition extrapolate_smooth (m : nat -> nat) (M : ssm R n m) y N (t : R)
  : option (normal R n) :=
  omap (fwd_classic (trans M (loc M N.-1) (t - loc M N.-1)) 1) (smooth_state M y N N.-1).
Definition interpolate_smooth (m : nat -> nat) (M : ssm R n m) y N k (t : R)
  : option (normal R n) :=
  obind (fun prev => obind (fun next =>
    let f := fwd_classic (trans M (loc M k) (t - loc M k)) 1 prev in
    bwd_classic (trans M t (loc M k.+1 - t)) 1 next f None)
    (smooth_state M y N k.+1)) (smooth_state M y N k).
End Sample.
