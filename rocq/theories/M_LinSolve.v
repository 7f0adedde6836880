(** Model of the components of solution-based probabilistic linear solvers, as programs of
    the solver loop of [M_PLS]: linalg/solvers/policies/_conjugate_gradient.py,
    information_ops/_projected_residual.py,
    belief_updates/solution_based/_projected_residual_belief_update.py, and the solver
    [BayesCG] (_probabilistic_linear_solver.py 225-250).
    Numbers are exact. A vector or belief that contains non-finite numbers is [None].
    Square systems with a single right-hand side. *)
From mathcomp Require Import all_ssreflect all_algebra.
From Verif Require Import M_PLS M_Ortho.
Set Implicit Arguments.
Unset Strict Implicit.
Unset Printing Implicit Defensive.
Import Order.Theory GRing.Theory Num.Theory.
Local Open Scope ring_scope.

Section Solver.
Variables (R : rcfType) (n : nat).
Local Notation vec := 'cV[R]_n.
(** [LinearSystem]. *)
Variables (A : 'M[R]_n) (b : vec).

Definition num (v : 'M[R]_1) : R := v 0 0.

(** The parts of [LinearSystemBelief] the update reads and writes: the belief about the
    solution (its mean and covariance, and whether it is a [Normal] or a [Constant], whose
    covariance is zero) and the mean of the belief about the inverse. *)
Record sbel := SBel { x_normal : bool; x_mean : vec; x_cov : 'M[R]_n; ainv : option 'M[R]_n }.

(** [self.problem.b - self.problem.A @ self.belief.x.mean] (_state.py 47-49, 127-131). *)
Definition sresid (p : option sbel) : option vec := omap (fun p => b - A *m x_mean p) p.

(** [ProjectedResidualBeliefUpdate.__call__] (44-69). [np.outer(gain, cov_xy)]. *)
Definition proj_update (lam : R) (p : sbel) (s : vec) (y : R) : sbel :=
  let action_A := s^T *m A in
  let cov_xy := x_cov p *m action_A^T in
  let gram := num (action_A *m cov_xy) + lam in
  let gram_pinv := if 0 < gram then 1 / gram else 0 in
  let gain := gram_pinv *: cov_xy in
  let cov_update := gain *m cov_xy^T in
  SBel true (x_mean p + y *: gain) (x_cov p - cov_update)
       (Some (if ainv p is Some H then H + cov_update else cov_update)).

Section Components.
Context {B Obs : Type}.
Local Notation prog := (prog B (option vec) (option vec) Obs (seq (option vec))).
Local Notation view := (view B (option vec) (option vec) Obs (seq (option vec))).

(** The current action (_state.py 88-95). *)
Definition cur_action (v : view) : option vec := odflt None (nth None (v_actions v) (v_step v)).
Definition cur_obs (v : view) : option Obs := nth None (v_obs v) (v_step v).

(** All numbers finite. *)
Definition all_finite (l : seq (option vec)) : option (seq vec) :=
  foldr (fun o acc => obind (fun v => omap (cons v) acc) o) (Some [::]) l.

(** [beta = (norm(residual) / norm(prev_residual)) ** 2] and
    [action = residual + beta * actions[step - 1]] (72-74). *)
Definition nrm (v : vec) : R := Num.sqrt (\sum_i v i 0 ^+ 2).
Definition cg_action (r prev act : option vec) : option vec :=
  obind (fun r => obind (fun p => obind (fun a =>
    omap (fun q => r + q ^+ 2 *: a) (divide (nrm r) (nrm p))) act) prev) r.

(** A reorthogonalisation function: inner product, vector, basis. *)
Definition reorth := ipspec R n -> vec -> basis R n -> option vec.

(** [ConjugateGradientPolicy] (48-124): reorthogonalisation of the action (76-80, 104-124;
    [ipm]: the matrix of its inner product, 110-116). *)
Definition cg_finish (reo_a : option reorth) (ipm : B -> 'M[R]_n) (v : view) (a : option vec) :=
  if reo_a is Some f then
    obind (fun a => obind (fun basis => f (ByMatrix (ipm (v_prior v))) a (AsArray basis))
      (all_finite (map (odflt None) (take (v_step v) (v_actions v))))) a
  else a.
(** The policy, given the residual and the state (54-82). The cache is the list stored under
    ["reorthogonalized_residuals"] (58-60, 84-102). *)
Definition cg_body (reo_r reo_a : option reorth) (ipm : B -> 'M[R]_n)
    (r : option vec) (v : view) : prog (option vec) :=
  if v_step v == 0%N then
    if reo_r is Some _ then SetCache (rcons (v_cache v) r) (Ret r) else Ret r
  else
    let act := odflt None (nth None (v_actions v) (v_step v).-1) in
    match reo_r with
    | Some f =>
        let r' := obind (fun r => obind (fun basis => f Default r (AsArray basis))
                    (all_finite (v_cache v))) r in
        let cache := rcons (v_cache v) r' in
        SetCache cache
          (Ret (cg_finish reo_a ipm v (cg_action r' (nth None cache (v_step v).-1) act)))
    | None =>
        let prev := odflt None (nth None (v_resids v) (v_step v).-1) in
        Ret (cg_finish reo_a ipm v (cg_action r prev act))
    end.
Definition cg_policy reo_r reo_a ipm : prog (option vec) :=
  ReadResidual (fun r => Look (cg_body reo_r reo_a ipm r)).
End Components.

(** [ProjectedResidualInformationOp] : [s^T r]. *)
Definition proj_obs (r s : option vec) : option R :=
  obind (fun r => omap (fun s => num (s^T *m r)) s) r.
Definition proj_info : prog (option sbel) (option vec) (option vec) (option R) (seq (option vec)) (option R) :=
  ReadResidual (fun r => Look (fun v => Ret (proj_obs r (cur_action v)))).
Definition proj_step lam (p : option sbel) (s : option vec) (y : option R) : option sbel :=
  obind (fun p => obind (fun s => omap (proj_update lam p s) y) s) p.
Definition proj_upd lam : prog (option sbel) (option vec) (option vec) (option R) (seq (option vec)) (option sbel) :=
  Look (fun v => Ret (proj_step lam (v_belief v) (cur_action v) (odflt None (cur_obs v)))).

(** The inner product of the reorthogonalised actions: [A cov A^T] for a [Normal] prior,
    [A] for a [Constant]. *)
Definition cg_ipm (p : option sbel) : 'M[R]_n :=
  if p is Some p then if x_normal p then A *m x_cov p *m A^T else A else 0.

Local Notation lprog := (prog (option sbel) (option vec) (option vec) (option R) (seq (option vec))).
(** A solver with any policy and stopping criterion. *)
Definition solution_solver lam stop (policy : nat -> lprog (option vec)) :=
  mk_pls stop policy proj_info (proj_upd lam).
(** [ResidualNormStoppingCriterion.__call__] (_residual_norm.py 33-46); comparisons with
    non-finite numbers are false. *)
Definition residual_norm (atol rtol : R) : lprog bool :=
  ReadResidual (fun r => Ret (if r is Some r then (nrm r <= atol) || (nrm r <= rtol * nrm b) else false)).
(** [BayesCG] with any stopping criterion and optional reorthogonalisation; the default
    criterion. *)
Definition bayes_cg stop reo_r reo_a :=
  solution_solver 0 stop (fun _ => cg_policy reo_r reo_a cg_ipm).
Definition default_stop atol rtol : lprog bool :=
  stop_or (max_iterations n None) (residual_norm atol rtol).
End Solver.
