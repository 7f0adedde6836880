(** Model of diffeq/perturbed/scipy_wrapper/_wrapped_scipy_solver.py and
    diffeq/perturbed/step/_perturbedstepsolver.py. *)
From Coq Require Import List Reals Bool.
From Verif Require Import M_ODELoop.
Import ListNotations.
Open Scope R_scope.

Section RK.
(** State vectors: any type with addition and scaling; [E]: error estimates. *)
Context {Y E N : Type}.
Variables (yzero : Y) (yadd : Y -> Y -> Y) (yscale : R -> Y -> Y).
(** Vector field [ivp.f]. *)
Variable fld : R -> Y -> Y.
(** Butcher tableau: nodes [C] (without the leading 0), rows [A] (without the
    leading empty row), weights [B]. *)
Variables (tabA : list (list R)) (tabB tabC : list R).
(** [solver._estimate_error(K, dt)], [steprule.errorest_to_norm],
    [is_accepted], [suggest]. *)
Variable est : list Y -> R -> E.
Variable nrm : E -> Y -> N.
Variable acc : N -> bool.
Variable sug : R -> N -> option R.

Definition lincomb (cs : list R) (ks : list Y) : Y :=
  fold_left (fun a ck => yadd a (yscale (fst ck) (snd ck))) (combine cs ks) yzero.

(** scipy.integrate._ivp.rk.rk_step: stages after the first. *)
Definition stages (t : R) (y : Y) (h : R) (k0 : Y) : list Y :=
  fold_left (fun ks ac =>
               let dy := yscale h (lincomb (fst ac) ks) in
               ks ++ [fld (t + snd ac * h) (yadd y dy)])
            (combine tabA tabC) [k0].

(** scipy.integrate._ivp.rk.rk_step(fun, t, y, f, h, A, B, C, K): [k0] is the
    argument [f], trusted to be [fun(t, y)].  Returns y_new, f_new and K. *)
Definition rk_step (t : R) (y : Y) (k0 : Y) (h : R) : Y * Y * list Y :=
  let ks := stages t y h k0 in
  let ynew := yadd y (yscale h (lincomb tabB ks)) in
  let fnew := fld (t + h) ynew in
  (ynew, fnew, ks ++ [fnew]).

(** Payload of an [ODESolverState]. *)
Record pay := mk_pay { p_y : Y; p_err : option E; p_ref : option Y }.

(** Interpolant created by [dense_output] (136-144): end points and the data
    it is made of. *)
Record dense := mk_dense { d_told : R; d_t : R; d_yold : Y; d_K : list Y }.

(** Attributes of [self.solver] that are read again, and [self.interpolants]. *)
Record wrk := mk_wrk { w_f : Y; w_told : R; w_t : R; w_yold : Y; w_K : list Y;
                       w_interp : list dense }.

(** [initialize] (36-66). *)
Definition rk_init (t0 : R) (y0 : Y) : wrk := mk_wrk (fld t0 y0) t0 t0 y0 [] [].

(** [attempt_step] (68-117): note that [self.solver.f] is overwritten by every
    attempt (116), accepted or not. *)
Definition rk_attempt (w : wrk) (s : state pay) (dt : R) : wrk * pay :=
  let '(ynew, fnew, ks) := rk_step (st_t s) (p_y (st_x s)) (w_f w) dt in
  (mk_wrk fnew (st_t s) (st_t s + dt) (p_y (st_x s)) ks (w_interp w),
   mk_pay ynew (Some (est ks dt)) (Some (p_y (st_x s)))).

(** [method_callback] (128-131). *)
Definition rk_mcb (w : wrk) (s : state pay) : wrk :=
  mk_wrk (w_f w) (w_told w) (w_t w) (w_yold w) (w_K w)
    (w_interp w ++ [mk_dense (w_told w) (w_t w) (w_yold w) (w_K w)]).

Definition pay_norm (d : N) (x : pay) : N :=
  match p_err x, p_ref x with
  | Some e, Some r => nrm e r
  | _, _ => d
  end.

(** [d] is irrelevant: proposed states always carry an error estimate. *)
Definition rk_solver (d : N) (h0 : R) : solver pay wrk N :=
  mk_solver (fun w s dt => Some (rk_attempt w s dt)) (pay_norm d) acc sug rk_mcb h0.

(** ** Perturbed steps *)
(** [noise i h]: value of the [i]-th call of [perturb_step] for step [h]. *)
Variable noise : nat -> R -> R.

Record wpert := mk_wpert { wp_rk : wrk; wp_calls : nat; wp_scales : list R }.

(** [initialize] (88-91). *)
Definition pert_init (t0 : R) (y0 : Y) : wpert := mk_wpert (rk_init t0 y0) 0 [].

(** [attempt_step] (93-127): a scale is appended by every attempt (118). *)
Definition pert_attempt (w : wpert) (s : state pay) (dt : R) : wpert * pay :=
  let noisy := noise (wp_calls w) dt in
  let (w', x) := rk_attempt (wp_rk w) s noisy in
  (mk_wpert w' (S (wp_calls w)) (wp_scales w ++ [noisy / dt]), x).

(** [method_callback] (129-131). *)
Definition pert_mcb (w : wpert) (s : state pay) : wpert :=
  mk_wpert (rk_mcb (wp_rk w) s) (wp_calls w) (wp_scales w).

Definition pert_solver (d : N) (h0 : R) : solver pay wpert N :=
  mk_solver (fun w s dt => Some (pert_attempt w s dt)) (pay_norm d) acc sug pert_mcb h0.

(** [PerturbedStepSolution.interpolate] (_perturbedstepsolution.py 27-48): the
    point at which the interpolant of piece [i] is evaluated, for [t] inside
    that piece. *)
Definition pert_eval_point (locs scales : list R) (i : nat) (t : R) : option R :=
  match nth_error locs i, nth_error scales i with
  | Some l, Some c => Some (l + (t - l) * c)
  | _, _ => None
  end.
End RK.

(** [perturb_uniform] (_perturbation_functions.py 10-47) for a draw [u] of the
    standard uniform distribution; exponent [order + 1/2]. *)
Definition perturb_uniform (noise_scale : R) (order : nat) (step u : R) : option R :=
  if Rleb 1 step then None
  else
    let shift := noise_scale * (step ^ order * sqrt step) in
    let left := step - shift in
    let right := step + shift in
    Some (left + (right - left) * u).

(** [perturb_lognormal] (50-90) for a draw [z] of the standard normal. *)
Definition perturb_lognormal (noise_scale : R) (order : nat) (step z : R) : R :=
  let shift := 1/2 * ln (1 + noise_scale * step ^ (2 * order)) in
  exp (ln step - shift + sqrt (2 * shift) * z).
