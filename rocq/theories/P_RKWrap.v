(** C06 (SciPy wrapper) and C53: Runge-Kutta wrapper and perturbed steps. *)
From Coq Require Import List Reals Bool Lra Lia.
From Verif Require Import M_ODELoop L_ODELoop M_RKWrap L_RKWrap L_RKWrap2.
Import ListNotations.
Open Scope R_scope.

(** When no attempt is rejected and no callback interferes, every reported
    state is the Runge-Kutta step from its predecessor, for every tableau and
    vector field. *)
Theorem C06_runge_kutta_chain_partial :
  forall Y E N (yzero : Y) yadd yscale fld tabA tabB tabC (est : list Y -> R -> E) nrm acc sug
         (d : N) h0 fuel fi s dt tr z,
  (forall n, acc n = true) ->
  loop (rk_solver yzero yadd yscale fld tabA tabB tabC est nrm acc sug d h0) fuel fi []
       (rk_init fld (st_t s) (p_y (st_x s))) s dt None = (tr, z) ->
  rk_chain yzero yadd yscale fld tabA tabB tabC s tr.
Proof. exact @rk_run_chain. Qed.
Print Assumptions C06_runge_kutta_chain_partial.

(** With a rejection this fails: RK23 on y' = y from y(0) = 1, step 1 rejected,
    step 1/2 accepted; the first stage of the accepted step is the derivative
    at the rejected point. *)
Theorem C06_rejection_changes_step_refuted :
  exists (acc : R -> bool) (sug : R -> R -> option R) (s s' : state (@pay R R)) w' dt',
    full_step (rk23_solver acc sug) 2 (rk_init rk23_field (st_t s) (p_y (st_x s))) s 1
      = Ok (w', s', dt')
    /\ st_t s' - st_t s = 1 / 2
    /\ p_y (st_x s') <> rk23_reference (st_t s) (p_y (st_x s)) (1 / 2).
Proof. exact fsal_witness. Qed.
Print Assumptions C06_rejection_changes_step_refuted.

(** Perturbed steps: without rejections the scale stored at index [i] is the
    one of piece [i]; the interpolant of piece [i] is evaluated on exactly its
    own interval, its left (right) end at the left (right) end of the piece. *)
Theorem C53_scales_aligned_partial :
  forall Y E N (yzero : Y) yadd yscale fld tabA tabB tabC (est : list Y -> R -> E) nrm acc sug
         (d : N) h0 noise fuel fi s dt tr z,
  (forall n, acc n = true) -> (forall dt n sg, sug dt n = Some sg -> 0 < sg) -> 0 < dt ->
  let sv := pert_solver yzero yadd yscale fld tabA tabB tabC est nrm acc sug noise d h0 in
  let w0 := pert_init fld (st_t s) (p_y (st_x s)) in
  loop sv fuel fi [] w0 s dt None = (tr, z) ->
  let w' := final sv fuel fi [] w0 s dt None in
  let locs := times (s :: tr) in
  length (wp_scales w') = length tr /\ length (w_interp (wp_rk w')) = length tr /\
  forall i l l' D,
    nth_error locs i = Some l -> nth_error locs (S i) = Some l' ->
    nth_error (w_interp (wp_rk w')) i = Some D ->
    d_told D = l
    /\ pert_eval_point locs (wp_scales w') i l = Some (d_told D)
    /\ pert_eval_point locs (wp_scales w') i l' = Some (d_t D).
Proof. exact @pert_run_aligned. Qed.
Print Assumptions C53_scales_aligned_partial.

(** A rejected attempt misaligns them: the interpolant of the first piece is
    evaluated outside its interval at the end of the piece. *)
Theorem C53_scales_aligned_refuted :
  exists (acc : R -> bool) (sug : R -> R -> option R) noise (s s' : state (@pay R R)) w' dt' D x,
    (forall i h, 0 < h -> 0 < noise i h) /\
    full_step (rk23_perturbed acc sug noise) 2 (pert_init rk23_field (st_t s) (p_y (st_x s))) s 1
      = Ok (w', s', dt')
    /\ w_interp (wp_rk w') = [D]
    /\ pert_eval_point [st_t s; st_t s'] (wp_scales w') 0 (st_t s') = Some x
    /\ x <> d_t D.
Proof. exact scales_witness. Qed.
Print Assumptions C53_scales_aligned_refuted.

(** Perturbation functions: uniform perturbations stay within the band and are
    positive for small noise; log-normal ones are positive and their mean
    (exp(mu + sigma^2/2) for N(mu, sigma^2) in log-space) is the step. *)
Theorem C53_uniform_band : forall c order step u h,
  0 <= c -> 0 < step -> 0 <= u <= 1 ->
  perturb_uniform c order step u = Some h ->
  step < 1 /\ Rabs (h - step) <= c * (step ^ order * sqrt step)
  /\ (c < 1 -> (1 <= order)%nat -> 0 < h).
Proof. exact uniform_band. Qed.
Print Assumptions C53_uniform_band.

Theorem C53_lognormal : forall c order step z,
  0 <= c -> 0 < step ->
  0 < perturb_lognormal c order step z
  /\ exists mu sigma, 0 <= sigma
     /\ perturb_lognormal c order step z = exp (mu + sigma * z)
     /\ exp (mu + sigma * sigma / 2) = step.
Proof. exact lognormal_mean. Qed.
Print Assumptions C53_lognormal.

Example ex_uniform : perturb_uniform (1/2) 1 (1/4) 1 = Some (1/4 + 1/2 * (1/4 * sqrt (1/4))).
Proof.
  unfold perturb_uniform. destruct (Rleb_spec 1 (1/4)); [lra|]. f_equal. simpl. lra.
Qed.
(** A non-trivial run for the chain theorem: two RK23 steps. *)
Example ex_chain_run :
  exists tr, loop (rk23_solver (fun _ => true) (fun _ _ => Some (1/2))) 2 1 []
               (rk_init rk23_field 0 1) (mk_state 0 1 (mk_pay 1 None None)) (1/2) None
             = (tr, Finished) /\ length tr = 2%nat.
Proof. exact two_steps. Qed.
