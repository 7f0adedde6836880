(** C03, C04, C05, C06, C07: time grid, stop locations, step-size control,
    rejections and termination of the ODE solver loop. *)
From Coq Require Import List Reals Bool Lra Lia Sorted.
From Verif Require Import M_ODELoop L_ODELoop L_ODELoop2.
Import ListNotations.
Open Scope R_scope.

(** ** C03 *)
Theorem C03_time_grid : forall X W N (sv : solver X W N) fuel fi cbs w s0 stop_at tr z,
  keeps_time cbs -> suggests_positive sv ->
  good_stops sv (st_t s0) stop_at ->
  0 < firststep sv <= st_tmax s0 - st_t s0 ->
  generate sv fuel fi cbs w s0 stop_at = (tr, z) ->
  hd_error tr = Some s0
  /\ StronglySorted Rlt (times tr)
  /\ Forall (fun t => t <= st_tmax s0) (times tr)
  /\ (z = Finished -> last (times tr) 0 = st_tmax s0).
Proof. exact @time_grid. Qed.
Print Assumptions C03_time_grid.

(** Without the guard on the first step the grid is still increasing, *)
Theorem C03_time_grid_increasing : forall X W N (sv : solver X W N) fuel fi cbs w s0 stop_at tr z,
  keeps_time cbs -> suggests_positive sv ->
  good_stops sv (st_t s0) stop_at -> 0 < firststep sv ->
  generate sv fuel fi cbs w s0 stop_at = (tr, z) ->
  hd_error tr = Some s0 /\ StronglySorted Rlt (times tr).
Proof. exact @time_grid_increasing. Qed.
Print Assumptions C03_time_grid_increasing.

(** but the final time can be overshot: constant step 2 on [0, 1]. *)
Theorem C03_never_exceeds_tmax_refuted :
  exists (sv : solver unit unit unit) s0 tr,
    suggests_positive sv /\ 0 < firststep sv /\ st_t s0 < st_tmax s0
    /\ generate sv 1 1 [] tt s0 None = (tr, Finished)
    /\ exists t, In t (times tr) /\ st_tmax s0 < t.
Proof. exact overshoot. Qed.
Print Assumptions C03_never_exceeds_tmax_refuted.

(** ** C04 *)
Theorem C04_stops_hit : forall X W N (sv : solver X W N) fuel fi cbs w s0 ls tr z x,
  keeps_time cbs -> suggests_positive sv -> shrinks_on_rejection sv ->
  good_stops sv (st_t s0) (Some ls) -> 0 < firststep sv ->
  generate sv fuel fi cbs w s0 (Some ls) = (tr, z) ->
  In x ls -> st_t s0 < x ->
  (z = Finished /\ x <= st_tmax s0) \/ Exists (fun t => x <= t) (times tr) ->
  In x (times tr).
Proof. exact @stops_hit. Qed.
Print Assumptions C04_stops_hit.

(** The precondition on [stop_at] matters: sorted locations two of which are
    not after [t0] make the solver step backwards ... *)
Theorem C04_no_backward_steps_refuted :
  exists (sv : solver unit unit unit) s0 ls tr z,
    suggests_positive sv /\ shrinks_on_rejection sv /\ 0 < firststep sv
    /\ StronglySorted Rlt ls
    /\ generate sv 1 1 [] tt s0 (Some ls) = (tr, z)
    /\ exists t, In t (times tr) /\ t < st_t s0.
Proof. exact backward. Qed.
Print Assumptions C04_no_backward_steps_refuted.

(** ... and a repeated location makes it take a step of size zero. *)
Theorem C04_duplicate_location_refuted :
  exists (sv : solver unit unit unit) s0 ls tr z,
    suggests_positive sv /\ shrinks_on_rejection sv /\ 0 < firststep sv
    /\ StronglySorted Rle ls /\ Forall (fun x => st_t s0 < x) ls
    /\ generate sv 2 1 [] tt s0 (Some ls) = (tr, z)
    /\ ~ StronglySorted Rlt (times tr).
Proof. exact duplicate. Qed.
Print Assumptions C04_duplicate_location_refuted.

(** ** C05 *)
Theorem C05_factor_limits : forall a p last e step,
  (1 <= p)%nat -> ad_small a <= ad_large a -> 0 < last ->
  adaptive_suggest a p last e = Some step ->
  ad_small a * last <= step <= ad_large a * last /\ ad_min a <= step <= ad_max a.
Proof. exact adaptive_limits. Qed.
Print Assumptions C05_factor_limits.

Theorem C05_monotone : forall a p last e e' step step',
  (1 <= p)%nat -> ad_small a <= ad_large a -> 0 < ad_safety a -> 0 < last ->
  0 <= e <= e' ->
  adaptive_suggest a p last e = Some step -> adaptive_suggest a p last e' = Some step' ->
  step' <= step.
Proof. exact adaptive_monotone. Qed.
Print Assumptions C05_monotone.

Theorem C05_raises_iff_outside_window : forall a p last e,
  adaptive_suggest a p last e = None <->
  adaptive_step a p last e < ad_min a \/ ad_max a < adaptive_step a p last e.
Proof. exact adaptive_raises. Qed.
Print Assumptions C05_raises_iff_outside_window.

(** Between the limits the step is the classical proportional controller:
    its (p)-th power times the error is the safety factor's p-th power. *)
Theorem C05_proportional_control : forall a p last e step,
  (1 <= p)%nat -> 0 < ad_safety a -> 0 < last -> 0 < e ->
  ad_small a * last < step < ad_large a * last ->
  adaptive_suggest a p last e = Some step ->
  (step / last) ^ p * e = ad_safety a ^ p.
Proof. exact adaptive_proportional. Qed.
Print Assumptions C05_proportional_control.

Theorem C05_rejection_shrinks : forall a p last e step,
  (1 <= p)%nat -> ad_small a <= ad_large a -> 0 < ad_safety a -> 0 < last ->
  adaptive_accepted e = false -> adaptive_suggest a p last e = Some step ->
  step <= Rmax (ad_small a) (ad_safety a) * last.
Proof. exact adaptive_reject. Qed.
Print Assumptions C05_rejection_shrinks.

Theorem C05_accepted_iff : forall e, adaptive_accepted e = true <-> e < 1.
Proof. exact adaptive_accept. Qed.
Print Assumptions C05_accepted_iff.

(** Acceptance against tolerances: a step all of whose components meet the
    mixed tolerance is accepted; a step one of whose components exceeds
    sqrt(dim) times its tolerance is rejected. *)
Theorem C05_tolerance_met_accepts : forall atol rtol errs refs,
  errs <> [] -> length errs = length refs ->
  Forall (fun er => Rabs (fst er) < atol + rtol * snd er) (combine errs refs) ->
  adaptive_accepted (errorest_to_norm atol rtol errs refs) = true.
Proof. exact errorest_accept. Qed.
Print Assumptions C05_tolerance_met_accepts.

Theorem C05_tolerance_violated_rejects : forall atol rtol errs refs,
  errs <> [] -> length errs = length refs ->
  Forall (fun er => 0 < atol + rtol * snd er) (combine errs refs) ->
  Exists (fun er => sqrt (INR (length errs)) * (atol + rtol * snd er) <= Rabs (fst er))
         (combine errs refs) ->
  adaptive_accepted (errorest_to_norm atol rtol errs refs) = false.
Proof. exact errorest_reject. Qed.
Print Assumptions C05_tolerance_violated_rejects.

(** ** C06 *)
(** If a rejected attempt leaves the solver object as it was (the ODE filter,
    _odefilter.py 236-262), the outcome of a full step is that of one attempt
    with the accepted step size from the original state and solver. *)
Theorem C06_rejections_leave_no_trace : forall X W N (sv : solver X W N) fi w s dt w' s' dt',
  clean_rejection sv ->
  full_step sv fi w s dt = Ok (w', s', dt') ->
  exists dta w1 x,
    attempt sv w s dta = Some (w1, x) /\ accepted sv (norm sv x) = true
    /\ s' = propose s dta x /\ w' = mcb sv w1 s.
Proof. exact @no_trace. Qed.
Print Assumptions C06_rejections_leave_no_trace.

(** ** C07 *)
Theorem C07_constant_steps : forall X W N (sv : solver X W N) h k fuel fi cbs w s0,
  0 < h -> firststep sv = h ->
  (forall n, accepted sv n = constant_accepted n) ->
  (forall dt n, suggest sv dt n = constant_suggest h dt n) ->
  (forall w s dt, attempt sv w s dt <> None) ->
  keeps_time cbs ->
  st_t s0 < st_tmax s0 -> h <= st_tmax s0 - st_t s0 ->
  INR k * h - h < st_tmax s0 - st_t s0 <= INR k * h -> (k <= fuel)%nat ->
  exists tr, generate sv fuel (S fi) cbs w s0 None = (tr, Finished)
    /\ length tr = S k
    /\ forall i s, nth_error tr i = Some s ->
         st_t s = Rmin (st_tmax s0) (st_t s0 + INR i * h).
Proof. exact @constant_grid. Qed.
Print Assumptions C07_constant_steps.

Theorem C07_adaptive_terminates : forall X W (sv : solver X W R) a p cbs w s0 stop_at,
  (1 <= p)%nat -> 0 < ad_min a -> 0 <= ad_small a < 1 -> ad_small a <= ad_large a ->
  0 < ad_safety a < 1 ->
  (forall e, accepted sv e = adaptive_accepted e) ->
  (forall dt e, suggest sv dt e = adaptive_suggest a p dt e) ->
  0 < firststep sv -> keeps_time cbs ->
  good_stops sv (st_t s0) stop_at ->
  exists fuel fi, snd (generate sv fuel fi cbs w s0 stop_at) <> Timeout.
Proof. exact @adaptive_terminates. Qed.
Print Assumptions C07_adaptive_terminates.

(** ** Non-vacuity *)
(** The default adaptive rule satisfies all requirements used above. *)
Definition default_rule := mk_adaptive (2/10) 10 (95/100) (1/1000) 1000.
Definition default_solver : solver R unit R :=
  mk_solver (fun _ s dt => Some (tt, dt)) (fun x => x * 4)
    adaptive_accepted (adaptive_suggest default_rule 2) (fun _ _ => tt) (1/2).
Example ex_pos : suggests_positive default_solver.
Proof.
  intros dt n sg Hdt E. simpl in E.
  apply C05_factor_limits in E; simpl; lia || lra || (simpl in E; lra).
Qed.
Example ex_shrink : shrinks_on_rejection default_solver.
Proof.
  intros dt n sg Hdt Ha E. simpl in *.
  apply C05_rejection_shrinks in E; simpl; try lia; try lra; auto.
  simpl in E. rewrite Rmax_right in E by lra. lra.
Qed.
Example ex_stops : good_stops default_solver 0 (Some [1/4; 1/2; 2]).
Proof.
  exists (1/4), [1/2; 2]. split; [reflexivity|split; [|split]].
  - repeat constructor; lra.
  - repeat constructor; lra.
  - exact ex_shrink.
Qed.
Example ex_keeps : keeps_time
  [discrete_callback (fun s : state R => Rltb 1 (st_x s))
     (fun s => mk_state (st_t s) (st_tmax s) 0)].
Proof.
  repeat constructor; unfold discrete_callback; destruct (Rltb 1 (st_x s)); reflexivity.
Qed.
Example ex_clean : clean_rejection default_solver.
Proof. intros w s dt w' x E _. destruct w, w'. reflexivity. Qed.
(** A run with a rejection: step 1/2 has scaled error 2. *)
Example ex_rejects : accepted default_solver (norm default_solver (1/2)) = false.
Proof.
  simpl. unfold adaptive_accepted. destruct (Rltb_spec (1 / 2 * 4) 1); [lra|reflexivity].
Qed.
Example ex_constant_count : INR 3 * (2/5) - 2/5 < 1 - 0 <= INR 3 * (2/5).
Proof. simpl; lra. Qed.
