(** C31, C32: state and loop of probabilistic linear solvers. *)
From Coq Require Import List Bool Arith Lia.
From Verif Require Import M_PLS L_PLS.
Import ListNotations.

(** ** C31 *)
(** The solver with its lazily filled residual cache behaves, for all
    components and all consumers of the iterator, as the machine [s_iterate]
    that recomputes [resid] of the current belief at every read. *)
Theorem C31_refines_uncached_solver :
  forall B Y Act Obs K (resid : B -> Y) (sv : pls B Y Act Obs K) consumer fuel k0 prior,
  let '(l, e, z) := iterate resid fuel sv consumer (init_state resid k0 prior) in
  let '(l', e', z') := s_iterate resid fuel sv consumer (s_init k0 prior) in
  Forall2 (rel resid) l l' /\ rel resid z z' /\ e = (if e' then Stopped else NoFuel).
Proof. exact @refines. Qed.
Print Assumptions C31_refines_uncached_solver.

(** In particular: no assertion fails, and the residual read from any yielded
    state or from the final state is that of its belief. *)
Theorem C31_residual_current :
  forall B Y Act Obs K (resid : B -> Y) (sv : pls B Y Act Obs K) consumer fuel k0 prior l e z,
  iterate resid fuel sv consumer (init_state resid k0 prior) = (l, e, z) ->
  e <> AssertionError
  /\ fst (read_residual resid z) = resid (ls_belief z)
  /\ forall s, In s l -> fst (read_residual resid s) = resid (ls_belief s).
Proof. exact @residual_current. Qed.
Print Assumptions C31_residual_current.

(** The [i]-th yielded state has step counter [i] and exactly [i] actions and
    observations, the entry of the current step still being unset. *)
Theorem C31_history_aligned :
  forall B Y Act Obs K (resid : B -> Y) (sv : pls B Y Act Obs K) consumer fuel k0 prior l e z i x,
  iterate resid fuel sv consumer (init_state resid k0 prior) = (l, e, z) ->
  nth_error l i = Some x ->
  ls_step x = i
  /\ exists acts obs, length acts = i /\ length obs = i
     /\ ls_actions x = map Some acts ++ [None] /\ ls_obs x = map Some obs ++ [None]
     /\ ls_prior x = prior.
Proof.
  intros B Y Act Obs K resid sv consumer fuel k0 prior l e z i x E Hi.
  destruct (yields_numbered resid sv consumer fuel _ _ (init_rel resid k0 prior)
              eq_refl eq_refl l e z i x E Hi) as (E1 & acts & obs & A & O & EA & EO & EP).
  simpl in E1. split; [exact E1|]. exists acts, obs.
  rewrite E1 in A, O. auto.
Qed.
Print Assumptions C31_history_aligned.

(** Assigning [belief] outside the solver does not invalidate the cache. *)
Theorem C61_assigned_belief_residual_refuted :
  exists (resid : nat -> nat) (s : lstate nat nat nat nat unit) b,
    (exists sv fuel, fst (fst (iterate resid fuel sv (fun _ => Ret tt) (init_state resid tt 0))) = [s])
    /\ fst (read_residual resid (set_belief b s)) <> resid (ls_belief (set_belief b s)).
Proof.
  exists (fun b => 10 - b), (init_state (fun b => 10 - b) tt 0), 3. split; [|simpl; discriminate].
  exists (mk_pls (Ret true) (fun _ => Ret 0) (Ret 0) (Ret 0)), 1. reflexivity.
Qed.
Print Assumptions C61_assigned_belief_residual_refuted.

(** After an advance to the next step it is the new belief's residual. *)
Theorem C61_assigned_belief_residual_partial :
  forall B Y Act Obs K (resid : B -> Y) (s : lstate B Y Act Obs K) b,
  length (ls_resids s) = S (ls_step s) ->
  fst (read_residual resid (next_step (set_belief b s))) = resid b.
Proof.
  intros B Y Act Obs K resid s b H. unfold read_residual, next_step, set_belief.
  cbn [ls_resids ls_step ls_belief].
  rewrite nth_error_app2 by lia. replace (S (ls_step s) - length (ls_resids s)) with 0 by lia.
  reflexivity.
Qed.
Print Assumptions C61_assigned_belief_residual_partial.

(** ** C32 *)
(** With a criterion that is met at the latest in step [N] (first or second
    operand of an or), the iterator ends after at most [N] updates, at the
    first state where the criterion is met; the returned belief is the last
    yielded one. *)
Theorem C32_stops :
  forall B Y Act Obs K (resid : B -> Y) (sv : pls B Y Act Obs K) consumer N k0 prior fuel,
  stops_by resid N (p_stop sv) -> N < fuel ->
  exists l z pre s',
    iterate resid fuel sv consumer (init_state resid k0 prior) = (l, Stopped, z)
    /\ l = pre ++ [s'] /\ length pre <= N
    /\ ls_belief z = ls_belief s' /\ ls_step s' = length pre /\ ls_step z = length pre
    /\ met resid sv consumer s' = true /\ Forall (fun x => met resid sv consumer x = false) pre.
Proof. exact @iterate_stops. Qed.
Print Assumptions C32_stops.

Theorem C32_max_iterations_bounds : forall B Y Act Obs K (resid : B -> Y) n m
    (other : prog B Y Act Obs K bool),
  let N := match m with None => n * 10 | Some m => m end in
  stops_by (Act := Act) (Obs := Obs) (K := K) resid N (max_iterations n m)
  /\ stops_by resid N (stop_or (max_iterations n m) other)
  /\ stops_by resid N (stop_or other (max_iterations n m)).
Proof.
  intros. split; [apply stops_by_max|split].
  - apply stops_by_or_l, stops_by_max.
  - apply stops_by_or_r, stops_by_max.
Qed.
Print Assumptions C32_max_iterations_bounds.

Theorem C32_early_stop_is_other_criterion :
  forall B Y Act Obs K (resid : B -> Y) n m (other : prog B Y Act Obs K bool) s,
  fst (run resid (stop_or (max_iterations n m) other) s) = true ->
  ls_step s < (match m with None => n * 10 | Some m => m end) ->
  fst (run resid other s) = true.
Proof. exact @stop_early. Qed.
Print Assumptions C32_early_stop_is_other_criterion.

(** Non-vacuity: halving the residual of x = 16, stop at residual <= 1 or
    after 3 resp. 10 steps; the policy reads the residual twice. *)
Definition ex_resid (b : nat) : nat := 16 - b.
Definition ex_pls (m : nat) : pls nat nat nat nat unit :=
  mk_pls (stop_or (max_iterations 1 (Some m)) (ReadResidual (fun r => Ret (Nat.leb r 1))))
    (fun _ => ReadResidual (fun r => ReadResidual (fun r' => Ret ((r + r') / 4))))
    (Look (fun v => Ret (v_step v)))
    (Look (fun v => Ret (v_belief v + match last (v_actions v) None with Some a => a | None => 0 end))).
Example ex_run3 : option_map fst (solve ex_resid 5 (ex_pls 3) tt 0) = Some 14.
Proof. reflexivity. Qed.
Example ex_run10 : option_map fst (solve ex_resid 11 (ex_pls 10) tt 0) = Some 15
  /\ option_map (fun r => ls_resids (snd r)) (solve ex_resid 11 (ex_pls 10) tt 0)
     = Some [Some 16; Some 8; Some 4; Some 2; Some 1].
Proof. split; reflexivity. Qed.
