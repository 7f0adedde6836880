(** Model of the ODE solver loop: probnum/diffeq/_odesolver.py,
    diffeq/stepsize/_steprule.py, diffeq/callbacks/_discrete_callback.py. *)
From Coq Require Import List Reals Bool.
Import ListNotations.
Open Scope R_scope.

(** Comparisons of floats are comparisons of reals (no rounding, no NaN). *)
Definition Rltb (x y : R) : bool := if Rlt_dec x y then true else false.
Definition Rleb (x y : R) : bool := if Rle_dec x y then true else false.

Section Loop.
(** [X]: everything in an [ODESolverState] besides time and IVP.
    [W]: the mutable attributes of the solver object ([self]).
    [N]: what [errorest_to_norm] returns. *)
Context {X W N : Type}.

(** diffeq/_odesolver_state.py [ODESolverState]; [tmax] is [state.ivp.tmax]. *)
Record state := mk_state { st_t : R; st_tmax : R; st_x : X }.

(** The abstract methods of a concrete solver and of its step rule.
    [attempt w s dt]: [attempt_step]; returns the new solver attributes and
    the payload of the proposed state, [None] if it raises.  All solvers of the
    package return [t = state.t + dt] and [ivp = state.ivp]
    (_odefilter.py 339-348, _wrapped_scipy_solver.py 99-105,
    _perturbedstepsolver.py 120-127), which [propose] below builds in.
    [norm]: [errorest_to_norm] of error estimate and reference state.
    [suggest]: [None] is a RuntimeError.
    [mcb]: [method_callback] (acts on the solver attributes only). *)
Record solver := mk_solver {
  attempt : W -> state -> R -> option (W * X);
  norm : X -> N;
  accepted : N -> bool;
  suggest : R -> N -> option R;
  mcb : W -> state -> W;
  firststep : R }.

Variable sv : solver.

Inductive res (A : Type) := Ok (a : A) | Raised | OutOfFuel.
Arguments Ok {A}. Arguments Raised {A}. Arguments OutOfFuel {A}.

Definition propose (s : state) (dt : R) (x : X) : state :=
  mk_state (st_t s + dt) (st_tmax s) x.

(** [perform_full_step] (_odesolver.py 110-139). The [while] loop is recursion
    on fuel.  Note that [suggest] is evaluated (and may raise) before the
    acceptance decision is used. *)
Fixpoint full_step (fuel : nat) (w : W) (s : state) (dt : R) : res (W * state * R) :=
  match fuel with
  | O => OutOfFuel
  | S fuel' =>
      match attempt sv w s dt with
      | None => Raised
      | Some (w', x) =>
          let p := propose s dt x in
          let n := norm sv x in
          match suggest sv dt n with
          | None => Raised
          | Some sg =>
              if accepted sv n
              then Ok (mcb sv w' s, p, Rmin sg (st_tmax s - st_t p))
              else full_step fuel' w' s (Rmin sg (st_tmax s - st_t s))
          end
      end
  end.

(** [_TimeStopperState] (176-179): remaining iterator and next location;
    [None] is [np.inf]. *)
Definition stopper := (list R * option R)%type.

(** [_adjust_time_step] (182-195). *)
Definition advance (sp : stopper) (t : R) : stopper :=
  let (locs, nl) := sp in
  match nl with
  | None => (locs, None)
  | Some l =>
      if Rleb l t then
        match locs with
        | [] => ([], None)
        | l' :: locs' => (locs', Some l')
        end
      else (locs, Some l)
  end.

Definition clip (sp : stopper) (t dt : R) : R :=
  match snd sp with
  | None => dt
  | Some l => if Rltb l (t + dt) then l - t else dt
  end.

Definition adjust (sp : option stopper) (t dt : R) : R * option stopper :=
  match sp with
  | None => (dt, None)
  | Some sp => let sp' := advance sp t in (clip sp' t dt, Some sp')
  end.

(** Callbacks of the user: applied in order (82-84). *)
Definition run_callbacks (cbs : list (state -> state)) (s : state) : state :=
  fold_left (fun s cb => cb s) cbs s.

(** diffeq/callbacks/_discrete_callback.py [DiscreteCallback.__call__]. *)
Definition discrete_callback (cond : state -> bool) (replace : state -> state) :=
  fun s => if cond s then replace s else s.

Inductive status := Finished | Error | Timeout.

(** The loop of [solution_generator] (75-90): list of states yielded after the
    initial one, and how the generator ended.  [fi] is the fuel of the inner
    loop. *)
Fixpoint loop (fuel fi : nat) (cbs : list (state -> state)) (w : W) (s : state)
         (dt : R) (sp : option stopper) : list state * status :=
  if Rltb (st_t s) (st_tmax s) then
    match fuel with
    | O => ([], Timeout)
    | S fuel' =>
        let (dt1, sp') := adjust sp (st_t s) dt in
        match full_step fi w s dt1 with
        | OutOfFuel => ([], Timeout)
        | Raised => ([], Error)
        | Ok (w', s', dt') =>
            let s'' := run_callbacks cbs s' in
            let (tr, z) := loop fuel' fi cbs w' s'' dt' sp' in
            (s'' :: tr, z)
        end
    end
  else ([], Finished).

(** The solver object when the generator ends (same recursion as [loop]). *)
Fixpoint final (fuel fi : nat) (cbs : list (state -> state)) (w : W) (s : state)
         (dt : R) (sp : option stopper) : W :=
  if Rltb (st_t s) (st_tmax s) then
    match fuel with
    | O => w
    | S fuel' =>
        let (dt1, sp') := adjust sp (st_t s) dt in
        match full_step fi w s dt1 with
        | Ok (w', s', dt') => final fuel' fi cbs w' (run_callbacks cbs s') dt' sp'
        | _ => w
        end
    end
  else w.

(** [_process_event_inputs] (92-108): [Some []] makes [next] raise inside the
    generator (RuntimeError) before anything is yielded. *)
Definition generate (fuel fi : nat) (cbs : list (state -> state)) (w : W)
           (s0 : state) (stop_at : option (list R)) : list state * status :=
  match stop_at with
  | Some [] => ([], Error)
  | Some (l :: ls) =>
      let (tr, z) := loop fuel fi cbs w s0 (firststep sv) (Some (ls, Some l)) in
      (s0 :: tr, z)
  | None =>
      let (tr, z) := loop fuel fi cbs w s0 (firststep sv) None in
      (s0 :: tr, z)
  end.

(** [solve] (38-61): the time grid passed to [rvlist_to_odesol]. *)
Definition times (tr : list state) : list R := map st_t tr.
End Loop.
Arguments state X : clear implicits.
Arguments solver X W N : clear implicits.
Arguments Ok {A}. Arguments Raised {A}. Arguments OutOfFuel {A}.

(** [ConstantSteps] (_steprule.py 48-68). *)
Definition constant_suggest {N} (h : R) (laststep : R) (n : N) : option R := Some h.
Definition constant_accepted {N} (n : N) : bool := true.

(** Scaled error of [AdaptiveSteps]: a non-negative number.  [change] is
    [safetyscale * (1/scaled_error) ** (1/localconvrate)] (_steprule.py 123-124);
    for [scaled_error = 0] NumPy yields infinity, represented by [None]. *)
Definition change (safety : R) (e : R) (p : nat) : option R :=
  if Rltb 0 e then Some (safety * Rpower (1 / e) (1 / INR p)) else None.

(** [AdaptiveSteps.suggest] (_steprule.py 114-141). *)
Record adaptive := mk_adaptive {
  ad_small : R; ad_large : R; ad_safety : R; ad_min : R; ad_max : R }.

Definition adaptive_step (a : adaptive) (p : nat) (laststep e : R) : R :=
  match change (ad_safety a) e p with
  | None => ad_large a * laststep
  | Some c =>
      if Rltb c (ad_small a) then ad_small a * laststep
      else if Rltb (ad_large a) c then ad_large a * laststep
      else c * laststep
  end.

Definition adaptive_suggest (a : adaptive) (p : nat) (laststep e : R) : option R :=
  let step := adaptive_step a p laststep e in
  if Rltb step (ad_min a) then None
  else if Rltb (ad_max a) step then None
  else Some step.

(** [AdaptiveSteps.is_accepted] (143-144). *)
Definition adaptive_accepted (e : R) : bool := Rltb e 1.

(** [AdaptiveSteps.errorest_to_norm] (146-150), scalar tolerances, for an error
    estimate given as the list of its entries. *)
Definition sumsq (l : list R) : R := fold_right (fun x acc => x * x + acc) 0 l.
Definition errorest_to_norm (atol rtol : R) (errs refs : list R) : R :=
  let ratio := map (fun er => fst er / (atol + rtol * snd er)) (combine errs refs) in
  sqrt (sumsq ratio) / sqrt (INR (length ratio)).
