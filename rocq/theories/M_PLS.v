(** Model of the probabilistic linear solver framework:
    linalg/solvers/_state.py, linalg/solvers/_probabilistic_linear_solver.py,
    linalg/solvers/stopping_criteria/_maxiter.py. *)
From Coq Require Import List Bool Arith.
Import ListNotations.

Section PLS.
(** [B]: beliefs ([LinearSystemBelief]); [Y]: residual vectors; [Act], [Obs]:
    actions and observations; [K]: the free-form [cache] dictionary. *)
Context {B Y Act Obs K : Type}.
(** [self.problem.b - self.problem.A @ belief.x.mean] (_state.py 47-49, 127-131). *)
Variable resid : B -> Y.

(** [LinearSolverState] (_state.py 38-56). *)
Record lstate := mk_lstate {
  ls_prior : B; ls_belief : B;
  ls_actions : list (option Act); ls_obs : list (option Obs);
  ls_resids : list (option Y); ls_cache : K; ls_step : nat }.

Definition init_state (k0 : K) (prior : B) : lstate :=
  mk_lstate prior prior [None] [None] [Some (resid prior)] k0 0.

Definition set_nth {T} (i : nat) (x : T) (l : list T) : list T :=
  firstn i l ++ match skipn i l with [] => [] | _ :: r => x :: r end.

(** The [residual] property (123-132): lazily fills the cache entry of the
    current step. *)
Definition read_residual (s : lstate) : Y * lstate :=
  match nth_error (ls_resids s) (ls_step s) with
  | Some (Some r) => (r, s)
  | _ => let r := resid (ls_belief s) in
         (r, mk_lstate (ls_prior s) (ls_belief s) (ls_actions s) (ls_obs s)
               (set_nth (ls_step s) (Some r) (ls_resids s)) (ls_cache s) (ls_step s))
  end.

(** What components can look at besides [residual] (all other properties). *)
Record view := mk_view {
  v_prior : B; v_belief : B; v_actions : list (option Act); v_obs : list (option Obs);
  v_resids : list (option Y); v_cache : K; v_step : nat }.
Definition view_of (s : lstate) : view :=
  mk_view (ls_prior s) (ls_belief s) (ls_actions s) (ls_obs s) (ls_resids s)
          (ls_cache s) (ls_step s).

(** Components (policy, information operator, belief update, stopping
    criterion, and the consumer between two yields) are arbitrary programs that
    read the state and write [cache]. *)
Inductive prog (T : Type) :=
| Ret (t : T)
| ReadResidual (k : Y -> prog T)
| Look (k : view -> prog T)
| SetCache (c : K) (k : prog T).
Arguments Ret {T}. Arguments ReadResidual {T}. Arguments Look {T}. Arguments SetCache {T}.

Fixpoint run {T} (p : prog T) (s : lstate) : T * lstate :=
  match p with
  | Ret t => (t, s)
  | ReadResidual k => let (r, s') := read_residual s in run (k r) s'
  | Look k => run (k (view_of s)) s
  | SetCache c k =>
      run k (mk_lstate (ls_prior s) (ls_belief s) (ls_actions s) (ls_obs s)
                       (ls_resids s) c (ls_step s))
  end.

(** Setters (82-86, 97-99, 110-112); the assertions are [None]. *)
Definition set_belief (b : B) (s : lstate) : lstate :=
  mk_lstate (ls_prior s) b (ls_actions s) (ls_obs s) (ls_resids s) (ls_cache s) (ls_step s).
Definition set_action (a : Act) (s : lstate) : option lstate :=
  match nth_error (ls_actions s) (ls_step s) with
  | Some None => Some (mk_lstate (ls_prior s) (ls_belief s)
                         (set_nth (ls_step s) (Some a) (ls_actions s))
                         (ls_obs s) (ls_resids s) (ls_cache s) (ls_step s))
  | _ => None
  end.
Definition set_obs (o : Obs) (s : lstate) : option lstate :=
  match nth_error (ls_obs s) (ls_step s) with
  | Some None => Some (mk_lstate (ls_prior s) (ls_belief s) (ls_actions s)
                         (set_nth (ls_step s) (Some o) (ls_obs s))
                         (ls_resids s) (ls_cache s) (ls_step s))
  | _ => None
  end.

(** [next_step] (139-148). *)
Definition next_step (s : lstate) : lstate :=
  mk_lstate (ls_prior s) (ls_belief s) (ls_actions s ++ [None]) (ls_obs s ++ [None])
            (ls_resids s ++ [None]) (ls_cache s) (S (ls_step s)).

(** A solver: its four components (_probabilistic_linear_solver.py 123-134).
    Random draws of the policy are part of the (arbitrary) program. *)
Record pls := mk_pls {
  p_stop : prog bool; p_policy : nat -> prog Act; p_info : prog Obs; p_update : prog B }.

Inductive ending := Stopped | AssertionError | NoFuel.

(** [solve_iterator] (136-186): the list of yielded states (a snapshot when
    yielded), the way the generator ended and the final state object.
    [consumer] is what the caller does with the state after each yield. *)
Fixpoint iterate (fuel : nat) (sv : pls) (consumer : nat -> prog unit) (s : lstate)
  : list lstate * ending * lstate :=
  match fuel with
  | O => ([], NoFuel, s)
  | S fuel' =>
      let (_, s0) := run (consumer (ls_step s)) s in
      let (stop, s1) := run (p_stop sv) s0 in
      if stop then ([s], Stopped, s1)
      else
        let (a, s2) := run (p_policy sv (ls_step s)) s1 in
        match set_action a s2 with
        | None => ([s], AssertionError, s2)
        | Some s3 =>
            let (o, s4) := run (p_info sv) s3 in
            match set_obs o s4 with
            | None => ([s], AssertionError, s4)
            | Some s5 =>
                let (b, s6) := run (p_update sv) s5 in
                let '(l, e, z) := iterate fuel' sv consumer (next_step (set_belief b s6)) in
                (s :: l, e, z)
            end
        end
  end.

(** [solve] (188-222): final belief and state; [None] if it does not end. *)
Definition solve (fuel : nat) (sv : pls) (k0 : K) (prior : B) : option (B * lstate) :=
  match iterate fuel sv (fun _ => Ret tt) (init_state k0 prior) with
  | (_, Stopped, z) => Some (ls_belief z, z)
  | _ => None
  end.

(** [MaxIterationsStoppingCriterion] (_maxiter.py 22-38); [n = A.shape[0]]. *)
Definition max_iterations (n : nat) (maxiter : option nat) : prog bool :=
  Look (fun v => Ret (Nat.leb (match maxiter with None => n * 10 | Some m => m end) (v_step v))).

(** [|] of two criteria (short-circuit). *)
Fixpoint bind {T U} (p : prog T) (f : T -> prog U) : prog U :=
  match p with
  | Ret t => f t
  | ReadResidual k => ReadResidual (fun r => bind (k r) f)
  | Look k => Look (fun v => bind (k v) f)
  | SetCache c k => SetCache c (bind k f)
  end.
Definition stop_or (p q : prog bool) : prog bool :=
  bind p (fun b => if b then Ret true else q).
End PLS.
Arguments lstate B Y Act Obs K : clear implicits.
Arguments view B Y Act Obs K : clear implicits.
Arguments prog B Y Act Obs K T : clear implicits.
Arguments pls B Y Act Obs K : clear implicits.
Arguments Ret {B Y Act Obs K T}.
Arguments ReadResidual {B Y Act Obs K T}.
Arguments Look {B Y Act Obs K T}.
Arguments SetCache {B Y Act Obs K T}.
