(** Model of the Bayesian quadrature loop: quad/solvers/_bayesian_quadrature.py
    ([integrate], [bq_iterator]), quad/solvers/_bq_state.py,
    quad/solvers/stopping_criteria/. *)
From Coq Require Import List Bool Arith QArith Qabs.
Import ListNotations.

Section BQLoop.
(** [X]: nodes; [V]: function values; [Bel]: integral beliefs. *)
Context {X V Bel : Type}.
(** The belief after conditioning on nodes and evaluations
    (belief_updates/_standard_update.py 36-105; the numbers are modelled in
    M_BQ.v). [prior_belief]: _bayesian_quadrature.py 508-514. *)
Variable posterior : list X -> list V -> Bel.
Variable prior_belief : Bel.

(** [BQState] (_bq_state.py 14-88), without kernel quantities. *)
Record bqstate := mk_bq {
  bq_nodes : list X; bq_evals : list V; bq_belief : Bel; bq_prev : list Bel }.

(** [BQIterInfo] (_bq_state.py 141-223). *)
Record info := mk_info { i_iter : nat; i_nevals : nat; i_conv : bool }.

(** [BQStandardBeliefUpdate.__call__] with [BQState.from_new_data]. *)
Definition update (s : bqstate) (xs : list X) (vs : list V) : bqstate :=
  let nodes := bq_nodes s ++ xs in
  let evals := bq_evals s ++ vs in
  mk_bq nodes evals (posterior nodes evals) (bq_prev s ++ [bq_belief s]).

(** Stopping criteria: a call receives state and info. *)
Definition crit := (bqstate * info -> bool).

(** A policy: the nodes proposed in a given state (random draws are part of
    the choice of the function), and [batch_size]. *)
Record policy := mk_policy { pol_batch : nat; pol_call : bqstate -> list X }.

(** [bq_iterator] (297-357): yielded (state, info) pairs; [None] for the
    ending means out of fuel. *)
Fixpoint bq_iterator (fuel : nat) (stop : crit) (p : policy) (f : X -> V)
         (s : bqstate) (i : info) : list (bqstate * info) * bool :=
  match fuel with
  | O => ([], false)
  | S fuel' =>
      let c := stop (s, i) in
      let i1 := mk_info (i_iter i) (i_nevals i) c in
      if c then ([(s, i1)], true)
      else
        let xs := pol_call p s in
        let s' := update s xs (map f xs) in
        let i' := mk_info (S (i_iter i1)) (i_nevals i1 + pol_batch p) (i_conv i1) in
        let (l, e) := bq_iterator fuel' stop p f s' i' in
        ((s, i1) :: l, e)
  end.

(** [integrate] (359-541) with a policy: optional user nodes with evaluations
    (already evaluated if not given, 438-440), optional initial design. *)
Definition integrate (fuel : nat) (stop : crit) (p : policy) (f : X -> V)
           (given : option (list X * list V)) (design : option (list X))
  : list (bqstate * info) * bool :=
  let data :=
    match given, design with
    | Some (xs, vs), Some ds => Some (xs ++ ds, vs ++ map f ds)
    | Some (xs, vs), None => Some (xs, vs)
    | None, Some ds => Some (ds, map f ds)
    | None, None => None
    end in
  let s0 := mk_bq [] [] prior_belief [] in
  let s := match data with Some (xs, vs) => update s0 xs vs | None => s0 end in
  bq_iterator fuel stop p f s (mk_info 0 (length (bq_evals s)) false).

(** [MaxNevals] (_max_nevals.py), [IntegralVarianceTolerance],
    [RelativeMeanChange], [ImmediateStop]; numbers are rationals. *)
Definition max_nevals (m : nat) : crit := fun si => Nat.leb m (i_nevals (snd si)).
Definition immediate_stop : crit := fun _ => true.
Variables (mean var : Bel -> Q).
Definition var_tolerance (tol : Q) : crit :=
  fun si => Qle_bool (var (bq_belief (fst si))) tol.
(** Division by a zero mean gives NaN or infinity, and the comparison is
    False. *)
Definition relative_mean_change (tol : Q) : crit :=
  fun si =>
    match rev (bq_prev (fst si)) with
    | [] => false
    | b :: _ =>
        let m := mean (bq_belief (fst si)) in
        if Qeq_bool m 0 then false
        else Qle_bool (Qabs.Qabs ((m - mean b) / m)) tol
    end.
(** [_stopcrit_or] and the selection of criteria (251-275). *)
Definition crit_or (c d : crit) : crit := fun si => (c si || d si)%bool.
Definition opt_or (c : option crit) (d : crit) : option crit :=
  match c with None => Some d | Some c => Some (crit_or c d) end.
Definition select_criterion (has_policy : bool) (input_dim : nat)
           (max_evals : option nat) (var_tol rel_tol : option Q) : crit :=
  let c := None in
  let c := match max_evals with Some m => opt_or c (max_nevals m) | None => c end in
  let c := match var_tol with Some v => opt_or c (var_tolerance v) | None => c end in
  let c := match rel_tol with Some r => opt_or c (relative_mean_change r) | None => c end in
  let c := match c with
           | Some c => c
           | None => crit_or (var_tolerance (1 # 1000000)) (max_nevals (input_dim * 25))
           end in
  if has_policy then c else immediate_stop.
End BQLoop.
Arguments bqstate X V Bel : clear implicits.
Arguments policy X V Bel : clear implicits.
