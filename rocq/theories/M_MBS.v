(** Model of the matrix-based solver behind [problinsolve]: linalg/solvers/matrixbased.py,
    [SymmetricMatrixBasedSolver], for one right-hand side and without calibration. Numbers are
    exact; a vector or matrix that contains non-finite numbers is [None] (a division by zero
    makes every number that depends on it non-finite). Operators are matrices. *)
From mathcomp Require Import all_ssreflect all_algebra.
Set Implicit Arguments.
Unset Strict Implicit.
Unset Printing Implicit Defensive.
Import Order.Theory GRing.Theory Num.Theory.
Local Open Scope ring_scope.

Section MBS.
Variables (R : rcfType) (n : nat).
Local Notation vec := 'cV[R]_n.
Local Notation mat := 'M[R]_n.
Definition dotp (u v : vec) : R := (u^T *m v) 0 0.
Definition norm (v : vec) : R := Num.sqrt (dotp v v).

(** ** Priors (60-122, 233-326) *)
(** [_construct_symmetric_matrix_prior_means] (84-122): the means for the matrix and the
    inverse. [None]: non-finite numbers. *)
Definition prior_means (A : mat) (x0 b : vec) : option (mat * mat) :=
  let bx0 := dotp b x0 in
  let bb := dotp b b in
  let: (x0, bx0) :=
    if bx0 < 0 then (- x0, - bx0)
    else if bx0 == 0 then
      if b == 0 then (b, bx0)
      else let bAb := dotp b (A *m b) in ((bb / bAb) *: b, bb ^+ 2 / bAb)
    else (x0, bx0) in
  let alpha := 2%:R^-1 * bx0 / bb in
  let w := x0 - alpha *: b in
  let aw := alpha * dotp w x0 in
  if [|| bb == 0, bx0 == 0, alpha == 0 | aw == 0] then None
  else Some ((1 / alpha)%:M - (1 / aw) *: (w *m w^T), alpha%:M + (2%:R / bx0) *: (w *m w^T)).

(** A belief about a matrix: mean, covariance factor, accumulated update of the factor. *)
Record bel := Bel { mean : mat; cov : mat; term : mat }.
(** Attributes of the solver (249-268); [a_S], [a_Y]: [search_dir_list], [obs_list]. *)
Record attrs := Attrs { a_x : option vec; a_A : option bel; a_H : option bel;
  a_S : seq (option vec); a_Y : seq (option vec) }.
(** [__init__]: matrix, right-hand side and prior factors; [x_mean] is the guess or the prior
    mean (257-262). *)
Record solver := Solver { A : mat; b : vec; V0 : mat; W0 : mat }.
Definition init (M0 V0 H0 W0 : mat) (b : vec) (x0 : option vec) : attrs :=
  Attrs (Some (if x0 is Some x then x else H0 *m b)) (Some (Bel M0 V0 0)) (Some (Bel H0 W0 0)) [::] [::].
(** Default priors (310-316) and priors from a guess (317-326). *)
Definition default_prior (A : mat) (b : vec) : solver * attrs :=
  (Solver A b A 1%:M, init 1%:M A 1%:M 1%:M b None).
Definition guess_prior (A : mat) (b x0 : vec) : option (solver * attrs) :=
  omap (fun p => (Solver A b A p.2, init p.1 A p.2 p.2 b (Some x0))) (prior_means A x0 b).

Section Solve.
Variable sv : solver.
Local Notation A := (A sv).
Local Notation b := (b sv).

(** Update of one belief with an action and an observation (884-926, 751-776). *)
Definition bupd (iter : nat) (cov0 : mat) (p : bel) (s y : vec) : option bel :=
  let Vs := cov p *m s in
  let delta := y - mean p *m s in
  let g := dotp s Vs in
  if g == 0 then None else
  let u := g^-1 *: Vs in
  let v := delta - (2%:R^-1 * dotp s delta) *: u in
  let upd := Vs *m u^T in
  let t := if iter == 0%N then upd else term p + upd in
  Some (Bel (mean p + (u *m v^T + v *m u^T)) (cov0 - t) t).
Definition obnd T U (f : T -> option U) (x : option T) : option U := if x is Some a then f a else None.
Definition obnd2 T T' U (f : T -> T' -> option U) (x : option T) (y : option T') : option U :=
  obnd (fun a => obnd (f a) y) x.

(** The loop's variables: attributes, [resid] and [_trace_Ainv_covfactor_update]. *)
Record lvars := Lv { l_at : attrs; l_r : option vec; l_tr : option R }.
(** One iteration (867-959). *)
Definition iterate (iter : nat) (l : lvars) : lvars :=
  let t := l_at l in
  let s := obnd2 (fun h r => Some (- (mean h *m r))) (a_H t) (l_r l) in
  let y := omap (fun s => A *m s) s in
  let alpha := obnd2 (fun s r => let sy := dotp s (A *m s) in
                        if sy == 0 then None else Some (- (dotp s r / sy))) s (l_r l) in
  let x := obnd2 (fun x a => obnd (fun s => Some (x + a *: s)) s) (a_x t) alpha in
  let r := obnd2 (fun r a => obnd (fun y => Some (r + a *: y)) y) (l_r l) alpha in
  let bA := obnd (fun p => obnd2 (fun s y => bupd iter (V0 sv) p s y) s y) (a_A t) in
  let bH := obnd (fun p => obnd2 (fun s y => bupd iter (W0 sv) p y s) s y) (a_H t) in
  let tr := obnd (fun p => obnd2 (fun y c =>
              let Wy := cov p *m y in let g := dotp y Wy in
              if g == 0 then None else Some (c + 1 / g * dotp Wy Wy)) y (l_tr l)) (a_H t) in
  Lv (Attrs x bA bH (rcons (a_S t) s) (rcons (a_Y t) y)) r tr.

(** [_get_output_randvars] (655-749) with [iter_] as it is when it is called: beliefs about the
    solution, the matrix and the inverse as means and covariance (factors), and
    [trace_sol_cov]. *)
Record output := Out { o_x : option vec; o_xcov : option mat; o_A : option mat; o_V : option mat;
  o_H : option mat; o_W : option mat; o_tr : option R }.
Definition get_output (iter : nat) (l : lvars) : output :=
  let t := l_at l in
  let V := if (0 < iter)%N then omap cov (a_A t) else Some (V0 sv) in
  let W := if (0 < iter)%N then omap cov (a_H t) else Some (W0 sv) in
  let trW := omap (fun c => \tr (W0 sv) - c) (l_tr l) in
  Out (a_x t)
      (omap (fun W => let Wb := W *m b in 2%:R^-1 *: (dotp Wb b *: W + Wb *m Wb^T)) W)
      (omap mean (a_A t)) V (omap mean (a_H t)) W
      (obnd2 (fun W tW => let Wb := W *m b in
         Some (2%:R^-1 * (dotp Wb b * tW + norm Wb ^+ 2))) W trW).

Inductive crit := Maxiter | ResidAtol | ResidRtol | TraceAtol | TraceRtol.
(** [has_converged] (475-523) below the maximal number of iterations; comparisons with
    non-finite numbers are false, so is the square root of a negative number. *)
Definition below (v : option R) (tol : R) : bool := if v is Some a then a <= tol else false.
Definition osqrt (v : option R) : option R :=
  obnd (fun a => if 0 <= a then Some (Num.sqrt a) else None) v.
Definition converged (r : option vec) (tr : option R) (atol rtol : R) : option crit :=
  if below (omap norm r) atol then Some ResidAtol
  else if below (omap norm r) (rtol * norm b) then Some ResidRtol
  else if below (osqrt tr) atol then Some TraceAtol
  else if below (osqrt tr) (rtol * norm b) then Some TraceRtol
  else None.

(** The loop (858-959); [left]: [maxiter - iter_]. *)
Fixpoint loop (left iter : nat) (l : lvars) (o : output) (atol rtol : R) : crit * nat * lvars * output :=
  if left is left'.+1 then
    if converged (l_r l) (o_tr o) atol rtol is Some c then (c, iter, l, o)
    else let l' := iterate iter l in loop left' iter.+1 l' (get_output iter l') atol rtol
  else (Maxiter, iter, l, o).

(** [solve] (777-971): the results, [info] and the attributes afterwards. *)
Record result := Result { res_o : output; res_iter : nat; res_norm : option R; res_crit : crit;
  res_at : attrs }.
Definition start (t : attrs) : lvars := Lv t (omap (fun x => A *m x - b) (a_x t)) (Some 0).
Definition solve (t : attrs) (maxiter : nat) (atol rtol : R) : result :=
  let l := start t in
  let: (c, i, l, o) := loop maxiter 0 l (get_output 0 l) atol rtol in
  Result o i (omap norm (l_r l)) c (l_at l).
End Solve.
End MBS.
