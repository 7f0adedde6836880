(** C36, C37: the matrix-based solver behind [problinsolve] (M_MBS.v). *)
From mathcomp Require Import all_ssreflect all_algebra.
From Verif Require Import L_Zmod L_Ring L_Num2 L_Kalman M_LinSolve L_LinSolve L_CG M_MatUpd L_MatUpd M_MBS L_MBS.
Set Implicit Arguments.
Unset Strict Implicit.
Unset Printing Implicit Defensive.
Import Order.Theory GRing.Theory Num.Theory.
Local Open Scope ring_scope.

Section Results.
Variables (R : rcfType) (n : nat).
Implicit Types (sv : solver R n) (t : attrs R n) (x : 'cV[R]_n).

(** The result of [solve] is the state after [res_iter] iterations. *)
Lemma solve_after sv t mx atol rtol : let r := solve sv t mx atol rtol in
  let l := after sv t (res_iter r) in
  [/\ res_o r = get_output sv (res_iter r).-1 l, res_norm r = omap (@norm R n) (l_r l), res_at r = l_at l,
      (res_iter r <= mx)%N
    & if res_crit r is Maxiter then res_iter r = mx
      else (res_iter r < mx)%N /\ converged sv (l_r l) (o_tr (res_o r)) atol rtol = Some (res_crit r)]
  /\ forall j, (j < res_iter r)%N ->
     converged sv (l_r (after sv t j)) (o_tr (get_output sv j.-1 (after sv t j))) atol rtol = None.
Proof.
rewrite /solve; case E : loop => [[[c i] l] o] /=.
have [[-> e2 e3 e4] e5] := @loop_after R n sv t mx 0 atol rtol c i l o E.
split; last by move=> j lj; exact: e5.
split=> //; first by move: e3; rewrite addn0.
by move: e4; rewrite addn0 e2; case: c E => // E [h1]; split.
Qed.

(** C36: the reported residual norm is that of the returned solution. *)
Theorem C36_residual : forall sv t mx atol rtol, let r := solve sv t mx atol rtol in
  res_norm r = omap (fun x => norm (A sv *m x - b sv)) (o_x (res_o r)).
Proof.
move=> sv t mx atol rtol; cbv zeta; have [[-> -> _ _ _] _] := solve_after sv t mx atol rtol.
by rewrite after_resid /=; case: (a_x _).
Qed.

(** C36: the reported criterion holds; iterations never exceed [maxiter]. *)
Theorem C36_criterion : forall sv t mx atol rtol, let r := solve sv t mx atol rtol in
  let small tol := exists2 x, o_x (res_o r) = Some x & norm (A sv *m x - b sv) <= tol in
  let sure tol := exists2 v, o_tr (res_o r) = Some v & 0 <= v /\ Num.sqrt v <= tol in
  (res_iter r <= mx)%N /\
  match res_crit r with
  | Maxiter => res_iter r = mx
  | ResidAtol => (res_iter r < mx)%N /\ small atol
  | ResidRtol => (res_iter r < mx)%N /\ small (rtol * norm (b sv))
  | TraceAtol => (res_iter r < mx)%N /\ sure atol
  | TraceRtol => (res_iter r < mx)%N /\ sure (rtol * norm (b sv))
  end.
Proof.
move=> sv t mx atol rtol; cbv zeta; have [[e1 _ _ -> e2] _] := solve_after sv t mx atol rtol.
move: e1 e2; move: (solve _ _ _ _ _) => r e1 e2; split=> //.
have ox : o_x (res_o r) = a_x (l_at (after sv t (res_iter r))) by rewrite e1.
move: e2; rewrite after_resid -ox; move: (o_x _) (o_tr _) => x v; rewrite /converged.
have S tol : below (omap (@norm R n) (omap (fun x => A sv *m x - b sv) x)) tol ->
    exists2 x0, x = Some x0 & norm (A sv *m x0 - b sv) <= tol.
  by case: x => //= x0 h; exists x0.
have T tol : below (osqrt v) tol -> exists2 w, v = Some w & 0 <= w /\ Num.sqrt w <= tol.
  by case: v => //= w; case: ifP => //= w0 h; exists w.
have no c c' : Some c = Some c' :> option crit -> c' = c by case.
case: (res_crit r) => // -[lt]; case: ifP => [/S h|_]; rewrite ?lt //; try by move/no.
all: try by split.
all: case: ifP => [/S h|_]; rewrite ?lt //; try by move/no.
all: try by split.
all: case: ifP => [/T h|_]; rewrite ?lt //; try by move/no.
all: try by split.
all: case: ifP => [/T h|_] //; try by move/no.
all: by split.
Qed.

(** C36: the run is stopped at the first iteration at which a criterion holds: with a smaller
    [maxiter] it returns the earlier iterate, and there the residual exceeds the tolerances. *)
Theorem C36_first : forall sv t mx atol rtol m, (m < res_iter (solve sv t mx atol rtol))%N ->
  let r := solve sv t m atol rtol in
  [/\ res_iter r = m, res_crit r = Maxiter &
      forall x, o_x (res_o r) = Some x -> atol < norm (A sv *m x - b sv) /\ rtol * norm (b sv) < norm (A sv *m x - b sv)].
Proof.
move=> sv t mx atol rtol m lm; cbv zeta.
have [_ early] := solve_after sv t mx atol rtol.
have [[e1 _ _ le e2] _] := solve_after sv t m atol rtol.
move: (solve sv t m _ _) e1 le e2 => r e1 le e2.
have im : res_iter r = m.
  apply/eqP; rewrite eqn_leq le leqNgt; apply/negP => lt; move: e2.
  case: (res_crit r) => [e|[_]|[_]|[_]|[_]]; try by rewrite e1 early // (leq_trans lt (ltnW lm)).
  by move: lt; rewrite e ltnn.
split=> //; first by move: e2; rewrite im; case: (res_crit r) => // -[]; rewrite ltnn.
move=> x ox; have := early m lm; rewrite -im after_resid.
have -> : a_x (l_at (after sv t (res_iter r))) = Some x by rewrite -ox e1.
rewrite /converged /=; case: ifP => // /negbT; rewrite -ltNge => -> /=.
by case: ifP => // /negbT; rewrite -ltNge => ->.
Qed.

Section Fresh.
Variables (sv : solver R n) (M0 H0 : 'M[R]_n) (x0 : option 'cV[R]_n).
Local Notation A := (M_MBS.A sv).
Local Notation b := (M_MBS.b sv).
Local Notation t0 := (init M0 (V0 sv) H0 (W0 sv) b x0).
Hypothesis sA : A^T = A.
Hypotheses (sM : M0^T = M0) (sV : (V0 sv)^T = V0 sv) (sH : H0^T = H0) (sW : (W0 sv)^T = W0 sv).
Variables (mx : nat) (atol rtol : R).
Local Notation r := (solve sv t0 mx atol rtol).

Theorem C36_secant : forall x, o_x (res_o r) = Some x -> exists2 S : seq 'cV[R]_n,
  [/\ size S = res_iter r, a_S (res_at r) = map Some S & a_Y (res_at r) = map (fun s => Some (A *m s)) S] &
  [/\ forall s, s \in S -> (s^T *m A *m s) 0 0 != 0 /\ (s^T *m (A *m x - b)) 0 0 = 0,
      forall i j, (i < j < size S)%N -> ((nth 0 S i)^T *m A *m nth 0 S j) 0 0 = 0,
      forall M, o_A (res_o r) = Some M -> M^T = M /\ forall s, s \in S -> M *m s = A *m s &
      forall H, o_H (res_o r) = Some H -> H^T = H /\ forall s, s \in S -> H *m (A *m s) = s] /\
  (forall p, a_A (res_at r) = Some p -> forall s, s \in S -> cov p *m s = 0) /\
  (forall p, a_H (res_at r) = Some p -> forall s, s \in S -> cov p *m (A *m s) = 0).
Proof.
move=> x; have [[-> _ -> _ _] _] := solve_after sv t0 mx atol rtol; move: (res_iter _) => k /= ex.
have [S [sz er]] := @after_good R n sv M0 H0 x0 sA sM sV sH sW k x ex.
cbv zeta => -[eS eY [cj nz] rs [vA vH]]; exists S; first by split.
have n0 s : s \in S -> exists2 j, (j < k)%N & s = nth 0 S j.
  by move=> sS; exists (index s S); rewrite ?nth_index // -sz index_mem.
have dtA u v : dt u (A *m v) = (u^T *m A *m v) 0 0 by rewrite /dt /num mulmxA.
split; [split|split].
- by move=> s /n0 [j lj ->]; split; [rewrite -dtA nz|have := rs j lj; rewrite dtC].
- by move=> i j lij; rewrite -dtA cj // -sz.
- case E : (a_A _) => [p|] // M [<-]; have [_ [_ [h1 h2 h3]]] := vA p E.
  by split=> // s /n0 [j lj ->]; have [] := h3 j lj.
- case E : (a_H _) => [p|] // H [<-]; have [_ [_ [h1 h2 h3]]] := vH p E.
  by split=> // s /n0 [j lj ->]; have [] := h3 j lj.
- by move=> p /vA [_ [_ [h1 h2 h3]]] s /n0 [j lj ->]; have [] := h3 j lj.
- by move=> p /vH [_ [_ [h1 h2 h3]]] s /n0 [j lj ->]; have [] := h3 j lj.
Qed.

(** C36: finite numbers for at most [n] iterations; after [n] iterations everything is exact. *)
Theorem C36_exact : forall x, o_x (res_o r) = Some x -> (res_iter r <= n)%N /\
  (res_iter r = n ->
   [/\ A \in unitmx, A *m x = b, forall M, o_A (res_o r) = Some M -> M = A,
       forall H, o_H (res_o r) = Some H -> H = invmx A &
       (forall p, a_A (res_at r) = Some p -> cov p = 0) /\ (forall p, a_H (res_at r) = Some p -> cov p = 0)]).
Proof.
move=> x; have [[-> _ -> _ _] _] := solve_after sv t0 mx atol rtol; move: (res_iter _) => k /= ex.
have [S [sz er]] := @after_good R n sv M0 H0 x0 sA sM sV sH sW k x ex.
cbv zeta => -[eS eY [cj nz] rs [vA vH]]; split; first exact: conj_bound sA _ cj nz.
move=> ek; rewrite {}ek in cj nz rs vA vH *.
have [Fu Au] := conj_basis sA cj nz.
have eqm := cols_eq Fu; have eqA (P Q : 'M[R]_n) : (forall j, (j < n)%N -> P *m (A *m nth 0 S j) = Q *m (A *m nth 0 S j)) -> P = Q.
  move=> h; suff E : P *m A = Q *m A by rewrite -[P](mulmxK Au) E mulmxK.
  by apply: eqm => j lj; rewrite -!mulmxA h.
split=> //.
- apply/eqP; rewrite -subr_eq0; apply/eqP; move: (A *m x - b) rs => v rs.
  have : (cols (nth 0 S) n)^T *m v = 0.
    apply/matrixP => i z; rewrite ord1 [RHS]mxE -(rs i (ltn_ord i)) dtC /dt /num !mxE.
    by apply: eq_bigr => j _; rewrite !mxE.
  by move=> E; rewrite -[v](mulKmx (_ : (cols (nth 0 S) n)^T \in unitmx)) ?unitmx_tr // E mulmx0.
- case E : (a_A _) => [p|] // M [<-]; have [_ [_ [h1 h2 h3]]] := vA p E.
  by apply: eqm => j /h3 [].
- case E : (a_H _) => [p|] // H [<-]; have [_ [_ [h1 h2 h3]]] := vH p E.
  by apply: eqA => j /h3 [_ ->]; rewrite mulKmx.
split=> p e.
- by have [_ [_ [h1 h2 h3]]] := vA p e; apply: eqm => j /h3 [-> _]; rewrite mul0mx.
- by have [_ [_ [h1 h2 h3]]] := vH p e; apply: eqA => j /h3 [-> _]; rewrite mul0mx.
Qed.
End Fresh.

(** The covariance factors stay positive semidefinite. *)
Theorem C36_factors : forall sv M0 H0 (x0 : option 'cV[R]_n) mx atol rtol,
  let r := solve sv (init M0 (V0 sv) H0 (W0 sv) (b sv) x0) mx atol rtol in
  psd (V0 sv) -> psd (W0 sv) ->
  (forall V, o_V (res_o r) = Some V -> psd V) /\ (forall W, o_W (res_o r) = Some W -> psd W).
Proof.
move=> sv M0 H0 x0 mx atol rtol; cbv zeta => pV pW.
have [[-> _ _ _ _] _] := solve_after sv (init M0 (V0 sv) H0 (W0 sv) (b sv) x0) mx atol rtol.
move: (res_iter _) => k /=; have [h1 h2] := after_psd M0 H0 x0 k pV pW; case: ifP => _.
  split=> X; first by case E : (a_A _) => [p|] // [<-]; exact: h1.
  by case E : (a_H _) => [p|] // [<-]; exact: h2.
by split=> X [<-].
Qed.

(** C36: unless exactly one iteration was made, the returned covariance factors are those of the
    beliefs whose means are returned, and [trace_sol_cov] is the trace of the returned covariance
    of the solution. *)
Theorem C36_returned : forall sv M0 H0 (x0 : option 'cV[R]_n) mx atol rtol,
  let r := solve sv (init M0 (V0 sv) H0 (W0 sv) (b sv) x0) mx atol rtol in
  res_iter r != 1%N ->
  [/\ o_A (res_o r) = omap (@mean R n) (a_A (res_at r)), o_V (res_o r) = omap (@cov R n) (a_A (res_at r)),
      o_H (res_o r) = omap (@mean R n) (a_H (res_at r)), o_W (res_o r) = omap (@cov R n) (a_H (res_at r))
    & o_tr (res_o r) = omap mxtrace (o_xcov (res_o r))].
Proof.
move=> sv M0 H0 x0 mx atol rtol; cbv zeta.
set t0 := init _ _ _ _ _ _; have [[-> _ -> _ _] _] := solve_after sv t0 mx atol rtol.
move: (res_iter _) => k k1.
have [eV eW] : (if (0 < k.-1)%N then omap (@cov R n) (a_A (l_at (after sv t0 k))) else Some (V0 sv)) =
    omap (@cov R n) (a_A (l_at (after sv t0 k))) /\
    (if (0 < k.-1)%N then omap (@cov R n) (a_H (l_at (after sv t0 k))) else Some (W0 sv)) =
    omap (@cov R n) (a_H (l_at (after sv t0 k))) by case: k k1 => [|[]].
rewrite /get_output eV eW /=; split=> //.
case E : (a_H _) => [p|] //=; have [c ec] := after_trace_some E.
rewrite ec /= (after_trace E ec); congr Some.
have tD (X Y : 'M[R]_n) : \tr (X + Y) = \tr X + \tr Y by rewrite linearD.
have tZ s (X : 'M[R]_n) : \tr (s *: X) = s * \tr X by rewrite linearZ.
rewrite tZ tD tZ; congr (_ * (_ + _)).
rewrite mxtrace_mulC; move: (_ *m b sv) => v; have -> : v^T *m v = (dt v v)%:M by rewrite [LHS]mx11_scalar.
rewrite mxtrace_scalar mulr1n /norm sqr_sqrtr // dotpE dt_ge0 //.
Qed.
End Results.
Print Assumptions C36_residual.
Print Assumptions C36_criterion.
Print Assumptions C36_first.
Print Assumptions C36_secant.
Print Assumptions C36_exact.
Print Assumptions C36_factors.
Print Assumptions C36_returned.

(** ** Priors from a guess *)
Section Guess.
Variables (R : rcfType) (n : nat).
Implicit Types (A M H : 'M[R]_n) (b x : 'cV[R]_n).
Let two : (2%:R : R) != 0. Proof. by rewrite pnatr_eq0. Qed.

(** The means built from a vector [x] with [b.x = c > 0]. *)
Lemma rank_one_prior b x (c : R) : c = dt b x -> 0 < c ->
  let alpha := 2%:R^-1 * c / dt b b in let w := x - alpha *: b in let aw := alpha * dt w x in
  let M := (1 / alpha)%:M - (1 / aw) *: (w *m w^T) in let H := alpha%:M + (2%:R / c) *: (w *m w^T) in
  [/\ dt b b != 0, alpha != 0 & aw != 0] /\ [/\ H *m b = x, pd H & M *m H = 1%:M].
Proof.
move=> ec c0; cbv zeta; have b0 : b != 0.
  by apply/eqP => b0; move: c0; rewrite ec b0 dtC dt0r ltxx.
have bb : 0 < dt b b by rewrite dt_gt0.
set al := _ * _ / _; have al0 : 0 < al by rewrite /al divr_gt0 // mulr_gt0 // invr_gt0 ltr0n.
have hal : al * dt b b = 2%:R^-1 * c by rewrite /al divfK // lt0r_neq0.
set w := x - _; have wb : dt w b = 2%:R^-1 * c.
  rewrite /w dtC dtBr dtZr hal -ec; mfield.
have xw : x = w + al *: b by rewrite /w subrK.
have wx : dt w x = dt w w + al * (2%:R^-1 * c) by rewrite [in LHS]xw dtDr dtZr wb.
have wx0 : 0 < dt w x by rewrite wx ltr_spaddr ?dt_ge0 // mulr_gt0 // mulr_gt0 // invr_gt0 ltr0n.
have c00 := lt0r_neq0 c0; have al00 := lt0r_neq0 al0; have wx00 := lt0r_neq0 wx0.
split; first by split; [exact: lt0r_neq0|exact: al00|exact: mulf_neq0].
clearbody w.
clearbody al; clear hal; split.
- rewrite mulmxDl mul_scalar_mx -scalemxAl outerE wb scalerA.
  have -> : 2%:R / c * (2%:R^-1 * c) = 1 by mfield.
  by rewrite scale1r addrC -xw.
- split.
    apply/matrixP => i j; rewrite !mxE eq_sym; congr (_ + _ * _).
    by apply: eq_bigr => l _; rewrite !mxE mulrC.
  move=> y y0; rewrite /qform mulmxDr mulmxDl mul_mx_scalar -scalemxAl -!scalemxAr -scalemxAl.
  rewrite mxE [X in X + _]mxE [X in _ + X]mxE.
  have -> : (y^T *m (w *m w^T) *m y) 0 0 = dt w y ^+ 2.
    rewrite mulmxA -mulmxA mxE big_ord1 expr2; congr (_ * _).
    by rewrite -[LHS]/(dt y w) dtC.
  rewrite ltr_spaddl // ?mulr_gt0 ?dt_gt0 // mulr_ge0 ?sqr_ge0 // divr_ge0 ?ler0n // ltW //.
rewrite mulmxDr !mulmxBl !mul_mx_scalar -!scalemxAl -!scalemxAr -?scalemxAl.
rewrite !mul_scalar_mx.
have -> : w *m w^T *m (w *m w^T) = dt w w *: (w *m w^T) by rewrite mulmxA outerE -scalemxAl.
rewrite !scalerA scale_scalar_mx; move: (w *m w^T) => P.
have -> : al * (1 / al) = 1 by mfield.
rewrite -!addrA -[RHS]addr0; congr (_ + _).
rewrite -[RHS](scale0r P) -!scaleNr -!scalerDl; congr (_ *: _).
move: wx wx00 => {wx0 xw wb}; move: (dt w x) (dt w w) => p z wx p0.
have -> : z = p - al * (2%:R^-1 * c) by rewrite wx addrK.
by mfield.
Qed.

Lemma prior_meansE A b x : prior_means A x b =
  let bx := dt b x in let bb := dt b b in let bAb := dt b (A *m b) in
  let: (x, bx) := if bx < 0 then (- x, - bx) else if bx == 0 then if b == 0 then (b, bx) else
    ((bb / bAb) *: b, bb ^+ 2 / bAb) else (x, bx) in
  let alpha := 2%:R^-1 * bx / bb in let w := x - alpha *: b in let aw := alpha * dt w x in
  if [|| bb == 0, bx == 0, alpha == 0 | aw == 0] then None else
  Some ((1 / alpha)%:M - (1 / aw) *: (w *m w^T), alpha%:M + (2%:R / bx) *: (w *m w^T)).
Proof. by []. Qed.

(** C37: the prior from a guess with [b.x0 > 0]. *)
Theorem C37_guess : forall A b x0, 0 < dt b x0 -> exists M H, prior_means A x0 b = Some (M, H) /\
  [/\ H *m b = x0, pd H & M *m H = 1%:M].
Proof.
move=> A b x0 p; rewrite prior_meansE; cbv zeta; rewrite lt_gtF // (negbTE (lt0r_neq0 p)).
have [[h1 h2 h3] h4] := rank_one_prior erefl p.
by do 2 eexists; split; [rewrite (negbTE h1) (negbTE h2) (negbTE h3) (negbTE (lt0r_neq0 p))|exact: h4].
Qed.

(** C37, the other guesses: a negative [b.x0] mirrors the guess; [b.x0 = 0] replaces it (for
    positive [b.Ab]); the zero right-hand side gives non-finite numbers. *)
Theorem C37_otherwise : forall A b x0,
  [/\ dt b x0 < 0 -> exists M H, prior_means A x0 b = Some (M, H) /\ [/\ H *m b = - x0, pd H & M *m H = 1%:M],
      dt b x0 = 0 -> 0 < dt b (A *m b) -> exists M H, prior_means A x0 b = Some (M, H) /\
        [/\ H *m b = (dt b b / dt b (A *m b)) *: b, pd H & M *m H = 1%:M]
    & b = 0 -> prior_means A x0 b = None].
Proof.
move=> A b x0; rewrite prior_meansE; cbv zeta; split.
- move=> p; rewrite p; have p' : 0 < - dt b x0 by rewrite oppr_gt0.
  have e : - dt b x0 = dt b (- x0) by rewrite -scaleN1r dtZr mulN1r.
  have [[h1 h2 h3] h4] := rank_one_prior e p'.
  by do 2 eexists; split; [rewrite (negbTE h1) (negbTE h2) (negbTE h3) (negbTE (lt0r_neq0 p'))|exact: h4].
- move=> -> bAb; rewrite ltxx eqxx.
  have b0 : b != 0 by apply/eqP => b0; move: bAb; rewrite b0 mulmx0 dt0r ltxx.
  have p' : 0 < dt b b ^+ 2 / dt b (A *m b) by rewrite divr_gt0 // exprn_gt0 // dt_gt0.
  have e : dt b b ^+ 2 / dt b (A *m b) = dt b ((dt b b / dt b (A *m b)) *: b) by rewrite dtZr expr2 mulrAC.
  have [[h1 h2 h3] h4] := rank_one_prior e p'; rewrite (negbTE b0).
  by do 2 eexists; split; [rewrite (negbTE h1) (negbTE h2) (negbTE h3) (negbTE (lt0r_neq0 p'))|exact: h4].
move=> ->; have z (y : 'cV[R]_n) : dt 0 y = 0 by rewrite dtC dt0r.
by rewrite !z ltxx; case: (_ == _) => /=; rewrite ?eqxx /=.
Qed.

(** The guess itself stays the initial solution. *)
Lemma guess_start A b x0 sv t : guess_prior A b x0 = Some (sv, t) ->
  exists M H, prior_means A x0 b = Some (M, H) /\ [/\ sv = Solver A b A H, t = init M A H H b (Some x0)
    & a_x t = Some x0].
Proof. by rewrite /guess_prior; case: prior_means => //= -[M H] [<- <-]; exists M, H. Qed.
End Guess.
Print Assumptions C37_guess.
Print Assumptions C37_otherwise.
