(** C12, C13, C86-C90: integrated Wiener process transitions. *)
From mathcomp Require Import all_ssreflect all_algebra.
From mathcomp Require Import realalg.
From Verif Require Import M_Gauss M_Sqrt M_IWP L_DMx L_Zmod L_Kalman L_Psd L_Sqrt L_Chol L_QR.
From Verif Require Import L_AField L_IWP L_IWP2 P_Sqrt L_IWP3.
Set Implicit Arguments.
Unset Strict Implicit.
Unset Printing Implicit Defensive.
Import Order.Theory GRing.Theory Num.Theory.
Local Open Scope ring_scope.

Definition chol_routine (R : rcfType) := forall n, 'M[R]_n -> option 'M[R]_n.

(** ** C12: semigroup *)
Theorem C12_semigroup :
  forall (R : rcfType) (ch : chol_routine R) nu d (h1 h2 : R),
  cholesky_fun ch -> 0 < h1 -> 0 < h2 ->
  exists T1 T2 T12,
    [/\ discretise nu d ch h1 = Some T1, discretise nu d ch h2 = Some T2
      & discretise nu d ch (h1 + h2) = Some T12]
    /\ [/\ s_tmat T12 = s_tmat T2 *m s_tmat T1,
           s_ncov T12 = s_tmat T2 *m s_ncov T1 *m (s_tmat T2)^T + s_ncov T2,
           s_shift T1 = 0 /\ s_shift T12 = 0
         & forall g rv, fwd_classic (clsT T12) g rv
             = fwd_classic (clsT T2) g (fwd_classic (clsT T1) g rv)].
Proof.
move=> R ch nu d h1 h2 chH p1 p2; have p3 := addr_gt0 p1 p2.
have [T1 [e1 a1 s1 n1 _]] := discretise_ok nu d chH (lt0r_neq0 p1).
have [T2 [e2 a2 s2 n2 _]] := discretise_ok nu d chH (lt0r_neq0 p2).
have [T3 [e3 a3 s3 n3 _]] := discretise_ok nu d chH (lt0r_neq0 p3).
have A : s_tmat T3 = s_tmat T2 *m s_tmat T1.
  by rewrite a1 a2 a3 ikron_mul taylor_mul !gtr0_norm // addrC.
have Q : s_ncov T3 = s_tmat T2 *m s_ncov T1 *m (s_tmat T2)^T + s_ncov T2.
  by rewrite n1 n2 n3 a2 ikron_tr !ikron_mul -ikronD !gtr0_norm // qmx_add.
exists T1, T2, T3; split=> //; split=> // g rv.
rewrite /fwd_classic /fwd_crosscov /clsT /= A Q s1 s2 s3; congr Normal.
  by rewrite !addr0 mulmxA.
rewrite scalerDr mulmxDl mulmxDr addrA trmx_mul !mulmxA.
by rewrite -scalemxAr -scalemxAl.
Qed.
Print Assumptions C12_semigroup.

(** ** C86: the discretisation solves the stochastic differential equation: the
    transition is the (finite) exponential series of the drift, the noise covariance is
    the integral of [exp(F s) L L' exp(F s)'] (a polynomial in the step), it is positive
    definite, and the stored factor is its Cholesky factor. *)
Theorem C86_solves_sde :
  forall (R : rcfType) (ch : chol_routine R) nu d, cholesky_fun ch ->
  mpow (drift R nu d) nu.+1 = 0 /\
  exists Qp : 'I_(d * nu.+1) -> 'I_(d * nu.+1) -> {poly R},
    (forall i j, (Qp i j).[0] = 0) /\
    forall h, 0 < h ->
    exists T, discretise nu d ch h = Some T /\
      let E := \sum_(k < nu.+1) (h ^+ k / (k`!)%:R) *: mpow (drift R nu d) k in
      [/\ s_tmat T = E, s_shift T = 0,
          (forall i j, s_ncov T i j = (Qp i j).[h]),
          (forall i j, ((Qp i j)^`()).[h]
             = (E *m (dispersion R nu d *m (dispersion R nu d)^T) *m E^T) i j)
        & pd (s_ncov T) /\ is_cholesky (s_nchol T) (s_ncov T)].
Proof.
move=> R ch nu d chH; have dE : drift R nu d = ikron d (shiftmx R nu) by [].
split; first by rewrite dE mpow_ikron shift_nil ikron0.
pose Qp (i j : 'I_(d * nu.+1)) : {poly R} := if (i %/ nu.+1 == j %/ nu.+1)%N
  then qpoly R (inord (i %% nu.+1) : 'I_nu.+1) (inord (j %% nu.+1)) else 0.
exists Qp; split.
  by move=> i j; rewrite /Qp; case: eqP => _; rewrite ?horner0 // hornerZ hornerXn expr0n mulr0.
move=> h h0; have [T [e a s n c]] := discretise_ok nu d chH (lt0r_neq0 h0).
have EE : \sum_(k < nu.+1) (h ^+ k / (k`!)%:R) *: mpow (drift R nu d) k = ikron d (taylor nu h).
  rewrite taylor_exp dE (eq_bigr (fun k : 'I_nu.+1 => ikron d ((h ^+ k / (k`!)%:R) *: mpow (shiftmx R nu) k))).
    by elim/big_rec2: _ => [|k x y _ ->]; rewrite ?ikron0 ?ikronD.
  by move=> k _; rewrite mpow_ikron ikronZ.
exists T; split=> //=; rewrite EE; split=> //.
- by rewrite a gtr0_norm.
- by move=> i j; rewrite n gtr0_norm // mxE /Qp; case: eqP; rewrite ?horner0 // mxE.
- move=> i j; rewrite /dispersion !ikron_tr !ikron_mul mxE /Qp; case: eqP => _; last by rewrite deriv0 horner0.
  rewrite qpoly_deriv hornerM; move: (inord _) (inord _) => k l.
  set b := \matrix_(_, _) _.
  rewrite (_ : taylor nu h *m (b *m b^T) *m (taylor nu h)^T
    = (taylor nu h *m b) *m (taylor nu h *m b)^T); last by rewrite trmx_mul !mulmxA.
  have bE m : (taylor nu h *m b) m 0 = (bpoly R m).[h].
    rewrite mxE (bigD1 ord_max) //= big1 ?addr0 => [|q qn]; last first.
      by rewrite !mxE (negPf qn : (q == nu :> nat) = false) mulr0.
    by rewrite !mxE eqxx mulr1 leq_ord hornerZ hornerXn mulrC.
  by rewrite -!bE; move: (taylor nu h *m b) => v; rewrite !mxE big_ord1 !mxE.
- by rewrite n; split; [apply: ikron_pd; apply: qmx_pd; rewrite gtr0_norm|rewrite -n].
Qed.
Print Assumptions C86_solves_sde.

(** ** C13: preconditioning *)
Theorem C13_forward :
  forall (R : rcfType) (ch : chol_routine R) (qr : qr_fun R) nu d f (h g : R) rv,
  cholesky_fun ch -> (forall p q (B : 'M[R]_(p, q)), is_qr_r B (@qr _ _ B)) ->
  h != 0 -> 0 <= g -> f = FSqrt \/ 0 < g -> sound rv ->
  exists2 T, discretise nu d ch h = Some T &
  [/\ exists2 s, iwp_fwd ch qr 0 f h g rv = Some s
        & cls s = fwd_classic (clsT T) g (plain rv) /\ s_chol s *m (s_chol s)^T = s_cov s,
      iwp_crosscov ch 0 h rv = Some (fwd_crosscov (clsT T) (plain rv))
    & iwp_gain ch qr 0 f h g rv = gain_classic (clsT T) g (plain rv)].
Proof.
move=> R ch qr nu d f h g rv chH HQ h0 g0 Hg sR; have [T [E _ _ _ _]] := discretise_ok nu d chH h0.
by exists T => //; apply: (iwp_fwd_ok chH HQ E).
Qed.
Print Assumptions C13_forward.

(** Backward, when the gain is computed anew. The direct result is that of every
    implementation (C10). Positive definiteness: the preconditioned result is factored
    with [scipy.linalg.cholesky] unless it comes with a factor. *)
Theorem C13_backward :
  forall (R : rcfType) (ch : chol_routine R) (qr : qr_fun R) nu d f b (h g : R) ob rv fw T,
  cholesky_fun ch -> (forall p q (B : 'M[R]_(p, q)), is_qr_r B (@qr _ _ B)) ->
  discretise nu d ch h = Some T ->
  0 <= g -> sound ob -> sound rv -> (if fw is Some w then sound w else True) ->
  match bwd_classic (clsT T) g (plain ob) (plain rv) None with
  | Some r => b = BSqrt \/ pd (cov r) ->
      exists2 s, iwp_bwd ch qr 0 f b h g ob rv fw None = Some s
        & cls s = r /\ s_chol s *m (s_chol s)^T = s_cov s
  | None => iwp_bwd ch qr 0 f b h g ob rv fw None = None
  end.
Proof. by move=> R ch qr nu d f b h g ob rv fw T chH HQ; apply: iwp_bwd_ok. Qed.
Print Assumptions C13_backward.

(** C87: passing the gain that [forward_rv] returned changes the result: for a scalar
    Wiener process, [h = 4], standard normal state and observed value 5, the state is
    moved to 1/4 instead of 1. *)
Section Gain.
Variable R : rcfType.
Definition r1 : rvar R (1 * 1) := Rvar 0 1%:M (Some 1%:M).
Definition r5 : rvar R (1 * 1) := Rvar (const_mx 5%:R) 0 (Some 0).
Definition rf : rvar R (1 * 1) := Rvar 0 5%:R%:M (Some (Num.sqrt 5%:R)%:M).

Lemma ikron_scalar (x : R) : ikron 1 (x%:M : 'M[R]_1) = x%:M.
Proof.
apply/matrixP => i j; rewrite !mxE.
by case: i j => -[|//] ? [[|//] ?]; rewrite -val_eqE /= eqxx.
Qed.
Lemma sqrt4 : Num.sqrt (4%:R : R) = 2%:R.
Proof. by rewrite (_ : 4%:R = 2%:R ^+ 2) ?sqrtr_sqr ?normr_nat // -natrX. Qed.
Lemma pvec4 i : pvec (nu := 0) (4%:R : R) i = 2%:R.
Proof. by rewrite /pvec ord1 /power /= subn0 expr0 mul1r normr_nat sqrt4 divr1. Qed.
Lemma dg_scalar (v : 'I_1 -> R) : dg v = (v 0)%:M.
Proof. by apply/matrixP => i j; rewrite !mxE !ord1. Qed.
Lemma precon4 : precon 0 1 (4%:R : R) = 2%:R%:M.
Proof. by rewrite preconE dg_scalar pvec4 ikron_scalar. Qed.
Lemma precon_inv4 : precon_inv 0 1 (4%:R : R) = Some (2%:R^-1)%:M.
Proof. by rewrite precon_invE ?pnatr_eq0 // dg_scalar pvec4 ikron_scalar. Qed.
End Gain.
Theorem C87_given_gain_refuted :
  forall (R : rcfType) (ch : chol_routine R) (qr : qr_fun R), cholesky_fun ch ->
  [/\ sound (r1 R) /\ sound (r5 R),
      (exists2 T, discretise 0 1 ch (4%:R : R) = Some T &
       fwd_classic (clsT T) 1 (plain (r1 R)) = plain (rf R)
       /\ gain_classic (clsT T) 1 (plain (r1 R)) = Some 5%:R^-1%:M)
    & exists2 s, iwp_bwd (nu := 0) (d := 1) ch qr 0 FClassic BClassic 4%:R 1 (r5 R) (r1 R)
        (Some (rf R)) (Some 5%:R^-1%:M) = Some s & s_mean s = const_mx 4%:R^-1].
Proof.
move=> R ch qr chH.
have n2 : (2%:R : R) != 0 by rewrite pnatr_eq0.
have n5 : (5%:R : R) != 0 by rewrite pnatr_eq0.
split.
- by split; rewrite /sound /= ?trmx1 ?mulmx1 // trmx0 mulmx0.
- have n4 : (4%:R : R) != 0 by rewrite pnatr_eq0.
  have [T [E t1 t2 t3 _]] := discretise_ok 0 1 chH n4; exists T => //.
  have a1 : s_tmat T = 1%:M.
    rewrite t1 -(ikron1 R 1 0); congr ikron; apply/matrixP => i j.
    by rewrite !mxE !ord1 /= subnn expr0 divr1.
  have q4 : s_ncov T = 4%:R%:M.
    rewrite t3 -ikron_scalar; congr ikron; apply/matrixP => i j.
    by rewrite !mxE !ord1 /= hornerZ hornerXn /= subnn /= expr1 !invr1 !mul1r normr_nat mulr1n.
  have F : fwd_classic (clsT T) 1 (plain (r1 R)) = plain (rf R).
    rewrite /fwd_classic /fwd_crosscov /= a1 t2 q4 trmx1 !mulmx1 mul1mx addr0 scale1r; congr Normal.
    by rewrite -raddfD /= -mulrS.
  split=> //; rewrite /gain_classic F /fwd_crosscov /= a1 trmx1 mulmx1 tr_scalar_mx.
  by rewrite unitmxE det_scalar unitrX ?unitfE // trmx1 mulmx1 invmx_scalar tr_scalar_mx.
have [T [E _ _ _ _]] := precond_ok 0 1 chH.
rewrite /iwp_bwd precon_inv4 E /= precon4.
set c := (X in apply_precon _ _ _ (uncached X)).
have n5' : (5%:R : R) <> 0 by apply/eqP.
have n2' : (2%:R : R) <> 0 by apply/eqP.
have s5 : Num.sqrt 5%:R * Num.sqrt 5%:R = 5%:R :> R by rewrite -expr2 sqr_sqrtr ?ler0n.
have pc : pd (cov c).
  rewrite /c /= !mulmx0 mul0mx mulmx1 -!scalar_mxM !tr_scalar_mx -!scalar_mxM !tr_scalar_mx.
  rewrite -[0 : 'M_(1 * 1)](raddf0 (@scalar_mx_additive _ _)) /= -raddfB /= -!scalar_mxM -raddfD /=.
  rewrite (af_gain_cov (mc_field R) n2' n5' s5) -scalemx1; apply: pdZ.
    rewrite !pmulr_rgt0 ?invr_gt0 ?ltr0n // subr_gt0.
    by rewrite -!invfM -!natrM invf_lt1 ?ltr0n ?ltr1n.
  by rewrite -[1%:M]mulmx1 -{2}(@trmx1 R (1 * 1)); apply: pd_gram; apply: unitmx1.
have [L [EL _]] := chH _ _ pc.
rewrite /apply_precon /factor /= scale0r addr0 EL /=; eexists; first by []; rewrite /=.
rewrite !mulmx0 add0r subr0 tr_scalar_mx -!scalar_mxM !mulmxA -!scalar_mxM mul_scalar_mx.
apply/matrixP => i j; rewrite !mxE.
have -> : 4%:R^-1 = 2%:R^-1 * 2%:R^-1 :> R by rewrite -invfM -natrM.
by rewrite -(af_gain_mean (mc_field R) n2' n5') !mulrA.
Qed.
Print Assumptions C87_given_gain_refuted.

(** ** C88: zero steps. The preconditioner cannot be inverted, although transition
    matrix and noise of C86 tend to the identity and zero. *)
Theorem C88_zero_step_refuted :
  forall (R : rcfType) (ch : chol_routine R) (qr : qr_fun R) nu d f b (g : R) rv ob fw gain,
  [/\ discretise nu d ch 0 = None, iwp_fwd ch qr 0 f 0 g rv = None
    & iwp_bwd (nu := nu) (d := d) ch qr 0 f b 0 g ob rv fw gain = None].
Proof.
move=> R ch qr nu d f b g rv ob fw gain; rewrite discretise0 /iwp_fwd /iwp_bwd /precon_inv eqxx.
by [].
Qed.
Print Assumptions C88_zero_step_refuted.

(** A negative step is treated as its absolute value. *)
Theorem C88_negative_step :
  forall (R : rcfType) (ch : chol_routine R) nu d (h : R),
  discretise nu d ch (- h) = discretise nu d ch h.
Proof. by move=> R ch nu d h; rewrite /discretise /precon_inv /precon oppr_eq0 normrN. Qed.
Print Assumptions C88_negative_step.

(** ** C89: implementations chosen for the process and those of the transition that
    [discretise] returns. *)
Theorem C89_implementations_refuted :
  (exists f b, discretise_impls f b <> (f, b))
  /\ forall f, discretise_impls f BJoseph <> (f, BJoseph).
Proof. by split; [exists FSqrt, BClassic|case]. Qed.
Print Assumptions C89_implementations_refuted.
Theorem C89_implementations_partial :
  forall f b, (discretise_impls f b).1 = f
    /\ (b = (if f is FSqrt then BSqrt else BClassic) -> discretise_impls f b = (f, b)).
Proof. by move=> f b; split=> // ->; case: f. Qed.
Print Assumptions C89_implementations_partial.

(** ** C90: orderings of the state. [y a q] is the [q]-th derivative of component [a]. *)
Definition coordwise (R : rcfType) nu d (y : nat -> nat -> R) : 'cV[R]_(d * nu.+1) :=
  \col_i y (i %/ nu.+1)%N (i %% nu.+1)%N.
Definition derivwise (R : rcfType) nu d (y : nat -> nat -> R) : 'cV[R]_(d * nu.+1) :=
  \col_i y (i %% d)%N (i %/ d)%N.

Lemma sum_pick (R : ringType) n (k : 'I_n) (c : 'I_n -> bool) (v : 'I_n -> R) :
  (forall i, c i = (i == k)) -> \sum_i (c i)%:R * v i = v k.
Proof.
move=> H; rewrite (bigD1 k) //= H eqxx mul1r big1 ?addr0 // => i ik.
by rewrite H (negPf ik) mul0r.
Qed.
Lemma idx_lt n d a q : (a < d)%N -> (q < n)%N -> (a * n + q < d * n)%N.
Proof.
move=> ad qn; apply: (@leq_trans (a.+1 * n)); first by rewrite mulSn addnC ltn_add2r.
by rewrite leq_mul2r ad orbT.
Qed.

Theorem C90_orderings :
  forall (R : rcfType) nu d (y : nat -> nat -> R),
  [/\ derivwise2coordwise R nu d *m derivwise nu d y = coordwise nu d y,
      coordwise2derivwise R nu d *m coordwise nu d y = derivwise nu d y
    & forall q : 'I_nu.+1, proj2coord R d q *m coordwise nu d y = \col_a y (a : nat) q].
Proof.
move=> R nu d y; split=> [||q]; apply/matrixP => i j; rewrite !mxE ?ord1 {j}.
- have id : (i %/ nu.+1 < d)%N by rewrite ltn_divLR.
  have d0 : (0 < d)%N by apply: leq_trans id.
  have k0 : ((i %% nu.+1) * d + i %/ nu.+1 < d * nu.+1)%N by rewrite [X in (_ < X)%N]mulnC idx_lt // ltn_mod.
  rewrite (eq_bigr (fun k : 'I_(d * nu.+1) =>
    (k == Ordinal k0)%:R * y (k %% d)%N (k %/ d)%N)) => [|k _]; last by rewrite !mxE -val_eqE.
  rewrite (@sum_pick _ _ (Ordinal k0)) //= modnMDl modn_small //.
  by rewrite divnMDl // (divn_small id) addn0.
- have d0 : (0 < d)%N by case: d i => [[[]]|].
  have iq : (i %/ d < nu.+1)%N by rewrite ltn_divLR // [(_ * d)%N]mulnC.
  have k0 : ((i %% d) * nu.+1 + i %/ d < d * nu.+1)%N by rewrite idx_lt // ltn_mod.
  rewrite (eq_bigr (fun k : 'I_(d * nu.+1) =>
    (k == Ordinal k0)%:R * y (k %/ nu.+1)%N (k %% nu.+1)%N)) => [|k _].
    rewrite (@sum_pick _ _ (Ordinal k0)) //= modnMDl (modn_small iq).
    by rewrite divnMDl // (divn_small iq) addn0.
  rewrite !mxE; congr ((nat_of_bool _)%:R * _); apply/eqP/eqP => [E|->].
    apply: val_inj => /=; have kd : (k %/ nu.+1 < d)%N by rewrite ltn_divLR.
    rewrite E modnMDl (modn_small kd) divnMDl // (divn_small kd) addn0.
    exact: divn_eq.
  rewrite /= modnMDl (modn_small iq) divnMDl // (divn_small iq) addn0.
  exact: divn_eq.
- have id : (i < d)%N by apply: leq_trans (ltn_ord i) _; rewrite muln1.
  have k0 : (i * nu.+1 + q < d * nu.+1)%N by rewrite idx_lt.
  rewrite (eq_bigr (fun k : 'I_(d * nu.+1) =>
    (k == Ordinal k0)%:R * y (k %/ nu.+1)%N (k %% nu.+1)%N)) => [|k _].
    rewrite (@sum_pick _ _ (Ordinal k0)) //= modnMDl modn_small //.
    by rewrite divnMDl // (divn_small (ltn_ord q)) addn0.
  rewrite !mxE divn1 -(val_eqE k) /=; congr (_ * _).
  case: ((i : nat) =P _) => [E|/eqP N]; rewrite ?mxE.
    rewrite -(val_eqE (inord _)) /= inordK ?ltn_mod // E {2}(divn_eq k nu.+1) eqn_add2l.
    by [].
  case: eqP => // E; case/eqP: N; rewrite E divnMDl // (divn_small (ltn_ord q)).
  by rewrite addn0.
Qed.
Print Assumptions C90_orderings.

(** ** C91: damping. A state without a factor is transformed as if [damping] times the
    identity had been added to its covariance; the classic form does so once more in the
    preconditioned coordinates before transforming back. *)
Definition damped (R : rcfType) (dl : R) n (rv : rvar R n) : rvar R n :=
  if r_cached rv is Some _ then rv else Rvar (r_mean rv) (r_cov rv + dl *: 1%:M) None.
Theorem C91_damping :
  forall (R : rcfType) (ch : chol_routine R) (qr : qr_fun R) nu d (h g dl : R) rv T,
  cholesky_fun ch -> (forall p q (B : 'M[R]_(p, q)), is_qr_r B (@qr _ _ B)) ->
  discretise nu d ch h = Some T -> 0 < g -> 0 <= dl -> sound rv ->
  let F := fwd_classic (clsT T) g (plain (damped dl rv)) in
  (exists2 s, iwp_fwd ch qr dl FSqrt h g rv = Some s & cls s = F)
  /\ exists2 s, iwp_fwd ch qr dl FClassic h g rv = Some s
     & cls s = Normal (mean F) (cov F + dl *: (precon nu d h *m (precon nu d h)^T)).
Proof.
move=> R ch qr nu d h g dl rv T chH HQ ET g0 dl0 sR F.
have aE n (P : 'M[R]_n) r : apply_precon ch dl P r = apply_precon ch 0 P (damped dl r).
  by rewrite /apply_precon /factor /damped; case: r => m C [L|] //=; rewrite scale0r addr0.
have p1 n : pd (1%:M : 'M[R]_n).
  by rewrite -[1%:M]mulmx1 -{2}(@trmx1 R n); apply: pd_gram; apply: unitmx1.
have pda n (A : 'M[R]_n) : pd A -> pd (A + dl *: 1%:M).
  by move=> pA; rewrite addrC; apply: pd_addr => //; apply: psdZ => //; apply: pd_psd.
have sR' : sound (damped dl rv).
  by move: sR; rewrite /sound /damped; case: rv {F} => m C [L|] //=; apply: pda.
have fE f s : iwp_fwd ch qr 0 f h g (damped dl rv) = Some s ->
    if f is FSqrt then iwp_fwd ch qr dl f h g rv = Some s else True.
  case: f => //; rewrite /iwp_fwd; case: precon_inv => // Pi; case: precond_disc => //= T0.
  by rewrite aE; case: apply_precon => //= r; case: fwd_sqrt.
split.
  have [[s s1 [s2 _]] _ _] := iwp_fwd_ok chH HQ ET (ltW g0) (or_introl erefl) sR'.
  by exists s => //; apply: (fE _ _ s1).
case: (disc_conj chH ET) => T0 [Pi [E1 E2 [fT0 pT0] fT eT]].
have [PPi PiP] := precon_mulV E2; have Ps := precon_tr nu d h; have Pis := precon_inv_tr E2.
have [s1 [a1 a2 a3]] := apply_ok chH Pi sR'.
have FE : F = conjn (precon nu d h) (fwd_classic (clsT T0) g (cls s1)).
  by rewrite /F eT (conj_fwd Ps Pis) -a2.
rewrite FE; clearbody F; rewrite /iwp_fwd E1 E2 /= aE a1 /= aE /damped /=.
case: (@apply_ok _ ch chH _ (precon nu d h)
  (Rvar (tmat (clsT T0) *m mean (cls s1) + shift (clsT T0))
        (cov (fwd_classic (clsT T0) g (cls s1)) + dl *: 1%:M) None)) => [|s [-> s2 _]].
  apply: pda; rewrite /= /fwd_crosscov /= mulmxA; apply: pd_addr; last by apply: pdZ.
  by apply: psd_conj; rewrite -a3; apply: psd_gram.
exists s => //; rewrite s2 /conjn /=; congr Normal.
by rewrite [in LHS]mulmxDr [in LHS]mulmxDl scalemx1 mul_mx_scalar -scalemxAl.
Qed.
Print Assumptions C91_damping.

(** ** Non-vacuity *)
Definition ex_chol (R : rcfType) : chol_routine R := fun n A => Some (chol_of A).
Example ex_cholesky (R : rcfType) : cholesky_fun (@ex_chol R).
Proof. by move=> n A /pd_psd /chol_ofP H; exists (chol_of A). Qed.
Example ex_qr_r (R : rcfType) : exists qr : qr_fun R, forall p q (B : 'M[R]_(p, q)), is_qr_r B (@qr _ _ B).
Proof. by exists (fun p q B => qr_of B) => p q B; apply: qr_ofP. Qed.
(** A once integrated two-dimensional process with an uncached and a cached state. *)
Example ex_disc : exists T, discretise 1 2 (@ex_chol [rcfType of realalg]) (1 / 3%:R) = Some T.
Proof.
have [] := @discretise_ok _ 1 2 _ (@ex_cholesky [rcfType of realalg]) (1 / 3%:R).
  by rewrite mul1r invr_eq0 pnatr_eq0.
by move=> T []; exists T.
Qed.
Example ex_sound : sound (Rvar (const_mx 1) 1%:M (Some 1%:M) : rvar [rcfType of realalg] (2 * 2))
  /\ sound (Rvar (const_mx 1) 1%:M None : rvar [rcfType of realalg] (2 * 2)).
Proof.
split; rewrite /sound /=; first by rewrite trmx1 mulmx1.
by rewrite -[1%:M]mulmx1 -{2}(@trmx1 _ (2 * 2)); apply: pd_gram; apply: unitmx1.
Qed.
