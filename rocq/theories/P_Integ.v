(** C154-C157: integrated Ornstein-Uhlenbeck and Matern transitions. *)
From Coq Require Import Reals Lra.
From Coquelicot Require Import Coquelicot.
From mathcomp Require Import all_ssreflect all_algebra.
From Verif Require Import M_Gauss M_Sqrt M_IWP L_DMx L_Zmod L_Kalman L_Psd L_Sqrt L_Chol L_IWP L_IWP2 P_Sqrt L_IWP3 P_IWP.
From Verif Require Import L_RStruct L_Expm M_LTISDE P_LTISDE M_Integ L_Integ.
Set Implicit Arguments.
Unset Strict Implicit.
Unset Printing Implicit Defensive.
Import Order.Theory GRing.Theory Num.Theory.
Delimit Scope R_scope with coqR.
Local Open Scope ring_scope.
Local Notation K := R_rcfType.

Section Claims.
Variables nu d : nat.
Notation dim := (d * nu.+1)%N.

(** ** The drift: [y a q] is the [q]-th derivative of component [a] *)
Lemma ikron_coordwise (B : 'M[R]_nu.+1) (y : nat -> nat -> R) :
  ikron (R := K) d B *m coordwise (R := K) nu d y = coordwise (R := K) nu d (fun a q => \sum_(j < nu.+1) B (inord q) j * y a j).
Proof.
apply/matrixP => i z; rewrite !mxE.
pose f a b : R := (if (i %/ nu.+1 == a)%N then B (inord (i %% nu.+1)) (inord b) else 0) * y a b.
rewrite (eq_bigr (fun k : 'I__ => f (k %/ nu.+1)%N (k %% nu.+1)%N)); last by move=> k _; rewrite !mxE.
rewrite sum_pair (bigD1 (Ordinal (div_lt i))) //= [X in _ + X]big1 ?addr0; last first.
  move=> a /negbTE na; apply: big1 => b _; rewrite /f [(_ %/ _ == _)%N]eq_sym.
  by move: na; rewrite -val_eqE /= => ->; rewrite mul0r.
by apply: eq_bigr => b _; rewrite /f eqxx inord_val.
Qed.
Theorem C154_drift (speed scale : R) (y : nat -> nat -> R) :
  ioup_drift nu d speed *m coordwise (R := K) nu d y
  = coordwise (R := K) nu d (fun a q => if q == nu then - speed * y a nu else y a q.+1) /\
  matern_drift nu d scale *m coordwise (R := K) nu d y
  = coordwise (R := K) nu d (fun a q => if q == nu then - \sum_(j < nu.+1) 'C(nu.+1, j)%:R * (sqrt (2 * INR nu + 1) / scale)%coqR ^+ (nu.+1 - j) * y a j else y a q.+1).
Proof.
have -> : (sqrt (2 * INR nu + 1) / scale)%coqR = rate nu scale by rewrite /rate; congr (sqrt _ / _)%coqR; lra.
have up (q a : nat) : (q < nu.+1)%N -> (q == nu) = false -> \sum_(j < nu.+1) (q.+1 == j :> nat)%:R * y a j = y a q.+1.
  move=> lq qn; have l : (q.+1 < nu.+1)%N by rewrite ltnS ltn_neqAle qn -ltnS.
  by rewrite (@sum_pick _ _ (Ordinal l)) // => j; rewrite -val_eqE eq_sym.
rewrite !ikron_coordwise; split; apply/matrixP => i z; rewrite !mxE; move: (i %/ nu.+1)%N (ltn_pmod i (ltn0Sn nu)) => a; move: (i %% nu.+1)%N => q lq.
  have qE : (inord q : 'I_nu.+1) = q :> nat by rewrite inordK.
  case: eqP => [e|/eqP/negbTE n].
    rewrite (bigD1 ord_max) //= big1 => [|j jn]; rewrite !mxE qE e eqxx /=.
      exact: addr0.
    have -> : (j == nu :> nat) = false by apply/negbTE; rewrite -(val_eqE j ord_max) in jn.
    by rewrite eq_sym ltn_eqF // mul0r.
  by rewrite -[RHS]up //; apply: eq_bigr => j _; rewrite !mxE qE n.
have qE : (inord q : 'I_nu.+1) = q :> nat by rewrite inordK.
case: eqP => [e|/eqP/negbTE n].
  by rewrite -sumrN; apply: eq_bigr => j _; rewrite !mxE qE e eqxx mulNr.
by rewrite -[RHS]up //; apply: eq_bigr => j _; rewrite !mxE qE n.
Qed.

(** The transitions of the two classes. *)
Definition is_drift (F : 'M[R]_dim) : Prop := (exists speed, F = ioup_drift nu d speed) \/ (exists scale, F = matern_drift nu d scale).
Lemma is_driftE F : is_drift F -> exists c, F = ikron (R := K) d (comp c).
Proof.
case=> -[s ->]; last by eexists (fun j => _); rewrite /matern_drift; congr ikron.
exists (fun j : 'I_nu.+1 => if j == nu :> nat then - s else 0); rewrite /ioup_drift; congr ikron.
apply/matrixP => i j; rewrite !mxE; case: eqP => // e; rewrite e /=; case: eqP => // _.
by rewrite eq_sym ltn_eqF.
Qed.

(** ** C154: forward *)
Variable cholesky : forall n, 'M[R]_n -> option 'M[R]_n.
Variable qr : forall p q, 'M[R]_(p, q) -> 'M[R]_(minn p q, q).
Hypothesis chH : cholesky_fun (R := K) cholesky.
Hypothesis HQ : forall p q (B : 'M[R]_(p, q)), is_qr_r (R := K) B (qr B).
Implicit Types rv ob : rvar K dim.
Theorem C154_forward F f h g rv : is_drift F -> Rlt 0 h -> Rle 0 g -> f = FSqrt \/ Rlt 0 g -> sound rv ->
  [/\ exists2 s, integ_fwd cholesky qr 0 F f h g rv = Some s
        & cls s = fwd_classic (sde_model F (disp nu d) h) g (plain rv) /\ s_chol s *m (s_chol s)^T = s_cov s,
      integ_crosscov cholesky 0 F h rv = Some (fwd_crosscov (sde_model F (disp nu d) h) (plain rv))
    & integ_gain cholesky qr 0 F f h g rv = gain_classic (sde_model F (disp nu d) h) g (plain rv)].
Proof. by case/is_driftE => c -> *; exact: integ_fwd_ok. Qed.
(** The noise of the exact discretisation is positive definite. *)
Theorem C154_noise F h : is_drift F -> Rlt 0 h -> pd (R := K) (M_Gauss.ncov (sde_model F (disp nu d) h)).
Proof.
case/is_driftE => c -> h0; rewrite sde_modelE /=.
by rewrite /disp -/(comp_disp nu) Qint_ikron; apply: ikron_pd; exact: Qint_pd.
Qed.
(** ** C155: backward, when the gain is computed anew *)
Theorem C155_backward F f b h g ob rv fw : is_drift F -> Rlt 0 h -> Rle 0 g -> sound ob -> sound rv -> (if fw is Some w then sound w else True) ->
  match bwd_classic (sde_model F (disp nu d) h) g (plain ob) (plain rv) None with
  | Some r => b = BSqrt \/ pd (cov r) ->
      exists2 s, integ_bwd cholesky qr 0 F f b h g ob rv fw None = Some s & cls s = r /\ s_chol s *m (s_chol s)^T = s_cov s
  | None => integ_bwd cholesky qr 0 F f b h g ob rv fw None = None
  end.
Proof. by case/is_driftE => c -> *; exact: integ_bwd_ok. Qed.
End Claims.
Print Assumptions C154_drift.
Print Assumptions C154_forward.
Print Assumptions C154_noise.
Print Assumptions C155_backward.

(** ** C156: passing the gain that [forward_rv] returned. [backward_rv] turns a gain [G]
    into [Pi G Pi^T] instead of [Pi G P], so that the update is scaled by [Pi Pi]. *)
Theorem C156_given_gain nu d ch qr F f h g (ob rv : rvar K (d * nu.+1)) fw (G Pi : 'M[R]_(d * nu.+1)) :
  cholesky_fun (R := K) ch -> is_drift F -> Rlt 0 h -> sound ob -> sound rv -> (if fw is Some w then sound w else True) ->
  precon_inv (R := K) nu d h = Some Pi -> G != 0 ->
  exists2 s, integ_bwd ch qr 0 F f BSqrt h g ob rv fw (Some G) = Some s
    & s_mean s = r_mean rv + G *m (Pi *m Pi) *m (r_mean ob - expm (h *: F) *m r_mean rv).
Proof.
move=> chH /is_driftE[c ->] h0 sO sR sF E2' G0.
have [T0 [Pi' [E2 E1 fT0 pT0 eT]]] := precond_model_ok d c chH h0.
have e : Pi' = Pi by move: E2; rewrite E2' => -[].
rewrite {}e {E2'} in E2 E1 eT.
have [PPi PiP] := precon_mulV E2; have Ps := precon_tr (R := K) nu d h; have Pis := precon_inv_tr E2.
have [s1 [a1 a2 a3]] := apply_ok chH Pi sR; have [o1 [b1 b2 b3]] := apply_ok chH Pi sO.
have [fw1 F1] : exists fw1, opt_app (apply_precon ch (0 : K) Pi) fw = Some fw1.
  case: fw sF => [w|] sF /=; last by exists None.
  by have [w1 [-> _ _]] := apply_ok chH Pi sF; exists (Some w1).
rewrite /integ_bwd E2 /= b1 /= a1 /= F1 /= E1 /= /bwd_sqrt_with.
have -> : (Pi *m G *m Pi^T == 0) = false.
  apply/negbTE; apply: contraNneq G0 => e.
  have := congr1 (fun M => precon (R := K) nu d h *m M *m precon (R := K) nu d h) e.
  by rewrite Pis !mulmxA PPi mul1mx -mulmxA PiP mulmx1 mulmx0 mul0mx => ->.
move: (big_triu _ _ _ _ _ _ _) => B /=.
eexists; first by []. rewrite /=.
have m1 : s_mean s1 = Pi *m r_mean rv by have := congr1 (@mean _ _) a2.
have m2 : s_mean o1 = Pi *m r_mean ob by have := congr1 (@mean _ _) b2.
have t1 : expm (h *: ikron (R := K) d (comp c)) = precon (R := K) nu d h *m s_tmat T0 *m Pi by have := congr1 (@M_Gauss.tmat _ _ _) eT.
have t2 : s_shift T0 = 0.
  have := congr1 (@M_Gauss.shift _ _ _) eT; rewrite /= => e0.
  by rewrite -[LHS]mul1mx -PiP -mulmxA -e0 mulmx0.
rewrite m1 m2 t1 t2 subr0 mulmxDr !mulmxA PPi mul1mx Pis; congr (_ + _).
by rewrite !mulmxBr !mulmxA mul1mx -[G *m Pi *m Pi *m precon (R := K) nu d h]mulmxA PiP mulmx1.
Qed.
Print Assumptions C156_given_gain.
(** The scalar Ornstein-Uhlenbeck process with step 4, a standard normal state and the
    observed value 5: passing the gain of [forward_rv] gives another mean. *)
Theorem C156_given_gain_refuted ch qr f speed :
  cholesky_fun (R := K) ch -> (forall p q (B : 'M[R]_(p, q)), is_qr_r (R := K) B (qr p q B)) ->
  let F := ioup_drift 0 1 speed in
  [/\ sound (r1 K) /\ sound (r5 K)
    & exists G s1 s2, [/\ integ_gain ch qr 0 F f 4%:R 1 (r1 K) = Some G,
      integ_bwd ch qr 0 F f BSqrt 4%:R 1 (r5 K) (r1 K) None None = Some s1,
      integ_bwd ch qr 0 F f BSqrt 4%:R 1 (r5 K) (r1 K) None (Some G) = Some s2
    & s_mean s1 = 4%:R *: s_mean s2 /\ s_mean s1 <> s_mean s2]].
Proof.
move=> chH HQ F.
have sR : sound (r1 K) by rewrite /sound /= trmx1 mulmx1.
have sO : sound (r5 K) by rewrite /sound /= trmx0 mulmx0.
have h0 : Rlt 0 (4%:R : R) by apply/ltRP; rewrite ltr0n.
have g0 : Rlt 0 (1 : R) by apply/ltRP; rewrite ltr01.
have dF : is_drift F by left; exists speed.
split=> //.
have [_ _ eG] := C154_forward chH HQ (f := f) dF h0 (Rlt_le _ _ g0) (or_intror g0) sR.
set T := sde_model _ _ _ in eG.
have pS : pd (cov (fwd_classic T 1 (plain (r1 K)))).
  rewrite /fwd_classic /fwd_crosscov /= mulmxA; apply: pd_addr; last by rewrite scale1r; exact: C154_noise.
  by apply: psd_conj; rewrite -[1%:M]mulmx1 -{2}(@trmx1 K (1 * 1)); apply: psd_gram.
set S := cov _ in pS.
have uS : S^T \in unitmx by rewrite unitmx_tr; exact: pd_unit pS.
have eG' : gain_classic T 1 (plain (r1 K)) = Some (invmx S^T *m (fwd_crosscov T (plain (r1 K)))^T)^T by rewrite /gain_classic -/S uS.
set G := (_)^T in eG'.
have uA : expm (4%:R *: F) \in unitmx.
  by have := expmN F 4%:R => /mulmx1_unit[].
have uG : G \in unitmx.
  by rewrite unitmx_tr unitmx_mul unitmx_inv uS /fwd_crosscov /= mul1mx trmxK.
have G0 : G != 0 by apply: contraTneq uG => ->; rewrite unitmxE det0 unitr0.
have := C155_backward chH HQ f BSqrt (fw := None) dF h0 (Rlt_le _ _ g0) sO sR I.
rewrite /bwd_classic -/T eG' /= => /(_ (or_introl erefl)) [s1 E1 [e1 _]].
have [s2 E2 e2] := C156_given_gain qr f 1 (fw := None) chH dF h0 sO sR I (precon_inv4 K) G0.
exists G, s1, s2; split=> //; first by rewrite eG.
have m1 : s_mean s1 = G *m const_mx 5%:R by have := congr1 (@mean _ _) e1; rewrite /= !mulmx0 !addr0 subr0 add0r.
have m2 : s_mean s1 = 4%:R *: s_mean s2.
  rewrite m1 e2 /= mulmx0 subr0 add0r -scalar_mxM -mulmxA mul_scalar_mx -scalemxAr scalerA.
  by rewrite -invfM -natrM mulfV ?scale1r // pnatr_eq0.
split=> // e.
have z : s_mean s1 = 0.
  have : 3%:R *: s_mean s2 = 0 by rewrite -[3%:R]/(4 - 1)%:R natrB // scalerBl -m2 scale1r e subrr.
  by move/eqP; rewrite scaler_eq0 pnatr_eq0 /= -e => /eqP.
have : (const_mx 5%:R : 'cV[R]_(1 * 1)) = 0 by rewrite -[LHS](mulKmx uG) -m1 z mulmx0.
by move/matrixP/(_ 0 0)/eqP; rewrite !mxE pnatr_eq0.
Qed.
Print Assumptions C156_given_gain_refuted.

(** ** Examples *)
(** The Ornstein-Uhlenbeck process itself. *)
Lemma ioup_scalar speed : ioup_drift 0 1 speed = (- speed)%:M.
Proof. by rewrite -ikron_scalar; congr ikron; apply/matrixP => i j; rewrite !mxE !ord1 /= mulr1n. Qed.
Example ex_ou (speed h : R) : expm (h *: ioup_drift 0 1 speed) = (exp (- speed * h)%coqR)%:M.
Proof.
rewrite ioup_scalar; apply/esym; apply: (@expm_unique _ _ (fun t => (exp (- speed * t)%coqR)%:M)) => [t|]; last first.
  by congr (_%:M); rewrite (_ : (- speed * 0)%coqR = 0%coqR); [exact: exp_0|ring].
move=> i j; rewrite -scalar_mxM [X in is_derive _ _ X]mxE.
apply: (is_derive_ext (fun t => exp (- speed * t)%coqR *+ (i == j))) => [u|]; first by rewrite mxE.
case: (i == j); rewrite ?mulr1n ?mulr0n; last exact: is_derive_const.
have D : is_derive (fun t : R => exp (- speed * t)%coqR) t (- speed * exp (- speed * t))%coqR by auto_derive => //; ring.
exact: D.
Qed.
(** Hypotheses for a state of two components with two derivatives each. *)
Example ex_integ (speed scale : R) : exists qr s1 s2, integ_fwd (@ex_chol K) qr 0 (ioup_drift 2 2 speed) FSqrt (1 / 3)%coqR 2 (Rvar (const_mx 1) 1%:M (Some 1%:M)) = Some s1
  /\ integ_fwd (@ex_chol K) qr 0 (matern_drift 2 2 scale) FClassic (1 / 3)%coqR 2 (Rvar (const_mx 1) 1%:M None) = Some s2.
Proof.
have [qr HQ] := ex_qr_r K.
have h0 : Rlt 0 (1 / 3)%coqR by lra.
have g0 : Rlt 0 (2 : R)%coqR by lra.
have s1 : sound (Rvar (const_mx 1) 1%:M (Some 1%:M) : rvar K (2 * 3)) by rewrite /sound /= trmx1 mulmx1.
have s2 : sound (Rvar (const_mx 1) 1%:M None : rvar K (2 * 3)).
  by rewrite /sound /= -[1%:M]mulmx1 -{2}(@trmx1 K (2 * 3)); apply: pd_gram; apply: unitmx1.
have [[t1 e1 _] _ _] := C154_forward (@ex_cholesky K) HQ (f := FSqrt) (or_introl (ex_intro _ speed erefl)) h0 (Rlt_le _ _ g0) (or_intror g0) s1.
have [[t2 e2 _] _ _] := C154_forward (@ex_cholesky K) HQ (f := FClassic) (or_intror (ex_intro _ scale erefl)) h0 (Rlt_le _ _ g0) (or_intror g0) s2.
by exists qr, t1, t2.
Qed.
