(** The preconditioned transitions of the integrated Wiener process. *)
From mathcomp Require Import all_ssreflect all_algebra.
From Verif Require Import M_Gauss M_Sqrt M_IWP L_DMx L_Zmod L_Kalman L_Psd L_Sqrt L_Chol.
From Verif Require Import L_IWP L_IWP2 P_Sqrt.
Set Implicit Arguments.
Unset Strict Implicit.
Unset Printing Implicit Defensive.
Import Order.Theory GRing.Theory Num.Theory.
Local Open Scope ring_scope.

Section Precond.
Variable R : rcfType.
(** A random variable whose factor is right, or can be computed. *)
Definition sound n (rv : rvar R n) :=
  match r_cached rv with Some L => L *m L^T = r_cov rv | None => pd (r_cov rv) end.
Definition plain n (rv : rvar R n) : normal R n := Normal (r_mean rv) (r_cov rv).

Variable cholesky : forall n, 'M[R]_n -> option 'M[R]_n.
Variable qr : forall p q, 'M[R]_(p, q) -> 'M[R]_(minn p q, q).
Hypothesis chH : cholesky_fun cholesky.
Hypothesis HQ : forall p q (B : 'M[R]_(p, q)), is_qr_r B (qr B).

Lemma factor_ok n (rv : rvar R n) : sound rv ->
  exists L, factor cholesky 0 rv = Some L /\ L *m L^T = r_cov rv.
Proof.
rewrite /sound /factor; case: r_cached => [L|] H; first by exists L.
have e : r_cov rv + 0 *: 1%:M = r_cov rv by rewrite scale0r addr0.
by rewrite e; have [L [E [_ _ ?]]] := chH H; exists L.
Qed.
Lemma apply_ok n (P : 'M[R]_n) rv : sound rv ->
  exists s, [/\ apply_precon cholesky 0 P rv = Some s, cls s = conjn P (plain rv) & factored s].
Proof.
move=> H; have [L [E F]] := factor_ok H; rewrite /apply_precon E /=; eexists; split; first by [].
  by congr Normal; rewrite /= trmx_mul !mulmxA -[P *m L *m L^T]mulmxA F.
by [].
Qed.

Section Disc.
Variables (n : nat) (T : slingauss R n n) (g : R) (rv : snormal R n).
Hypotheses (fT : factoredT T) (fR : factored rv) (g0 : 0 <= g).
Let sg : Num.sqrt g * Num.sqrt g = g. Proof. by rewrite -expr2 sqr_sqrtr. Qed.

Lemma disc_gainE f : disc_gain qr f T g rv = gain_classic (clsT T) g (cls rv).
Proof. by case: f => //=; rewrite (gain_sqrt_classic fT fR sg (leqnn _) (HQ _)). Qed.
Lemma disc_fwdE f : exists r, [/\ disc_fwd qr f T g rv = Some r,
  plain r = fwd_classic (clsT T) g (cls rv) & f = FSqrt \/ pd (r_cov r) -> sound r].
Proof.
case: f => /=; first by eexists; split=> //= -[] //.
have [f [-> f2 f3 f4]] := fwd_sqrt_classic fT fR sg (leqnn _) (HQ _).
eexists; split; [by []|by []|] => _.
by case: f3.
Qed.
Lemma disc_bwdE f b ob fw : factored ob -> 
  if bwd_classic (clsT T) g (cls ob) (cls rv) None is Some r then
    exists2 r', disc_bwd qr f b T g ob rv fw None = Some r' &
      plain r' = r /\ (b = BSqrt \/ pd (cov r) -> sound r')
  else disc_bwd qr f b T g ob rv fw None = None.
Proof.
move=> fO; case: b.
- have [r [E e _]] := disc_fwdE f.
  have -> : disc_bwd qr f BClassic T g ob rv fw None
      = omap (fun G => uncached (condition_state_on_rv (cls ob) (plain r) (cls rv) G))
          (gain_classic (clsT T) g (cls rv)).
    by rewrite /disc_bwd E disc_gainE; case: fw.
  rewrite /bwd_classic -e; case: gain_classic => //= G; eexists; first by []; split=> [|[]] //.
- have [e1 e2] := bwd_sqrt_classic (gain := None) HQ fT fR fO sg
    (or_introl (conj erefl (or_intror (leqnn _)))).
  have -> : disc_bwd qr f BSqrt T g ob rv fw None
      = omap (@cached R n) (bwd_sqrt qr Num.sqrt T g ob rv None).
    rewrite /disc_bwd /bwd_sqrt disc_gainE; case: ifP => _; last by [].
    by rewrite (gain_sqrt_classic fT fR sg (leqnn _) (HQ _)); case: gain_classic.
  rewrite -[clsT T]/(classicT T) -[cls ob]/(classic ob) -[cls rv]/(classic rv) -e1.
  case E: bwd_sqrt => [r|] //=; eexists; first by []; split=> [|_] //.
  by case: (e2 _ E).
- have pn : psd (ncov (clsT T)) by rewrite /= -fT; apply: psd_gram.
  have pc : psd (cov (cls rv)) by rewrite /= -fR; apply: psd_gram.
  rewrite -(C10_joseph_agrees (cls ob) g0 pn pc) /bwd_joseph /disc_bwd disc_gainE.
  by case: gain_classic => //= G; eexists; first by []; split=> [|[]].
Qed.
End Disc.

(** The transition matrices and noise in the original coordinates. *)
Lemma pd_addr n (A B : 'M[R]_n) : psd A -> pd B -> pd (A + B).
Proof.
move=> [sA pA] [sB pB]; split; first by rewrite linearD /= sA sB.
by move=> x x0; rewrite qformD ltr_paddl ?pB.
Qed.
Lemma pdZ n a (A : 'M[R]_n) : 0 < a -> pd A -> pd (a *: A).
Proof.
move=> a0 [sA pA]; split; first by rewrite linearZ /= sA.
by move=> x x0; rewrite qformZ mulr_gt0 ?pA.
Qed.

Section Coord.
Variables nu d : nat.
Implicit Types h g : R.
Lemma disc_conj h T : discretise nu d cholesky h = Some T ->
  exists T0 Pi, [/\ precond_disc nu d cholesky = Some T0, precon_inv nu d h = Some Pi,
    factoredT T0 /\ pd (s_ncov T0), factoredT T
    & clsT T = conjT (precon nu d h) Pi (clsT T0)].
Proof.
have [T0 [E t1 t2 t3 [_ _ t4]]] := precond_ok nu d chH.
rewrite /discretise E /=; case EP: precon_inv => [Pi|] //= [<-].
exists T0, Pi; split=> //; last by congr LinGauss; rewrite /= t2 mulmx0.
  by split=> //; rewrite t3; apply: ikron_pd; apply: hilbert_pd.
by rewrite /factoredT /= -t4 trmx_mul !mulmxA.
Qed.

Lemma iwp_fwd_ok f h g rv T : discretise nu d cholesky h = Some T ->
  0 <= g -> f = FSqrt \/ 0 < g -> sound rv ->
  [/\ exists2 s, iwp_fwd cholesky qr 0 f h g rv = Some s
        & cls s = fwd_classic (clsT T) g (plain rv) /\ factored s,
      iwp_crosscov cholesky 0 h rv = Some (fwd_crosscov (clsT T) (plain rv))
    & iwp_gain cholesky qr 0 f h g rv = gain_classic (clsT T) g (plain rv)].
Proof.
move=> /disc_conj [T0 [Pi [E1 E2 [fT0 pT0] fT ->]]] g0 Hg sR.
have [PPi PiP] := precon_mulV E2; have Ps := precon_tr nu d h; have Pis := precon_inv_tr E2.
have [s1 [a1 a2 a3]] := apply_ok Pi sR.
rewrite /iwp_fwd /iwp_crosscov /iwp_gain E1 E2 /= a1 /=.
rewrite (conj_fwd Ps Pis) (conj_gain PPi Ps Pis) (conj_crosscov PPi Ps Pis) -a2.
split.
- have [r [r1 r2 r3]] := disc_fwdE fT0 a3 g0 f; rewrite r1 /=.
  case: (apply_ok (precon nu d h) (r3 _)) => [|s [-> s2 s3]].
    case: Hg => [->|gp]; [by left|right].
    have := congr1 (@cov _ _) r2; rewrite /= => ->.
    rewrite /fwd_crosscov /= mulmxA; apply: pd_addr; last by apply: pdZ.
    by apply: psd_conj; rewrite -a3; apply: psd_gram.
  by exists s => //; rewrite s2 r2.
- by rewrite /fwd_crosscov /=.
- by rewrite disc_gainE // Pis.
Qed.

Lemma iwp_bwd_ok f b h g ob rv fw T : discretise nu d cholesky h = Some T ->
  0 <= g -> sound ob -> sound rv -> (if fw is Some w then sound w else True) ->
  match bwd_classic (clsT T) g (plain ob) (plain rv) None with
  | Some r => b = BSqrt \/ pd (cov r) ->
      exists2 s, iwp_bwd cholesky qr 0 f b h g ob rv fw None = Some s & cls s = r /\ factored s
  | None => iwp_bwd cholesky qr 0 f b h g ob rv fw None = None
  end.
Proof.
move=> /disc_conj [T0 [Pi [E1 E2 [fT0 pT0] fT ->]]] g0 sO sR sF.
have [PPi PiP] := precon_mulV E2; have Ps := precon_tr nu d h; have Pis := precon_inv_tr E2.
have [s1 [a1 a2 a3]] := apply_ok Pi sR; have [o1 [b1 b2 b3]] := apply_ok Pi sO.
have [fw1 F1] : exists fw1, opt_app (apply_precon cholesky 0 Pi) fw = Some fw1.
  case: fw sF => [w|] sF /=; last by exists None.
  by have [w1 [-> _ _]] := apply_ok Pi sF; exists (Some w1).
rewrite (conj_bwd PPi PiP Ps Pis) -a2 -b2.
have -> : iwp_bwd cholesky qr 0 f b h g ob rv fw None
    = obind (apply_precon cholesky 0 (precon nu d h)) (disc_bwd qr f b T0 g o1 s1 fw1 None).
  by rewrite /iwp_bwd E1 E2 /= a1 b1 /= F1.
have := disc_bwdE fT0 a3 g0 f b fw1 b3; case: bwd_classic => [r|] /=; last by move=> ->.
case=> r' -> [r2 r3] Hb /=.
case: (apply_ok (precon nu d h) (r3 _)) => [|s [-> s2 s3]].
  case: Hb => [->|H]; [by left|right].
  have uP : precon nu d h \in unitmx by case: (mulmx1_unit PPi).
  have uPi : Pi \in unitmx by case: (mulmx1_unit PPi).
  have := pd_conj uPi H; rewrite /= Ps Pis !mulmxA PiP mul1mx -mulmxA PPi mulmx1.
  by [].
by exists s => //; rewrite s2 r2.
Qed.
End Coord.
End Precond.
