(** Lemmas about integrator transitions (M_Integ.v). *)
From Coq Require Import Reals Lra.
From Coquelicot Require Import Coquelicot.
From mathcomp Require Import all_ssreflect all_algebra.
From Verif Require Import M_Gauss M_Sqrt M_IWP L_Zmod L_Kalman L_Psd L_Sqrt L_Chol L_IWP L_IWP2 P_Sqrt L_IWP3.
From Verif Require Import L_RStruct L_Expm M_LTISDE P_LTISDE M_Integ.
Set Implicit Arguments.
Unset Strict Implicit.
Unset Printing Implicit Defensive.
Import Order.Theory GRing.Theory Num.Theory.
Delimit Scope R_scope with coqR.
Local Open Scope ring_scope.
Local Notation K := R_rcfType.

(** ** Exponentials *)
Lemma sub3 (V : zmodType) (a b c a' b' : V) : a + b + c - (a' + b' + c) = (a - a') + (b - b').
Proof. by rewrite opprD addrACA subrr addr0 opprD addrACA. Qed.
Lemma expm_ikron d p (A : 'M[R]_p.+1) t : expm (t *: ikron (R := K) d A) = ikron (R := K) d (expm (t *: A)).
Proof.
symmetry; apply: (@expm_unique _ (ikron (R := K) d A) (fun t => ikron (R := K) d (expm (t *: A)))) => [u|].
  rewrite ikron_mul => i j; rewrite mxE.
  apply: (@derive_ext (fun u => if (i %/ p.+1 == j %/ p.+1)%N then expm (u *: A) (inord (i %% p.+1)) (inord (j %% p.+1)) else 0)).
    by move=> v; rewrite [RHS]mxE.
  by case: ifP => _; [exact: expm_derive|exact: derive_cst].
by rewrite scale0r expm0 ikron1.
Qed.
Lemma expm_conj n (P Pi F : 'M[R]_n) t : P *m Pi = 1%:M -> expm (t *: (Pi *m F *m P)) = Pi *m expm (t *: F) *m P.
Proof.
move=> PPi; have PiP := mulmx1C PPi.
symmetry; apply: (@expm_unique _ (Pi *m F *m P) (fun t => Pi *m expm (t *: F) *m P)) => [u|].
  apply: mderive_eq (mderive_mulr P (mderive_mull Pi (expm_derive F u))) _.
  by rewrite !mulmxA -[Pi *m F *m P *m Pi]mulmxA PPi mulmx1.
by rewrite scale0r expm0 mulmx1 PiP.
Qed.
Definition Qint n w (F : 'M[R]_n) (L : 'M[R]_(n, w)) h := (mfd F L h).2.
Lemma Qint_conj n w (P Pi F : 'M[R]_n) (L : 'M[R]_(n, w)) h : P *m Pi = 1%:M ->
  Qint (Pi *m F *m P) (Pi *m L) h = Pi *m Qint F L h *m Pi^T.
Proof.
move=> PPi; pose G := Pi *m F *m P.
apply/eqP; rewrite -subr_eq0; apply/eqP.
apply: (@linear_unique _ _ G G^T (fun h => Qint G (Pi *m L) h - Pi *m Qint F L h *m Pi^T)) => [t|]; last first.
  by rewrite /Qint !mfd_Q0 mulmx0 mul0mx subrr.
apply: mderive_eq (mderive_sub (mfd_Q_derive _ _ t) (mderive_mulr Pi^T (mderive_mull Pi (mfd_Q_derive F L t)))) _.
have tE : G^T = P^T *m (F^T *m Pi^T) by rewrite /G !trmx_mul.
have e1 : G *m (Pi *m Qint F L t *m Pi^T) = Pi *m (F *m Qint F L t) *m Pi^T.
  by rewrite /G !mulmxA -[Pi *m F *m P *m Pi]mulmxA PPi mulmx1.
have e2 : Pi *m Qint F L t *m Pi^T *m G^T = Pi *m (Qint F L t *m F^T) *m Pi^T.
  by rewrite tE !mulmxA -[_ *m Pi^T *m P^T]mulmxA -trmx_mul PPi trmx1 mulmx1.
have e3 : Pi *m L *m (Pi *m L)^T = Pi *m (L *m L^T) *m Pi^T by rewrite trmx_mul !mulmxA.
rewrite -/(Qint _ _ t) -/(Qint F L t) -/G.
by rewrite mulmxBr mulmxBl [Pi *m (_ + _)]mulmxDr [Pi *m (_ + _)]mulmxDr !mulmxDl -e1 -e2 e3 sub3.
Qed.
Lemma Qint_ikron d p (A : 'M[R]_p.+1) (B : 'M[R]_(p.+1, 1)) h :
  Qint (ikron (R := K) d A) (ikron (R := K) d B) h = ikron (R := K) d (Qint A B h).
Proof.
apply/eqP; rewrite -subr_eq0; apply/eqP.
pose G := ikron (R := K) d A.
apply: (@linear_unique _ _ G G^T (fun h => Qint G (ikron (R := K) d B) h - ikron (R := K) d (Qint A B h))) => [t|]; last first.
  by rewrite /Qint !mfd_Q0 ikron0 subrr.
have dk : mderive (fun h => ikron (R := K) d (Qint A B h)) t (ikron (R := K) d (A *m Qint A B t + Qint A B t *m A^T + B *m B^T)).
  move=> i j; rewrite mxE.
  apply: (@derive_ext (fun u => if (i %/ p.+1 == j %/ p.+1)%N then Qint A B u (inord (i %% p.+1)) (inord (j %% p.+1)) else 0)).
    by move=> v; rewrite [RHS]mxE.
  by case: ifP => _; [exact: mfd_Q_derive|exact: derive_cst].
apply: mderive_eq (mderive_sub (mfd_Q_derive _ _ t) dk) _.
rewrite -/(Qint _ _ t) -/G !ikronD -!ikron_mul -!ikron_tr -/G mulmxBr mulmxBl.
exact: sub3.
Qed.

(** ** Positive definite noise *)
Section Companion.
Variable nu : nat.
Variable c : 'I_nu.+1 -> R.
Definition comp : 'M[R]_nu.+1 := \matrix_(i, j) (if i == nu :> nat then c j else (i.+1 == j :> nat)%:R).
Definition comp_disp : 'M[R]_(nu.+1, 1) := \matrix_(i, j) ((i == nu :> nat)%:R).

Section Form.
Variables (x : 'cV[R]_nu.+1).
Definition y t : 'cV[R]_nu.+1 := expm (t *: comp^T) *m x.
Lemma y_derive t : mderive y t (comp^T *m y t).
Proof. by apply: mderive_eq (mderive_mulr x (expm_derive comp^T t)) _; rewrite mulmxA. Qed.
Definition G t : R := (x^T *m Qint comp comp_disp t *m x) 0 0.
Lemma Qint_derive t : mderive (Qint comp comp_disp) t (expm (t *: comp) *m comp_disp *m comp_disp^T *m (expm (t *: comp))^T).
Proof.
pose X u := expm (u *: comp) *m comp_disp *m comp_disp^T *m (expm (u *: comp))^T.
have dX u : mderive X u (comp *m X u + X u *m comp^T).
  apply: mderive_eq (mderive_mul (mderive_mulr _ (mderive_mulr _ (expm_derive comp u))) (mderive_tr (expm_derive comp u))) _.
  by rewrite trmx_mul /X !mulmxA.
pose Q := Qint comp comp_disp.
pose D u := comp *m Q u + Q u *m comp^T + comp_disp *m comp_disp^T - X u.
have D0 u : D u = 0.
  apply: (@linear_unique _ _ comp comp^T D) => [v|]; last by rewrite /D /Q /Qint mfd_Q0 /X scale0r expm0 mulmx0 mul0mx add0r add0r mul1mx trmx1 mulmx1 subrr.
  apply: mderive_eq (mderive_sub (mderive_add (mderive_add (mderive_mull comp (mfd_Q_derive _ _ v)) (mderive_mulr comp^T (mfd_Q_derive _ _ v))) (mderive_cst _ v)) (dX v)) _.
  by rewrite addr0 /D -/(Qint _ _ v) -/(Q v) mulmxBr mulmxBl opprD addrACA.
apply: mderive_eq (mfd_Q_derive _ _ t) _; apply/eqP; rewrite -subr_eq0; exact/eqP/(D0 t).
Qed.
Lemma G_derive t : is_derive G t ((y t ord_max 0) ^+ 2).
Proof.
have := mderive_mulr x (mderive_mull x^T (Qint_derive t)) => /(_ 0 0) h.
apply: derive_eq h _.
have tZ : (t *: comp)^T = t *: comp^T by apply/matrixP => i j; rewrite !mxE.
have e : comp_disp^T *m (expm (t *: comp))^T *m x = (y t ord_max 0)%:M.
  rewrite -expm_tr tZ -mulmxA -/(y t); apply/matrixP => i j; rewrite !mxE !ord1 eqxx mulr1n.
  rewrite (bigD1 ord_max) //= big1 ?addr0 => [|k kn]; first by rewrite !mxE eqxx mul1r.
  by rewrite !mxE; case: eqP => [e|_]; [case/eqP: kn; exact: val_inj|rewrite mul0r].
have e' : x^T *m expm (t *: comp) *m comp_disp = (y t ord_max 0)%:M.
  by apply: trmx_inj; rewrite !trmx_mul trmxK tr_scalar_mx mulmxA e.
have -> : x^T *m (expm (t *: comp) *m comp_disp *m comp_disp^T *m (expm (t *: comp))^T) *m x =
    (x^T *m expm (t *: comp) *m comp_disp) *m (comp_disp^T *m (expm (t *: comp))^T *m x) by rewrite !mulmxA.
by rewrite e e' mul_scalar_mx !mxE eqxx mulr1n expr2.
Qed.
(** Zero variance at [h]: the last component of [y] vanishes before. *)
Lemma G_mono a b : Rle a b -> Rle (G a) (G b).
Proof.
move=> ab; case: (MVT_gen G a b (fun t => (y t ord_max 0) ^+ 2)) => [t _|t _|t [_ e]]; first exact: G_derive.
  apply/continuity_pt_filterlim; apply: (@ex_derive_continuous _ R_NormedModule); eexists; exact: G_derive.
have h : Rle 0 ((y t ord_max 0) ^+ 2) by apply/leRP; exact: sqr_ge0.
move: e h; set w := _ ^+ 2 => e h.
have e2 (s v a' b' : R) : (v - s = w * (b' - a'))%coqR -> Rle a' b' -> Rle s v by move=> q1 q2; nra.
exact: (e2 _ _ _ _ e ab).
Qed.
Lemma G0 : G 0 = 0.
Proof. by rewrite /G /Qint mfd_Q0 mulmx0 mul0mx mxE. Qed.
Lemma derive_const_on (f : R -> R) h t (l : R) : (forall u, Rlt 0 u -> Rlt u h -> f u = 0) -> Rlt 0 t -> Rlt t h -> is_derive f t l -> l = 0.
Proof.
move=> z t0 th D.
have D' : is_derive (fun=> 0 : R) t l.
  apply: (is_derive_ext_loc _ _ _ _ _ D).
  have e0 : Rlt 0 (Rmin t (h - t)%coqR) by apply: Rmin_pos; lra.
  exists (mkposreal _ e0) => u hu; apply/z.
    have := Rmin_l t (h - t)%coqR; move: hu; rewrite /ball /= /AbsRing_ball /abs /minus /plus /opp /= => /Rabs_def2; lra.
  have := Rmin_r t (h - t)%coqR; move: hu; rewrite /ball /= /AbsRing_ball /abs /minus /plus /opp /= => /Rabs_def2; lra.
by rewrite -(is_derive_unique _ _ _ D') Derive_const.
Qed.
Lemma y_zero h : Rlt 0 h -> G h = 0 -> forall k (i : 'I_nu.+1), (i + k)%N = nu -> forall u, Rlt 0 u -> Rlt u h -> y u i 0 = 0.
Proof.
move=> h0 gh.
have last u : Rlt 0 u -> Rlt u h -> y u ord_max 0 = 0.
  move=> u0 uh; have z v : Rlt 0 v -> Rlt v h -> G v = 0.
    by move=> v0 vh; have := G_mono (Rlt_le _ _ v0); have := G_mono (Rlt_le _ _ vh); rewrite gh G0; lra.
  by have /eqP := derive_const_on z u0 uh (G_derive u); rewrite expf_eq0 => /eqP.
elim=> [|k IH] i.
  by rewrite addn0 => e u; have -> : i = ord_max by [exact: val_inj]; exact: last.
move=> e u u0 uh.
have il : (i < nu)%N by rewrite -[X in (_ < X)%N]e addnS ltnS leq_addr.
have iS : (i.+1 < nu.+1)%N by [].
pose j := Ordinal iS.
have z v : Rlt 0 v -> Rlt v h -> y v j 0 = 0 by apply: IH; rewrite -[RHS]e addnS addSn.
have := derive_const_on z u0 uh (y_derive u j 0).
suff -> : (comp^T *m y u) j 0 = y u i 0 by [].
rewrite mxE (bigD1 i) // big1 => [|l li]; rewrite [comp^T _ _]mxE [comp _ _]mxE.
  by rewrite ifF ?eqxx ?mul1r; [exact: addr0|apply/negbTE; rewrite neq_ltn il].
case: eqP => [e'|_]; first by have -> : l = ord_max by [exact: val_inj]; rewrite last // mulr0.
by rewrite eqSS; case: eqP => [e'|_]; [case/eqP: li; exact: val_inj|rewrite mul0r].
Qed.
End Form.
Lemma Qint_sym n w (F : 'M[R]_n) (L : 'M[R]_(n, w)) h : (Qint F L h)^T = Qint F L h.
Proof.
rewrite /Qint mfd_Q; apply/matrixP => i j; rewrite !mxE; apply: RInt_ext => u _.
have e (X : 'M[R]_n) : X^T = X -> X j i = X i j by move=> h1; rewrite -[in LHS]h1 mxE.
by apply: e; rewrite !trmx_mul !trmxK !mulmxA.
Qed.
Lemma Qint_pd h : Rlt 0 h -> pd (R := K) (Qint comp comp_disp h).
Proof.
move=> h0; split=> [|x nx]; first exact: Qint_sym.
have g0 : Rle 0 (G x h) by have := G_mono x (Rlt_le _ _ h0); rewrite G0.
apply/ltRP; rewrite /qform -/(G x h); case: g0 => // g0; case/eqP: nx.
have z : y x (h / 2)%coqR = 0.
  apply/matrixP => i j; rewrite ord1 [RHS]mxE; apply: (@y_zero x h h0 (esym g0) (nu - i)%N); [by rewrite subnKC // -ltnS|lra|lra].
have := expmN comp^T (- (h / 2))%coqR => E.
rewrite -[x]mul1mx -E opprK -mulmxA -/(y x _) z mulmx0.
by [].
Qed.
End Companion.

(** ** The exact discretisation *)
Definition sde_model n w (F : 'M[R]_n) (L : 'M[R]_(n, w)) (h : R) : lingauss K n n :=
  LinGauss (R := K) (expm (h *: F)) 0 (mRInt (fun u => expm (u *: F) *m L *m L^T *m (expm (u *: F))^T) 0 h).
Lemma sde_modelE n w (F : 'M[R]_n) (L : 'M[R]_(n, w)) h : sde_model F L h = LinGauss (R := K) (expm (h *: F)) 0 (Qint F L h).
Proof. by rewrite /Qint mfd_Q. Qed.

Lemma disc0 n w (G : 'M[R]_n) (L : 'M[R]_(n, w)) h : M_LTISDE.discretise G 0 L h = LTI (expm (h *: G)) 0 (Qint G L h).
Proof. by rewrite discE eqxx -(mfd_A G L). Qed.

Section Transition.
Variables (nu d : nat) (c : 'I_nu.+1 -> R).
Variable cholesky : forall n, 'M[R]_n -> option 'M[R]_n.
Variable qr : forall p q, 'M[R]_(p, q) -> 'M[R]_(minn p q, q).
Hypothesis chH : cholesky_fun (R := K) cholesky.
Hypothesis HQ : forall p q (B : 'M[R]_(p, q)), is_qr_r (R := K) B (qr B).
Let F := ikron (R := K) d (comp c).

Lemma precond_model_ok h : Rlt 0 h -> exists T0 Pi, [/\ precon_inv (R := K) nu d h = Some Pi, precond_model cholesky 0 F h Pi = Some T0,
  factoredT T0, pd (s_ncov T0) & sde_model F (disp nu d) h = conjT (precon (R := K) nu d h) Pi (clsT T0)].
Proof.
move=> h0; have hn : (h : K) != 0 by apply/eqP => e; move: h0; rewrite e; exact: Rlt_irrefl.
have [Pi E] : exists Pi, precon_inv (R := K) nu d h = Some Pi by rewrite precon_invE //; eexists.
have [PPi PiP] := precon_mulV E; have Ps := precon_tr (R := K) nu d h; have Pis := precon_inv_tr E.
have q0 : pd (R := K) (Qint F (disp nu d) h).
  by rewrite /F /disp -/(comp_disp nu) Qint_ikron; apply: ikron_pd; exact: Qint_pd.
have uPi : Pi \in unitmx by case: (mulmx1_unit PPi).
have qE := Qint_conj F (disp nu d) h PPi.
have pq : pd (R := K) (Qint (Pi *m F *m precon (R := K) nu d h) (Pi *m disp nu d) h) by rewrite qE; exact: pd_conj.
have [L [eL [_ _ L2]]] := chH pq.
exists (SLinGauss (R := K) (expm (h *: (Pi *m F *m precon (R := K) nu d h))) 0 (Qint (Pi *m F *m precon (R := K) nu d h) (Pi *m disp nu d) h) L), Pi.
split=> //.
  by rewrite /precond_model /force mulmx0 /lti_model disc0 [M_LTISDE.ncov _]/= scale0r addr0 eL.
rewrite sde_modelE /conjT /= mulmx0; congr LinGauss.
  rewrite (expm_conj F h PPi); move: (expm _) => Z; by rewrite !mulmxA PPi mul1mx -mulmxA PPi mulmx1.
rewrite qE; move: (Qint _ _ _) => Z; by rewrite Ps Pis !mulmxA PPi mul1mx -mulmxA PiP mulmx1.
Qed.
Implicit Types rv : rvar K (d * nu.+1).
Lemma integ_fwd_ok f h g rv : Rlt 0 h -> Rle 0 g -> f = FSqrt \/ Rlt 0 g -> sound rv ->
  [/\ exists2 s, integ_fwd cholesky qr 0 F f h g rv = Some s
        & cls s = fwd_classic (sde_model F (disp nu d) h) g (plain rv) /\ factored s,
      integ_crosscov cholesky 0 F h rv = Some (fwd_crosscov (sde_model F (disp nu d) h) (plain rv))
    & integ_gain cholesky qr 0 F f h g rv = gain_classic (sde_model F (disp nu d) h) g (plain rv)].
Proof.
move=> h0 /leRP g0 Hg sR; have [T0 [Pi [E2 E1 fT0 pT0 ->]]] := precond_model_ok h0.
have [PPi PiP] := precon_mulV E2; have Ps := precon_tr (R := K) nu d h; have Pis := precon_inv_tr E2.
have [s1 [a1 a2 a3]] := apply_ok chH Pi sR.
rewrite /integ_fwd /integ_crosscov /integ_gain E2 /= a1 /= E1 /=.
rewrite (conj_fwd Ps Pis) (conj_gain PPi Ps Pis) (conj_crosscov PPi Ps Pis) -a2.
split.
- have [r [r1 r2 r3]] := disc_fwdE HQ fT0 a3 g0 f; rewrite r1 /=.
  case: (apply_ok chH (precon (R := K) nu d h) (r3 _)) => [|s [-> s2 s3]].
    case: Hg => [->|/ltRP gp]; [by left|right].
    have := congr1 (@cov _ _) r2; rewrite /= => ->.
    rewrite /fwd_crosscov /= mulmxA; apply: pd_addr; last by apply: pdZ.
    by apply: psd_conj; rewrite -a3; apply: psd_gram.
  by exists s => //; rewrite s2 r2.
- by rewrite /fwd_crosscov /=.
- by rewrite disc_gainE // Pis.
Qed.
Lemma integ_bwd_ok f b h g ob rv fw : Rlt 0 h -> Rle 0 g -> sound ob -> sound rv -> (if fw is Some w then sound w else True) ->
  match bwd_classic (sde_model F (disp nu d) h) g (plain ob) (plain rv) None with
  | Some r => b = BSqrt \/ pd (cov r) ->
      exists2 s, integ_bwd cholesky qr 0 F f b h g ob rv fw None = Some s & cls s = r /\ factored s
  | None => integ_bwd cholesky qr 0 F f b h g ob rv fw None = None
  end.
Proof.
move=> h0 /leRP g0 sO sR sF; have [T0 [Pi [E2 E1 fT0 pT0 ->]]] := precond_model_ok h0.
have [PPi PiP] := precon_mulV E2; have Ps := precon_tr (R := K) nu d h; have Pis := precon_inv_tr E2.
have [s1 [a1 a2 a3]] := apply_ok chH Pi sR; have [o1 [b1 b2 b3]] := apply_ok chH Pi sO.
have [fw1 F1] : exists fw1, opt_app (apply_precon cholesky (0 : K) Pi) fw = Some fw1.
  case: fw sF => [w|] sF /=; last by exists None.
  by have [w1 [-> _ _]] := apply_ok chH Pi sF; exists (Some w1).
rewrite (conj_bwd PPi PiP Ps Pis) -a2 -b2.
have -> : integ_bwd cholesky qr 0 F f b h g ob rv fw None
    = obind (apply_precon cholesky (0 : K) (precon (R := K) nu d h)) (disc_bwd (R := K) qr f b T0 g o1 s1 fw1 None).
  by rewrite /integ_bwd E2 /= b1 /= a1 /= F1 /= E1.
have := disc_bwdE HQ fT0 a3 g0 f b fw1 b3; case: bwd_classic => [r|] /=; last by move=> ->.
case=> r' -> [r2 r3] Hb /=.
case: (apply_ok chH (precon (R := K) nu d h) (r3 _)) => [|s [-> s2 s3]].
  case: Hb => [->|H]; [by left|right].
  have uPi : Pi \in unitmx by case: (mulmx1_unit PPi).
  have := pd_conj uPi H; rewrite /= Ps Pis !mulmxA PiP mul1mx -mulmxA PPi mulmx1.
  by [].
by exists s => //; rewrite s2 r2.
Qed.
End Transition.
