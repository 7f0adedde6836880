(** Lemmas for the integrated Wiener process: Kronecker blocks, the Taylor matrix and
    the covariance of the iterated integrals as polynomials in the step. *)
From mathcomp Require Import all_ssreflect all_algebra.
From mathcomp Require Import polyrcf.
From Verif Require Import M_Gauss M_Sqrt M_IWP L_DMx L_Zmod L_Kalman L_Psd L_Sqrt L_Chol L_AField.
Set Implicit Arguments.
Unset Strict Implicit.
Unset Printing Implicit Defensive.
Import Order.Theory GRing.Theory Num.Theory.
Local Open Scope ring_scope.

Section IKron.
Variable R : rcfType.
Variable d : nat.

Lemma div_lt q (i : 'I_(d * q.+1)) : (i %/ q.+1 < d)%N.
Proof. by rewrite ltn_divLR. Qed.
Lemma inord_mod q i : (inord (i %% q.+1) : 'I_q.+1) = (i %% q.+1)%N :> nat.
Proof. by rewrite inordK // ltn_mod. Qed.

Lemma ikron_mul p q r (A : 'M[R]_(p.+1, q.+1)) (B : 'M[R]_(q.+1, r.+1)) :
  ikron d A *m ikron d B = ikron d (A *m B).
Proof.
apply/matrixP => i j; rewrite !mxE.
pose f a b : R := (if (i %/ p.+1 == a)%N then A (inord (i %% p.+1)) (inord b) else 0)
  * (if (a == j %/ r.+1)%N then B (inord b) (inord (j %% r.+1)) else 0).
rewrite (eq_bigr (fun k : 'I__ => f (k %/ q.+1)%N (k %% q.+1)%N)); last by move=> k _; rewrite !mxE.
rewrite sum_pair (bigD1 (Ordinal (div_lt i))) //= [X in _ + X]big1 ?addr0; last first.
  move=> a /negbTE na; apply: big1 => b _; rewrite /f [(_ %/ _ == _)%N]eq_sym.
  by move: na; rewrite -val_eqE /= => ->; rewrite mul0r.
rewrite /f eqxx; case: eqP => e; last by apply: big1 => b _; rewrite mulr0.
by apply: eq_bigr => b _; rewrite inord_val.
Qed.
Lemma ikron_tr p q (A : 'M[R]_(p.+1, q.+1)) : (ikron d A)^T = ikron d A^T.
Proof. by apply/matrixP => i j; rewrite !mxE eq_sym. Qed.
Lemma ikron1 q : ikron d (1%:M : 'M[R]_q.+1) = 1%:M.
Proof.
apply/matrixP => i j; rewrite !mxE -!val_eqE /= !inord_mod.
case: (boolP (i == j :> nat)) => [/eqP ->|ne]; first by rewrite !eqxx.
case: eqP => e1 //; case: eqP => e2 //; case/negP: ne.
by rewrite (divn_eq i q.+1) (divn_eq j q.+1) e1 e2.
Qed.
Lemma ikronD p q (A B : 'M[R]_(p.+1, q.+1)) : ikron d (A + B) = ikron d A + ikron d B.
Proof. by apply/matrixP => i j; rewrite !mxE; case: eqP => e; rewrite ?addr0. Qed.
Lemma ikronZ p q a (A : 'M[R]_(p.+1, q.+1)) : ikron d (a *: A) = a *: ikron d A.
Proof. by apply/matrixP => i j; rewrite !mxE; case: eqP => e; rewrite ?mulr0. Qed.
Lemma ikron0 p q : ikron d (0 : 'M[R]_(p.+1, q.+1)) = 0.
Proof. by apply/matrixP => i j; rewrite !mxE; case: eqP. Qed.
Lemma ikron_unit q (A : 'M[R]_q.+1) : A \in unitmx -> ikron d A \in unitmx.
Proof. by move=> u; case: (mulmx1_unit (_ : ikron d A *m ikron d (invmx A) = 1%:M)) => //; rewrite ikron_mul mulmxV ?ikron1. Qed.

Lemma pd_gram n (L : 'M[R]_n) : L \in unitmx -> pd (L *m L^T).
Proof.
move=> u; split; first by rewrite trmx_mul trmxK.
move=> x x0; rewrite lt_neqAle eq_sym (proj2 (psd_gram L)) andbT; apply/negP => /eqP H.
case/negP: x0; apply/eqP.
have y0 : L^T *m x = 0.
  by apply: dot_eq0; move: H; rewrite /qform trmx_mul trmxK -!mulmxA.
by rewrite -(mul1mx x) -(mulVmx (_ : L^T \in unitmx)) ?unitmx_tr // -mulmxA y0 mulmx0.
Qed.
Lemma ikron_pd q (A : 'M[R]_q.+1) : pd A -> pd (ikron d A).
Proof.
move=> pA; have [_ _ E] := chol_ofP (pd_psd pA); have := pd_unit pA; rewrite -E unit_gram => u.
by rewrite -ikron_mul -ikron_tr; apply: pd_gram; apply: ikron_unit.
Qed.
End IKron.

(** ** Polynomials: vanishing derivative and sign of an integral *)
Section Poly.
Variable R : rcfType.
Implicit Types p : {poly R}.

Lemma deriv_eq0 p : p^`() = 0 -> p.[0] = 0 -> p = 0.
Proof.
move=> D0 p0; apply/polyP => -[|i]; first by rewrite -horner_coef0 p0 coef0.
have := congr1 (fun q : {poly R} => q`_i) D0; rewrite coef_deriv !coef0 => /eqP.
by rewrite mulrn_eq0 /= => /eqP.
Qed.
Lemma deriv_inj p q : p^`() = q^`() -> p.[0] = q.[0] -> p = q.
Proof.
move=> D E; apply/eqP; rewrite -subr_eq0; apply/eqP/deriv_eq0; rewrite ?derivB ?D ?subrr //.
by rewrite hornerD hornerN E subrr.
Qed.
(** The integral of a nonzero square over a non-degenerate interval is positive. *)
Lemma integral_sq_gt0 p f h : p != 0 -> f^`() = p ^+ 2 -> f.[0] = 0 -> 0 < h -> 0 < f.[h].
Proof.
move=> p0 D f0 h0.
have mono a b : a < b -> f.[a] <= f.[b].
  move=> ab; have [c _ E] := mvt f ab.
  by rewrite -subr_ge0 E D hornerE mulr_ge0 ?sqr_ge0 // subr_ge0 ltW.
have le0 : 0 <= f.[h] by rewrite -f0 mono.
rewrite lt_neqAle le0 andbT; apply/negP => /eqP E.
have z c : 0 < c -> c < h -> f.[c] = 0.
  by move=> c0 ch; apply/le_anti; rewrite {1}E (mono _ _ ch) /= -f0 mono.
have nf : f != 0 by apply: contraNneq p0 => F0; move: D; rewrite F0 deriv0 => /esym/eqP; rewrite sqrf_eq0.
pose rs := [seq h / (k.+2)%:R | k <- iota 0 (size f)].
have := max_poly_roots nf (rs := rs); rewrite size_map size_iota ltnn => H.
suff : false by []; apply: H.
  apply/allP => _ /mapP [k _ ->]; apply/rootP; apply: z; first by rewrite divr_gt0 ?ltr0n.
  by rewrite ltr_pdivr_mulr ?ltr0n // ltr_pmulr // ltr1n.
rewrite map_inj_uniq ?iota_uniq // => a b /(mulfI (lt0r_neq0 h0)) /invr_inj /eqP.
by rewrite eqr_nat => /eqP [].
Qed.
End Poly.

Section Taylor.
Variable R : rcfType.
Implicit Types (p q : {poly R}) (h : R).

Lemma fact_neq0 n : (n`!)%:R != 0 :> R.
Proof. by rewrite pnatr_eq0 -lt0n fact_gt0. Qed.
Lemma binV n k : (k <= n)%N -> ((n`!)%:R)^-1 * ('C(n, k))%:R = ((k`!)%:R)^-1 * (((n - k)`!)%:R)^-1 :> R.
Proof.
move=> le; rewrite -(bin_fact le) !natrM !invfM mulrAC mulVf ?mul1r //.
by rewrite pnatr_eq0 -lt0n bin_gt0.
Qed.
Lemma exp_binomial p q n :
  \sum_(k < n.+1) (((k`!)%:R)^-1 * (((n - k)`!)%:R)^-1) *: (p ^+ k * q ^+ (n - k))
  = ((n`!)%:R)^-1 *: (p + q) ^+ n.
Proof.
rewrite [p + q]addrC exprDn scaler_sumr; apply: eq_bigr => k _.
by rewrite -binV ?leq_ord // [q ^+ _ * _]mulrC -scaler_nat scalerA.
Qed.
Lemma exp_binomial_num (a b : R) n :
  \sum_(k < n.+1) (a ^+ k / (k`!)%:R) * (b ^+ (n - k) / ((n - k)`!)%:R) = (a + b) ^+ n / (n`!)%:R.
Proof.
have := congr1 (fun p : {poly R} => p.[0]) (exp_binomial a%:P b%:P n).
rewrite hornerZ horner_exp hornerD !hornerC horner_sum [RHS]mulrC => <-.
by apply: eq_bigr => k _; rewrite hornerZ hornerM !horner_exp !hornerC mulrACA [LHS]mulrC.
Qed.

Variable nu : nat.
(** The Taylor shift of the stack of derivatives. *)
Definition taylor (h : R) : 'M[R]_nu.+1 :=
  \matrix_(i, j) (if (i <= j)%N then h ^+ (j - i) / ((j - i)`!)%:R else 0).
(** Sensitivity to the driving noise, as a polynomial in the elapsed time. *)
Definition bpoly (i : 'I_nu.+1) : {poly R} := (((nu - i)`!)%:R)^-1 *: 'X^(nu - i).
Definition qpoly (i j : 'I_nu.+1) : {poly R} :=
  ((((nu - i)`!)%:R)^-1 * (((nu - j)`!)%:R)^-1 / (((nu - i) + (nu - j)).+1)%:R)
    *: 'X^(((nu - i) + (nu - j)).+1).
Definition qmx h : 'M[R]_nu.+1 := \matrix_(i, j) (qpoly i j).[h].

Lemma sum_upper (V : zmodType) (F : nat -> nat -> V) (i : 'I_nu.+1) (j : nat) : (j < nu.+1)%N -> (i <= j)%N ->
  \sum_(k < nu.+1) (if (i <= k)%N && (k <= j)%N then F (k - i)%N (j - k)%N else 0)
  = \sum_(k < (j - i).+1) F k ((j - i) - k)%N.
Proof.
move=> jn ij; rewrite -big_mkcond /=.
rewrite -(big_mkord (fun k => (i <= k)%N && (k <= j)%N) (fun k => F (k - i)%N (j - k)%N)).
rewrite -(big_mkord xpredT (fun k => F k ((j - i) - k)%N)).
rewrite (big_cat_nat _ _ _ (leq0n i)) ?(leq_trans ij) //=; last exact: ltnW.
rewrite [X in X + _]big1_seq ?add0r; last first.
  by move=> k; rewrite mem_index_iota => /andP [/andP [ik _]] /andP [_]; rewrite ltnNge ik.
rewrite (@big_cat_nat _ _ _ j.+1) //=; last exact: leq_trans ij _.
rewrite [X in _ + X]big1_seq ?addr0; last first.
  by move=> k; rewrite mem_index_iota => /andP [/andP [_ kj]] /andP []; rewrite ltnNge kj.
rewrite -{1}[i : nat]add0n big_addn subSn // !big_mkord; apply: eq_big => k.
  by have := ltn_ord k; rewrite ltnS leq_subRL // addnC leq_addl => ->.
by move=> _; rewrite addnK subnDA subnAC.
Qed.

Lemma taylor_mul a b : taylor a *m taylor b = taylor (a + b).
Proof.
apply/matrixP => i j; rewrite !mxE.
pose F u v : R := (a ^+ u / (u`!)%:R) * (b ^+ v / (v`!)%:R).
rewrite (eq_bigr (fun k : 'I_nu.+1 =>
  if (i <= k)%N && (k <= j)%N then F (k - i)%N (j - k)%N else 0)); last first.
  by move=> k _; rewrite !mxE; do 2!case: leq => //=; rewrite ?mul0r ?mulr0.
case: leqP => ij; first by rewrite sum_upper //= exp_binomial_num.
by apply: big1 => k _; case: andP => // -[ik kj]; move: (leq_trans ik kj); rewrite leqNgt ij.
Qed.
Lemma taylor0 : taylor 0 = 1%:M.
Proof.
apply/matrixP => i j; rewrite !mxE expr0n subn_eq0 -val_eqE /= eqn_leq.
case: leqP => // ij; case: leqP => /= ji; last by rewrite mul0r.
by rewrite (_ : j - i = 0)%N ?divr1 //; apply/eqP; rewrite subn_eq0.
Qed.
Lemma qmx0 : qmx 0 = 0.
Proof. by apply/matrixP => i j; rewrite !mxE hornerZ hornerXn expr0n mulr0. Qed.
Lemma qpoly_deriv i j : (qpoly i j)^`() = bpoly i * bpoly j.
Proof.
rewrite /qpoly /bpoly derivZ derivXn /= -scalerAl -scalerAr scalerA -exprD -scaler_nat scalerA.
by rewrite -!mulrA mulVf ?mulr1 // pnatr_eq0.
Qed.

(** Shifting the noise polynomials is the Taylor matrix. *)
Lemma taylor_bpoly c i : \sum_j taylor c i j *: bpoly j = bpoly i \Po ('X + c%:P).
Proof.
pose F u v : {poly R} := (c ^+ u / (u`!)%:R) *: (((v`!)%:R)^-1 *: 'X^v).
rewrite (eq_bigr (fun k : 'I_nu.+1 =>
  if (i <= k)%N && (k <= nu)%N then F (k - i)%N (nu - k)%N else 0)); last first.
  by move=> k _; rewrite !mxE leq_ord andbT; case: leq; rewrite ?scale0r.
rewrite sum_upper ?leq_ord // comp_polyZ rmorphX /= comp_polyX addrC -exp_binomial; apply: eq_bigr => k _.
by rewrite /F -polyC_exp mul_polyC !scalerA; congr (_ *: _); rewrite [RHS]mulrC mulrA.
Qed.
Lemma taylor_bpolyE c i x : \sum_j taylor c i j * (bpoly j).[x] = (bpoly i).[x + c].
Proof.
have := congr1 (fun p : {poly R} => p.[x]) (taylor_bpoly c i).
by rewrite horner_comp !hornerE horner_sum => <-; apply: eq_bigr => j _; rewrite hornerZ.
Qed.

(** The covariance of the accumulated noise over two consecutive steps. *)
Lemma qmx_add a b : qmx (a + b) = taylor b *m qmx a *m (taylor b)^T + qmx b.
Proof.
pose E i j : {poly R} :=
  \sum_k \sum_l (taylor b i k * taylor b j l) *: qpoly k l + ((qpoly i j).[b])%:P.
have dX : ('X + b%:P)^`() = 1 :> {poly R} by rewrite derivD derivX derivC addr0.
have H i j : E i j = qpoly i j \Po ('X + b%:P).
  apply: deriv_inj.
    rewrite deriv_comp dX mulr1 qpoly_deriv comp_polyM -!taylor_bpoly.
    rewrite /E derivD derivC addr0 raddf_sum mulr_suml; apply: eq_bigr => k _.
    rewrite raddf_sum mulr_sumr; apply: eq_bigr => l _.
    by rewrite /= derivZ qpoly_deriv -[RHS]scalerAl -[X in _ = _ *: X]scalerAr scalerA.
  rewrite horner_comp !hornerE horner_sum big1 ?add0r // => k _; rewrite horner_sum big1 // => l _.
  by rewrite !hornerZ hornerXn expr0n !mulr0.
apply/matrixP => i j; have := congr1 (fun p : {poly R} => p.[a]) (H i j).
rewrite horner_comp [_.[a] in RHS]hornerD hornerX hornerC => e.
rewrite !mxE -e /E hornerD hornerC; congr (_ + _).
rewrite horner_sum; under [LHS]eq_bigr => k _ do rewrite horner_sum.
rewrite [LHS]exchange_big; apply: eq_bigr => l _; rewrite !mxE mulr_suml.
by apply: eq_bigr => k _; rewrite !mxE !hornerZ mulrAC.
Qed.

Lemma qmx_sym h : (qmx h)^T = qmx h.
Proof. by apply/matrixP => i j; rewrite !mxE /qpoly addnC [(_ `!)%:R^-1 * _]mulrC. Qed.
Lemma qmx_pd h : 0 < h -> pd (qmx h).
Proof.
move=> h0; split; first exact: qmx_sym.
move=> x x0; pose p := \sum_i x i 0 *: bpoly i.
pose f := \sum_i \sum_j (x i 0 * x j 0) *: qpoly i j.
have fE y : f.[y] = qform (qmx y) x.
  rewrite /qform !mxE horner_sum; under [LHS]eq_bigr => k _ do rewrite horner_sum.
  rewrite [LHS]exchange_big; apply: eq_bigr => j _; rewrite !mxE mulr_suml.
  by apply: eq_bigr => i _; rewrite !mxE !hornerZ mulrAC.
rewrite -fE; apply: (integral_sq_gt0 (p := p)) => //; last first.
- by rewrite fE qmx0 /qform mulmx0 mul0mx mxE.
- rewrite expr2 {1}/p mulr_suml raddf_sum; apply: eq_bigr => i _; rewrite raddf_sum mulr_sumr.
  by apply: eq_bigr => j _; rewrite /= derivZ qpoly_deriv -[RHS]scalerAl -[X in _ = _ *: X]scalerAr scalerA.
- apply: contraNneq x0 => p0; apply/eqP/matrixP => i k; rewrite ord1 mxE.
  have := congr1 (fun q : {poly R} => q`_(nu - i)) p0; rewrite coef0 coef_sum (bigD1 i) //=.
  rewrite big1 => [|j ji]; last first.
    rewrite !coefZ coefXn (_ : (_ == _) = false) ?mulr0 //; apply/negP => /eqP e; case/negP: ji.
    by apply/eqP/val_inj; rewrite /= -(subKn (leq_ord i)) e subKn // leq_ord.
  rewrite addr0 !coefZ coefXn eqxx mulr1 => /eqP; rewrite mulf_eq0 invr_eq0.
  by rewrite (negPf (fact_neq0 _)) orbF => /eqP.
Qed.
End Taylor.

(** ** The discretisation in closed form *)
Section Model.
Variable R : rcfType.
Variables nu d : nat.
Implicit Types h g : R.

Definition dg q (v : 'I_q -> R) : 'M[R]_q := \matrix_(i, j) (v i *+ (i == j)).
Lemma dg_mull q r (v : 'I_q -> R) (A : 'M[R]_(q, r)) i j : (dg v *m A) i j = v i * A i j.
Proof.
rewrite mxE (bigD1 i) //= big1 ?addr0; first by rewrite mxE eqxx mulr1n.
by move=> k /negPf ki; rewrite mxE eq_sym ki mulr0n mul0r.
Qed.
Lemma dg_tr q (v : 'I_q -> R) : (dg v)^T = dg v.
Proof. by apply/matrixP => i j; rewrite !mxE eq_sym; case: eqP => // ->. Qed.
Lemma dg_mulr q r (v : 'I_q -> R) (A : 'M[R]_(r, q)) i j : (A *m dg v) i j = A i j * v j.
Proof. by rewrite -[A *m _]trmxK trmx_mul mxE dg_tr dg_mull mxE mulrC. Qed.

Definition pvec h (i : 'I_nu.+1) : R := (`|h| ^+ power i * Num.sqrt `|h|) / (power i)`!%:R.
Lemma preconE h : precon nu d h = ikron d (dg (pvec h)). Proof. by []. Qed.
Lemma pvec_gt0 h i : h != 0 -> 0 < pvec h i.
Proof.
move=> h0; have a0 : 0 < `|h| by rewrite normr_gt0.
by rewrite divr_gt0 ?ltr0n ?fact_gt0 // mulr_gt0 ?exprn_gt0 // sqrtr_gt0.
Qed.
Lemma precon_invE h : h != 0 -> precon_inv nu d h = Some (ikron d (dg (fun i => (pvec h i)^-1))).
Proof.
move=> h0; rewrite /precon_inv (negPf h0); congr Some; congr ikron.
by apply/matrixP => i j; rewrite !mxE; congr (_ *+ _); rewrite /pvec mul1r !invfM.
Qed.
Lemma dgV h : h != 0 -> dg (pvec h) *m dg (fun i => (pvec h i)^-1) = 1%:M.
Proof.
move=> h0; apply/matrixP => i j; rewrite dg_mull !mxE; case: eqP => [->|_]; last by rewrite mulr0n mulr0.
by rewrite mulr1n mulfV // lt0r_neq0 // pvec_gt0.
Qed.
Lemma precon_mulV h Pi : precon_inv nu d h = Some Pi ->
  precon nu d h *m Pi = 1%:M /\ Pi *m precon nu d h = 1%:M.
Proof.
case: (eqVneq h 0) => [->|h0]; first by rewrite /precon_inv eqxx.
rewrite precon_invE // => -[<-]; rewrite preconE !ikron_mul.
have e := dgV h0; rewrite e ikron1; split=> //.
by rewrite (mulmx1C e) ikron1.
Qed.
Lemma precon_tr h : (precon nu d h)^T = precon nu d h.
Proof. by rewrite preconE ikron_tr dg_tr. Qed.
Lemma precon_inv_tr h Pi : precon_inv nu d h = Some Pi -> Pi^T = Pi.
Proof.
case: (eqVneq h 0) => [->|h0]; first by rewrite /precon_inv eqxx.
by rewrite precon_invE // => -[<-]; rewrite ikron_tr dg_tr.
Qed.

Lemma pvecE h i : h != 0 -> pvec h i = `|h| ^+ (nu - i) * Num.sqrt `|h| / ((nu - i)`!)%:R.
Proof. by []. Qed.
Lemma taylorE h : h != 0 ->
  dg (pvec h) *m flip (pascal R nu.+1) *m dg (fun i => (pvec h i)^-1) = taylor nu `|h|.
Proof.
move=> h0; have a0 : `|h| != 0 by rewrite normr_eq0.
have s0 : Num.sqrt `|h| != 0 by rewrite sqrtr_eq0 -ltNge normr_gt0.
apply/matrixP => i j; rewrite dg_mulr dg_mull !mxE /= !subSS.
case: leqP => ij; last first.
  by rewrite bin_small ?mulr0 ?mul0r // ltn_sub2l // (leq_trans ij) // leq_ord.
have e : (nu - i = (nu - j) + (j - i))%N by rewrite addnBA // subnK // leq_ord.
have := binV R (leq_addr (j - i) (nu - j)); rewrite addKn => b.
rewrite !pvecE // e exprD; move: (nu - j)%N (j - i)%N b => m k b.
rewrite -[_ / _ * ('C(_, _))%:R]mulrA b.
by apply: (af_taylor (mc_field R)); apply/eqP; rewrite ?fact_neq0 ?expf_neq0.
Qed.
Lemma qmxE h : h != 0 ->
  dg (pvec h) *m flip (hilbert R nu.+1) *m dg (pvec h) = qmx nu `|h|.
Proof.
move=> h0; apply/matrixP => i j; rewrite dg_mulr dg_mull !mxE /= !subSS !pvecE //.
rewrite hornerZ hornerXn exprS exprD; move: (nu - i)%N (nu - j)%N => m k.
have e : Num.sqrt `|h| * Num.sqrt `|h| = `|h| by rewrite -expr2 sqr_sqrtr // normr_ge0.
rewrite -[X in _ = _ * (X * _)]e.
by apply: (af_hilbert (mc_field R)); apply/eqP; rewrite ?fact_neq0 ?pnatr_eq0.
Qed.
End Model.
