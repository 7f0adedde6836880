(** Algebra of Gaussian integrals: completing the square in one variable, products of two bell curves. *)
From mathcomp Require Import all_ssreflect all_algebra.
From Verif Require Import L_Ring M_DMx L_DMx L_Kalman L_Sqrt L_Chol L_Zmod M_BQ L_BQ L_BQ2.
Set Implicit Arguments.
Unset Strict Implicit.
Unset Printing Implicit Defensive.
Import Order.Theory GRing.Theory Num.Theory.
Local Open Scope ring_scope.

Section GaussMx.
Variable R : rcfType.

Section Block.
Variables (n : nat) (F : 'M[R]_n) (c z : 'cV[R]_n) (d t : R).
Let F' : 'M[R]_(1 + n) := block_mx (d%:M : 'M_1) c^T c F.
Hypothesis pF' : pd F'.
Lemma pd_block1 : pd F.
Proof.
case: pF' => sF' p; split.
  by have := congr1 drsubmx sF'; rewrite tr_block_mx !block_mxKdr.
move=> x x0; have := p (col_mx 0 x).
have -> : qform F' (col_mx 0 x) = qform F x.
  rewrite /qform tr_col_mx trmx0 mul_row_block.
  by rewrite !mul0mx !add0r mul_row_col mulmx0 add0r.
apply; apply: contra x0 => /eqP e; apply/eqP.
by have := congr1 dsubmx e; rewrite col_mxKd linear0.
Qed.
Let u := invmx F *m c.
Let w := invmx F *m z.
Lemma block1_schur_pos : 0 < d - qinv F c c.
Proof.
have := pF'.2 (col_mx 1%:M (- u)).
have nz : col_mx 1%:M (- u) != 0.
  apply/eqP => e; have := congr1 usubmx e; rewrite col_mxKu linear0 => /matrixP/(_ 0 0).
  by rewrite !mxE /= => /eqP; rewrite oner_eq0.
move/(_ nz); suff -> : qform F' (col_mx 1%:M (- u)) = d - qinv F c c by [].
rewrite -[qform _ _]/(num _) /F' -mulmxA mul_block_col tr_col_mx mul_row_col.
rewrite !mulmxN mulKVmx ?(pd_unit pd_block1) // !mulmx1 subrr mulmx0 addr0 tr_scalar_mx.
by rewrite mul1mx numD numN num_scal; congr (_ - _); rewrite /qinv -mulmxA.
Qed.
Lemma qinv_append1 :
  qinv F' (col_mx t%:M z) (col_mx t%:M z)
  = qinv F z z + (t - qinv F z c) ^+ 2 / (d - qinv F c c).
Proof.
set s := d - _; have s0 : s != 0 by rewrite gt_eqF // block1_schur_pos.
pose a := (t - qinv F z c) / s.
have sol : F' *m col_mx a%:M (w - a *: u) = col_mx t%:M z.
  rewrite mul_block_col; congr col_mx; last first.
    rewrite mulmxBr -scalemxAr !mulKVmx ?(pd_unit pd_block1) //.
    by rewrite mul_mx_scalar addrC subrK.
  rewrite mulmxBr -scalemxAr -scalar_mxM.
  have -> : c^T *m w = (qinv F z c)%:M.
    by rewrite -[LHS]scal_num /w mulmxA -/(qinv F c z) (qinvC pd_block1).
  have -> : c^T *m u = (qinv F c c)%:M by rewrite -[LHS]scal_num /u mulmxA.
  rewrite scale_scalar_mx -raddfB /= -raddfD /=; congr (_%:M).
  rewrite addrC -addrA [- _ + _]addrC [d * a]mulrC -mulrBr -/s /a divfK //.
  by rewrite addrC subrK.
have uF' := pd_unit pF'.
rewrite {1}/qinv -{2}sol -mulmxA mulKmx // tr_col_mx mul_row_col mulmxBr -scalemxAr.
rewrite numD numB numZ tr_scalar_mx -scalar_mxM num_scal.
rewrite /w /u !mulmxA -/(qinv F z z) -/(qinv F z c) addrC -addrA; congr (_ + _).
by rewrite [t * a]mulrC addrC -mulrBr /a expr2 mulrAC.
Qed.
Lemma det_block1 : \det F' = (d - qinv F c c) * \det F.
Proof.
have uF := pd_unit pd_block1.
have -> : F' = block_mx 1%:M (c^T *m invmx F) 0 1%:M *m block_mx (d - qinv F c c)%:M 0 c F.
  rewrite mulmx_block !mul1mx !mul0mx !add0r mulmxKV //; congr block_mx.
  rewrite -[c^T *m (invmx F) *m c]scal_num -/(qinv F c c) -raddfD /=; congr (_%:M).
  by rewrite subrK.
by rewrite det_mulmx det_ublock det_lblock !det1 mul1r mul1r det_scalar1.
Qed.
Lemma qform_block1 (x : 'cV[R]_n) : qform F' (col_mx t%:M x) = d * t ^+ 2 + 2%:R * t * num (c^T *m x) + qform F x.
Proof. by rewrite qform_block expr2 mulrCA. Qed.
End Block.

Lemma pd_split n (A : 'M[R]_(1 + n)) : pd A -> A = block_mx (A 0 0)%:M (dlsubmx A)^T (dlsubmx A) (drsubmx A).
Proof.
case=> sA _; rewrite -{1}[A]submxK; congr block_mx.
  by apply/matrixP => i j; rewrite !ord1 !mxE /= mulr1n; congr (A _ _); apply/val_inj.
by have := congr1 dlsubmx sA; move=> <-; apply/matrixP=> i j; rewrite !mxE.
Qed.
Lemma pd_det_gt0 n (A : 'M[R]_n) : pd A -> 0 < \det A.
Proof.
elim: n A => [|n IH] A pA; first by rewrite det_mx00 ltr01.
have e := @pd_split n A pA; rewrite e in pA *.
rewrite (det_block1 pA); apply: mulr_gt0; first exact: block1_schur_pos pA.
by apply: IH; exact: pd_block1 pA.
Qed.
Lemma pd_add n (A B : 'M[R]_n) : pd A -> pd B -> pd (A + B).
Proof.
case=> sA pA [sB pB]; split; first by rewrite trmxD sA sB.
by move=> x x0; rewrite qformD addr_gt0 ?pA ?pB.
Qed.
Lemma pd_inv n (A : 'M[R]_n) : pd A -> pd (invmx A).
Proof.
move=> pA; have u := pd_unit pA; split; first by rewrite trmx_inv pA.1.
move=> x x0; have -> : qform (invmx A) x = qform A (invmx A *m x).
  by rewrite (qform_sol pA) /qinv.
apply: pA.2; apply: contra x0 => /eqP e; apply/eqP; by rewrite -[x](mulKVmx u) e mulmx0.
Qed.
Lemma pd_scalar n (a : R) : 0 < a -> pd (a%:M : 'M[R]_n).
Proof.
move=> a0; split; first by rewrite tr_scalar_mx.
move=> x x0; rewrite /qform mul_mx_scalar -scalemxAl mxE pmulr_rgt0 //.
by rewrite lt_def dot_ge0 andbT; apply: contra x0 => /eqP /dot_eq0 ->.
Qed.

Lemma num_swap n (N : 'M[R]_n) (x y : 'cV[R]_n) : N^T = N -> num (y^T *m N *m x) = num (x^T *m N *m y).
Proof. by move=> sN; rewrite -numT !trmx_mul trmxK sN mulmxA. Qed.
Lemma qform_add n (N : 'M[R]_n) (x y : 'cV[R]_n) : N^T = N ->
  qform N (x + y) = qform N x + 2%:R * num (x^T *m N *m y) + qform N y.
Proof.
move=> sN; rewrite !qform_num trmxD !mulmxDl !mulmxDr !numD (num_swap x y sN) mulr_natl mulr2n.
have e4 (x1 x2 x4 : R) : x1 + x2 + (x2 + x4) = x1 + (x2 + x2) + x4 by zmod_eq.
exact: e4.
Qed.
Lemma qinv_add n (A N : 'M[R]_n) (x y : 'cV[R]_n) : A^T = A -> A \in unitmx -> N^T = N ->
  qinv A (A *m x + N *m y) (A *m x + N *m y)
  = qform A x + 2%:R * num (x^T *m N *m y) + qform (N *m invmx A *m N) y.
Proof.
move=> sA uA sN; rewrite /qinv trmxD !trmx_mul sA sN !mulmxDl !mulmxDr !numD !mulmxA.
rewrite !(mulmxKV uA) !(mulmxK uA) (num_swap x y sN) !qform_num !mulmxA mulr_natl mulr2n.
have e4 (x1 x2 x4 : R) : x1 + x2 + (x2 + x4) = x1 + (x2 + x2) + x4 by zmod_eq.
exact: e4.
Qed.

Lemma qinv_sub n (F : 'M[R]_n) (z c : 'cV[R]_n) (t : R) : pd F ->
  qinv F (z - t *: c) (z - t *: c) = qinv F z z - 2%:R * t * qinv F z c + t ^+ 2 * qinv F c c.
Proof.
move=> pF; have sF : (invmx F)^T = invmx F by rewrite trmx_inv pF.1.
have q u : qinv F u u = qform (invmx F) u by [].
have -> : z - t *: c = z + - t *: c by rewrite scaleNr.
rewrite !q (qform_add _ _ sF) -scalemxAr numZ.
have -> : qform (invmx F) (- t *: c) = t ^+ 2 * qform (invmx F) c.
  by rewrite !qform_num -scalemxAr trmxZ -!scalemxAl !numZ mulrA mulrNN.
by rewrite mulNr mulrN mulrA.
Qed.

Section Product.
Variables (n : nat) (M S : 'M[R]_n) (p m : 'cV[R]_n).
Hypotheses (pM : pd M) (pS : pd S).
Let A := invmx M + invmx S.
Let b := invmx M *m p + invmx S *m m.
Let T := invmx (M + S).
Lemma prod_pd : pd A. Proof. by apply: pd_add; apply: pd_inv. Qed.
Let uM := pd_unit pM.
Let uS := pd_unit pS.
Let uT := pd_unit (pd_add pM pS).
Lemma prod_inv : invmx A = M *m T *m S.
Proof.
have e : A = invmx M *m (M + S) *m invmx S.
  by rewrite mulmxDr mulVmx // mulmxDl mul1mx -mulmxA mulmxV // mulmx1 addrC.
have uA := pd_unit prod_pd.
have k : A *m (M *m T *m S) = 1%:M.
  rewrite e !mulmxA -[_ *m invmx S *m M]mulmxA.
  have -> : invmx M *m (M + S) *m (invmx S *m M) = invmx S *m (M + S).
    rewrite mulmxDr mulVmx // mulmxDl mul1mx mulmxDr mulVmx // -mulmxA mulKVmx // mulVmx //.
  by rewrite /T mulmxK // mulVmx.
by rewrite -[invmx A]mulmx1 -k mulKmx.
Qed.
Lemma prod_det : \det A = \det (M + S) / (\det M * \det S).
Proof.
have e : A = invmx M *m (M + S) *m invmx S.
  by rewrite mulmxDr mulVmx // mulmxDl mul1mx -mulmxA mulmxV // mulmx1 addrC.
by rewrite e !det_mulmx !det_inv invfM mulrA; congr (_ * _); exact: mulrC.
Qed.
Lemma prod_form : qinv A b b - (qform (invmx M) p + qform (invmx S) m) = - qform T (p - m).
Proof.
have pA := prod_pd; have uA := pd_unit pA.
pose dl := p - m; have pE : p = m + dl by rewrite /dl addrC subrK.
have bE : b = A *m m + invmx M *m dl.
  by rewrite /b pE mulmxDr /A mulmxDl -!addrA; congr (_ + _); rewrite addrC.
have sM : (invmx M)^T = invmx M by rewrite trmx_inv pM.1.
have key : invmx M *m invmx A *m invmx M = invmx M - T.
  rewrite prod_inv !mulmxA mulVmx // mul1mx.
  have -> : S = (M + S) - M by rewrite addrC addKr.
  by rewrite mulmxBr mulVmx // mulmxBl mul1mx -mulmxA mulmxV // mulmx1.
have q1 : qinv A b b = qform A m + 2%:R * num (m^T *m invmx M *m dl) + qform (invmx M - T) dl.
  by rewrite bE (qinv_add _ _ pA.1 uA sM) key.
have q2 : qform (invmx M) p = qform (invmx M) m + 2%:R * num (m^T *m invmx M *m dl) + qform (invmx M) dl.
  by rewrite pE (qform_add _ _ sM).
rewrite q1 q2 qformB {1}/A qformD.
have e5 (x1 x2 x3 x4 x5 : R) : x1 + x2 + x3 + (x4 - x5) - (x1 + x3 + x4 + x2) = - x5 by zmod_eq.
exact: e5.
Qed.
End Product.
End GaussMx.
