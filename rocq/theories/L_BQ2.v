(** Quadratic forms of kernel matrices, for the variance claims about M_BQ.v. *)
From mathcomp Require Import all_ssreflect all_algebra.
From Verif Require Import L_Ring M_DMx L_DMx L_Kalman L_Sqrt L_Chol L_Zmod M_BQ L_BQ.
Set Implicit Arguments.
Unset Strict Implicit.
Unset Printing Implicit Defensive.
Import Order.Theory GRing.Theory Num.Theory.
Local Open Scope ring_scope.

Section Forms.
Variable R : rcfType.
Lemma numD (a b : 'M[R]_1) : num (a + b) = num a + num b.
Proof. by rewrite /num mxE. Qed.
Lemma numB (a b : 'M[R]_1) : num (a - b) = num a - num b.
Proof. by rewrite /num !mxE. Qed.
Lemma numN (a : 'M[R]_1) : num (- a) = - num a.
Proof. by rewrite /num !mxE. Qed.
Lemma numZ c (a : 'M[R]_1) : num (c *: a) = c * num a.
Proof. by rewrite /num !mxE. Qed.
Lemma numT (a : 'M[R]_1) : num a^T = num a.
Proof. by rewrite /num mxE. Qed.
Lemma num_scal (c : R) : num c%:M = c.
Proof. by rewrite /num mxE eqxx mulr1n. Qed.
Lemma numM (a b : 'M[R]_1) : num (a *m b) = num a * num b.
Proof. by rewrite {1}[a]mx11_scalar mul_scalar_mx numZ. Qed.
Lemma scal_num (a : 'M[R]_1) : (num a)%:M = a.
Proof. by rewrite [RHS]mx11_scalar. Qed.
Definition numE := (numD, numN, numZ, num_scal).
Lemma dotC n (u v : 'cV[R]_n) : num (u^T *m v) = num (v^T *m u).
Proof. by rewrite -numT trmx_mul trmxK. Qed.

Section PD.
Variables (n : nat) (F : 'M[R]_n).
Hypothesis pF : pd F.
Local Notation q := (qinv F).
Let uF : F \in unitmx := pd_unit pF.
Let sF : F^T = F := pF.1.

Lemma qinvC u v : q u v = q v u.
Proof. by rewrite /qinv -numT !trmx_mul trmxK invmx_sym // mulmxA. Qed.
Lemma qinv_sol u v : q u v = num (u^T *m (invmx F *m v)).
Proof. by rewrite /qinv mulmxA. Qed.
Lemma qform_num w : qform F w = num (w^T *m F *m w).
Proof. by []. Qed.
Lemma qform_sol u : qform F (invmx F *m u) = q u u.
Proof. by rewrite qform_num trmx_mul invmx_sym // -mulmxA mulKVmx // /qinv mulmxA. Qed.
Lemma qinv_ge0 u : 0 <= q u u.
Proof. by rewrite -qform_sol; case: (pd_psd pF). Qed.
(** The form is the maximum of [2 w^T u - w^T F w]. *)
Lemma qinv_max u w : 2%:R * num (w^T *m u) - qform F w <= q u u.
Proof.
rewrite -subr_ge0; apply: (le_trans ((pd_psd pF).2 (invmx F *m u - w))).
rewrite le_eqVlt; apply/orP; left; apply/eqP.
rewrite -qform_sol; move E: (invmx F *m u) => x.
have -> : u = F *m x by rewrite -E mulKVmx.
rewrite !qform_num.
have -> : (x - w)^T = x^T - w^T by rewrite linearB.
rewrite !mulmxBl !mulmxBr !numB !mulmxA.
have -> : num (x^T *m F *m w) = num (w^T *m F *m x).
  by rewrite -numT !trmx_mul trmxK sF mulmxA.
rewrite mulr_natl mulr2n !opprD !opprK.
have e (a b c : R) : a - b + (- b + c) = a + (- b - b + c) by zmod_eq.
exact: e.
Qed.
End PD.

(** *** Adding one node *)
Section Block.
Variables (n : nat) (F : 'M[R]_n) (c z : 'cV[R]_n) (d t : R).
Let F' := block_mx F c c^T (d%:M : 'M_1).
Hypothesis pF' : pd F'.
Lemma pd_block : pd F.
Proof.
case: pF' => sF' p; split.
  by have := congr1 ulsubmx sF'; rewrite tr_block_mx !block_mxKul.
move=> x x0; have := p (col_mx x 0).
have -> : qform F' (col_mx x 0) = qform F x.
  rewrite /qform tr_col_mx trmx0 mul_row_block.
  by rewrite !mul0mx !addr0 mul_row_col mulmx0 addr0.
apply; apply: contra x0 => /eqP e; apply/eqP.
by have := congr1 usubmx e; rewrite col_mxKu linear0.
Qed.
Let u := invmx F *m c.
Let w := invmx F *m z.
Lemma block_schur_pos : 0 < d - qinv F c c.
Proof.
have := pF'.2 (col_mx (- u) 1%:M).
have nz : col_mx (- u) 1%:M != 0.
  apply/eqP => e; have := congr1 dsubmx e; rewrite col_mxKd linear0 => /matrixP/(_ 0 0).
  by rewrite !mxE /= => /eqP; rewrite oner_eq0.
move/(_ nz); suff -> : qform F' (col_mx (- u) 1%:M) = d - qinv F c c by [].
rewrite -[qform _ _]/(num _) /F' -mulmxA mul_block_col tr_col_mx mul_row_col.
rewrite !mulmxN mulKVmx ?(pd_unit pd_block) // mulmx1 addNr mulmx0 add0r tr_scalar_mx.
rewrite mul1mx numD numN mulmx1 num_scal addrC; congr (_ - _).
by rewrite /qinv -mulmxA.
Qed.
Lemma qinv_append :
  qinv F' (col_mx z t%:M) (col_mx z t%:M)
  = qinv F z z + (t - qinv F z c) ^+ 2 / (d - qinv F c c).
Proof.
set s := d - _; have s0 : s != 0 by rewrite gt_eqF // block_schur_pos.
pose a := (t - qinv F z c) / s.
have sol : F' *m col_mx (w - a *: u) a%:M = col_mx z t%:M.
  rewrite mul_block_col; congr col_mx.
    rewrite mulmxBr -scalemxAr !mulKVmx ?(pd_unit pd_block) //.
    by rewrite mul_mx_scalar subrK.
  rewrite mulmxBr -scalemxAr -scalar_mxM.
  have -> : c^T *m w = (qinv F z c)%:M.
    by rewrite -[LHS]scal_num /w mulmxA -/(qinv F c z) (qinvC pd_block).
  have -> : c^T *m u = (qinv F c c)%:M by rewrite -[LHS]scal_num /u mulmxA.
  rewrite scale_scalar_mx -raddfB /= -raddfD /=; congr (_%:M).
  rewrite -addrA [- _ + _]addrC [d * a]mulrC -mulrBr -/s /a divfK //.
  by rewrite addrC subrK.
have uF' := pd_unit pF'.
rewrite {1}/qinv -{2}sol -mulmxA mulKmx // tr_col_mx mul_row_col mulmxBr -scalemxAr.
rewrite numD numB numZ tr_scalar_mx -scalar_mxM num_scal.
rewrite /w /u !mulmxA -/(qinv F z z) -/(qinv F z c) -addrA; congr (_ + _).
by rewrite [t * a]mulrC addrC -mulrBr /a expr2 mulrAC.
Qed.
End Block.

(** *** Adding several nodes *)
Lemma qinv_lead n p (F : 'M[R]_(n + p)) (z : 'cV[R]_(n + p)) : pd F -> pd (ulsubmx F) ->
  qinv (ulsubmx F) (usubmx z) (usubmx z) <= qinv F z z.
Proof.
move=> pF pU; pose w := invmx (ulsubmx F) *m usubmx z.
apply: le_trans (qinv_max pF z (col_mx w 0)).
have -> : qform F (col_mx w 0) = qinv (ulsubmx F) (usubmx z) (usubmx z).
  rewrite -(qform_sol pU) -/w /qform -{1}[F]submxK tr_col_mx trmx0 mul_row_block.
  by rewrite !mul0mx !addr0 mul_row_col mulmx0 addr0.
have -> : num ((col_mx w 0)^T *m z) = qinv (ulsubmx F) (usubmx z) (usubmx z).
  rewrite -{1}[z]vsubmxK tr_col_mx trmx0 mul_row_col mul0mx addr0 /w trmx_mul.
  by rewrite invmx_sym // pU.1.
by rewrite mulr_natl mulr2n addrK.
Qed.
End Forms.

Lemma tr_neg (R : zmodType) m n (A : 'M[R]_(m, n)) : (- A)^T = - A^T.
Proof. by apply/matrixP => i j; rewrite !mxE. Qed.

Section Kernel.
Variables (R : rcfType) (dim : nat).
Local Notation node := 'rV[R]_dim.
Variable k : kernel R dim.
Implicit Types (xs : seq node) (x : node).

Lemma zmx_append n xs x : size xs = n ->
  zmx k (n + 1) (xs ++ [:: x]) = col_mx (zmx k n xs) (k_mean k x)%:M.
Proof.
move=> sz; apply/matrixP => i j; rewrite -[i]splitK; case: (split i) => i'; rewrite !mxE.
  by rewrite (unsplitK (inl i')) mxE /= nth_cat sz ltn_ord.
by rewrite (unsplitK (inr i')) !mxE !ord1 eqxx mulr1n /= nth_cat sz addn0 ltnn subnn.
Qed.
Lemma jgmx_append jit n xs x : ksym k -> size xs = n ->
  jgmx k jit (n + 1) (xs ++ [:: x])
  = block_mx (jgmx k jit n xs) (cmx k n xs x) (cmx k n xs x)^T (k_eval k x x + jit)%:M.
Proof.
move=> sk sz; apply/matrixP => i j; rewrite -[i]splitK -[j]splitK.
case: (split i) => i'; case: (split j) => j' /=.
- by rewrite block_mxEul !mxE /= !nth_cat sz !ltn_ord -!(inj_eq (@ord_inj _)).
- rewrite block_mxEur !mxE /= !nth_cat sz ltn_ord !ord1 addn0 ltnn subnn /=.
  by rewrite -(inj_eq (@ord_inj _)) /= addn0 ltn_eqF // addr0.
- rewrite block_mxEdl !mxE /= !nth_cat sz ltn_ord !ord1 addn0 ltnn subnn /=.
  by rewrite -(inj_eq (@ord_inj _)) /= addn0 gtn_eqF // addr0 sk.
- rewrite block_mxEdr !mxE /= !nth_cat sz !ord1 addn0 ltnn subnn /=.
  by rewrite !eqxx !mulr1n.
Qed.

Hypothesis ek : embedded k.
Lemma emb_sym : ksym k. Proof. by case: ek. Qed.

Lemma embed_form n xs (c : 'cV[R]_n) a :
  0 <= a ^+ 2 * k_var k + 2%:R * a * num (c^T *m zmx k n xs) + qform (gmx k n xs) c.
Proof.
have := ek.2 n (fun i => nth 0 xs i) (fun i => c i 0) a.
have -> : \sum_i c i 0 * k_mean k (nth 0 xs i) = num (c^T *m zmx k n xs).
  by rewrite /num mxE; apply: eq_bigr => i _; rewrite !mxE.
suff -> : \sum_(i < n) \sum_(j < n) c i 0 * c j 0 * k_eval k (nth 0 xs i) (nth 0 xs j)
  = qform (gmx k n xs) c by [].
rewrite /qform -mulmxA mxE; apply: eq_bigr => i _; rewrite !mxE mulr_sumr; apply: eq_bigr => j _.
by rewrite !mxE mulrAC mulrA.
Qed.

Lemma jform_le jit n xs (c : 'cV[R]_n) : 0 <= jit -> qform (gmx k n xs) c <= qform (jgmx k jit n xs) c.
Proof.
move=> j0; rewrite /jgmx qformD ler_addl /qform -scalemx1 -scalemxAr -scalemxAl mulmx1 mxE.
by apply: mulr_ge0 => //; apply: dot_ge0.
Qed.

(** The posterior variance of the integral (at unit scale) is not negative. *)
Lemma post_var_ge0 jit n xs : 0 <= jit -> pd (jgmx k jit n xs) ->
  0 <= k_var k - qinv (jgmx k jit n xs) (zmx k n xs) (zmx k n xs).
Proof.
move=> j0 p; set A := jgmx k jit n xs; set z := zmx k n xs.
pose w := invmx A *m z.
have := embed_form xs (- w) 1; rewrite expr1n mul1r mulr1 tr_neg mulNmx numN.
have le : qform (gmx k n xs) (- w) <= qinv A z z.
  have -> : qform (gmx k n xs) (- w) = qform (gmx k n xs) w.
    by rewrite /qform tr_neg mulNmx mulmxN mulNmx opprK.
  by apply: le_trans (jform_le _ _ j0) _; rewrite -(qform_sol p).
move=> H; apply: (le_trans H).
have -> : num (w^T *m z) = qinv A z z by rewrite dotC qinv_sol.
rewrite -addrA ler_add2l mulrN mulr_natl mulr2n opprD -addrA ger_addl addrC subr_le0 //.
Qed.

(** Cauchy-Schwarz for the posterior covariance of the integral and a value. *)
Lemma post_form jit n xs x a b : size xs = n -> 0 <= jit -> pd (jgmx k jit n xs) ->
  0 <= a ^+ 2 * (k_var k - qinv (jgmx k jit n xs) (zmx k n xs) (zmx k n xs))
       + 2%:R * a * b * (k_mean k x - qinv (jgmx k jit n xs) (zmx k n xs) (cmx k n xs x))
       + b ^+ 2 * (k_eval k x x - qinv (jgmx k jit n xs) (cmx k n xs x) (cmx k n xs x)).
Proof.
move=> sz j0 p; set A := jgmx k jit n xs; set z := zmx k n xs; set c := cmx k n xs x.
pose w := invmx A *m (a *: z + b *: c).
have sA := p.1.
have := embed_form (xs ++ [:: x]) (col_mx (- w) b%:M) a.
have -> : gmx k (n + 1) (xs ++ [:: x]) = jgmx k 0 (n + 1) (xs ++ [:: x]).
  by rewrite /jgmx -scalemx1 scale0r addr0.
rewrite (zmx_append _ sz) (jgmx_append _ _ emb_sym sz) -/c -/z addr0.
have -> : num ((col_mx (- w) b%:M)^T *m col_mx z (k_mean k x)%:M)
        = - num (w^T *m z) + b * k_mean k x.
  rewrite tr_col_mx tr_neg mul_row_col mulNmx numD numN tr_scalar_mx -scalar_mxM.
  by rewrite num_scal.
have -> : qform (block_mx (jgmx k 0 n xs) c c^T (k_eval k x x)%:M) (col_mx (- w) b%:M)
  = qform (jgmx k 0 n xs) w - 2%:R * b * num (w^T *m c) + b ^+ 2 * k_eval k x x.
  rewrite /qform tr_col_mx mul_row_block mul_row_col !tr_neg tr_scalar_mx.
  rewrite !mul_scalar_mx !mul_mx_scalar -/(num _) !(mulNmx, mulmxN, mulmxDl) opprK.
  rewrite -!scalemxAl !(numD, numN, numZ, mul_scalar_mx, scalerDr, num_scal).
  have -> : num (c^T *m w) = num (w^T *m c) by rewrite dotC.
  rewrite -/(num _); move: (num (w^T *m c)) (num _) => q1 q2; mring.
have -> : jgmx k 0 n xs = gmx k n xs by rewrite /jgmx -scalemx1 scale0r addr0.
have le : qform (gmx k n xs) w <= a ^+ 2 * qinv A z z + 2%:R * a * b * qinv A z c + b ^+ 2 * qinv A c c.
  apply: le_trans (jform_le _ _ j0) _; rewrite (qform_sol p) -/A.
  have -> : qinv A (a *: z + b *: c) (a *: z + b *: c)
    = a * (a * qinv A z z + b * qinv A z c) + b * (a * qinv A c z + b * qinv A c c).
    rewrite /qinv.
    have -> : (a *: z + b *: c)^T = a *: z^T + b *: c^T by apply/matrixP => i j; rewrite !mxE.
    by rewrite !mulmxDl -!scalemxAl !mulmxDr -!scalemxAr !(numD, numZ).
  rewrite [qinv A c z]qinvC //.
  rewrite le_eqVlt; apply/orP; left; apply/eqP.
  move: (qinv A z z) (qinv A z c) (qinv A c c) => q1 q2 q3.
  mring.
have wz : num (w^T *m z) = a * qinv A z z + b * qinv A z c.
  by rewrite dotC /w mulmxA -/(qinv A z _) /qinv mulmxDr -!scalemxAr !numD !numZ.
have wc : num (w^T *m c) = a * qinv A z c + b * qinv A c c.
  rewrite dotC /w mulmxA mulmxDr -!scalemxAr !numD !numZ -![num (_^T *m invmx A *m _)]/(qinv A _ _).
  by rewrite [qinv A c z]qinvC.
rewrite wz wc.
move: le; move: (qform _ _) (qinv A z z) (qinv A z c) (qinv A c c) => q0 q1 q2 q3 le H.
apply: (le_trans H); rewrite -subr_ge0.
rewrite -subr_ge0 in le; apply: (le_trans le); rewrite le_eqVlt; apply/orP; left; apply/eqP.
mring.
Qed.
End Kernel.
