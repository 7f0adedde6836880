(** Positive semidefinite matrices over real closed fields have Cholesky factors. *)
From mathcomp Require Import all_ssreflect all_algebra.
From Verif Require Import L_Zmod M_Gauss L_Kalman M_Sqrt L_Sqrt L_Sample.
Set Implicit Arguments.
Unset Strict Implicit.
Unset Printing Implicit Defensive.
Import Order.Theory GRing.Theory Num.Theory.
Local Open Scope ring_scope.

Section Chol.
Variable R : rcfType.

Section Block.
Variables (n : nat) (a : R) (b : 'cV[R]_n) (D : 'M[R]_n).
Let A : 'M[R]_(1 + n) := block_mx a%:M b^T b D.
Lemma qform_block t v : qform A (col_mx t%:M v)
  = t * (a * t) + 2%:R * t * (b^T *m v) 0 0 + qform D v.
Proof.
rewrite /qform /A tr_col_mx tr_scalar_mx mul_row_block mul_row_col.
rewrite !mulmxDl -!mulmxA -!scalar_mxM !mul_scalar_mx !mul_mx_scalar.
have vb : v^T *m b = b^T *m v.
  have -> : v^T *m b = (b^T *m v)^T by rewrite trmx_mul trmxK.
  by rewrite [b^T *m v]mx11_scalar tr_scalar_mx.
rewrite -scalemxAr vb [b^T *m v]mx11_scalar !mxE !mulr1n; set w := (b^T *m v) 0 0.
rewrite addrA; congr (_ + _); rewrite -addrA; congr (_ + _).
by rewrite -mulr2n -mulrA mulr_natl.
Qed.
Hypothesis pA : psd A.
Lemma block_a_ge0 : 0 <= a.
Proof.
have := proj2 pA (col_mx 1%:M 0); rewrite qform_block /qform !mulmx0 !mxE.
by rewrite mulr0 !addr0 mul1r mulr1.
Qed.
Lemma block_D_psd : psd D.
Proof.
have [sA qA] := pA; split.
  by move: sA; rewrite /A tr_block_mx => /eq_block_mx [].
by move=> v; have := qA (col_mx 0%:M v); rewrite qform_block mul0r mulr0 mul0r !add0r.
Qed.
Lemma block_zero : a = 0 -> b = 0.
Proof.
move=> a0; apply: dot_eq0; apply/eqP; apply: contraT => nz.
set w := (b^T *m b) 0 0 in nz.
have := proj2 pA (col_mx (- ((qform D b + 1) / (2%:R * w)))%:M b).
rewrite qform_block a0 mul0r mulr0 add0r -/w mulrN mulNr mulrAC [_ * (_ / _)]mulrC divfK; last first.
  by rewrite mulf_neq0 // pnatr_eq0.
by rewrite opprD addrAC addNr add0r oppr_ge0 ler10.
Qed.
Lemma block_schur : a != 0 -> psd (D - a^-1 *: (b *m b^T)).
Proof.
move=> nz; have [sD _] := block_D_psd; split.
  by rewrite trmxB trmxZ trmx_mul trmxK sD.
move=> v; set w := (b^T *m v) 0 0.
have := proj2 pA (col_mx (- (w / a))%:M v); rewrite qform_block -/w qformB qformZ.
have -> : qform (b *m b^T) v = w * w.
  rewrite /qform -!mulmxA [b^T *m v]mx11_scalar mulmxA mul_mx_scalar -/w mxE.
  congr (_ * _); have -> : v^T *m b = (b^T *m v)^T by rewrite trmx_mul trmxK.
  by rewrite mxE.
have -> : a * - (w / a) = - w by rewrite mulrN [a * _]mulrC divfK.
rewrite mulrNN => H; apply: (le_trans H); rewrite addrC; rewrite le_eqVlt; apply/orP; left; apply/eqP; congr (_ + _).
rewrite mulrN mulNr -mulrA mulr_natl mulr2n opprD addrA subrr add0r.
by rewrite -mulrA [a^-1 * (w * w)]mulrC -mulrA [a^-1 * w]mulrC.
Qed.
End Block.

(** The factorisation as a function. *)
Fixpoint chol_of n : 'M[R]_n -> 'M[R]_n :=
  if n is n'.+1 then fun A : 'M[R]_(1 + n') =>
    let s := Num.sqrt (A 0 0) in
    block_mx s%:M 0 (s^-1 *: dlsubmx A)
      (chol_of (drsubmx A - (A 0 0)^-1 *: (dlsubmx A *m (dlsubmx A)^T)))
  else fun _ => 0.
Lemma chol_ofP n (A : 'M[R]_n) : psd A -> is_cholesky (chol_of A) A.
Proof.
elim: n A => [|n IH] A pA.
  split; [by move=> [] | by move=> [] | by apply/matrixP => -[]].
pose A' : 'M[R]_(1 + n) := A.
pose a := A' 0 0; pose b := dlsubmx A'; pose D := drsubmx A'.
have AE : A' = block_mx a%:M b^T b D.
  rewrite -[LHS]submxK; congr block_mx.
    by rewrite [ulsubmx _]mx11_scalar !mxE; congr (A' _ _)%:M; apply: val_inj.
  by have [sA _] := pA; rewrite /b trmx_dlsub sA.
have pA' : psd (block_mx a%:M b^T b D) by rewrite -AE.
have a0 := block_a_ge0 pA'.
have schur : psd (D - a^-1 *: (b *m b^T)).
  have [a1|a1] := eqVneq a 0; last exact: block_schur pA' a1.
  by rewrite a1 invr0 scale0r subr0; apply: block_D_psd pA'.
have := IH _ schur; move LE: (chol_of _) => L [lo nn LL].
pose s := Num.sqrt a.
have -> : chol_of A = (block_mx s%:M 0 (s^-1 *: b) L : 'M[R]_(1 + n)) by rewrite -LE.
suff : @is_cholesky R (1 + n) (block_mx s%:M 0 (s^-1 *: b) L) A' by [].
split.
- move=> i j; rewrite -[i]splitK -[j]splitK.
  case: (split i) => i'; case: (split j) => j' /=.
  + by rewrite !ord1.
  + by rewrite (block_mxEur _ _ _ L) mxE.
  + by rewrite !ord1.
  + by rewrite (block_mxEdr _ _ _ L) ltn_add2l; apply: lo.
- move=> i; rewrite -[i]splitK; case: (split i) => i' /=.
  + by rewrite (block_mxEul _ _ _ L) !ord1 !mxE mulr1n sqrtr_ge0.
  + by rewrite (block_mxEdr _ _ _ L).
- rewrite AE tr_block_mx mulmx_block !(mulmx0, mul0mx, trmx0, addr0).
  have ss : s * s = a by rewrite -expr2 sqr_sqrtr.
  rewrite tr_scalar_mx -scalar_mxM ss trmxZ mul_scalar_mx mul_mx_scalar !scalerA.
  rewrite -scalemxAl -scalemxAr scalerA -invfM ss LL [_ + (D - _)]addrC subrK.
  have [a1|a1] := eqVneq a 0.
    by rewrite (block_zero pA' a1) trmx0 !scaler0.
  have s0 : s != 0 by apply: contraNneq a1 => s0; rewrite -ss s0 mulr0.
  by rewrite divff // !scale1r.
Qed.

Lemma chol_of_ok n : chol_ok (@chol_of n).
Proof. by move=> C /chol_ofP []. Qed.
End Chol.
