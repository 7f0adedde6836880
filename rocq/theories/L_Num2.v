(** Helper for concrete examples: matrices of dimension at most two, and rational numbers
    in a real field, whose identities are decided by computation. *)
From mathcomp Require Import all_ssreflect all_algebra.
Set Implicit Arguments.
Unset Strict Implicit.
Unset Printing Implicit Defensive.
Import Order.Theory GRing.Theory Num.Theory.
Local Open Scope ring_scope.

Section Num2.
Variable R : realFieldType.
Definition q (x : rat) : R := ratr x.
Lemma qM x y : q x * q y = q (x * y). Proof. by rewrite /q -rmorphM. Qed.
Lemma qD x y : q x + q y = q (x + y). Proof. by rewrite /q -rmorphD. Qed.
Lemma qN x : - q x = q (- x). Proof. by rewrite /q -rmorphN. Qed.
Lemma qV x : (q x)^-1 = q x^-1. Proof. by rewrite /q fmorphV. Qed.
Lemma q0 : 0 = q 0. Proof. by rewrite /q rmorph0. Qed.
Lemma q1 : 1 = q 1. Proof. by rewrite /q rmorph1. Qed.
Lemma qn n : n%:R = q n%:R. Proof. by rewrite /q rmorph_nat. Qed.
Lemma q_eq x y : x == y -> q x = q y. Proof. by move/eqP ->. Qed.
Lemma q_neq x y : x != y -> q x != q y. Proof. by rewrite /q (inj_eq (fmorph_inj _)). Qed.
Lemma q_le x y : x <= y -> q x <= q y. Proof. by rewrite /q ler_rat. Qed.
Lemma q_lt x y : x < y -> q x < q y. Proof. by rewrite /q ltr_rat. Qed.

Definition m2 (a b c d : R) : 'M[R]_(1 + 1) := block_mx a%:M b%:M c%:M d%:M.
Definition c2 (a b : R) : 'cV[R]_(1 + 1) := col_mx a%:M b%:M.
Definition r2 (a b : R) : 'rV[R]_(1 + 1) := row_mx a%:M b%:M.
Definition s1 (a : R) : 'M[R]_1 := a%:M.

Lemma m2M a b c d a' b' c' d' : m2 a b c d *m m2 a' b' c' d'
  = m2 (a * a' + b * c') (a * b' + b * d') (c * a' + d * c') (c * b' + d * d').
Proof. by rewrite /m2 mulmx_block -!scalar_mxM -!raddfD. Qed.
Lemma m2c a b c d x y : m2 a b c d *m c2 x y = c2 (a * x + b * y) (c * x + d * y).
Proof. by rewrite /m2 /c2 mul_block_col -!scalar_mxM -!raddfD. Qed.
Lemma r2m a b c d x y : r2 x y *m m2 a b c d = r2 (x * a + y * c) (x * b + y * d).
Proof. by rewrite /m2 /r2 mul_row_block -!scalar_mxM -!raddfD. Qed.
Lemma r2c a b x y : r2 a b *m c2 x y = s1 (a * x + b * y).
Proof. by rewrite /r2 /c2 mul_row_col -!scalar_mxM -!raddfD. Qed.
Lemma c2r a b x y : c2 a b *m r2 x y = m2 (a * x) (a * y) (b * x) (b * y).
Proof. by rewrite /r2 /c2 mul_col_row -!scalar_mxM. Qed.
Lemma s1M a b : s1 a *m s1 b = s1 (a * b). Proof. by rewrite /s1 -scalar_mxM. Qed.
Lemma s1r a x y : s1 a *m r2 x y = r2 (a * x) (a * y).
Proof. by rewrite /s1 /r2 mul_mx_row -!scalar_mxM. Qed.
Lemma c2s a x y : c2 x y *m s1 a = c2 (x * a) (y * a).
Proof. by rewrite /s1 /c2 mul_col_mx -!scalar_mxM. Qed.
Lemma m2D a b c d a' b' c' d' :
  m2 a b c d + m2 a' b' c' d' = m2 (a + a') (b + b') (c + c') (d + d').
Proof. by rewrite /m2 add_block_mx -!raddfD. Qed.
Lemma c2D a b x y : c2 a b + c2 x y = c2 (a + x) (b + y).
Proof. by rewrite /c2 add_col_mx -!raddfD. Qed.
Lemma r2D a b x y : r2 a b + r2 x y = r2 (a + x) (b + y).
Proof. by rewrite /r2 add_row_mx -!raddfD. Qed.
Lemma s1D a b : s1 a + s1 b = s1 (a + b). Proof. by rewrite /s1 -raddfD. Qed.
Lemma m2N a b c d : - m2 a b c d = m2 (- a) (- b) (- c) (- d).
Proof. by rewrite /m2 opp_block_mx -!raddfN. Qed.
Lemma c2N a b : - c2 a b = c2 (- a) (- b). Proof. by rewrite /c2 opp_col_mx -!raddfN. Qed.
Lemma r2N a b : - r2 a b = r2 (- a) (- b). Proof. by rewrite /r2 opp_row_mx -!raddfN. Qed.
Lemma s1N a : - s1 a = s1 (- a). Proof. by rewrite /s1 -raddfN. Qed.
Lemma m2Z s a b c d : s *: m2 a b c d = m2 (s * a) (s * b) (s * c) (s * d).
Proof. by rewrite /m2 scale_block_mx -!scale_scalar_mx. Qed.
Lemma c2Z s a b : s *: c2 a b = c2 (s * a) (s * b).
Proof. by rewrite /c2 scale_col_mx -!scale_scalar_mx. Qed.
Lemma r2Z s a b : s *: r2 a b = r2 (s * a) (s * b).
Proof. by rewrite /r2 scale_row_mx -!scale_scalar_mx. Qed.
Lemma s1Z s a : s *: s1 a = s1 (s * a). Proof. by rewrite /s1 -scale_scalar_mx. Qed.
Lemma m2T a b c d : (m2 a b c d)^T = m2 a c b d.
Proof. by rewrite /m2 tr_block_mx !tr_scalar_mx. Qed.
Lemma c2T a b : (c2 a b)^T = r2 a b. Proof. by rewrite /c2 /r2 tr_col_mx !tr_scalar_mx. Qed.
Lemma r2T a b : (r2 a b)^T = c2 a b. Proof. by rewrite /c2 /r2 tr_row_mx !tr_scalar_mx. Qed.
Lemma s1T a : (s1 a)^T = s1 a. Proof. by rewrite /s1 tr_scalar_mx. Qed.
Lemma m20 : 0 = m2 0 0 0 0. Proof. by rewrite /m2 !raddf0 block_mx0. Qed.
Lemma c20 : 0 = c2 0 0. Proof. by rewrite /c2 !raddf0 col_mx0. Qed.
Lemma r20 : 0 = r2 0 0. Proof. by rewrite /r2 !raddf0 row_mx0. Qed.
Lemma s10 : 0 = s1 0. Proof. by rewrite /s1 raddf0. Qed.
Lemma m21 : 1%:M = m2 1 0 0 1. Proof. by rewrite /m2 !raddf0 -scalar_mx_block. Qed.
Lemma s1E a i j : s1 a i j = a. Proof. by rewrite !ord1 mxE eqxx. Qed.
Lemma s1V a : invmx (s1 a) = s1 a^-1. Proof. exact: invmx_scalar. Qed.
Lemma s1U a : (s1 a \in unitmx) = (a != 0). Proof. by rewrite unitmxE det_scalar1 unitfE. Qed.

Lemma m2U a b c d : a * d - b * c != 0 -> m2 a b c d \in unitmx.
Proof.
set D := _ - _ => D0; have H : m2 a b c d *m m2 (d / D) (- b / D) (- c / D) (a / D) = 1%:M.
  rewrite m2M m21 !mulrA -!mulrDl !mulrN [d * a]mulrC [c * b]mulrC.
  rewrite [- _ + _ in X in m2 _ _ _ X]addrC -/D divff // [b * a]mulrC [d * c]mulrC.
  by rewrite addNr subrr !mul0r.
by have [] := mulmx1_unit H.
Qed.
Lemma m2_eq a b c d a' b' c' d' : a = a' -> b = b' -> c = c' -> d = d' ->
  m2 a b c d = m2 a' b' c' d'.
Proof. by move=> -> -> -> ->. Qed.
Lemma c2_eq a b x y : a = x -> b = y -> c2 a b = c2 x y. Proof. by move=> -> ->. Qed.
Lemma r2_eq a b x y : a = x -> b = y -> r2 a b = r2 x y. Proof. by move=> -> ->. Qed.
Lemma s1_eq a b : a = b -> s1 a = s1 b. Proof. by move=> ->. Qed.
Lemma c2_inj a b x y : c2 a b = c2 x y -> a = x /\ b = y.
Proof.
move/eq_col_mx => [e1 e2]; split.
  by move/matrixP/(_ 0 0): e1; rewrite !mxE.
by move/matrixP/(_ 0 0): e2; rewrite !mxE.
Qed.
Lemma m2_inj a b c d a' b' c' d' : m2 a b c d = m2 a' b' c' d' -> [/\ a = a', b = b', c = c' & d = d'].
Proof.
move/eq_block_mx => [e1 e2 e3 e4]; split.
- by move/matrixP/(_ 0 0): e1; rewrite !mxE.
- by move/matrixP/(_ 0 0): e2; rewrite !mxE.
- by move/matrixP/(_ 0 0): e3; rewrite !mxE.
- by move/matrixP/(_ 0 0): e4; rewrite !mxE.
Qed.
Lemma m2P (A : 'M[R]_(1 + 1)) :
  A = m2 (A (lshift 1 0) (lshift 1 0)) (A (lshift 1 0) (rshift 1 0))
         (A (rshift 1 0) (lshift 1 0)) (A (rshift 1 0) (rshift 1 0)).
Proof. by rewrite -[LHS]submxK /m2; congr block_mx; rewrite [LHS]mx11_scalar !mxE. Qed.
Lemma c2P (v : 'cV[R]_(1 + 1)) : v = c2 (v (lshift 1 0) 0) (v (rshift 1 0) 0).
Proof. by rewrite -[LHS]vsubmxK /c2; congr col_mx; rewrite [LHS]mx11_scalar !mxE. Qed.
End Num2.
Arguments q0 : clear implicits.
Arguments q1 : clear implicits.
Arguments qM : clear implicits.
Arguments qD : clear implicits.
Arguments qN : clear implicits.
Arguments qV : clear implicits.
#[global] Opaque q m2 c2 r2 s1.

(** Rational expressions as one [q]; identities by computation. *)
Ltac qnorm := match goal with |- context [q ?R _] => rewrite ?(qM R, qD R, qN R, qV R) end.
Ltac qdone := qnorm; first [apply: q_eq | apply: q_neq | apply: q_le | apply: q_lt]; by vm_compute.
Ltac mnorm := rewrite ?(m2M, m2c, r2m, r2c, c2r, s1M, s1r, c2s, m2D, c2D, r2D, s1D, m2N, c2N,
  r2N, s1N, m2Z, c2Z, r2Z, s1Z, m2T, c2T, r2T, s1T).
Ltac qcongr := mnorm; first [apply: m2_eq | apply: c2_eq | apply: r2_eq | apply: s1_eq]; qdone.
