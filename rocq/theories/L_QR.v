(** Reduced QR decompositions exist over real closed fields. *)
From mathcomp Require Import all_ssreflect all_algebra.
From Verif Require Import L_Zmod M_Gauss L_Kalman M_Sqrt L_Sqrt.
Set Implicit Arguments.
Unset Strict Implicit.
Unset Printing Implicit Defensive.
Import Order.Theory GRing.Theory Num.Theory.
Local Open Scope ring_scope.

Section QR.
Variable R : rcfType.

Definition dot p (x : 'cV[R]_p) : R := (x^T *m x) 0 0.
Lemma dotE p (x : 'cV[R]_p) : x^T *m x = (dot x)%:M.
Proof. by rewrite [LHS]mx11_scalar. Qed.
Lemma dot_sum p (x : 'cV[R]_p) : dot x = \sum_i x i 0 ^+ 2.
Proof. by rewrite /dot mxE; apply: eq_bigr => i _; rewrite mxE expr2. Qed.
Lemma dot_ge0 p (x : 'cV[R]_p) : 0 <= dot x.
Proof. by rewrite dot_sum sumr_ge0 // => i _; rewrite sqr_ge0. Qed.
Lemma dot_eq0 p (x : 'cV[R]_p) : (dot x == 0) = (x == 0).
Proof.
apply/eqP/eqP => [|->]; last by rewrite /dot mulmx0 mxE.
rewrite dot_sum => /eqP; rewrite psumr_eq0 => [/allP H|i _]; last by rewrite sqr_ge0.
apply/matrixP => i j; rewrite ord1 mxE.
by have := H i (mem_index_enum _); rewrite sqrf_eq0 => /eqP.
Qed.

(** Householder reflection. *)
Definition refl p (v : 'cV[R]_p) : 'M[R]_p := 1%:M - (2%:R / dot v) *: (v *m v^T).
Lemma refl_sym p (v : 'cV[R]_p) : (refl v)^T = refl v.
Proof. by rewrite /refl linearB /= trmx1 linearZ /= trmx_mul trmxK. Qed.
Lemma refl_orth p (v : 'cV[R]_p) : v != 0 -> (refl v)^T *m refl v = 1%:M.
Proof.
move=> nz; have d0 : dot v != 0 by rewrite dot_eq0.
rewrite refl_sym /refl; set c := 2%:R / dot v; set W := v *m v^T.
have cd : c * dot v = 2%:R by rewrite divfK.
have WW : W *m W = dot v *: W.
  by rewrite /W mulmxA -[v *m v^T *m v]mulmxA dotE mul_mx_scalar -scalemxAl.
have E : c *: W *m (c *: W) = c *: W + c *: W.
  rewrite -scalemxAl -scalemxAr WW !scalerA -mulrA cd.
  by rewrite mulr_natr mulr2n scalerDl.
rewrite mulmxBl mul1mx mulmxBr mulmx1 E.
by move: (c *: W) => V; rewrite [- (V + V)]opprD [V + _]addrA subrr add0r opprK subrK.
Qed.

(** An orthogonal matrix moving [x] to a multiple of the first unit vector. *)
Lemma to_first p (x : 'cV[R]_(1 + p)) :
  {H : 'M[R]_(1 + p) | H^T *m H = 1%:M /\ dsubmx (H *m x) = 0}.
Proof.
pose a := Num.sqrt (dot x); pose e : 'cV[R]_(1 + p) := col_mx a%:M 0.
have [v0|nz] := eqVneq (x - e) 0.
  exists 1%:M; split; first by rewrite trmx1 mulmx1.
  by rewrite mul1mx (subr0_eq v0) /e col_mxKd.
exists (refl (x - e)); split; first exact: refl_orth.
have aa : a * a = dot x by rewrite -expr2 sqr_sqrtr // dot_ge0.
have ee : e^T *m e = x^T *m x.
  by rewrite /e tr_col_mx mul_row_col trmx0 mul0mx addr0 tr_scalar_mx -scalar_mxM aa dotE.
have xe : x^T *m e = e^T *m x.
  have -> : e^T *m x = (x^T *m e)^T by rewrite trmx_mul trmxK.
  by rewrite [x^T *m e]mx11_scalar tr_scalar_mx.
have half : dot (x - e) = 2%:R * ((x - e)^T *m x) 0 0.
  have -> : (x - e)^T *m x = x^T *m x - e^T *m x by rewrite trmxB mulmxBl.
  have -> : dot (x - e) = (x^T *m x - e^T *m x - (e^T *m x - x^T *m x)) 0 0.
    by rewrite /dot trmxB mulmxBr !mulmxBl ee xe.
  by move: (x^T *m x) (e^T *m x) => A B; rewrite opprB mulr_natl mulr2n mxE.
have -> : refl (x - e) *m x = e.
  rewrite /refl mulmxBl mul1mx -scalemxAl -mulmxA [(x - e)^T *m x]mx11_scalar.
  rewrite mul_mx_scalar scalerA half.
  have h0 : 2%:R * ((x - e)^T *m x) 0 0 != 0 :> R by rewrite -half dot_eq0.
  by rewrite mulrAC divff // scale1r opprB addrC subrK.
by rewrite /e col_mxKd.
Qed.

Definition triangularised p q (B : 'M[R]_(p, q)) (Q : 'M[R]_p) :=
  Q^T *m Q = 1%:M /\ forall (i : 'I_p) (j : 'I_q), (j < i)%N -> (Q *m B) i j = 0.
Lemma full_qr_step p q (B : 'M[R]_(1 + p, 1 + q)) :
  (forall B' : 'M[R]_(p, q), {Q | triangularised B' Q}) -> {Q | triangularised B Q}.
Proof.
move=> IH; have [H [HH H0]] := to_first (lsubmx B).
have [Q [QQ Q0]] := IH (drsubmx (H *m B)).
exists (block_mx 1%:M 0 0 Q *m H); split.
  rewrite trmx_mul mulmxA -[H^T *m _ *m _]mulmxA tr_block_mx mulmx_block.
  rewrite !(trmx0, mul0mx, mulmx0, addr0, add0r) trmx1 mulmx1 QQ.
  by rewrite -scalar_mx_block mulmx1.
rewrite -mulmxA -[H *m B]submxK.
have -> : dlsubmx (H *m B) = 0.
  rewrite /dlsubmx -H0 -[in LHS](hsubmxK B) mul_mx_row.
  by move: (H *m lsubmx B) (H *m rsubmx B) => X Y; apply/matrixP => i j; rewrite [LHS]mxE [LHS]mxE row_mxEl [RHS]mxE.
rewrite mulmx_block !(mul0mx, mulmx0, mul1mx, addr0, add0r) => i j.
rewrite -[i]splitK -[j]splitK; case: (split i) => i'; case: (split j) => j' /=.
- by rewrite !ord1.
- by rewrite ord1.
- by rewrite block_mxEdl mxE.
- by rewrite block_mxEdr ltn_add2l; apply: Q0.
Qed.
Lemma full_qr p q (B : 'M[R]_(p, q)) : {Q | triangularised B Q}.
Proof.
elim: p q B => [|p IH] [|q] B.
- by exists 1%:M; split; [rewrite trmx1 mulmx1|case].
- by exists 1%:M; split; [rewrite trmx1 mulmx1|case].
- by exists 1%:M; split; [rewrite trmx1 mulmx1|move=> i; case].
exact: (@full_qr_step p q B (IH q)).
Qed.

Lemma reduced_qr p q (B : 'M[R]_(p, q)) : {r : 'M[R]_(minn p q, q) | is_qr_r B r}.
Proof.
have [Q [QQ Q0]] := full_qr B.
have QQ' : Q *m Q^T = 1%:M by apply: mulmx1C.
pose w := widen_ord (geq_minl p q).
exists (\matrix_(l, j) (Q *m B) (w l) j); split; last first.
  by move=> i j lt; rewrite mxE; apply: Q0.
exists (\matrix_(i, l) Q^T i (w l)); split.
  apply/matrixP => l l'; have := congr1 (fun M : 'M_p => M (w l) (w l')) QQ'.
  rewrite !mxE => <-.
  by apply: eq_bigr => i _; rewrite !mxE.
apply/matrixP => i j; transitivity ((Q^T *m (Q *m B)) i j); first by rewrite mulmxA QQ mul1mx.
set T := Q *m B; rewrite [LHS]mxE [RHS]mxE.
pose F l : R := if insub l : option 'I_p is Some l' then Q^T i l' * T l' j else 0.
have -> : \sum_(l < p) Q^T i l * T l j = \sum_(l < p) F l.
  by apply: eq_bigr => l _; rewrite /F valK.
transitivity (\sum_(l < minn p q) F l); last first.
  apply: eq_bigr => l _; rewrite [X in X * _]mxE [X in _ * X]mxE /F.
  have -> : insub (l : nat) = Some (w l) by rewrite -(valK (w l)).
  by [].
rewrite [RHS](big_ord_widen p F (geq_minl p q)) [RHS]big_mkcond /=; apply: eq_bigr => l _.
case: ifP => // /negbT; rewrite leq_min ltn_ord /= -leqNgt => le.
by rewrite /F valK Q0 ?mulr0 //; apply: leq_trans (ltn_ord j) le.
Qed.
Definition qr_of p q (B : 'M[R]_(p, q)) := sval (reduced_qr B).
Lemma qr_ofP p q (B : 'M[R]_(p, q)) : is_qr_r B (qr_of B).
Proof. exact: svalP (reduced_qr B). Qed.
End QR.
