(** Discretised integrated Wiener processes; transitions in other coordinates. *)
From mathcomp Require Import all_ssreflect all_algebra.
From Verif Require Import M_Gauss M_Sqrt M_IWP L_DMx L_Zmod L_Kalman L_Psd L_Sqrt L_Chol L_IWP.
Set Implicit Arguments.
Unset Strict Implicit.
Unset Printing Implicit Defensive.
Import Order.Theory GRing.Theory Num.Theory.
Local Open Scope ring_scope.

(** What is assumed of [scipy.linalg.cholesky]. *)
Definition cholesky_fun (R : rcfType) (ch : forall n, 'M[R]_n -> option 'M[R]_n) :=
  forall n (A : 'M[R]_n), pd A -> exists L, ch n A = Some L /\ is_cholesky L A.

(** Powers of a square matrix of any size. *)
Definition mpow (R : ringType) n (A : 'M[R]_n) k : 'M[R]_n := iter k (mulmx A) 1%:M.

Section Disc.
Variable R : rcfType.
Variables nu d : nat.
Implicit Types h g : R.

Lemma pd_conj n (A B : 'M[R]_n) : A \in unitmx -> pd B -> pd (A *m B *m A^T).
Proof.
move=> uA pB; have [_ _ E] := chol_ofP (pd_psd pB); have := pd_unit pB.
rewrite -{1}E unit_gram => u; rewrite -{1}E; move: (chol_of _) u => C u.
have -> : A *m (C *m C^T) *m A^T = (A *m C) *m (A *m C)^T by rewrite trmx_mul !mulmxA.
by apply: pd_gram; rewrite unitmx_mul uA.
Qed.

Lemma hilbert_pd : pd (flip (hilbert R nu.+1)).
Proof.
have h1 : (1 : R) != 0 by rewrite oner_eq0.
have e := dgV nu h1; have [u1 u2] := mulmx1_unit e.
move: (qmxE nu h1); rewrite normr1 => q; move: (qmx_pd nu (@ltr01 R)); rewrite -q => H.
have := pd_conj u2 H; rewrite dg_tr !mulmxA (mulmx1C e) mul1mx -!mulmxA e mulmx1.
by [].
Qed.

Lemma ikron_lower q (L : 'M[R]_q.+1) : lower_tri L -> lower_tri (ikron d L).
Proof.
move=> H i j ij; rewrite mxE; case: eqP => // e; apply: H; rewrite !inord_mod.
by move: ij; rewrite {1}(divn_eq i q.+1) {1}(divn_eq j q.+1) e ltn_add2l.
Qed.
Lemma ikron_diag q (L : 'M[R]_q.+1) : nonneg_diag L -> nonneg_diag (ikron d L).
Proof. by move=> H i; rewrite mxE eqxx; apply: H. Qed.
Lemma precon_chol h (L : 'M[R]_(d * nu.+1)) : lower_tri L -> nonneg_diag L -> h != 0 ->
  lower_tri (precon nu d h *m L) /\ nonneg_diag (precon nu d h *m L).
Proof.
move=> H1 H2 h0; have E i j : (precon nu d h *m L) i j = pvec h (inord (i %% nu.+1) : 'I_nu.+1) * L i j.
  rewrite mxE (bigD1 i) //= big1 ?addr0; first by rewrite preconE !mxE !eqxx mulr1n.
  move=> k ki; rewrite preconE !mxE; case: eqP => e; last by rewrite mul0r.
  rewrite -val_eqE /= !inord_mod; case: eqP => [e2|_]; last by rewrite mulr0n mul0r.
  by case/negP: ki; apply/eqP/val_inj; rewrite /= (divn_eq i nu.+1) (divn_eq k nu.+1) e e2.
by split=> [i j ij|i]; rewrite E; [rewrite H1 ?mulr0|rewrite mulr_ge0 // ltW // pvec_gt0].
Qed.

Variable cholesky : forall n, 'M[R]_n -> option 'M[R]_n.
Hypothesis chH : cholesky_fun cholesky.

Lemma precond_ok : exists T, [/\ precond_disc nu d cholesky = Some T,
  s_tmat T = ikron d (flip (pascal R nu.+1)), s_shift T = 0,
  s_ncov T = ikron d (flip (hilbert R nu.+1)) & is_cholesky (s_nchol T) (s_ncov T)].
Proof.
have [L [E [l1 l2 l3]]] := chH hilbert_pd; rewrite /precond_disc E /=; eexists; split; try by [].
split; [exact: ikron_lower|exact: ikron_diag|].
by rewrite /= ikron_tr ikron_mul l3.
Qed.
Lemma discretise_ok h : h != 0 -> exists T, [/\ discretise nu d cholesky h = Some T,
  s_tmat T = ikron d (taylor nu `|h|), s_shift T = 0, s_ncov T = ikron d (qmx nu `|h|)
  & is_cholesky (s_nchol T) (s_ncov T)].
Proof.
move=> h0; have [T [E t1 t2 t3 [t4 t5 t6]]] := precond_ok.
rewrite /discretise E /= precon_invE //=; eexists; split; first by [].
- by rewrite /= t1 preconE !ikron_mul taylorE.
- by [].
- by rewrite /= t3 preconE ikron_tr dg_tr !ikron_mul qmxE.
- have [p1 p2] := precon_chol t4 t5 h0; split=> //=.
  by rewrite trmx_mul !mulmxA -[X in X *m _ = _]mulmxA t6.
Qed.
Lemma discretise0 : discretise nu d cholesky 0 = None.
Proof. by rewrite /discretise /precon_inv eqxx; case: precond_disc. Qed.

(** The exponential series of the drift. *)
Definition shiftmx : 'M[R]_nu.+1 := \matrix_(i, j) ((i.+1 == j :> nat)%:R).
Lemma mpow_ikron q (A : 'M[R]_q.+1) k : mpow (ikron d A) k = ikron d (mpow A k).
Proof.
elim: k => [|k IH]; first by rewrite /mpow /= ikron1.
by rewrite -[LHS]/(ikron d A *m mpow (ikron d A) k) IH ikron_mul.
Qed.
Lemma shift_pow k (i j : 'I_nu.+1) : mpow shiftmx k i j = (i + k == j :> nat)%N%:R.
Proof.
elim: k i j => [|k IH] i j; first by rewrite mxE addn0.
rewrite -[mpow _ _]/(shiftmx *m mpow shiftmx k) mxE.
have [lt|ge] := ltnP i.+1 nu.+1.
  rewrite (bigD1 (Ordinal lt)) //= IH mxE eqxx mul1r big1 ?addr0 /= ?addSnnS // => l li.
  rewrite mxE; case: eqP => [e|_]; last by rewrite mul0r.
  by case/negP: li; apply/eqP/val_inj.
rewrite big1 => [|l _]; last first.
  by rewrite mxE; case: eqP => [e|_]; rewrite ?mul0r //; move: (ltn_ord l); rewrite -e ltnNge ge.
case: eqP => // e; move: (ltn_ord j); rewrite -e addnS ltnS ltnNge.
by case/negP; apply: leq_trans (leq_addr _ _); rewrite -ltnS.
Qed.
Lemma taylor_exp h : taylor nu h = \sum_(k < nu.+1) (h ^+ k / (k`!)%:R) *: mpow shiftmx k.
Proof.
apply/matrixP => i j; rewrite summxE mxE; case: leqP => ij.
  have lt : (j - i < nu.+1)%N by rewrite (leq_ltn_trans (leq_subr _ _)).
  rewrite (bigD1 (Ordinal lt)) //= mxE shift_pow subnKC // eqxx mulr1 big1 ?addr0 // => k ki.
  rewrite mxE shift_pow; case: eqP => [e|_]; last by rewrite mulr0.
  by case/negP: ki; apply/eqP/val_inj; rewrite /= -e addKn.
rewrite big1 // => k _; rewrite mxE shift_pow; case: eqP => [e|_]; last by rewrite mulr0.
by move: ij; rewrite -e ltnNge leq_addr.
Qed.
Lemma shift_nil : mpow shiftmx nu.+1 = 0.
Proof.
apply/matrixP => i j; rewrite shift_pow mxE; case: eqP => // e.
by move: (ltn_ord j); rewrite -e ltnNge leq_addl.
Qed.
End Disc.

(** ** Change of coordinates *)
Lemma invmx_uniq (F : fieldType) n (A B : 'M[F]_n) : A *m B = 1%:M -> invmx A = B.
Proof.
move=> e; have [u _] := mulmx1_unit e.
by rewrite -[invmx A]mulmx1 -e mulmxA mulVmx ?mul1mx.
Qed.

Section Conj.
Variable R : realFieldType.
Variables (n : nat) (P Pi : 'M[R]_n).
Hypotheses (PPi : P *m Pi = 1%:M) (PiP : Pi *m P = 1%:M) (Ps : P^T = P) (Pis : Pi^T = Pi).
Definition conjn (A : 'M[R]_n) (rv : normal R n) : normal R n :=
  Normal (A *m mean rv) (A *m cov rv *m A^T).
Definition conjT (T : lingauss R n n) : lingauss R n n :=
  LinGauss (P *m tmat T *m Pi) (P *m shift T) (P *m ncov T *m P^T).
Variables (T : lingauss R n n) (g : R) (rv : normal R n).

Let cancelP k (X : 'M[R]_(k, n)) : X *m P *m Pi = X. Proof. by rewrite -mulmxA PPi mulmx1. Qed.
Let cancelPi k (X : 'M[R]_(k, n)) : X *m Pi *m P = X. Proof. by rewrite -mulmxA PiP mulmx1. Qed.
Let cP k (X : 'M[R]_(n, k)) : P *m (Pi *m X) = X. Proof. by rewrite mulmxA PPi mul1mx. Qed.
Let cPi k (X : 'M[R]_(n, k)) : Pi *m (P *m X) = X. Proof. by rewrite mulmxA PiP mul1mx. Qed.

Lemma conjK (x : normal R n) : conjn P (conjn Pi x) = x.
Proof. by case: x => m C; congr Normal; rewrite /= ?cP // Ps Pis !mulmxA PPi mul1mx -mulmxA PiP mulmx1. Qed.
Lemma conj_inj (x y : normal R n) : conjn Pi x = conjn Pi y -> x = y.
Proof. by move=> e; rewrite -(conjK x) -(conjK y) e. Qed.

Lemma conj_fwd : fwd_classic (conjT T) g rv = conjn P (fwd_classic T g (conjn Pi rv)).
Proof.
rewrite /fwd_classic /fwd_crosscov /conjn /=; congr Normal; rewrite ?Ps ?Pis.
  by rewrite mulmxDr !mulmxA.
rewrite !trmx_mul Ps Pis mulmxDr mulmxDl -scalemxAr -scalemxAl; congr (_ + _).
by rewrite !mulmxA.
Qed.
Lemma conj_crosscov : fwd_crosscov (conjT T) rv = P *m fwd_crosscov T (conjn Pi rv) *m P^T.
Proof. by rewrite /fwd_crosscov /conjn /= !trmx_mul Ps Pis !mulmxA PPi mul1mx. Qed.

Lemma unitP : P \in unitmx. Proof. by case: (mulmx1_unit PPi). Qed.
Lemma invP : invmx P = Pi.
Proof. by rewrite -[invmx P]mulmx1 -PPi mulmxA (mulVmx unitP) mul1mx. Qed.
Lemma conj_gain : gain_classic (conjT T) g rv
  = omap (fun G => P *m G *m Pi) (gain_classic T g (conjn Pi rv)).
Proof.
rewrite /gain_classic conj_fwd conj_crosscov; move: (fwd_crosscov _ _) => X.
move: (fwd_classic T g _) => F; rewrite -[cov (conjn P F)]/(P *m cov F *m P^T); move: (cov F) => S.
rewrite !unitmx_tr !unitmx_mul unitmx_tr unitP andbT /=.
case u: (S \in unitmx) => //=; congr Some; rewrite !trmx_mul !trmxK Ps.
have -> : invmx (P *m (S^T *m P)) = Pi *m invmx S^T *m Pi.
  apply: invmx_uniq; rewrite -!mulmxA cP; rewrite [S^T *m _]mulmxA mulmxV ?unitmx_tr // mul1mx.
  exact: PPi.
by rewrite !trmx_mul Pis -!mulmxA cP.
Qed.

Lemma conj_condition (ob f : normal R n) G :
  condition_state_on_rv ob f rv (P *m G *m Pi)
  = conjn P (condition_state_on_rv (conjn Pi ob) (conjn Pi f) (conjn Pi rv) G).
Proof.
rewrite /condition_state_on_rv /conjn /= !Ps !Pis; congr Normal.
  by rewrite [RHS]mulmxDr cP -mulmxBr !mulmxA.
rewrite !trmx_mul Ps Pis [in RHS]mulmxDr [RHS]mulmxDl !mulmxA PPi mul1mx -[cov rv *m Pi *m P]mulmxA PiP mulmx1.
congr (_ + _); rewrite -mulmxBl -mulmxBr.
by rewrite !mulmxA.
Qed.
Lemma conj_bwd (ob : normal R n) :
  bwd_classic (conjT T) g ob rv None = omap (conjn P) (bwd_classic T g (conjn Pi ob) (conjn Pi rv) None).
Proof.
rewrite /bwd_classic conj_gain conj_fwd; case: gain_classic => //= G.
rewrite conj_condition; congr (Some (conjn P (condition_state_on_rv _ _ _ _))).
case: (fwd_classic _ _ _) => m C; congr Normal; rewrite /= ?cPi // Ps Pis !mulmxA PiP mul1mx.
by rewrite -mulmxA PPi mulmx1.
Qed.
End Conj.
