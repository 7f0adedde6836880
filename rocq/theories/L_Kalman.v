(** Random vectors, conditional laws, and the lemmas behind the Kalman theorems. *)
From mathcomp Require Import all_ssreflect all_algebra.
From Verif Require Import L_Zmod M_Gauss.
Set Implicit Arguments.
Unset Strict Implicit.
Unset Printing Implicit Defensive.
Import Order.Theory GRing.Theory Num.Theory.
Local Open Scope ring_scope.

(** ** Specification: Gaussian random vectors *)
(** Jointly Gaussian random vectors are affine functions of [K] independent
    standard normal variables: the first column is the mean, the others are the
    coefficients. *)
Section RVec.
Variables (R : realFieldType) (K : nat).
Definition rvec n := 'M[R]_(n, 1 + K).
Definition Mean n (X : rvec n) : 'cV[R]_n := lsubmx X.
Definition Cov n m (X : rvec n) (Y : rvec m) : 'M[R]_(n, m) := rsubmx X *m (rsubmx Y)^T.
Definition Cst n (b : 'cV[R]_n) : rvec n := row_mx b 0.

(** [X] given [Y 0], ..., [Y (k-1)] is normal with mean [mu y] when [Y = y] and
    covariance [P]: [mu] is affine in the data, and the error is centred,
    uncorrelated with (hence, being jointly Gaussian, independent of) the data,
    with covariance [P]. *)
Definition predictor n (m : nat -> nat) k (k0 : 'cV[R]_n) (Kc : forall j, 'M[R]_(n, m j))
    (y : forall j, 'cV[R]_(m j)) : 'cV[R]_n :=
  k0 + \sum_(j < k) Kc j *m y j.
Definition predictor_rv n (m : nat -> nat) k (k0 : 'cV[R]_n) (Kc : forall j, 'M[R]_(n, m j))
    (Y : forall j, rvec (m j)) : rvec n :=
  Cst k0 + \sum_(j < k) Kc j *m Y j.
Definition cond_law n (m : nat -> nat) (X : rvec n) (Y : forall j, rvec (m j)) k
    (mu : (forall j, 'cV[R]_(m j)) -> 'cV[R]_n) (P : 'M[R]_n) : Prop :=
  exists k0 Kc,
    (forall y, mu y = predictor k k0 Kc y)
    /\ let E := X - predictor_rv k k0 Kc Y in
       Mean E = 0 /\ (forall j, (j < k)%N -> Cov E (Y j) = 0) /\ Cov E E = P.

(** *** Algebra of means and covariances *)
Lemma MeanD n (X Y : rvec n) : Mean (X + Y) = Mean X + Mean Y.
Proof. exact: linearD. Qed.
Lemma MeanB n (X Y : rvec n) : Mean (X - Y) = Mean X - Mean Y.
Proof. exact: linearB. Qed.
Lemma MeanM n m (A : 'M[R]_(m, n)) (X : rvec n) : Mean (A *m X) = A *m Mean X.
Proof. by rewrite /Mean mulmx_lsub. Qed.
Lemma MeanC n (b : 'cV[R]_n) : Mean (Cst b) = b.
Proof. exact: row_mxKl. Qed.
Lemma CovDl n m (X X' : rvec n) (Y : rvec m) : Cov (X + X') Y = Cov X Y + Cov X' Y.
Proof. by rewrite /Cov linearD mulmxDl. Qed.
Lemma CovBl n m (X X' : rvec n) (Y : rvec m) : Cov (X - X') Y = Cov X Y - Cov X' Y.
Proof. by rewrite /Cov linearB mulmxBl. Qed.
Lemma CovMl n m p (A : 'M[R]_(p, n)) (X : rvec n) (Y : rvec m) : Cov (A *m X) Y = A *m Cov X Y.
Proof. by rewrite /Cov -mulmx_rsub mulmxA. Qed.
Lemma CovCl n m b (Y : rvec m) : Cov (Cst (n := n) b) Y = 0.
Proof. by rewrite /Cov row_mxKr mul0mx. Qed.
Lemma CovT n m (X : rvec n) (Y : rvec m) : (Cov X Y)^T = Cov Y X.
Proof. by rewrite /Cov trmx_mul trmxK. Qed.
Lemma CovDr n m (X : rvec n) (Y Y' : rvec m) : Cov X (Y + Y') = Cov X Y + Cov X Y'.
Proof. by rewrite -CovT CovDl trmxD !CovT. Qed.
Lemma CovBr n m (X : rvec n) (Y Y' : rvec m) : Cov X (Y - Y') = Cov X Y - Cov X Y'.
Proof. by rewrite -CovT CovBl trmxB !CovT. Qed.
Lemma CovMr n m p (A : 'M[R]_(p, m)) (X : rvec n) (Y : rvec m) : Cov X (A *m Y) = Cov X Y *m A^T.
Proof. by rewrite -CovT CovMl trmx_mul CovT. Qed.
Lemma CovCr n m b (X : rvec n) : Cov X (Cst (n := m) b) = 0.
Proof. by rewrite -CovT CovCl trmx0. Qed.
Lemma Cov_sym n (X : rvec n) : (Cov X X)^T = Cov X X.
Proof. exact: CovT. Qed.
Lemma Cov_suml n m k (X : 'I_k -> rvec n) (Y : rvec m) :
  Cov (\sum_j X j) Y = \sum_j Cov (X j) Y.
Proof.
rewrite /Cov (linear_sum (rsubmx_linear _ _ _ _)) /= -mulmx_suml.
by congr (_ *m _); apply: eq_bigr.
Qed.
Lemma Cov0_sym n m (X : rvec n) (Y : rvec m) : Cov X Y = 0 -> Cov Y X = 0.
Proof. by move=> E; rewrite -CovT E trmx0. Qed.
Lemma CstD n (b c : 'cV[R]_n) : Cst (b + c) = Cst b + Cst c.
Proof. by rewrite /Cst add_row_mx addr0. Qed.
Lemma CstM n m (A : 'M[R]_(m, n)) b : Cst (A *m b) = A *m Cst b.
Proof. by rewrite /Cst mul_mx_row mulmx0. Qed.

Lemma MeanN n (X : rvec n) : Mean (- X) = - Mean X.
Proof. exact: linearN. Qed.
Lemma CovNl n m (X : rvec n) (Y : rvec m) : Cov (- X) Y = - Cov X Y.
Proof. by rewrite /Cov linearN mulNmx. Qed.
Lemma CovNr n m (X : rvec n) (Y : rvec m) : Cov X (- Y) = - Cov X Y.
Proof. by rewrite -CovT CovNl trmxN CovT. Qed.
Definition CovE := (CovDl, CovNl, CovMl, CovDr, CovNr, CovMr, CovCl, CovCr).
Definition MeanE := (MeanD, MeanN, MeanM, MeanC).

(** *** Uniqueness and optimality of the conditional law *)
Lemma Cov_predictor0 n p (m : nat -> nat) (E : rvec p) (Y : forall j, rvec (m j)) k k0
    (Kc : forall j, 'M[R]_(n, m j)) :
  (forall j, (j < k)%N -> Cov E (Y j) = 0) -> Cov E (predictor_rv k k0 Kc Y) = 0.
Proof.
move=> H; rewrite /predictor_rv CovDr CovCr add0r -CovT Cov_suml big1 ?trmx0 // => j _.
by rewrite CovMl (Cov0_sym (H j _)) ?mulmx0.
Qed.
End RVec.

(** *** Positive semidefinite matrices *)
Section Psd.
Variable R : realFieldType.
Definition qform n (A : 'M[R]_n) (x : 'cV[R]_n) : R := (x^T *m A *m x) 0 0.
Definition psd n (A : 'M[R]_n) : Prop := A^T = A /\ forall x, 0 <= qform A x.
Definition pd n (A : 'M[R]_n) : Prop := A^T = A /\ forall x, x != 0 -> 0 < qform A x.
(** Loewner order. *)
Definition loewner n (A B : 'M[R]_n) := psd (B - A).

Lemma dot_ge0 n (x : 'cV[R]_n) : 0 <= (x^T *m x) 0 0.
Proof. by rewrite mxE sumr_ge0 // => i _; rewrite !mxE -expr2 sqr_ge0. Qed.
Lemma dot_eq0 n (x : 'cV[R]_n) : (x^T *m x) 0 0 = 0 -> x = 0.
Proof.
move/eqP; rewrite mxE psumr_eq0 => [/allP H|i _]; last by rewrite !mxE -expr2 sqr_ge0.
apply/matrixP => i j; rewrite ord1 mxE.
by have /eqP := H i (mem_index_enum _); rewrite !mxE -expr2 => /eqP; rewrite sqrf_eq0 => /eqP.
Qed.
Lemma gram_eq0 n k (L : 'M[R]_(n, k)) : L *m L^T = 0 -> L = 0.
Proof.
move=> E; apply/row_matrixP => i; rewrite row0; apply: trmx_inj; rewrite trmx0.
apply: dot_eq0; rewrite trmxK -row_mul.
have := congr1 (fun M : 'M_n => M i i) E; rewrite !mxE => E'.
by rewrite -[RHS]E'; apply: eq_bigr => j _; rewrite !mxE.
Qed.
Lemma qformD n (A B : 'M[R]_n) x : qform (A + B) x = qform A x + qform B x.
Proof. by rewrite /qform mulmxDr mulmxDl mxE. Qed.
Lemma qformB n (A B : 'M[R]_n) x : qform (A - B) x = qform A x - qform B x.
Proof. by rewrite /qform mulmxBr mulmxBl !mxE. Qed.
Lemma qformZ n a (A : 'M[R]_n) x : qform (a *: A) x = a * qform A x.
Proof. by rewrite /qform -scalemxAr -scalemxAl mxE. Qed.
Lemma psd0 n : psd (0 : 'M[R]_n).
Proof. by split=> [|x]; rewrite ?trmx0 // /qform mulmx0 mul0mx mxE. Qed.
Lemma psdD n (A B : 'M[R]_n) : psd A -> psd B -> psd (A + B).
Proof.
move=> [sA pA] [sB pB]; split; first by rewrite trmxD sA sB.
by move=> x; rewrite qformD addr_ge0.
Qed.
Lemma psdZ n a (A : 'M[R]_n) : 0 <= a -> psd A -> psd (a *: A).
Proof.
move=> ge0 [sA pA]; split; first by rewrite trmxZ sA.
by move=> x; rewrite qformZ mulr_ge0.
Qed.
Lemma psd_conj n m (A : 'M[R]_n) (B : 'M[R]_(m, n)) : psd A -> psd (B *m A *m B^T).
Proof.
move=> [sA pA]; split; first by rewrite !trmx_mul trmxK sA mulmxA.
by move=> x; have := pA (B^T *m x); rewrite /qform trmx_mul trmxK !mulmxA.
Qed.
Lemma psd_gram n k (L : 'M[R]_(n, k)) : psd (L *m L^T).
Proof.
split; first by rewrite trmx_mul trmxK.
by move=> x; have := dot_ge0 (L^T *m x); rewrite /qform trmx_mul trmxK !mulmxA.
Qed.
Lemma psd_Cov K n (X : rvec R K n) : psd (Cov X X).
Proof. exact: psd_gram. Qed.
Lemma pd_psd n (A : 'M[R]_n) : pd A -> psd A.
Proof.
move=> [sA pA]; split=> // x; have [->|] := eqVneq x 0; last by move/pA/ltW.
by rewrite /qform mulmx0 mxE.
Qed.
Lemma pd_unit n (A : 'M[R]_n) : pd A -> A \in unitmx.
Proof.
move=> [sA pA]; rewrite -row_free_unit -kermx_eq0; apply/eqP/row_matrixP => i.
rewrite row0; apply: trmx_inj; rewrite trmx0; apply/eqP; apply: contraT => nz.
have := pA _ nz; rewrite /qform trmxK -row_mul mulmx_ker row0 mul0mx mxE.
by rewrite ltxx.
Qed.
End Psd.

Section Unique.
Variables (R : realFieldType) (K n : nat) (m : nat -> nat).
Variables (X : rvec R K n) (Y : forall j, rvec R K (m j)) (k : nat).

Lemma predictor_rvB k0 k1 (K0 K1 : forall j, 'M[R]_(n, m j)) :
  predictor_rv k k0 K0 Y - predictor_rv k k1 K1 Y
  = predictor_rv k (k0 - k1) (fun j => K0 j - K1 j) Y.
Proof.
rewrite /predictor_rv [Cst _ (k0 - k1)]CstD.
have -> : Cst K (- k1) = - Cst K k1 by rewrite /Cst opp_row_mx oppr0.
have -> : \sum_(j < k) (K0 j - K1 j) *m Y j
        = \sum_(j < k) K0 j *m Y j - \sum_(j < k) K1 j *m Y j.
  by rewrite -sumrB; apply: eq_bigr => j _; rewrite mulmxBl.
zmod_eq.
Qed.

(** The conditional law is unique: same covariance, and the same predictor (as
    random vectors, i.e. for almost all data). *)
Lemma cond_law_unique k0 k1 K0 K1 :
  let E := X - predictor_rv k k0 K0 Y in
  let E' := X - predictor_rv k k1 K1 Y in
  Mean E = 0 -> (forall j, (j < k)%N -> Cov E (Y j) = 0) ->
  Mean E' = 0 -> (forall j, (j < k)%N -> Cov E' (Y j) = 0) ->
  predictor_rv k k0 K0 Y = predictor_rv k k1 K1 Y.
Proof.
move=> E E' ME CE ME' CE'.
set D := predictor_rv k k0 K0 Y - predictor_rv k k1 K1 Y.
have DE : D = E' - E by rewrite /D /E /E'; zmod_eq.
have D0 : forall j, (j < k)%N -> Cov D (Y j) = 0.
  by move=> j lt; rewrite DE CovBl CE // CE' // subr0.
have DD : Cov D D = 0.
  by rewrite {2}/D predictor_rvB; apply: Cov_predictor0.
have D1 : rsubmx D = 0 by apply: gram_eq0.
have D2 : lsubmx D = 0 by rewrite -/(Mean D) DE MeanB ME ME' subr0.
by apply/eqP; rewrite -subr_eq0 -/D -[D]hsubmxK D1 D2 row_mx0.
Qed.

(** ... and no affine function of the data predicts better. *)
Lemma cond_law_optimal k0 k1 K0 K1 :
  let E := X - predictor_rv k k0 K0 Y in
  let E' := X - predictor_rv k k1 K1 Y in
  (forall j, (j < k)%N -> Cov E (Y j) = 0) ->
  loewner (Cov E E) (Cov E' E').
Proof.
move=> E E' CE.
set D := predictor_rv k (k0 - k1) (fun j => K0 j - K1 j) Y.
have E'E : E' = E + D by rewrite /D -predictor_rvB /E /E'; zmod_eq.
have ED : Cov E D = 0 by apply: Cov_predictor0.
rewrite /loewner E'E (CovDl E D) (CovDr E E D) (CovDr D E D) ED (Cov0_sym ED) addr0 add0r addrC addKr.
exact: psd_Cov.
Qed.
End Unique.
