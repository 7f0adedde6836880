(** Derivatives of matrix-valued functions of a real variable, and the matrix exponential. *)
From Coq Require Import Reals Lra.
From Coquelicot Require Import Coquelicot.
From mathcomp Require Import all_ssreflect all_algebra.
From Verif Require Import L_RStruct.
Set Implicit Arguments.
Unset Strict Implicit.
Unset Printing Implicit Defensive.
Import Order.Theory GRing.Theory Num.Theory.
Delimit Scope R_scope with coqR.
Delimit Scope ring_scope with ring.
Local Open Scope ring_scope.

(** [X] has the derivative [D] at [t]: entry by entry. *)
Definition mderive m n (X : R -> 'M[R]_(m, n)) (t : R) (D : 'M[R]_(m, n)) : Prop :=
  forall i j, is_derive (fun t => X t i j) t (D i j).

Lemma powE (x : R) n : x ^+ n = pow x n.
Proof. by elim: n => // n IH; rewrite exprS IH. Qed.
Lemma derive_eq (f : R -> R) t (d d' : R) : is_derive f t d -> d = d' -> is_derive f t d'.
Proof. by move=> h <-. Qed.
Lemma derive_ext (f g : R -> R) t (d : R) : (forall t, f t = g t) -> is_derive f t d -> is_derive g t d.
Proof. by move=> h; apply: is_derive_ext. Qed.
Lemma derive_add (f g : R -> R) t (a b : R) : is_derive f t a -> is_derive g t b -> is_derive (fun t => f t + g t) t (a + b).
Proof. exact: is_derive_plus. Qed.
Lemma derive_mul (f g : R -> R) t (a b : R) : is_derive f t a -> is_derive g t b -> is_derive (fun t => f t * g t) t (a * g t + f t * b).
Proof. by move=> h k; apply: is_derive_mult => // x y; exact: Rmult_comm. Qed.
Lemma derive_cst (c : R) t : is_derive (fun=> c) t 0.
Proof. exact: is_derive_const. Qed.
Lemma derive_sum (I : Type) (r : seq I) (f : I -> R -> R) t (d : I -> R) : (forall i, is_derive (f i) t (d i)) ->
  is_derive (fun t => \sum_(i <- r) f i t) t (\sum_(i <- r) d i).
Proof.
move=> h; elim: r => [|i r IH].
  apply: (derive_ext (f := fun=> 0)) => [u|]; first by rewrite big_nil.
  by rewrite big_nil; exact: derive_cst.
apply: (derive_ext (f := fun u => f i u + \sum_(k <- r) f k u)) => [u|]; first by rewrite big_cons.
by rewrite big_cons; apply: derive_add.
Qed.

Section Calculus.
Variables m n p : nat.
Lemma mderive_eq (X : R -> 'M[R]_(m, n)) t D D' : mderive X t D -> D = D' -> mderive X t D'.
Proof. by move=> h <-. Qed.
Lemma mderive_ext (X Y : R -> 'M[R]_(m, n)) t D : (forall t, X t = Y t) -> mderive X t D -> mderive Y t D.
Proof. by move=> e h i j; apply: (derive_ext (f := fun t => X t i j)) => // u; rewrite e. Qed.
Lemma mderive_cst (A : 'M[R]_(m, n)) t : mderive (fun=> A) t 0.
Proof. by move=> i j; rewrite mxE; exact: derive_cst. Qed.
Lemma mderive_add (X Y : R -> 'M[R]_(m, n)) t A B : mderive X t A -> mderive Y t B -> mderive (fun t => X t + Y t) t (A + B).
Proof.
move=> h k i j; apply: (derive_ext (f := fun t => X t i j + Y t i j)) => [u|]; first by rewrite mxE.
by rewrite mxE; apply: derive_add.
Qed.
Lemma mderive_mul (X : R -> 'M[R]_(m, n)) (Y : R -> 'M[R]_(n, p)) t A B : mderive X t A -> mderive Y t B ->
  mderive (fun t => X t *m Y t) t (A *m Y t + X t *m B).
Proof.
move=> h k i j; apply: (derive_ext (f := fun t => \sum_l X t i l * Y t l j)) => [u|]; first by rewrite mxE.
rewrite !mxE -big_split /=; apply: derive_sum => l; exact: derive_mul.
Qed.
Lemma mderive_tr (X : R -> 'M[R]_(m, n)) t A : mderive X t A -> mderive (fun t => (X t)^T) t A^T.
Proof.
move=> h i j; apply: (derive_ext (f := fun t => X t j i)) => [u|]; first by rewrite mxE.
by rewrite mxE.
Qed.
End Calculus.
Lemma mderive_mull m n p (A : 'M[R]_(m, n)) (Y : R -> 'M[R]_(n, p)) t B : mderive Y t B -> mderive (fun t => A *m Y t) t (A *m B).
Proof. by move=> h; apply: mderive_eq (mderive_mul (mderive_cst A t) h) _; rewrite mul0mx add0r. Qed.
Lemma mderive_mulr m n p (X : R -> 'M[R]_(m, n)) (B : 'M[R]_(n, p)) t A : mderive X t A -> mderive (fun t => X t *m B) t (A *m B).
Proof. by move=> h; apply: mderive_eq (mderive_mul h (mderive_cst B t)) _; rewrite mulmx0 addr0. Qed.
Lemma mderive_opp m n (X : R -> 'M[R]_(m, n)) t A : mderive X t A -> mderive (fun t => - X t) t (- A).
Proof.
move=> h i j; apply: (derive_ext (f := fun t => - (X t i j))) => [u|]; first by rewrite mxE.
by rewrite mxE; exact: is_derive_opp (h i j).
Qed.
Lemma mderive_sub m n (X Y : R -> 'M[R]_(m, n)) t A B : mderive X t A -> mderive Y t B -> mderive (fun t => X t - Y t) t (A - B).
Proof. by move=> h k; apply: mderive_add => //; apply: mderive_opp. Qed.
(** A function with zero derivative is constant. *)
Lemma mderive_zero m n (X : R -> 'M[R]_(m, n)) : (forall t, mderive X t 0) -> forall t, X t = X 0.
Proof.
move=> h t; apply/matrixP => i j.
have d u : is_derive (fun t => X t i j) u 0 by have := h u i j; rewrite mxE.
have [] := MVT_gen (fun t => X t i j) 0 t (fun=> 0).
- by move=> x _; exact: d.
- by move=> x _; apply: derivable_continuous_pt; exists 0; apply/is_derive_Reals; exact: d.
by move=> c [_]; rewrite Rmult_0_l => /Rminus_diag_uniq ->.
Qed.

(** ** Powers and the exponential *)
Section Exp.
Variable n : nat.
Implicit Types M : 'M[R]_n.
Definition mpow M (k : nat) : 'M[R]_n := iter k (mulmx M) 1%:M.
Definition expm M : 'M[R]_n := \matrix_(i, j) Series (fun k => mpow M k i j / INR (fact k))%coqR.
Lemma mpowS M k : mpow M k.+1 = M *m mpow M k. Proof. by []. Qed.
Lemma mpowSr M k : mpow M k.+1 = mpow M k *m M.
Proof. by elim: k => [|k IH]; [rewrite /mpow /= mulmx1 mul1mx|rewrite mpowS {1}IH mulmxA]. Qed.
Lemma mpowZ M (t : R) k : mpow (t *: M) k = t ^+ k *: mpow M k.
Proof. by elim: k => [|k IH]; [rewrite expr0 scale1r|rewrite !mpowS IH -scalemxAl -scalemxAr scalerA exprS]. Qed.
Lemma mpow_tr M k : mpow M^T k = (mpow M k)^T.
Proof. by elim: k => [|k IH]; [rewrite trmx1|rewrite mpowS IH -trmx_mul -mpowSr]. Qed.
Definition bnd M : R := \sum_i \sum_j `|M i j|.
Lemma bnd_ge0 M : 0 <= bnd M.
Proof. by apply: sumr_ge0 => i _; apply: sumr_ge0. Qed.
Lemma mpow_le M k i j : `|mpow M k i j| <= bnd M ^+ k.
Proof.
elim: k i j => [|k IH] i j; first by rewrite expr0 /mpow /= mxE; rewrite normr_nat; case: (i == j); rewrite ?lexx ?ler01.
rewrite mpowS mxE; apply: le_trans (ler_norm_sum _ _ _) _; rewrite exprS.
apply: (@le_trans _ _ (\sum_l `|M i l| * bnd M ^+ k)).
  by apply: ler_sum => l _; rewrite normrM; apply: ler_wpmul2l.
rewrite -mulr_suml; apply: ler_wpmul2r; first by rewrite exprn_ge0 // bnd_ge0.
have -> : bnd M = \sum_j `|M i j| + \sum_(l | l != i) \sum_j `|M l j| by rewrite /bnd (bigD1 i).
by rewrite ler_addl; apply: sumr_ge0 => l _; apply: sumr_ge0.
Qed.
Definition ecoef M i j (k : nat) : R := (mpow M k i j / INR (fact k))%coqR.
Lemma ecoef_disk M i j (r : R) : CV_disk (ecoef M i j) r.
Proof.
have /is_pseries_R h := is_exp_Reals (bnd M * `|r|).
apply: (@ex_series_le _ _ _ (fun k => / INR (fact k) * pow (bnd M * `|r|) k)%coqR); last by eexists; exact: h.
move=> k; rewrite /norm /= /abs /= Rabs_Rabsolu /ecoef.
have f0 := INR_fact_lt_0 k; rewrite Rabs_mult Rabs_div; last by apply: Rgt_not_eq.
rewrite (Rabs_pos_eq (INR (fact k))); last by apply: Rlt_le.
rewrite /Rdiv Rpow_mult_distr -RPow_abs -Rmult_assoc; apply: Rmult_le_compat_r; first by apply: pow_le; exact: Rabs_pos.
rewrite Rmult_comm; apply: Rmult_le_compat_l; first by apply: Rlt_le; apply: Rinv_0_lt_compat.
by have /leRP := mpow_le M k i j; rewrite powE.
Qed.
Lemma ecoef_radius M i j (x : R) : Rbar_lt (Rabs x) (CV_radius (ecoef M i j)).
Proof.
have [h _] := Lub_Rbar_correct (CV_disk (ecoef M i j)).
apply: Rbar_lt_le_trans (h (Rabs x + 1)%coqR (ecoef_disk _ _ _ _)); rewrite /=; lra.
Qed.
Lemma expmE M (t : R) i j : expm (t *: M) i j = PSeries (ecoef M i j) t.
Proof. by rewrite mxE; apply: Series_ext => k; rewrite mpowZ mxE powE /ecoef /Rdiv; change (t ^ k * mpow M k i j * / INR (fact k) = mpow M k i j * / INR (fact k) * t ^ k)%coqR; ring. Qed.
Lemma ecoef_ex M i j (x : R) : ex_pseries (ecoef M i j) x.
Proof. exact: CV_disk_correct (ecoef_disk _ _ _ _). Qed.
Lemma ecoef_sum (I : Type) (r : seq I) (a : I -> nat -> R) x : (forall i, ex_pseries (a i) x) ->
  ex_pseries (fun k => \sum_(i <- r) a i k) x /\ PSeries (fun k => \sum_(i <- r) a i k) x = \sum_(i <- r) PSeries (a i) x.
Proof.
move=> h; elim: r => [|i r [IH1 IH2]].
  have E k : 0 = \sum_(i <- [::]) a i k by rewrite big_nil.
  split; first by apply: (ex_pseries_ext (fun=> 0 : R)) => //; apply: CV_radius_inside; rewrite CV_radius_const_0.
  by rewrite big_nil -(PSeries_ext _ _ _ E) PSeries_const_0.
have E k : PS_plus (a i) (fun k => \sum_(i <- r) a i k) k = \sum_(i <- i :: r) a i k by rewrite big_cons.
split; first by apply: (ex_pseries_ext _ _ _ E); apply: ex_pseries_plus.
by rewrite big_cons -(PSeries_ext _ _ _ E) PSeries_plus // IH2.
Qed.
(** The derivative of [t |-> expm (t M)] is [M expm (t M)], and the factors commute. *)
Lemma ecoefS M i j k : PS_derive (ecoef M i j) k = (mpow M k.+1 i j / INR (fact k))%coqR.
Proof.
rewrite /PS_derive /ecoef; have f0 := INR_fact_neq_0 k.
have -> : INR (fact k.+1) = (INR k.+1 * INR (fact k))%coqR by rewrite -mult_INR.
by field; split=> //; apply: not_0_INR.
Qed.
Lemma sumL M i j k : (mpow M k.+1 i j / INR (fact k))%coqR = \sum_l PS_scal (M i l) (ecoef M l j) k.
Proof.
rewrite mpowS mxE /Rdiv; change (?x * ?y)%coqR with (x * y); rewrite mulr_suml; apply: eq_bigr => l _.
rewrite /PS_scal /ecoef; change (scal ?x ?y) with (x * y); rewrite /Rdiv.
change (M i l * mpow M k l j * / INR (fact k) = M i l * (mpow M k l j * / INR (fact k)))%coqR; ring.
Qed.
Lemma sumR M i j k : (mpow M k.+1 i j / INR (fact k))%coqR = \sum_l PS_scal (M l j) (ecoef M i l) k.
Proof.
rewrite mpowSr mxE /Rdiv; change (?x * ?y)%coqR with (x * y); rewrite mulr_suml; apply: eq_bigr => l _.
rewrite /PS_scal /ecoef; change (scal ?x ?y) with (x * y); rewrite /Rdiv.
change (mpow M k i l * M l j * / INR (fact k) = M l j * (mpow M k i l * / INR (fact k)))%coqR; ring.
Qed.
Lemma expm_derive M t : mderive (fun t => expm (t *: M)) t (M *m expm (t *: M)).
Proof.
move=> i j; apply: (derive_ext (f := PSeries (ecoef M i j))) => [u|]; first by rewrite expmE.
apply: derive_eq (is_derive_PSeries _ _ (ecoef_radius M i j t)) _; rewrite mxE.
have [h1 h2] := @ecoef_sum _ (index_enum _) (fun l => PS_scal (M i l) (ecoef M l j)) t (fun l => ex_pseries_scal _ _ _ (Rmult_comm _ _) (ecoef_ex M l j t)).
rewrite (PSeries_ext _ (fun k => \sum_l PS_scal (M i l) (ecoef M l j) k)); last first.
  by move=> k; rewrite ecoefS sumL.
by rewrite h2; apply: eq_bigr => l _; rewrite PSeries_scal expmE.
Qed.
Lemma expm_comm M t : M *m expm (t *: M) = expm (t *: M) *m M.
Proof.
apply/matrixP => i j; rewrite !mxE.
have [h1 h2] := @ecoef_sum _ (index_enum _) (fun l => PS_scal (M i l) (ecoef M l j)) t (fun l => ex_pseries_scal _ _ _ (Rmult_comm _ _) (ecoef_ex M l j t)).
have [h3 h4] := @ecoef_sum _ (index_enum _) (fun l => PS_scal (M l j) (ecoef M i l)) t (fun l => ex_pseries_scal _ _ _ (Rmult_comm _ _) (ecoef_ex M i l t)).
transitivity (\sum_l PSeries (PS_scal (M i l) (ecoef M l j)) t); first by apply: eq_bigr => l _; rewrite PSeries_scal expmE.
transitivity (\sum_l PSeries (PS_scal (M l j) (ecoef M i l)) t); last by apply: eq_bigr => l _; rewrite PSeries_scal expmE [RHS]mulrC.
by rewrite -h2 -h4; apply: PSeries_ext => k; rewrite -sumL -sumR.
Qed.

Lemma expm0 : expm 0 = 1%:M.
Proof.
have := @expmE 0 0; rewrite scale0r => E; apply/matrixP => i j; rewrite E PSeries_0 /ecoef /=.
by rewrite /Rdiv Rinv_1 Rmult_1_r.
Qed.
Lemma expm_tr M : expm M^T = (expm M)^T.
Proof. by apply/matrixP => i j; rewrite !mxE; apply: Series_ext => k; rewrite mpow_tr mxE. Qed.
(** The product with [expm (- t M)] is the identity. *)
Lemma mderive_neg m p (X : R -> 'M[R]_(m, p)) t A : mderive X (- t) A -> mderive (fun t => X (- t)) t (- A).
Proof.
move=> h i j; apply: derive_eq (is_derive_comp (fun t => X t i j) _ _ _ _ (h i j) (is_derive_opp _ _ _ (is_derive_id t))) _.
by rewrite mxE; change (scal ?x ?y) with (x * y); change (opp one) with (- 1 : R); rewrite mulN1r.
Qed.
Lemma expmN_derive M t : mderive (fun t => expm (- t *: M)) t (- (M *m expm (- t *: M))).
Proof. exact: (mderive_neg (X := fun t => expm (t *: M))) (expm_derive M (- t)). Qed.
Lemma expmN M t : expm (t *: M) *m expm (- t *: M) = 1%:M.
Proof.
have h u : mderive (fun t => expm (t *: M) *m expm (- t *: M)) u 0.
  apply: mderive_eq (mderive_mul (expm_derive M u) (expmN_derive M u)) _.
  by rewrite expm_comm mulmxN mulmxA subrr.
by rewrite (mderive_zero h) oppr0 scale0r expm0 mulmx1.
Qed.
(** ** Uniqueness: [X' = F X + X G] and [X 0 = 0] *)
End Exp.
Lemma linear_unique n p (F : 'M[R]_n) (G : 'M[R]_p) (X : R -> 'M[R]_(n, p)) :
  (forall t, mderive X t (F *m X t + X t *m G)) -> X 0 = 0 -> forall t, X t = 0.
Proof.
move=> h x0 t.
have d u : mderive (fun t => expm (- t *: F) *m X t *m expm (- t *: G)) u 0.
  apply: mderive_eq (mderive_mul (mderive_mul (expmN_derive F u) (h u)) (expmN_derive G u)) _.
  by rewrite [F *m _]expm_comm mulmxDr mulNmx !mulmxA addrA addNr add0r mulmxN !mulmxA subrr.
have := mderive_zero d t; rewrite x0 mulmx0 mul0mx.
move/(congr1 (fun Y => expm (t *: F) *m Y *m expm (t *: G))); rewrite mulmx0 mul0mx !mulmxA expmN mul1mx -mulmxA.
have := expmN G (- t); rewrite opprK => ->; by rewrite mulmx1.
Qed.
