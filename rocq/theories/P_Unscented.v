(** C47: the unscented transform. *)
From mathcomp Require Import all_ssreflect all_algebra.
From Verif Require Import L_Ring M_Unscented.
Set Implicit Arguments.
Unset Strict Implicit.
Unset Printing Implicit Defensive.
Import Order.Theory GRing.Theory Num.Theory.
Local Open Scope ring_scope.

Section Unscented.
Variable R : rcfType.
Variables d k : nat.
Hypothesis d0 : (0 < d)%N.
Notation n := (1 + (d + d))%N.
Implicit Types (m : 'cV[R]_d) (P L : 'M[R]_d).
Let dn0 : d%:R != 0 :> R. Proof. by rewrite pnatr_eq0 -lt0n. Qed.
Lemma scale0 : scale R d = 0.
Proof. by rewrite /scale /spread /special_scale expr1n mul1r addr0 subrr. Qed.
(** Both weights are zero for the first point and [1 / 2 d] for the others. *)
Definition w : 'rV[R]_n := row_mx (0 : 'rV_1) (const_mx (1 / (2%:R * d%:R))).
Lemma weights_meanE : weights_mean R d = w.
Proof. by rewrite /weights_mean scale0 mul0r addr0; congr row_mx; apply/matrixP => i j; rewrite !mxE. Qed.
Lemma weights_covE : weights_cov R d = w.
Proof.
rewrite /weights_cov /spread /priorpar scale0 expr1n subrr mul0r !addr0; congr row_mx.
Qed.
Lemma outerE a b (A : 'M[R]_(n, a)) (B : 'M[R]_(n, b)) v : outer v A B = A^T *m diag_mx v *m B.
Proof.
apply/matrixP => i j; rewrite summxE !mxE; apply: eq_bigr => l _; rewrite !mxE big_ord1 !mxE.
rewrite (bigD1 l) //= big1 => [|l' ll']; last by rewrite !mxE (negPf ll') mulr0.
by rewrite !mxE eqxx addr0 mulrCA mulrA; congr (_ * _); rewrite mulrC.
Qed.
Lemma two_c : 2%:R * (1 / (2%:R * d%:R)) * d%:R = 1 :> R.
Proof.
have n2 : 2%:R != 0 :> R by rewrite pnatr_eq0.
by move: (d%:R) dn0 => x x0; mfield.
Qed.
Lemma w_one : w *m (const_mx 1 : 'cV_n) = 1%:M.
Proof.
apply/matrixP => i j; rewrite !ord1 !mxE big_split_ord /= big_ord1 /w row_mxEl !mxE mul0r add0r.
rewrite (eq_bigr (fun=> 1 / (2%:R * d%:R))); last by move=> l _; rewrite row_mxEr !mxE mulr1.
have E (x y : R) : x * (y + y) = 2%:R * x * y by mring.
by rewrite sumr_const card_ord -mulr_natr natrD E two_c.
Qed.
Lemma w_points : w *m unit_points R d = 0.
Proof.
rewrite /w /unit_points -scalemxAr mul_row_col mul0mx add0r -[const_mx _]hsubmxK mul_row_col mulmx1 mulmxN mulmx1.
rewrite (_ : lsubmx _ - rsubmx _ = 0) ?scaler0 //; apply/matrixP => i j; rewrite !mxE; exact: subrr.
Qed.
Lemma points_cov : (unit_points R d)^T *m diag_mx w *m unit_points R d = 1%:M.
Proof.
rewrite /w /unit_points diag_mx_row [(_ *: _)^T]linearZ /= -scalemxAr -!scalemxAl scalerA -expr2 sqr_sqrtr ?ler0n //.
rewrite tr_col_mx mul_row_block !mulmx0 trmx0 !mul0mx !add0r mul_row_col mul0mx add0r.
rewrite diag_const_mx mul_mx_scalar -scalemxAl scalerA tr_col_mx mul_row_col [(- _)^T]linearN /= trmx1 mulmxN mulNmx opprK mulmx1.
have E (x y : R) : x * y * (1 + 1) = 2%:R * y * x by mring.
by rewrite -[in LHS](scale1r 1%:M) -scalerDl scalerA E two_c scale1r.
Qed.

(** The sigma points have the given mean and covariance [L L^T]; ... *)
Theorem C47_moments m L :
  weights_mean R d *m sigma_points m L = m^T /\
  outer (weights_cov R d) (sigma_points m L - rows d m) (sigma_points m L - rows d m) = L *m L^T.
Proof.
rewrite weights_meanE weights_covE /sigma_points; split.
  by rewrite mulmxDr mulmxA w_points mul0mx add0r /rows mulmxA w_one mul1mx.
rewrite addrK outerE trmx_mul trmxK -!mulmxA; congr (_ *m _).
by rewrite !mulmxA points_cov mul1mx.
Qed.
(** ... so have their images under affine functions. *)
Lemma transitioned_affine (F : 'M[R]_(k, d)) (c : 'cV[R]_k) pts :
  transitioned (fun x => F *m x + c) pts = pts *m F^T + rows d c.
Proof.
apply/matrixP => i j; rewrite !mxE big_ord1 !mxE mul1r; congr (_ + _); apply: eq_bigr => l _.
by rewrite !mxE mulrC.
Qed.
Lemma fx_mean_affine (F : 'M[R]_(k, d)) (c : 'cV[R]_k) m L :
  fx_mean (sigma_points m L *m F^T + rows d c) = F *m m + c.
Proof.
rewrite /fx_mean mulmxDr mulmxA (C47_moments m L).1 /rows mulmxA weights_meanE w_one mul1mx.
by rewrite linearD /= trmx_mul !trmxK.
Qed.
Lemma centred_affine (F : 'M[R]_(k, d)) (c : 'cV[R]_k) m L :
  sigma_points m L *m F^T + rows d c - rows d (F *m m + c) = (sigma_points m L - rows d m) *m F^T.
Proof.
by rewrite /rows linearD /= trmx_mul mulmxDr mulmxBl -mulmxA opprD addrACA subrr addr0.
Qed.
Theorem C47_affine (F : 'M[R]_(k, d)) (c : 'cV[R]_k) m L :
  let fx := transitioned (fun x => F *m x + c) (sigma_points m L) in
  [/\ fx_mean fx = F *m m + c, fx_cov fx = F *m (L *m L^T) *m F^T &
      crosscov (sigma_points m L - rows d m) fx = L *m L^T *m F^T].
Proof.
move=> fx; rewrite /fx transitioned_affine; split; first exact: fx_mean_affine.
  rewrite /fx_cov fx_mean_affine centred_affine outerE trmx_mul trmxK -!mulmxA; congr (_ *m _).
  by rewrite !mulmxA -outerE (C47_moments m L).2.
by rewrite /crosscov fx_mean_affine centred_affine outerE mulmxA -outerE (C47_moments m L).2.
Qed.

(** The statistical linearisation of any function has as prediction the mean of the transformed sigma
    points; without the regularisation [eps], also their covariance and cross-covariance. *)
Theorem C47_linearisation eps (f : 'cV[R]_d -> 'cV[R]_k) b Q m P L :
  let fx := transitioned f (sigma_points m L) in
  let '(mean, cov, cross) := forward (linearize eps f b Q m P L) m P in
  mean = fx_mean fx + b /\
  (eps = 0 -> P \in unitmx -> P^T = P -> cov = fx_cov fx + Q /\ cross = crosscov (sigma_points m L - rows d m) fx).
Proof.
move=> fx /=; rewrite -/fx; split=> [|-> uP sP].
  by rewrite /lin_mean addrC -addrA subrK addrC.
have X : P *m (lin_mat 0 m P (sigma_points m L) fx)^T = crosscov (sigma_points m L - rows d m) fx.
  by rewrite /lin_mat trmxK scale0r addr0 mulKVmx.
split=> //; rewrite X /lin_cov.
set C := crosscov _ _; set F := lin_mat _ _ _ _ _.
have -> : C^T *m F^T = F *m C.
  by rewrite /F /lin_mat trmxK scale0r addr0 -/C trmx_mul trmx_inv sP -mulmxA.
by rewrite addrC -addrA subrK addrC.
Qed.
(** For affine functions [x |-> F x + c] the prediction is exact up to the regularisation: the matrix is
    [G = F P (P + eps I)^-1] and the predicted covariance falls short by [eps G G^T]. *)
Theorem C47_exact eps (F : 'M[R]_(k, d)) (c b : 'cV[R]_k) Q m P L :
  P = L *m L^T -> P + eps *: 1%:M \in unitmx ->
  let T := linearize eps (fun x => F *m x + c) b Q m P L in
  let '(mean, cov, cross) := forward T m P in
  [/\ mean = F *m m + (c + b), T.1.1 = F *m P *m invmx (P + eps *: 1%:M),
      cov = F *m P *m F^T + Q - eps *: (T.1.1 *m T.1.1^T) & cross = P *m F^T - eps *: (T.1.1^T : 'M_(d, k))].
Proof.
move=> PE uP /=; have [fm fc cr] := C47_affine F c m L.
have sP : P^T = P by rewrite PE trmx_mul trmxK.
have [G GE] : {G | G = F *m P *m invmx (P + eps *: 1%:M)} by eexists.
have LG : lin_mat eps m P (sigma_points m L) (transitioned (fun x => F *m x + c) (sigma_points m L)) = G.
  rewrite /lin_mat cr -PE trmx_mul trmx_inv linearD /= sP linearZ /= trmx1 GE trmx_mul trmxK sP //.
have PG : P *m G^T = P *m F^T - eps *: G^T.
  have E : (P + eps *: 1%:M) *m G^T = P *m F^T.
    by rewrite GE trmx_mul trmx_inv linearD /= sP linearZ /= trmx1 mulKVmx // trmx_mul sP.
  by rewrite -E mulmxDl -scalemxAl mul1mx addrK.
rewrite LG /lin_mean /lin_cov LG fm fc cr -PE; split=> //.
  by rewrite addrC -addrA subrK addrC addrA.
have -> : (P *m F^T)^T *m G^T = G *m (P *m F^T).
  rewrite GE trmx_mul trmxK sP trmx_mul trmx_inv linearD /= sP linearZ /= trmx1 trmx_mul sP.
  by rewrite !mulmxA.
by rewrite PG mulmxBr -scalemxAr [F *m P *m F^T + Q]addrC addrC -!addrA; congr (_ + (_ + _)); rewrite addrA addNr add0r.
Qed.
(** In particular, without regularisation it is exact. *)
Corollary C47_exact0 (F : 'M[R]_(k, d)) (c b : 'cV[R]_k) Q m P L :
  P = L *m L^T -> P \in unitmx ->
  forward (linearize 0 (fun x => F *m x + c) b Q m P L) m P = (F *m m + (c + b), F *m P *m F^T + Q, P *m F^T).
Proof.
move=> PE uP; have u0 : P + 0 *: 1%:M \in unitmx by rewrite scale0r addr0.
by have [e1 _ e2 e3] := @C47_exact 0 F c b Q m P L PE u0; rewrite /forward /linearize e1 e2 e3 !scale0r !subr0.
Qed.
End Unscented.
Print Assumptions C47_moments.
Print Assumptions C47_affine.
Print Assumptions C47_linearisation.
Print Assumptions C47_exact.
Print Assumptions C47_exact0.

(** Non-vacuity: two dimensions. *)
Example C47_example (R : rcfType) :
  let L : 'M[R]_2 := 2%:R *: 1%:M in
  forward (linearize 0 (fun x => 3%:R *: 1%:M *m x + const_mx 1) (0 : 'cV_2) 1%:M (const_mx 5%:R) (4%:R *: 1%:M) L)
    (const_mx 5%:R) (4%:R *: 1%:M) = (const_mx 16%:R, 37%:R *: 1%:M, 12%:R *: 1%:M).
Proof.
move=> L; rewrite (@C47_exact0 R 2 2 isT (3%:R *: 1%:M) (const_mx 1) 0 1%:M (const_mx 5%:R) (4%:R *: 1%:M) L); last first.
- by rewrite unitmxZ ?unitmx1 // unitfE pnatr_eq0.
- by rewrite [(_ *: _)^T]linearZ /= trmx1 -scalemxAl mul1mx scalerA -natrM.
congr (_, _, _).
- by rewrite -scalemxAl mul1mx; apply/matrixP => i j; rewrite !mxE addr0 -natrM -(natrD _ _ 1).
- rewrite [(_ *: _)^T]linearZ /= trmx1 -scalemxAl mul1mx scalerA -scalemxAl mul1mx scalerA.
  by rewrite -[X in _ + X](scale1r 1%:M) -scalerDl -!natrM -(natrD _ _ 1).
- by rewrite [(_ *: _)^T]linearZ /= trmx1 -scalemxAl mul1mx scalerA -natrM.
Qed.

(** C122: with the regularisation actually added, the prediction of an affine model is not exact: the
    scalar identity model with unit variance. *)
Theorem C122_refuted (R : rcfType) (eps : R) : 0 < eps ->
  ~ forall (F P Q L : 'M[R]_1) (b c m : 'cV_1), P = L *m L^T -> P \in unitmx ->
    (forward (linearize eps (fun x => F *m x + c) b Q m P L) m P).1.2 = F *m P *m F^T + Q.
Proof.
move=> e0 H; have u1 : (1 : 'M[R]_1) \in unitmx by rewrite unitmx1.
have PE : (1%:M : 'M[R]_1) = 1%:M *m 1%:M^T by rewrite trmx1 mulmx1.
have ue : (1%:M + eps *: 1%:M : 'M[R]_1) \in unitmx.
  by rewrite -[X in X + _]scale1r -scalerDl unitmxZ ?unitmx1 // unitfE gt_eqF // addr_gt0 ?ltr01.
have [_ T1 e _] := @C47_exact R 1 1 isT eps 1%:M 0 0 0 0 1%:M 1%:M PE ue.
have := H 1%:M 1%:M 0 1%:M 0 0 0 PE u1.
rewrite /forward /linearize /= e T1 => /eqP.
rewrite -[X in _ == X]addr0 (inj_eq (addrI _)) oppr_eq0 scaler_eq0 gt_eqF //=.
rewrite !mulmx1 !mul1mx => /eqP /(congr1 (mulmx (1%:M + eps *: 1%:M))); rewrite mulKVmx // mulmx0.
move/(congr1 trmx); rewrite trmxK trmx0 => /(congr1 (fun A => A *m (1%:M + eps *: 1%:M))).
by rewrite mulVmx // mul0mx => /eqP; rewrite oner_eq0.
Qed.
Print Assumptions C122_refuted.
