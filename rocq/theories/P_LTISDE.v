(** C52, C135-C137: discretisation and moment equations of linear SDEs. *)
From Coq Require Import Reals Lra.
From Coquelicot Require Import Coquelicot.
From mathcomp Require Import all_ssreflect all_algebra.
From Verif Require Import L_Zmod L_RStruct L_Expm M_LTISDE.
Set Implicit Arguments.
Unset Strict Implicit.
Unset Printing Implicit Defensive.
Import Order.Theory GRing.Theory Num.Theory.
Delimit Scope R_scope with coqR.
Local Open Scope ring_scope.

(** ** Integrals *)
Definition mRInt m n (X : R -> 'M[R]_(m, n)) (a b : R) : 'M[R]_(m, n) := \matrix_(i, j) RInt (fun u => X u i j) a b.
Lemma mderive_int m n (Y X : R -> 'M[R]_(m, n)) (a b : R) : (forall u, mderive Y u (X u)) -> (forall u, exists D, mderive X u D) ->
  Y b - Y a = mRInt X a b.
Proof.
move=> h k; apply/matrixP => i j; rewrite !mxE; apply/esym/is_RInt_unique.
apply: (is_RInt_derive (fun u => Y u i j) (fun u => X u i j)) => x _; first exact: h.
by have [D d] := k x; apply: ex_derive_continuous; exists (D i j); exact: d.
Qed.
Lemma mRInt_ext m n (X Y : R -> 'M[R]_(m, n)) a b : (forall u, X u = Y u) -> mRInt X a b = mRInt Y a b.
Proof. by move=> h; apply/matrixP => i j; rewrite !mxE; apply: RInt_ext => x _; rewrite h. Qed.

(** ** Blocks *)
Section Sub.
Variables m1 m2 n1 n2 : nat.
Variables (X : R -> 'M[R]_(m1 + m2, n1 + n2)) (t : R) (D : 'M[R]_(m1 + m2, n1 + n2)).
Hypothesis h : mderive X t D.
Lemma mderive_ul : mderive (fun t => ulsubmx (X t)) t (ulsubmx D).
Proof. by move=> i j; rewrite !mxE; apply: derive_ext (h (lshift _ i) (lshift _ j)) => u; rewrite !mxE. Qed.
Lemma mderive_ur : mderive (fun t => ursubmx (X t)) t (ursubmx D).
Proof. by move=> i j; rewrite !mxE; apply: derive_ext (h (lshift _ i) (rshift _ j)) => u; rewrite !mxE. Qed.
Lemma mderive_dl : mderive (fun t => dlsubmx (X t)) t (dlsubmx D).
Proof. by move=> i j; rewrite !mxE; apply: derive_ext (h (rshift _ i) (lshift _ j)) => u; rewrite !mxE. Qed.
Lemma mderive_dr : mderive (fun t => drsubmx (X t)) t (drsubmx D).
Proof. by move=> i j; rewrite !mxE; apply: derive_ext (h (rshift _ i) (rshift _ j)) => u; rewrite !mxE. Qed.
End Sub.
Lemma expm_unique n (F : 'M[R]_n) (X : R -> 'M[R]_n) : (forall t, mderive X t (F *m X t)) -> X 0 = 1%:M -> forall t, X t = expm (t *: F).
Proof.
move=> h x0 t; apply/eqP; rewrite -subr_eq0; apply/eqP.
apply: (@linear_unique _ _ F 0 (fun t => X t - expm (t *: F))) => [u|]; last by rewrite x0 scale0r expm0 subrr.
by apply: mderive_eq (mderive_sub (h u) (expm_derive F u)) _; rewrite mulmx0 addr0 mulmxBr.
Qed.
(** The exponential of a block triangular matrix. *)
Lemma expm_block n p (F : 'M[R]_n) (B : 'M[R]_(n, p)) (G : 'M[R]_p) t : let M := fun t => expm (t *: block_mx F B 0 G) in
  [/\ ulsubmx (M t) = expm (t *: F), dlsubmx (M t) = 0, drsubmx (M t) = expm (t *: G),
      mderive (fun t => ursubmx (M t)) t (F *m ursubmx (M t) + B *m expm (t *: G)) & ursubmx (M 0) = 0].
Proof.
move=> M; pose Phi := block_mx F B 0 G.
have d u : mderive M u (block_mx (F *m ulsubmx (M u) + B *m dlsubmx (M u)) (F *m ursubmx (M u) + B *m drsubmx (M u)) (G *m dlsubmx (M u)) (G *m drsubmx (M u))).
  apply: mderive_eq (expm_derive Phi u) _.
  by rewrite -{1}[expm _]submxK mulmx_block !mul0mx !add0r.
have M0 : M 0 = block_mx 1%:M 0 0 1%:M by rewrite /M scale0r expm0 scalar_mx_block.
have dl u : dlsubmx (M u) = 0.
  apply: (@linear_unique _ _ G 0 (fun u => dlsubmx (M u))); last by rewrite M0 block_mxKdl.
  by move=> v; apply: mderive_eq (mderive_dl (d v)) _; rewrite block_mxKdl mulmx0 addr0.
have dr u : drsubmx (M u) = expm (u *: G).
  apply: (@expm_unique _ G (fun u => drsubmx (M u))); last by rewrite M0 block_mxKdr.
  by move=> v; apply: mderive_eq (mderive_dr (d v)) _; rewrite block_mxKdr.
have ul u : ulsubmx (M u) = expm (u *: F).
  apply: (@expm_unique _ F (fun u => ulsubmx (M u))); last by rewrite M0 block_mxKul.
  by move=> v; apply: mderive_eq (mderive_ul (d v)) _; rewrite block_mxKul dl mulmx0 addr0.
split=> //; last by rewrite M0 block_mxKur.
by apply: mderive_eq (mderive_ur (d t)) _; rewrite block_mxKur dr.
Qed.

(** ** The matrix fraction decomposition *)
Section MFD.
Variables (n w : nat) (F : 'M[R]_n) (L : 'M[R]_(n, w)).
Lemma mfd_A t : (mfd F L t).1 = expm (t *: F).
Proof. by have [] := expm_block F (L *m L^T) (- F^T) t. Qed.
(** The noise covariance solves the Lyapunov equation. *)
Lemma mfd_Q_derive t : mderive (fun t => (mfd F L t).2) t (F *m (mfd F L t).2 + (mfd F L t).2 *m F^T + L *m L^T).
Proof.
have [e _ _ d _] := expm_block F (L *m L^T) (- F^T) t.
rewrite /mfd /=; apply: mderive_eq.
  apply: mderive_mul d _; apply: mderive_tr.
  apply: (@mderive_ext _ _ (fun t => expm (t *: F))); last exact: expm_derive.
  by move=> u; have [-> _] := expm_block F (L *m L^T) (- F^T) u.
have I : expm (t *: - F^T) *m (expm (t *: F))^T = 1%:M.
  have Z : (t *: F)^T = t *: F^T by apply/matrixP => i j; rewrite !mxE.
  by have := expmN F^T (- t); rewrite opprK -expm_tr Z scalerN scaleNr.
by rewrite e trmx_mul mulmxDl -!mulmxA I mulmx1 addrAC.
Qed.
Lemma mfd_Q0 : (mfd F L 0).2 = 0.
Proof. by have [_ _ _ _ e] := expm_block F (L *m L^T) (- F^T) 0; rewrite /mfd /= e mul0mx. Qed.
(** It is the integral over the process noise. *)
Lemma mfd_Q t : (mfd F L t).2 = mRInt (fun u => expm (u *: F) *m L *m L^T *m (expm (u *: F))^T) 0 t.
Proof.
pose Q t := (mfd F L t).2; pose X u := expm (u *: F) *m L *m L^T *m (expm (u *: F))^T.
have dX u : mderive X u (F *m X u + X u *m F^T).
  apply: mderive_eq (mderive_mul (mderive_mulr _ (mderive_mulr _ (expm_derive F u))) (mderive_tr (expm_derive F u))) _.
  by rewrite trmx_mul /X !mulmxA.
pose D u := F *m Q u + Q u *m F^T + L *m L^T - X u.
have D0 u : D u = 0.
  apply: (@linear_unique _ _ F F^T D) => [v|]; last by rewrite /D /Q mfd_Q0 /X scale0r expm0 mulmx0 mul0mx add0r add0r mul1mx trmx1 mulmx1 subrr.
  apply: mderive_eq (mderive_sub (mderive_add (mderive_add (mderive_mull F (mfd_Q_derive v)) (mderive_mulr F^T (mfd_Q_derive v))) (mderive_cst _ v)) (dX v)) _.
  by rewrite addr0 /D -/(Q v) mulmxBr mulmxBl opprD addrACA.
have <- := @mderive_int _ _ Q X 0 t.
- by rewrite /Q mfd_Q0 subr0.
- move=> u; apply: mderive_eq (mfd_Q_derive u) _; apply/eqP; rewrite -subr_eq0; exact/eqP/D0.
- by move=> u; eexists; exact: dX.
Qed.
End MFD.

(** ** C52 *)
Section Disc.
Variables (n w : nat) (F : 'M[R]_n) (f : 'cV[R]_n) (L : 'M[R]_(n, w)).
(** The order of the entries of a vector reversed. *)
Definition reversed (x : 'cV[R]_n) : 'cV[R]_n := \col_i x (rev_ord i) 0.
Let Fs := block_mx F 1%:M 0 (0 : 'M[R]_n).
Let Ls := col_mx L (0 : 'M[R]_(n, w)).
Lemma eyeE : eye n (n + n) = row_mx 1%:M 0.
Proof.
apply/matrixP => i j; rewrite !mxE; case: splitP => k e; rewrite mxE e //.
by case: eqP => // h; move: (ltn_ord i); rewrite h ltnNge leq_addr.
Qed.
Lemma flipE : (flip_cols (eye n (n + n)))^T *m f = col_mx 0 (reversed f).
Proof.
apply/matrixP => i z; rewrite !ord1 !mxE; case: splitP => k e.
  rewrite mxE big1 // => l _; rewrite !mxE; case: eqP => h; last by rewrite mul0r.
  by have := ltn_ord l; rewrite h [rev_ord i : nat]/= e -addnBA // ltnNge leq_addr.
rewrite mxE (bigD1 (rev_ord k)) // big1 => [|l nl]; rewrite !mxE [rev_ord i : nat]/= e -addnS subnDl.
  by rewrite eqxx mul1r; apply: addr0.
case: eqP => [h|]; last by rewrite mul0r.
by case/eqP: nl; apply: val_inj; rewrite /= h.
Qed.
Lemma proj_ul (A : 'M[R]_(n + n)) : eye n (n + n) *m A *m (eye n (n + n))^T = ulsubmx A.
Proof.
by rewrite eyeE tr_row_mx trmx1 trmx0 -{1}[A]submxK mul_row_block !mul1mx !mul0mx !addr0 mul_row_col mulmx1 mulmx0 addr0.
Qed.
Lemma discE dt : discretise F f L dt = if f != 0 then
    LTI (ulsubmx (mfd Fs Ls dt).1) (ursubmx (mfd Fs Ls dt).1 *m reversed f) (ulsubmx (mfd Fs Ls dt).2)
  else LTI (mfd F L dt).1 0 (mfd F L dt).2.
Proof.
rewrite /discretise; case: ifP => _ //; rewrite -!proj_ul; congr LTI.
rewrite -[_ *m f]mulmxA flipE eyeE -/Fs -/Ls; set A := (mfd Fs Ls dt).1.
change (row_mx 1%:M 0 *m A *m col_mx 0 (reversed f) = ursubmx A *m reversed f).
by rewrite -{1}[A]submxK mul_row_block !mul1mx !mul0mx !addr0 mul_row_col mulmx0 add0r.
Qed.
(** The discretised model, for any force. *)
Lemma disc_tmat dt : tmat (discretise F f L dt) = expm (dt *: F).
Proof.
rewrite discE; case: ifP => _; rewrite [LHS]/tmat mfd_A //.
by have [<- _ _ _ _] := expm_block F 1%:M (0 : 'M[R]_n) dt.
Qed.
Lemma disc_ncov dt : ncov (discretise F f L dt) = mRInt (fun u => expm (u *: F) *m L *m L^T *m (expm (u *: F))^T) 0 dt.
Proof.
rewrite discE; case: ifP => _; rewrite [LHS]/ncov mfd_Q //.
apply/matrixP => i j; rewrite !mxE; apply: RInt_ext => u _.
have [e1 e2 _ _ _] := expm_block F 1%:M (0 : 'M[R]_n) u.
have e : expm (u *: Fs) *m Ls = col_mx (expm (u *: F) *m L) (0 : 'M_(n, w)).
  by rewrite -e1 -[expm (u *: Fs)]submxK e2 mul_block_col !mulmx0 mul0mx !addr0 block_mxKul.
rewrite -[in LHS]mulmxA -trmx_mul e tr_col_mx trmx0 mul_col_row -[block_mx _ _ _ _]/(block_mx _ _ _ _).
have -> : expm (u *: F) *m L *m L^T *m (expm (u *: F))^T = (expm (u *: F) *m L) *m (expm (u *: F) *m L)^T by rewrite trmx_mul !mulmxA.
by rewrite block_mxEul.
Qed.
Lemma ur_derive t : mderive (fun t => ursubmx (expm (t *: Fs))) t (expm (t *: F)) /\ ursubmx (expm (0 *: Fs)) = 0
  /\ F *m ursubmx (expm (t *: Fs)) + 1%:M = expm (t *: F).
Proof.
pose S t := ursubmx (expm (t *: Fs)).
have dS u : mderive S u (F *m S u + 1%:M).
  by have [_ _ _ d _] := expm_block F 1%:M (0 : 'M[R]_n) u; apply: mderive_eq d _; rewrite scaler0 expm0 mulmx1.
have S0 : S 0 = 0 by have [_ _ _ _ e] := expm_block F 1%:M (0 : 'M[R]_n) 0.
have D u : F *m S u + 1%:M - expm (u *: F) = 0.
  apply: (@linear_unique _ _ F 0 (fun u => F *m S u + 1%:M - expm (u *: F))) => [v|]; last by rewrite S0 scale0r expm0 mulmx0 add0r subrr.
  apply: mderive_eq (mderive_sub (mderive_add (mderive_mull F (dS v)) (mderive_cst _ v)) (expm_derive F v)) _.
  by rewrite mulmx0 !addr0 mulmxBr.
have E : F *m S t + 1%:M = expm (t *: F) by apply/eqP; rewrite -subr_eq0; exact/eqP/D.
by split=> //; apply: mderive_eq (dS t) E.
Qed.
Lemma disc_nmeanE t : nmean (discretise F f L t) = ursubmx (expm (t *: Fs)) *m reversed f.
Proof.
rewrite discE; case: ifP => [_|/negbFE/eqP ->]; rewrite [LHS]/nmean ?mfd_A //.
have -> : reversed 0 = 0 by apply/matrixP => i z; rewrite !mxE.
by rewrite mulmx0.
Qed.
Lemma disc_nmean dt : nmean (discretise F f L dt) = mRInt (fun u => expm (u *: F) *m reversed f) 0 dt.
Proof.
have <- := @mderive_int _ _ (fun t => ursubmx (expm (t *: Fs)) *m reversed f) (fun u => expm (u *: F) *m reversed f) 0 dt.
- by rewrite (ur_derive 0).2.1 mul0mx subr0 disc_nmeanE.
- by move=> u; apply: mderive_mulr; have [] := ur_derive u.
- by move=> u; eexists; apply: mderive_mulr; exact: expm_derive.
Qed.

(** The transition matrix, noise covariance and, for forces that are equal to their reverse (in particular for dimension one
    and without force), the shift of the exact solution (variation of constants). *)
Theorem C52_discretise dt : reversed f = f ->
  let T := discretise F f L dt in
  [/\ tmat T = expm (dt *: F), nmean T = mRInt (fun u => expm (u *: F) *m f) 0 dt
    & ncov T = mRInt (fun u => expm (u *: F) *m L *m L^T *m (expm (u *: F))^T) 0 dt].
Proof. by move=> r; split; [exact: disc_tmat|rewrite disc_nmean r|exact: disc_ncov]. Qed.
(** In general the force is replaced by its reverse. *)
Theorem C52_reversed dt :
  let T := discretise F f L dt in
  [/\ tmat T = expm (dt *: F), nmean T = mRInt (fun u => expm (u *: F) *m reversed f) 0 dt
    & ncov T = mRInt (fun u => expm (u *: F) *m L *m L^T *m (expm (u *: F))^T) 0 dt].
Proof. by split; [exact: disc_tmat|exact: disc_nmean|exact: disc_ncov]. Qed.
Lemma disc_derive t : reversed f = f ->
  [/\ mderive (fun t => tmat (discretise F f L t)) t (F *m tmat (discretise F f L t)),
      mderive (fun t => nmean (discretise F f L t)) t (F *m nmean (discretise F f L t) + f)
    & mderive (fun t => ncov (discretise F f L t)) t (F *m ncov (discretise F f L t) + ncov (discretise F f L t) *m F^T + L *m L^T)].
Proof.
move=> r; have N u : ncov (discretise F f L u) = (mfd F L u).2 by rewrite disc_ncov mfd_Q.
have [d1 [d2 d3]] := ur_derive t; split.
- by rewrite disc_tmat; apply: (mderive_ext (X := fun t => expm (t *: F))) => [u|]; [rewrite disc_tmat|exact: expm_derive].
- apply: (mderive_ext (X := fun t => ursubmx (expm (t *: Fs)) *m f)) => [u|]; first by rewrite disc_nmeanE r.
  by apply: mderive_eq (mderive_mulr f d1) _; rewrite disc_nmeanE r -d3 mulmxDl mul1mx mulmxA.
- by rewrite N; apply: (mderive_ext (X := fun t => (mfd F L t).2)) => [u|]; [rewrite N|exact: mfd_Q_derive].
Qed.
(** C136: the transition of the discretised model solves the moment equations. *)
Theorem C136_forward (m : 'cV[R]_n) (P : 'M[R]_n) d t : reversed f = f ->
  let M t := lti_forward (discretise F f L t) m P d in
  [/\ mderive (fun t => (M t).1) t (mde_forward F f L d (M t).1 (M t).2).1,
      mderive (fun t => (M t).2) t (mde_forward F f L d (M t).1 (M t).2).2
    & M 0 = (m, P)].
Proof.
move=> r M; have [d1 d2 d3] := disc_derive t r; split.
- apply: mderive_eq (mderive_add (mderive_mulr m d1) d2) _.
  by rewrite /mde_forward /M /lti_forward /= mulmxDr !mulmxA addrA.
- apply: mderive_eq (mderive_add (mderive_mul (mderive_mulr P d1) (mderive_tr d1)) (_ : mderive (fun t => d *: ncov (discretise F f L t)) t _)) _.
    by apply: (mderive_ext (X := fun t => d%:M *m ncov (discretise F f L t))) (mderive_mull _ d3) => u; rewrite mul_scalar_mx.
  rewrite /mde_forward /M /lti_forward /= mul_scalar_mx trmx_mul.
  set A := tmat _; set Q := ncov _.
  rewrite mulmxDr mulmxDl !scalerDr -!scalemxAl -!scalemxAr !mulmxA !addrA; congr (_ + _).
  by congr (_ + _); rewrite addrAC.
- rewrite /M /lti_forward disc_tmat disc_nmeanE disc_ncov -mfd_Q mfd_Q0 (ur_derive 0).2.1.
  by rewrite scale0r expm0 !mul1mx trmx1 mulmx1 mul0mx scaler0 !addr0.
Qed.
End Disc.

(** C52 for forces: the shift for zero drift is the reversed force times the step. *)
Theorem C135_force_refuted w (L : 'M[R]_(2, w)) (f : 'cV[R]_2) (dt : R) :
  nmean (discretise 0 f L dt) = dt *: reversed f
  /\ mRInt (fun u => expm (u *: 0) *m f) 0 dt = dt *: f.
Proof.
have E (g : 'cV[R]_2) : mRInt (fun u => expm (u *: 0) *m g) 0 dt = dt *: g.
  have d u : mderive (fun u : R => u *: g) u g.
    move=> i j; apply: (derive_ext (f := fun u => u * g i j)) => [v|]; first by rewrite mxE.
    apply: derive_eq (derive_mul (is_derive_id u) (derive_cst (g i j) u)) _.
    by change (one : R) with (1 : R); rewrite mul1r mulr0 addr0.
  rewrite (@mRInt_ext _ _ _ (fun=> g)) => [|u]; last by rewrite scaler0 expm0 mul1mx.
  rewrite -(@mderive_int _ _ (fun u : R => u *: g) (fun=> g) 0 dt) => [|//|u]; first by rewrite scale0r subr0.
  by exists 0; exact: mderive_cst.
by rewrite disc_nmean !E.
Qed.

(** ** Smoothing: the backward moment equations
    For a linear SDE with matrices [G], [u], [L] at time [t], let [mf], [Pf] solve the forward equations at [t], and let [Phi]
    be the transition matrix from the current time to the final time [T]: [Phi' = - Phi G]. Given moments [mT], [PT] at [T],
    the smoothed moments at the current time have the gain [Pf Phi^T Pf(T)^-1] (Rauch-Tung-Striebel). They solve the
    backward equations. *)
Lemma back_alg (R0 : comRingType) n (G K P D g LL : 'M[R0]_n) : K *m P = LL -> P *m K^T = LL ->
  G *m P + P *m G^T + LL - ((G + K) *m g *m D *m g^T + g *m D *m ((G + K) *m g)^T)
  = (G + K) *m (P - g *m D *m g^T) + (P - g *m D *m g^T) *m (G + K)^T - LL.
Proof.
move=> h k; have T : (G + K)^T = G^T + K^T by apply/matrixP => i j; rewrite !mxE.
have h1 : (G + K) *m P = G *m P + LL by rewrite mulmxDl h.
have h2 : P *m (G + K)^T = P *m G^T + LL by rewrite T mulmxDr k.
rewrite mulmxBr mulmxBl h1 h2 trmx_mul !mulmxA; zmod_eq.
Qed.
Section Back.
Variables (n w : nat) (G : 'M[R]_n) (u : 'cV[R]_n) (L : 'M[R]_(n, w)) (d t T : R).
Variables (mf : R -> 'cV[R]_n) (Pf Phi : R -> 'M[R]_n) (mT : 'cV[R]_n) (PT : 'M[R]_n).
Definition gain s := Pf s *m (Phi s)^T *m invmx (Pf T).
Definition smean s := mf s + gain s *m (mT - mf T).
Definition scov s := Pf s - gain s *m (Pf T - PT) *m (gain s)^T.
Theorem C136_backward :
  mderive mf t (mde_forward G u L d (mf t) (Pf t)).1 -> mderive Pf t (mde_forward G u L d (mf t) (Pf t)).2 ->
  mderive Phi t (- (Phi t *m G)) -> Pf t \in unitmx -> (Pf t)^T = Pf t ->
  mderive smean t (mde_backward G u L d (mf t) (Pf t) (smean t) (scov t)).1
  /\ mderive scov t (mde_backward G u L d (mf t) (Pf t) (smean t) (scov t)).2.
Proof.
move=> dm dP dF uP sP; pose K := (invmx (Pf t) *m (d *: L *m L^T)^T)^T.
have KP : K *m Pf t = d *: L *m L^T by rewrite /K trmx_mul trmxK trmx_inv sP -mulmxA mulVmx // mulmx1.
have dg : mderive gain t ((G + K) *m gain t).
  apply: mderive_eq (mderive_mulr _ (mderive_mul dP (mderive_tr dF))) _.
  have N (A : 'M[R]_n) : (- A)^T = - A^T by apply/matrixP => i j; rewrite !mxE.
  by rewrite /mde_forward /gain /= -KP N trmx_mul mulmxN !mulmxDl mulNmx !mulmxA addrAC addrK.
split.
  apply: mderive_eq (mderive_add dm (mderive_mulr _ dg)) _.
  rewrite /mde_forward /mde_backward -/K /smean [(_, _).1]/= [(_, _).1]/=; move: (gain t) (mT - mf T) => g v.
  rewrite [mf t + _ - _]addrC addKr -mulmxA mulmxDl mulmxDr.
  rewrite [LHS]addrAC !addrA; reflexivity.
have PK : Pf t *m K^T = d *: L *m L^T.
  by rewrite -{1}sP -trmx_mul KP -[d *: L *m _]scalemxAl; apply/matrixP => i j; rewrite !mxE; congr (_ * _); apply: eq_bigr => k _; rewrite !mxE mulrC.
apply: mderive_eq (mderive_sub dP (mderive_mul (mderive_mulr _ dg) (mderive_tr dg))) _.
exact: back_alg KP PK.
Qed.
Theorem C136_terminal : Phi T = 1%:M -> Pf T \in unitmx -> smean T = mT /\ scov T = PT.
Proof.
move=> p1 uT; have g1 : gain T = 1%:M by rewrite /gain p1 trmx1 mulmx1 mulmxV.
rewrite /smean /scov g1 trmx1 mulmx1 !mul1mx; split; first by rewrite addrC subrK.
by rewrite opprB addrC subrK.
Qed.
End Back.

(** ** C137: square-root form of the forward equations *)
Lemma sqrt_sym (R0 : comRingType) n w (A : 'M[R0]_n) (B : 'M[R0]_(n, w)) : (A + A^T + B *m B^T)^T = A + A^T + B *m B^T.
Proof. by rewrite !linearD /= trmxK trmx_mul trmxK [A^T + _]addrC. Qed.
Lemma sqrt_alg (R0 : comUnitRingType) n w (G S T : 'M[R0]_n) (L : 'M[R0]_(n, w)) (c d : R0) : S \in unitmx -> c * c = d ->
  T + T^T = invmx S *m (G *m S) + (invmx S *m (G *m S))^T + (c *: (invmx S *m L)) *m (c *: (invmx S *m L))^T ->
  S *m T *m S^T + S *m (S *m T)^T = G *m (S *m S^T) + S *m S^T *m G^T + d *: L *m L^T.
Proof.
move=> uS cd h.
have -> : S *m T *m S^T + S *m (S *m T)^T = S *m (T + T^T) *m S^T by rewrite trmx_mul mulmxDr mulmxDl !mulmxA.
rewrite h !mulmxDr !mulmxDl; congr (_ + _ + _); first by rewrite mulKVmx // mulmxA.
  by rewrite -mulmxA -trmx_mul mulKVmx // trmx_mul mulmxA.
rewrite -[S *m _ *m _]mulmxA -[_ *m _ *m S^T]mulmxA -trmx_mul mulmxA -!scalemxAr !mulKVmx //.
by rewrite linearZ /= -scalemxAr -!scalemxAl scalerA cd.
Qed.
Lemma half (x : R) : 1 / 2%:R * x + 1 / 2%:R * x = x.
Proof. by rewrite -mulrDl -mulr2n -mulr_natr mul1r mulVf ?mul1r // pnatr_eq0. Qed.
Lemma lt_sym n (N : 'M[R]_n) : N^T = N -> lt N + (lt N)^T = N.
Proof.
move=> sN; have s i j : N j i = N i j by rewrite -{1}sN mxE.
apply/matrixP => i j; rewrite mxE [X in _ + X]mxE !mxE [j == i]eq_sym; case: (ltngtP i j) => e.
- by case: eqP e => [->|_ _]; rewrite ?ltnn ?add0r // s.
- by case: eqP e => [->|_ _]; rewrite ?ltnn ?addr0.
by have -> : i = j by [exact: val_inj]; rewrite eqxx half.
Qed.
Section Sqrt.
Variables (n w : nat) (G : 'M[R]_n) (u : 'cV[R]_n) (L : 'M[R]_(n, w)) (d : R) (m : 'cV[R]_n) (S : 'M[R]_n).
Let G_bar : 'M[R]_n := invmx S *m (G *m S).
Let L_bar : 'M[R]_(n, w) := sqrt d *: (invmx S *m L).
Let M : 'M[R]_n := G_bar + G_bar^T + L_bar *m L_bar^T.
(** If the derivative of the factor has a non-negative diagonal, the derivative of [S S^T] is that of the covariance. *)
Theorem C137_sqrt : S \in unitmx -> 0 <= d -> (forall i, 0 <= (S *m lt M) i i) ->
  let D := (mde_forward_sqrt G u L d m S).2 in
  D *m S^T + S *m D^T = (mde_forward G u L d m (S *m S^T)).2 /\ (mde_forward_sqrt G u L d m S).1 = (mde_forward G u L d m (S *m S^T)).1.
Proof.
move=> uS d0 h D; have -> : D = S *m lt M.
  by apply/matrixP => i j; rewrite mxE ltNge h mulr1.
split=> //; have sM : M^T = M by exact: sqrt_sym.
have lM := lt_sym sM.
have dd : sqrt d * sqrt d = d by apply: sqrt_sqrt; exact/leRP.
exact: sqrt_alg uS dd lM.
Qed.
End Sqrt.
(** Otherwise it is not: the scalar dx = - x dt, of variance 1. *)
Lemma decay_D (m : 'cV[R]_1) : (mde_forward_sqrt (-1)%:M 0 (0 : 'M[R]_1) 1 m (1%:M : 'M[R]_1)).2 = 1%:M.
Proof.
rewrite /mde_forward_sqrt [LHS]/snd invmx1 mulmx1 !mul1mx scaler0 mul0mx addr0 tr_scalar_mx.
have h : (1 / 2%:R * (-1 + -1) : R) = -1 by rewrite mulrDr half.
have e : lt ((-1)%:M + (-1)%:M : 'M[R]_1) = (-1)%:M.
  by apply/matrixP => i j; rewrite !ord1 mxE [X in _ * X]mxE !mxE eqxx ltnn mulr1n h.
rewrite e; apply/matrixP => i j; rewrite !ord1 [LHS]mxE !mxE eqxx !mulr1n.
by rewrite ltrN10 mulrNN mulr1.
Qed.
Theorem C137_decay_refuted (m : 'cV[R]_1) : let D := (mde_forward_sqrt (-1)%:M 0 (0 : 'M[R]_1) 1 m (1%:M : 'M[R]_1)).2 in
  D *m 1%:M^T + 1%:M *m D^T = (2%:R)%:M /\ (mde_forward (-1)%:M 0 (0 : 'M[R]_1) 1 m (1%:M *m (1%:M)^T)).2 = (- 2%:R)%:M.
Proof.
move=> D; rewrite /D decay_D trmx1 !mulmx1; split; first by apply/matrixP => i j; rewrite !ord1 !mxE eqxx mulr1n.
rewrite /mde_forward [LHS]/snd trmx0 mulmx0 addr0 mulmx1 mul1mx tr_scalar_mx.
by apply/matrixP => i j; rewrite !ord1 !mxE eqxx !mulr1n -opprD.
Qed.
Print Assumptions C52_discretise.
Print Assumptions C52_reversed.
Print Assumptions C135_force_refuted.
Print Assumptions C136_forward.
Print Assumptions C136_backward.
Print Assumptions C136_terminal.
Print Assumptions C137_sqrt.
Print Assumptions C137_decay_refuted.

(** ** Non-vacuity *)
(** A harmonic oscillator with the force (1, 1). *)
Example ex_oscillator (dt : R) : let F : 'M[R]_2 := \matrix_(i, j) (if (i == 0) && (j == 1) then 1 else if (i == 1) && (j == 0) then -1 else 0) in
  nmean (discretise F (const_mx 1) (const_mx 1 : 'M[R]_(2, 1)) dt) = mRInt (fun u => expm (u *: F) *m const_mx 1) 0 dt.
Proof. by move=> F; have [] := @C52_discretise 2 1 F (const_mx 1) (const_mx 1) dt _ => //; apply/matrixP => i z; rewrite !mxE. Qed.
(** The force (1, 0) becomes (0, 1). *)
Definition exf : 'cV[R]_2 := \col_i (i == 0)%:R.
Example ex_force : nmean (discretise 0 exf (0 : 'M[R]_(2, 1)) 1) <> mRInt (fun u => expm (u *: 0) *m exf) 0 1.
Proof.
have [-> ->] := C135_force_refuted (0 : 'M[R]_(2, 1)) exf 1; rewrite !scale1r => /matrixP/(_ 0 0).
by rewrite !mxE => /eqP; rewrite eq_sym oner_eq0.
Qed.
(** A Wiener process, of variance 1 + t. *)
Example ex_wiener (mT : 'cV[R]_1) (PT : 'M[R]_1) :
  let mf := fun=> 0 : 'cV[R]_1 in let Pf t := (1 + t)%:M : 'M[R]_1 in
  mderive (smean 1 mf Pf (fun=> 1%:M) mT) 0 (mde_backward 0 0 (1%:M : 'M[R]_1) 1 (mf 0) (Pf 0) (smean 1 mf Pf (fun=> 1%:M) mT 0) (scov 1 Pf (fun=> 1%:M) PT 0)).1.
Proof.
move=> mf Pf; have [] // := @C136_backward 1 1 0 0 1%:M 1 0 1 mf Pf (fun=> 1%:M) mT PT.
- by apply: mderive_eq (mderive_cst _ _) _; rewrite /mde_forward [RHS]/fst mul0mx addr0.
- move=> i j; rewrite !ord1; apply: (derive_ext (f := fun t => 1 + t)) => [t|]; first by rewrite mxE eqxx mulr1n.
  apply: (@derive_eq _ _ (0 + 1)); first by apply: derive_add; [exact: derive_cst|exact: is_derive_id].
  have -> : (mde_forward 0 0 (1%:M : 'M[R]_1) 1 (mf 0) (Pf 0)).2 = 1%:M by rewrite /mde_forward [LHS]/snd mul0mx trmx0 mulmx0 !add0r scale1r trmx1 mulmx1.
  by rewrite mxE eqxx; exact: add0r.
- by apply: mderive_eq (mderive_cst _ _) _; rewrite mulmx0 oppr0.
- by rewrite /Pf addr0 unitmx1.
- by rewrite tr_scalar_mx.
Qed.
(** Growth: dx = x dt. *)
Example ex_growth (m : 'cV[R]_1) : exists i : 'I_1, (1%:M *m lt ((1%:M : 'M[R]_1) + 1%:M)) i i = 1.
Proof.
exists 0; rewrite mul1mx [LHS]mxE !mxE eqxx ltnn mulr1n mulrDr.
exact: half.
Qed.
