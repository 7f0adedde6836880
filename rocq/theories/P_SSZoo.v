(** State space models and linear systems of the zoo. *)
From Coq Require Import Reals Lra.
From Coquelicot Require Import Coquelicot.
From mathcomp Require Import all_ssreflect all_algebra.
From Verif Require Import M_Gauss M_Sqrt M_IWP L_DMx L_Zmod L_Kalman L_Psd L_Sqrt L_Chol L_IWP L_IWP2 P_Sqrt L_IWP3 P_IWP.
From Verif Require Import L_RStruct L_Expm M_Integ L_Integ P_Integ L_Zoo M_IVPZoo P_IVPZoo M_SSZoo.
Set Implicit Arguments.
Unset Strict Implicit.
Unset Printing Implicit Defensive.
Import Order.Theory GRing.Theory Num.Theory.
Delimit Scope R_scope with coqR.
Local Open Scope ring_scope.
Local Notation K := R_rcfType.

(** ** C163: what is measured in [car_tracking]; [y a q] is the [q]-th derivative of coordinate [a], and
    [coordwise] the ordering of the state (C90, C13). *)
Lemma car_measures (R : rcfType) nu (y : nat -> nat -> R) :
  car_measurement R nu *m coordwise nu 2 y = \col_i y (i %/ nu.+1)%N (i %% nu.+1)%N.
Proof.
apply/matrixP => i z; rewrite !mxE.
have l : (i < 2 * nu.+1)%N by apply: leq_trans (ltn_ord i) _; rewrite leq_pmulr.
rewrite (@eq_bigr _ _ _ _ _ _ _ (fun j => (j == Ordinal l)%:R * y (j %/ nu.+1)%N (j %% nu.+1)%N)); last first.
  by move=> j _; rewrite !mxE -val_eqE eq_sym.
by rewrite (@sum_pick _ _ (Ordinal l)).
Qed.
(** Position and velocity of the first coordinate, and not the two positions. *)
Theorem C163_measurement_refuted (R : rcfType) nu (y : nat -> nat -> R) :
  car_measurement R nu.+1 *m coordwise nu.+1 2 y = \col_i y 0%N i.
Proof.
rewrite car_measures; apply/matrixP => i z; rewrite !mxE.
by case: i => -[|[|//]] ? /=; rewrite ?mod0n ?div0n // modn_small // divn_small.
Qed.
Theorem C163_witness (R : rcfType) nu : exists y : nat -> nat -> R,
  car_measurement R nu.+1 *m coordwise nu.+1 2 y <> \col_i y i 0%N.
Proof.
exists (fun a _ => a%:R); rewrite C163_measurement_refuted => /matrixP/(_ 1 0); rewrite !mxE /= => /eqP.
by rewrite eq_sym oner_eq0.
Qed.
(** It holds without derivatives. *)
Theorem C163_measurement_partial (R : rcfType) (y : nat -> nat -> R) :
  car_measurement R 0 *m coordwise 0 2 y = \col_i y i 0%N.
Proof. by rewrite car_measures; apply/matrixP => i z; rewrite !mxE divn1 modn1. Qed.
Print Assumptions C163_measurement_refuted.
Print Assumptions C163_witness.
Print Assumptions C163_measurement_partial.

(** ** C164: [process_diffusion] is ignored: the noise is that of the diffusion 1. *)
Theorem C164_car_refuted (R : rcfType) (ch : chol_routine R) nu (q h : R) : cholesky_fun ch -> h != 0 ->
  exists2 T, car_dynamics ch nu q h = Some T & car_dynamics ch nu 1 h = Some T
    /\ (q <> 1 -> s_ncov T <> q *: s_ncov T) /\ (q ^+ 2 <> 1 -> s_ncov T <> q ^+ 2 *: s_ncov T).
Proof.
move=> chH h0; have [T [E _ _ t3 _]] := discretise_ok nu 2 chH h0.
have pT : pd (s_ncov T) by rewrite t3; apply: ikron_pd; apply: qmx_pd; rewrite normr_gt0.
exists T => //; split=> //.
have n0 (c : R) : c <> 1 -> s_ncov T <> c *: s_ncov T.
  move=> c1 e; have : (1 - c) *: s_ncov T = 0 by rewrite scalerBl scale1r -e subrr.
  move/eqP; rewrite scaler_eq0 subr_eq0 eq_sym => /orP[/eqP //|/eqP z].
  by move: pT; rewrite z => /pd_unit; rewrite unitmxE det0 unitr0.
by split; exact: n0.
Qed.
Theorem C164_ou_refuted speed q : ou_dynamics speed q = ou_dynamics speed 1.
Proof. by []. Qed.

(** ** C165: the drift of [ornstein_uhlenbeck] is documented as [driftspeed * x]. It is [- driftspeed * x]. *)
Theorem C165_drift_refuted (speed q : R) (x : 'cV[R]_(1 * 1)) :
  (ou_dynamics speed q).1 *m x = - speed *: x /\ (speed <> 0 -> x <> 0 -> (ou_dynamics speed q).1 *m x <> speed *: x).
Proof.
have e : (ou_dynamics speed q).1 *m x = - speed *: x by rewrite /= ioup_scalar mul_scalar_mx.
split=> // s0 x0; rewrite e => /eqP; rewrite -subr_eq0 -scalerBl scaler_eq0 => /orP[|/eqP //].
rewrite -opprD oppr_eq0 -mulr2n mulrn_eq0 /= => /eqP //.
Qed.
Print Assumptions C165_drift_refuted.

(** ** C166: the Jacobians of the nonlinear models, and the noise of [pendulum] *)
Theorem C166_pendulum step : jacobian 2 2 (pend_f step) (Some (pend_df step)) /\ jacobian 2 1 pend_h (Some pend_dh).
Proof. by split; (eexists; first reflexivity); case=> [|x1 [|x2 []]] // _; eexists; split=> //; entries. Qed.
Theorem C166_benes x : is_derive benes_f x (benes_df x).
Proof.
have p : Rlt 0 (cosh x) by rewrite /cosh; have := exp_pos x; have := exp_pos (- x); lra.
rewrite /benes_f /benes_df /tanh /sinh /cosh; rewrite /cosh in p; auto_derive; first by apply: Rgt_not_eq; lra.
by field; apply: Rgt_not_eq; lra.
Qed.
Theorem C166_noise step : Rlt 0 step -> pd (R := K) (pend_noise step).
Proof.
move=> s0; split.
  by apply/matrixP => i j; rewrite !mxE eq_sym; case: eqP => // ->.
move=> x nx; apply/ltRP.
have -> : qform (R := K) (pend_noise step) x
    = (step * ((x (lift ord0 ord0) ord0 + x ord0 ord0 * step / 2) ^ 2 + x ord0 ord0 ^ 2 * step ^ 2 / 12))%coqR.
  rewrite /qform [LHS]mxE !sumS [\sum_(d < 0) _]big_ord0 ![(x^T *m _) _ _]mxE !sumS ![\sum_(d < 0) _]big_ord0 !mxE /=.
  have e (a b : R) : ((a * (step ^ 3 / 3) + (b * (step ^ 2 / 2) + 0)) * a + ((a * (step ^ 2 / 2) + (b * step + 0)) * b + 0)
    = step * ((b + a * step / 2) ^ 2 + a ^ 2 * step ^ 2 / 12))%coqR by field.
  exact: e.
have [z0|z0] := Req_EM_T (x ord0 ord0) 0%coqR.
  have z1 : x (lift ord0 ord0) ord0 <> 0%coqR.
    move=> z1; case/eqP: nx; apply/matrixP => i j; rewrite ord1 [RHS]mxE.
    by case: (unliftP ord0 i) => [k ->|->]; rewrite ?(ord1 k).
  rewrite z0; apply: Rmult_lt_0_compat => //.
  have := pow2_gt_0 _ z1; lra.
apply: Rmult_lt_0_compat => //.
have := pow2_gt_0 _ z0; have := pow2_gt_0 _ (Rgt_not_eq _ _ s0).
have := pow2_ge_0 (x (lift ord0 ord0) ord0 + x ord0 ord0 * step / 2)%coqR => h1 h2 h3.
by have := Rmult_lt_0_compat _ _ h3 h2; lra.
Qed.
Print Assumptions C166_pendulum.
Print Assumptions C166_benes.
Print Assumptions C166_noise.

(** ** C167: the default initial random variable of [logistic_ode] does not depend on [y0] and [order] *)
Theorem C167_initial_refuted (y : R) order : y <> (1 / 10)%coqR -> nth 0 (logistic_initmean [:: y] order) 0 <> y.
Proof. by move=> n e; apply: n. Qed.
Theorem C167_order_refuted (y : R) order : order <> 3%N -> size (logistic_initmean [:: y] order) <> logistic_statedim order.
Proof. by move=> n; rewrite /logistic_statedim mul1n => -[e]; apply: n. Qed.
Print Assumptions C167_initial_refuted.
Print Assumptions C167_order_refuted.

(** ** C168: random matrices *)
Section Linalg.
Variable R : rcfType.
Variable n : nat.
Implicit Types (A Q : 'M[R]_n.+1) (s : seq R).
Lemma char_poly_conj A Q : Q *m Q^T = 1%:M -> char_poly (Q *m A *m Q^T) = char_poly A.
Proof.
move=> q; have e : char_poly_mx (Q *m A *m Q^T) = map_mx polyC Q *m char_poly_mx A *m map_mx polyC Q^T.
  rewrite /char_poly_mx mulmxBr mulmxBl !map_mxM; congr (_ - _).
  by rewrite mul_mx_scalar -scalemxAl -map_mxM q map_mx1 scalemx1.
rewrite /char_poly e !det_mulmx mulrAC -det_mulmx -map_mxM q map_mx1 det1 mul1r; by [].
Qed.
Lemma char_poly_diag s : size s = n.+1 -> char_poly (\matrix_(i, j < n.+1) if i == j then s`_i else 0) = \prod_(x <- s) ('X - x%:P).
Proof.
move=> z; rewrite char_poly_trig; last by apply/is_trig_mxP => i j l; rewrite mxE -val_eqE ltn_eqF.
rewrite [RHS](big_nth 0) z big_mkord; apply: eq_bigr => i _; by rewrite mxE eqxx.
Qed.
Lemma diag_pd s : size s = n.+1 -> all (fun x => 0 < x) s -> pd (\matrix_(i, j < n.+1) if i == j then s`_i else 0 : R).
Proof.
move=> z /(all_nthP 0) p; split.
  by apply/matrixP => i j; rewrite !mxE eq_sym; case: eqP => // ->.
move=> x nx; have -> : qform (\matrix_(i, j < n.+1) if i == j then s`_i else 0) x = \sum_(i < n.+1) s`_i * x i 0 ^+ 2.
  rewrite /qform [LHS]mxE; apply: eq_bigr => i _; rewrite mxE (bigD1 i) //= big1 => [|j ji].
    by rewrite !mxE eqxx addr0 expr2 mulrAC mulrC mulrA.
  by rewrite !mxE (negbTE ji) mulr0.
have h (i : 'I_n.+1) : 0 <= s`_i * x i 0 ^+ 2 by rewrite mulr_ge0 ?sqr_ge0 // ltW // p // z.
rewrite lt_neqAle sumr_ge0 // andbT eq_sym; apply: contraNneq nx => e0; apply/eqP/matrixP => i j; rewrite ord1 [RHS]mxE.
have := @psumr_eq0P _ _ predT (fun i : 'I_n.+1 => s`_i * x i 0 ^+ 2) (fun i _ => h i) e0; move/(_ i isT)/eqP; rewrite mulf_eq0 sqrf_eq0 => /orP[/eqP e|/eqP //].
by have := p i; rewrite z e ltxx => /(_ (ltn_ord i)).
Qed.
Definition eigenvalues A s : Prop := char_poly A = \prod_(x <- s) ('X - x%:P).
Lemma random_spd_core Q s : size s = n.+1 -> all (fun x => 0 < x) s -> Q *m Q^T = 1%:M ->
  let A := if n.+1 == 1%N then \matrix_(i, j) s`_0
            else let A := Q *m (\matrix_(i, j) if i == j then s`_i else 0) *m Q^T in 2%:R^-1 *: (A + A^T) in
  pd A /\ eigenvalues A s.
Proof.
move=> z p q; cbv zeta; case: eqP => [e|_].
  have e1 : (\matrix_(i, j < n.+1) s`_0) = (\matrix_(i, j) if i == j then s`_i else 0).
    by apply/matrixP => i j; case: e => e; move: i j; rewrite e => i j; rewrite !mxE !ord1.
  by rewrite e1; split; [exact: diag_pd|exact: char_poly_diag].
have pD := diag_pd z p; set D := \matrix_(_, _) _ in pD *.
have uQ : Q \in unitmx by case: (mulmx1_unit q).
have pA := pd_conj uQ pD; have -> : 2%:R^-1 *: (Q *m D *m Q^T + (Q *m D *m Q^T)^T) = Q *m D *m Q^T.
  by case: pA => -> _; rewrite -mulr2n -scaler_nat scalerA mulVf ?scale1r // pnatr_eq0.
by split=> //; rewrite /eigenvalues char_poly_conj //; exact: char_poly_diag.
Qed.
(** Symmetric positive definite, with the given eigenvalues. *)
Theorem C168_spd gamma Q s : Q *m Q^T = 1%:M ->
  match random_spd gamma Q (Some s) with
  | Some A => pd A /\ eigenvalues A s
  | None => size s <> n.+1 \/ exists2 x, x \in s & x <= 0
  end.
Proof.
move=> q; rewrite /random_spd; case: ifP => p /=; last first.
  by right; move/negbT: p; rewrite -has_predC => /hasP[x xs /=]; rewrite -leNgt; exists x.
by case: eqP => z; [exact: random_spd_core|left].
Qed.
Theorem C168_spd_gamma gamma Q : Q *m Q^T = 1%:M -> size gamma = n.+1 -> all (fun x => 0 < x) gamma ->
  exists2 A, random_spd gamma Q None = Some A & pd A /\ eigenvalues A gamma.
Proof.
move=> q z p; rewrite /random_spd /= size_rev size_sort z eqxx; eexists; first by [].
have pe : perm_eq (rev (sort <=%R gamma)) gamma by rewrite perm_rev perm_sort.
have [|||a b] := @random_spd_core Q (rev (sort <=%R gamma)) => //; [by rewrite size_rev size_sort|by rewrite (perm_all _ pe)|].
by split=> //; rewrite /eigenvalues b; apply: perm_big.
Qed.
(** Symmetric positive definite with determinant one; [L] is unit lower triangular. *)
Theorem C168_sparse (density lo hi : R) mask (u : 'M[R]_n.+1) :
  (random_sparse_spd density mask u lo hi = None <-> ~~ (0 <= density <= 1)) /\
  forall A, random_sparse_spd density mask u lo hi = Some A ->
  [/\ pd A, \det A = 1
    & exists L : 'M[R]_n.+1, [/\ A = L *m L^T, forall i, L i i = 1, forall i j : 'I_n.+1, (i < j)%N -> L i j = 0
      & lo <= hi -> (forall i j, 0 <= u i j <= 1) -> forall i j, i != j -> L i j != 0 -> lo <= L i j <= hi]].
Proof.
rewrite /random_sparse_spd; case: ifP => d; split=> //.
move=> A [<-]; move: (1 <= _) => b; set L := sparse_chol _ _ _ _ _.
have Ld i : L i i = 1 by rewrite !mxE eqxx ltnn andbF addr0.
have Lu (i j : 'I_n.+1) : (i < j)%N -> L i j = 0.
  by move=> ij; rewrite !mxE -val_eqE ltn_eqF // ltnNge (ltnW ij) andbF add0r.
have dL : \det L = 1.
  rewrite det_trig; last by apply/is_trig_mxP => i j; exact: Lu.
  by rewrite big1.
split; [|by rewrite det_mulmx det_tr dL mulr1|].
  by apply: pd_gram; rewrite unitmxE dL unitr1.
exists L; split=> // lh hu i j ij; rewrite !mxE (negbTE ij) add0r; case: ifP => _; last by rewrite eqxx.
have /andP[u0 u1] := hu i j => _; apply/andP; split.
  by rewrite ler_addr mulr_ge0 // subr_ge0.
by rewrite -ler_subr_addr ler_pimull // subr_ge0.
Qed.
End Linalg.
Print Assumptions C168_spd.
Print Assumptions C168_spd_gamma.
Print Assumptions C168_sparse.

(** ** Examples *)
Example ex_spd (R : rcfType) : random_spd [::] (1%:M : 'M[R]_2) (Some [:: 3%:R; 2%:R]) = Some (\matrix_(i, j) if i == j then [:: 3%:R; 2%:R]`_i else 0).
Proof.
rewrite /random_spd /= !ltr0n /= trmx1 mulmx1 mul1mx; congr Some; apply/matrixP => i j; rewrite !mxE eq_sym.
case: eqP => [->|_]; last by rewrite addr0 mulr0.
by rewrite -mulr2n -[X in _ * X]mulr_natl mulrA mulVf ?mul1r // pnatr_eq0.
Qed.
Example ex_sparse (R : rcfType) : exists2 A, random_sparse_spd (1 : R) (const_mx true : 'M_2) (const_mx 1) 0 2%:R = Some A & A 0 1 = 2%:R.
Proof.
rewrite /random_sparse_spd ler01 lexx /=; eexists; first by [].
rewrite !mxE !big_ord_recl big_ord0 !mxE /= !mulr1 !subr0 !addr0 !add0r mulr1n mul1r mulVf ?pnatr_eq0 // lexx.
by rewrite ltnn modn_small //= ?addr0 ?mul1r ?mul0r ?addr0.
Qed.
Example ex_car (R : rcfType) : \sum_i (car_measurement R 1 *m coordwise 1 2 (fun a q => if (a == 0%N) && (q == 1%N) then 7%:R else 0)) i 0 = 7%:R.
Proof. by rewrite C163_measurement_refuted !big_ord_recl big_ord0 !mxE /= add0r addr0. Qed.
