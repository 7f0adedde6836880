(** Projected-residual updates compute conditional laws. *)
From mathcomp Require Import all_ssreflect all_algebra.
From Verif Require Import L_Zmod M_Gauss L_Kalman L_Filter M_PLS M_Ortho M_LinSolve L_LinSolve.
Set Implicit Arguments.
Unset Strict Implicit.
Unset Printing Implicit Defensive.
Import Order.Theory GRing.Theory Num.Theory.
Local Open Scope ring_scope.

Section Post.
Variables (R : rcfType) (n K : nat).
Variables (A : 'M[R]_n) (p : sbel R n) (lam : R) (S : nat -> 'cV[R]_n).
Variables (N : nat) (X : rvec R K n) (V : nat -> rvec R K 1).
Hypotheses (l0 : 0 <= lam) (ps : psd (x_cov p))
  (MX : Mean X = x_mean p) (CX : Cov X X = x_cov p) (MV : forall j, (j < N)%N -> Mean (V j) = 0)
  (CV : forall j, (j < N)%N -> Cov (V j) (V j) = lam%:M)
  (CVV : forall i j, (i < N)%N -> (j < N)%N -> i != j -> Cov (V i) (V j) = 0)
  (CXV : forall j, (j < N)%N -> Cov X (V j) = 0).
Definition obs j : rvec R K 1 := (S j)^T *m A *m X + V j.
Local Notation ups k b := (updates A b lam p (map S (iota 0 k))).

Definition post_inv k := exists k0 (Kc : nat -> 'cV[R]_n) P,
  [/\ forall b, x_mean (ups k b) = predictor (m := fun _ => 1%N) k k0 Kc (fun j => (S j)^T *m b),
      forall b, x_cov (ups k b) = P
    & let E := X - predictor_rv (m := fun _ => 1%N) k k0 Kc obs in
      [/\ Mean E = 0, (forall j, (j < k)%N -> Cov E (obs j) = 0), Cov E E = P
        & forall l, (k <= l < N)%N -> Cov E (V l) = 0]].

Lemma CVobs i j : (i < N)%N -> (j < N)%N -> i != j -> Cov (V i) (obs j) = 0.
Proof. by move=> iN jN ij; rewrite /obs CovDr CovMr (Cov0_sym (CXV iN)) mul0mx add0r CVV. Qed.

Lemma post_step k : (k < N)%N -> post_inv k -> post_inv k.+1.
Proof.
move=> kN [k0 [Kc [P [F1 F2]]]]; set M := predictor_rv _ _ _ _; set E := X - M => - [ME CE EE EV].
set s := S k; set v := A^T *m s.
have psP : psd P by rewrite -(F2 0); exact: psd_updates.
pose gram := dt v (P *m v) + lam; pose q := pinv gram; pose g : 'cV[R]_n := q *: (P *m v).
have vE : v^T = s^T *m A by rewrite trmx_mul trmxK.
exists ((1%:M - g *m v^T) *m k0 + 0), (@upd R n (fun _ => 1%N) k g (fun j => (1%:M - g *m v^T) *m Kc j)),
  (P - q *: ((P *m v) *m (P *m v)^T)).
have upE b : ups k.+1 b = update1 A b lam (ups k b) s.
  by rewrite iota_last map_rcons updates_rcons.
have gE b : gramS A lam (ups k b) s = gram by rewrite /gramS F2.
split=> [b|b|].
- rewrite upE; have [-> _ _] := update1E A b lam (ups k b) s.
  rewrite predictor_upd -predictor_aff addr0 -F1 gE F2 mulmxBl mul1mx -/v -/q -addrA; congr (_ + _).
  rewrite [q * _]mulrC -scalerA -/g.
  have -> : dt s (b - A *m x_mean (ups k b)) *: g = g *m (s^T *m (b - A *m x_mean (ups k b))).
    by rewrite [s^T *m _]mx11_scalar mul_mx_scalar.
  by rewrite vE -/s !mulmxBr !mulmxA addrC.
- by rewrite upE; have [_ -> _] := update1E A b lam (ups k b) s; rewrite gE F2.
set I := v^T *m E + V k.
have -> : X - predictor_rv k.+1 ((1%:M - g *m v^T) *m k0 + 0)
      (@upd R n (fun _ => 1%N) k g (fun j => (1%:M - g *m v^T) *m Kc j)) obs = E - g *m I.
  rewrite predictor_rv_upd -predictor_rv_aff -/M /obs -/s -vE.
  have -> : Cst K (0 : 'cV[R]_n) = 0 by rewrite /Cst row_mx0.
  rewrite addr0 mulmxBl mul1mx /I /E.
  move: (g : 'cV[R]_n) (v^T) (V k) (X : 'M[R]_(n, 1 + K)) (M : 'M[R]_(n, 1 + K)) => g' v' V' X' M'.
  by rewrite !(mulmxBr, mulmxDr, mulmxN, mulmxA); zmod_eq.
have EVk : Cov E (V k) = 0 by apply: EV; rewrite leqnn.
have EI : Cov E I = P *m v by rewrite /I CovDr CovMr EVk addr0 EE trmxK.
have II : Cov I I = gram%:M.
  rewrite {1}/I CovDl CovMl EI /I CovDr CovMr (Cov0_sym EVk) mul0mx add0r (CV kN) /gram raddfD /=.
  by congr (_ + _); rewrite [LHS]mx11_scalar.
have gI : P *m v - g *m gram%:M = 0.
  rewrite mul_mx_scalar /g scalerA mulrC /q /pinv; case: ltP => g0.
    by rewrite mulVf ?gt_eqF // scale1r subrr.
  rewrite mul0r scale0r subr0; apply: psd_ker => //.
  have q0 := proj2 psP v; rewrite qform_dt in q0 *.
  apply/eqP; rewrite eq_le q0 andbT; apply: le_trans g0; by rewrite /gram ler_addl.
have DI : Cov (E - g *m I) I = 0 by rewrite CovBl CovMl EI II gI.
have DY j : (j < k)%N -> Cov (E - g *m I) (obs j) = 0.
  move=> jk; rewrite CovBl CE // CovMl /I CovDl CovMl CE // mulmx0 add0r CVobs ?addr0 ?mulmx0 ?oppr0 ?addr0 //.
    exact: ltn_trans jk kN.
  by rewrite neq_ltn jk orbT.
split=> [||  | l /andP [lk lN]].
- by rewrite MeanB ME MeanM /I MeanD MeanM ME (MV kN) !mulmx0 addr0 mulmx0 subrr.
- move=> j; rewrite ltnS leq_eqVlt => /orP [/eqP ->|]; last exact: DY.
  have -> : obs k = I + v^T *m M by rewrite /obs -/s -vE /I /E; move: (v^T) (V k) (X : 'M[R]_(n, 1 + K)) (M : 'M[R]_(n, 1 + K)) => v' V' X' M';
    rewrite mulmxBr; zmod_eq.
  rewrite CovDr DI CovMr add0r (Cov_predictor0 (k := k)) ?mul0mx //.
- rewrite CovBr CovMr DI mul0mx subr0 CovBl CovMl EE.
  by rewrite -[Cov I E]CovT EI /g -scalemxAl.
- rewrite CovBl CovMl EV ?(ltnW lk) // /I CovDl CovMl EV ?(ltnW lk) // CVV // ?mulmx0 ?addr0 ?mulmx0 ?oppr0 ?addr0 ?subrr //.
  by rewrite neq_ltn lk.
Qed.
Lemma post_all k : (k <= N)%N -> post_inv k.
Proof.
elim: k => [_|k IH kN]; last by apply: post_step => //; apply: IH; exact: ltnW.
exists (x_mean p), (fun _ => 0), (x_cov p).
have E0 : predictor_rv (m := fun _ => 1%N) 0 (x_mean p) (fun _ => 0) obs = Cst K (x_mean p).
  by rewrite /predictor_rv big_ord0 addr0.
rewrite E0; split=> //; first by move=> b; rewrite /predictor big_ord0 addr0.
split=> //.
- by rewrite MeanB MX MeanC subrr.
- by rewrite CovBl CovCl subr0 CovBr CovCr subr0.
- by move=> l /andP [_ lN]; rewrite CovBl CovCl subr0 CXV.
Qed.
End Post.
