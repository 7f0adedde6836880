(** Square-root implementations: lemmas. *)
From mathcomp Require Import all_ssreflect all_algebra.
From Verif Require Import L_Zmod M_Gauss L_Kalman L_Filter L_Psd M_Sqrt.
Set Implicit Arguments.
Unset Strict Implicit.
Unset Printing Implicit Defensive.
Import Order.Theory GRing.Theory Num.Theory.
Local Open Scope ring_scope.

Definition qr_fun (R : realFieldType) :=
  forall p q, 'M[R]_(p, q) -> 'M[R]_(minn p q, q).

Section Spec.
Variable R : realFieldType.
(** Documented result of [np.linalg.qr(B, mode="r")]. *)
Definition is_qr_r p q (B : 'M[R]_(p, q)) (r : 'M[R]_(minn p q, q)) : Prop :=
  (exists Q : 'M[R]_(p, minn p q), Q^T *m Q = 1%:M /\ B = Q *m r)
  /\ (forall (i : 'I_(minn p q)) (j : 'I_q), (j < i)%N -> r i j = 0).
Definition lower_tri n k (L : 'M[R]_(n, k)) := forall (i : 'I_n) (j : 'I_k), (i < j)%N -> L i j = 0.
Definition nonneg_diag n (L : 'M[R]_n) := forall i, 0 <= L i i.
(** A lower Cholesky factor of [C] (of a possibly singular matrix). *)
Definition is_cholesky n (L C : 'M[R]_n) := [/\ lower_tri L, nonneg_diag L & L *m L^T = C].

Lemma qr_gram p q (B : 'M[R]_(p, q)) r : is_qr_r B r -> r^T *m r = B^T *m B.
Proof.
by case=> -[Q [QQ ->]] _; rewrite trmx_mul mulmxA -[r^T *m Q^T *m Q]mulmxA QQ mulmx1.
Qed.

Lemma fit_gram n k (L : 'M[R]_(n, k)) : (k <= n)%N -> fit L *m (fit L)^T = L *m L^T.
Proof.
move=> le; apply/matrixP => i j; rewrite !mxE.
pose F l : R := if insub l : option 'I_k is Some l' then L i l' * L j l' else 0.
have -> : \sum_(l < n) fit L i l * (fit L)^T l j = \sum_(l < n) F l.
  by apply: eq_bigr => l _; rewrite !mxE /F; case: insubP => // _; rewrite mul0r.
have -> : \sum_(l < k) L i l * L^T l j = \sum_(l < k) F l.
  by apply: eq_bigr => l _; rewrite !mxE /F valK.
rewrite (big_ord_widen n F le) [RHS]big_mkcond /=; apply: eq_bigr => l _.
by rewrite /F; case: insubP => [u -> //|/negbTE ->].
Qed.
Lemma fit_lower n k (L : 'M[R]_(n, k)) : lower_tri L -> lower_tri (fit L).
Proof.
move=> H i j lt; rewrite !mxE; case: insubP => // u _ uE.
by apply: H; rewrite uE.
Qed.
Lemma fit_id n (L : 'M[R]_n) : fit L = L.
Proof. by apply/matrixP => i j; rewrite !mxE valK. Qed.

Lemma sgn_sq (x : R) : (if x < 0 then -1 else 1) * (if x < 0 then -1 else 1) = 1 :> R.
Proof. by case: ifP; rewrite ?mulrNN mulr1. Qed.
Lemma pos_tril_gram n (L : 'M[R]_n) : pos_tril L *m (pos_tril L)^T = L *m L^T.
Proof.
apply/matrixP => i j; rewrite !mxE; apply: eq_bigr => l _; rewrite !mxE.
by rewrite mulrACA sgn_sq mulr1.
Qed.
Lemma pos_tril_lower n (L : 'M[R]_n) : lower_tri L -> lower_tri (pos_tril L).
Proof. by move=> H i j lt; rewrite mxE H ?mul0r. Qed.
Lemma pos_tril_diag n (L : 'M[R]_n) : nonneg_diag (pos_tril L).
Proof.
move=> i; rewrite mxE; case: ifP => [lt|/negbT]; last by rewrite -leNgt mulr1.
by rewrite mulrN1 oppr_ge0 ltW.
Qed.
(** Only signs of columns change. *)
Lemma pos_tril_signs n (L : 'M[R]_n) j :
  col j (pos_tril L) = col j L \/ col j (pos_tril L) = - col j L.
Proof.
case: (boolP (L j j < 0)) => c; [right|left]; apply/matrixP => i k; rewrite !mxE.
- by rewrite c mulrN1.
- by rewrite (negbTE c) mulr1.
Qed.

Section Update.
Variable qr : forall p q, 'M[R]_(p, q) -> 'M[R]_(minn p q, q).
Lemma chol_from_qr n p (B : 'M[R]_(p, n)) : is_qr_r B (qr B) ->
  is_cholesky (pos_tril (fit (qr B)^T)) (B^T *m B).
Proof.
move=> HQ; split.
- apply/pos_tril_lower/fit_lower => i j lt; rewrite mxE.
  by case: HQ => _; apply.
- exact: pos_tril_diag.
- by rewrite pos_tril_gram fit_gram ?geq_minr // trmxK (qr_gram HQ).
Qed.
Lemma stack_gram n a b (S1 : 'M[R]_(n, a)) (S2 : 'M[R]_(n, b)) :
  (col_mx S1^T S2^T)^T *m col_mx S1^T S2^T = S1 *m S1^T + S2 *m S2^T.
Proof. by rewrite tr_col_mx !trmxK mul_row_col. Qed.

Lemma update_ok n a b (S1 : 'M[R]_(n, a)) (S2 : 'M[R]_(n, b)) :
  (n <= a)%N -> is_qr_r (col_mx S1^T S2^T) (qr (col_mx S1^T S2^T)) ->
  exists L, cholesky_update qr S1 (Some S2) = Some L
    /\ is_cholesky L (S1 *m S1^T + S2 *m S2^T).
Proof.
move=> le HQ; rewrite /cholesky_update le /=; eexists; split; first by [].
by rewrite -stack_gram; apply: chol_from_qr.
Qed.

(** ** Against the classic implementation *)
Variable sqrt : R -> R.
Definition classic n (rv : snormal R n) : normal R n := Normal (s_mean rv) (s_cov rv).
Definition classicT n m (T : slingauss R n m) : lingauss R n m :=
  LinGauss (s_tmat T) (s_shift T) (s_ncov T).
(** The stored factor is a square root of the covariance. *)
Definition factored n (rv : snormal R n) := s_chol rv *m (s_chol rv)^T = s_cov rv.
Definition factoredT n m (T : slingauss R n m) := s_nchol T *m (s_nchol T)^T = s_ncov T.

Section Transition.
Variables (n m : nat) (T : slingauss R n m) (d : R) (rv : snormal R n).
Hypotheses (fT : factoredT T) (fR : factored rv) (dS : sqrt d * sqrt d = d).
Let S := cov (fwd_classic (classicT T) d (classic rv)).

Lemma fwd_gram : (s_tmat T *m s_chol rv) *m (s_tmat T *m s_chol rv)^T
  + (sqrt d *: s_nchol T) *m (sqrt d *: s_nchol T)^T = S.
Proof.
have -> : (s_tmat T *m s_chol rv) *m (s_tmat T *m s_chol rv)^T
   = s_tmat T *m (s_cov rv *m (s_tmat T)^T) by rewrite -fR trmx_mul !mulmxA.
by rewrite /S /= /fwd_crosscov /= trmxZ -scalemxAl -scalemxAr scalerA dS fT.
Qed.
Lemma S_sym : S^T = S.
Proof. by rewrite -fwd_gram linearD /= !trmx_mul !trmxK. Qed.

Lemma fwd_sqrt_classic : (m <= n)%N ->
  is_qr_r (col_mx (s_tmat T *m s_chol rv)^T (sqrt d *: s_nchol T)^T)
          (qr (col_mx (s_tmat T *m s_chol rv)^T (sqrt d *: s_nchol T)^T)) ->
  exists f, [/\ fwd_sqrt qr sqrt T d rv = Some f,
    classic f = fwd_classic (classicT T) d (classic rv), factored f
    & is_cholesky (s_chol f) (s_cov f)].
Proof.
move=> le HQ; have [L [LE LC]] := update_ok le HQ.
rewrite /fwd_sqrt LE /=; eexists; split; first by [].
- case: LC => _ _ LL; rewrite /classic /= LL fwd_gram.
  by rewrite /S /fwd_classic.
- by [].
- by case: LC => l1 l2 l3; split.
Qed.

Lemma unit_gram k (L : 'M[R]_k) : (L *m L^T \in unitmx) = (L \in unitmx).
Proof. by rewrite unitmx_mul unitmx_tr andbb. Qed.

Lemma gain_sqrt_classic : (m <= n)%N ->
  is_qr_r (col_mx (s_tmat T *m s_chol rv)^T (sqrt d *: s_nchol T)^T)
          (qr (col_mx (s_tmat T *m s_chol rv)^T (sqrt d *: s_nchol T)^T)) ->
  gain_sqrt qr sqrt T d rv = gain_classic (classicT T) d (classic rv).
Proof.
move=> le HQ; have [f [fE fC fF _]] := fwd_sqrt_classic le HQ.
rewrite /gain_sqrt fE /gain_classic /= -/S S_sym.
have SE : s_chol f *m (s_chol f)^T = S by rewrite fF; case: fC => _ ->.
rewrite -SE unit_gram; case: ifP => // _.
Qed.

Section Backward.
Variables (ob : snormal R m) (g0 : 'M[R]_(n, m)).
Hypothesis fO : factored ob.
Let A := sqrt_block sqrt T d ob rv g0.
Let B := big_triu qr sqrt T d ob rv g0.
Hypothesis HQ : is_qr_r A (qr A).

Lemma B_gram : B^T *m B = A^T *m A.
Proof.
rewrite /B /big_triu trmxK fit_gram ?geq_minr // trmxK -/A.
exact: qr_gram.
Qed.
Lemma B_upper : dlsubmx B = 0.
Proof.
apply/matrixP => i j; rewrite !mxE; case: insubP => // u _ uE; rewrite mxE.
case: HQ => _; apply; rewrite uE /=.
by apply: leq_trans (ltn_ord j) (leq_addr _ _).
Qed.
Lemma drsub_lower : lower_tri (drsubmx B)^T.
Proof.
move=> i j lt; rewrite !mxE; case: insubP => // u _ uE; rewrite mxE.
by case: HQ => _; apply; rewrite uE /= ltn_add2l.
Qed.
Lemma B_blocks :
  [/\ (ulsubmx B)^T *m ulsubmx B = S,
      (ulsubmx B)^T *m ursubmx B = s_tmat T *m s_cov rv
    & (ursubmx B)^T *m ursubmx B + (drsubmx B)^T *m drsubmx B
      = s_cov rv + g0 *m s_cov ob *m g0^T].
Proof.
have := B_gram; rewrite -{1 2}[B]submxK B_upper tr_block_mx mulmx_block.
rewrite /A /sqrt_block !tr_col_mx !tr_row_mx !mul_row_col !mul_col_row.
rewrite !(trmx_mul, trmxK, trmx0, mul0mx, mulmx0) !add_block_mx.
rewrite !(addr0, add0r) => /eq_block_mx [E1 E2 _ E4]; split.
- rewrite E1 -fwd_gram; congr (_ + _); rewrite trmx_mul ?trmxK ?mulmxA //.
- by rewrite E2 -mulmxA fR.
- by rewrite E4 fR mulmxA -[g0 *m s_chol ob *m _]mulmxA fO.
Qed.
End Backward.

Lemma gainE G : gain_classic (classicT T) d (classic rv) = Some G ->
  S \in unitmx /\ G = s_cov rv *m (s_tmat T)^T *m invmx S.
Proof.
rewrite /gain_classic -/S S_sym; case: ifP => // u [<-]; split=> //.
by rewrite trmx_mul trmxK trmx_inv S_sym.
Qed.

Lemma bwd_with_classic (ob : snormal R m) g0 :
  factored ob -> is_qr_r (sqrt_block sqrt T d ob rv g0) (qr (sqrt_block sqrt T d ob rv g0)) ->
  (forall G, gain_classic (classicT T) d (classic rv) = Some G ->
     g0 *m s_cov ob *m g0^T = G *m s_cov ob *m G^T) ->
  (g0 != 0 -> gain_classic (classicT T) d (classic rv) = Some g0) ->
  omap (@classic n) (bwd_sqrt_with qr sqrt T d ob rv g0)
  = bwd_classic (classicT T) d (classic ob) (classic rv) None
  /\ (forall rv', bwd_sqrt_with qr sqrt T d ob rv g0 = Some rv' ->
      factored rv' /\ is_cholesky (s_chol rv') (s_cov rv')).
Proof.
move=> fO HQ hz hg; have [b1 b2 b3] := B_blocks fO HQ.
have up := drsub_lower HQ.
rewrite /bwd_sqrt_with; move: b1 b2 b3 up.
move: (big_triu qr sqrt T d ob rv g0) => B b1 b2 b3 up.
split; last first.
  move=> rv'; case: (if _ then _ else _) => //= g [<-]; split=> //=.
  split=> //; [exact: pos_tril_lower | exact: pos_tril_diag].
have uS : (S \in unitmx) = (ulsubmx B \in unitmx).
  by rewrite -b1 unitmx_mul unitmx_tr andbb.
have -> : (if g0 == 0 then if ulsubmx B \in unitmx then
             Some (invmx (ulsubmx B) *m ursubmx B)^T else None else Some g0)
   = gain_classic (classicT T) d (classic rv).
  case: eqP => [g00|/eqP /hg -> //]; rewrite /gain_classic -/S S_sym uS.
  case: ifP => // uB; congr Some.
  have uBT : (ulsubmx B)^T \in unitmx by rewrite unitmx_tr.
  congr trmx; rewrite -b1 /fwd_crosscov /= trmx_mul trmxK.
  have sP : (s_cov rv)^T = s_cov rv by rewrite -fR trmx_mul trmxK.
  have uU : (ulsubmx B)^T *m ulsubmx B \in unitmx by rewrite unitmx_mul uBT.
  by rewrite sP -b2; apply: (can_inj (mulKmx uU)); rewrite mulKVmx // -mulmxA mulKVmx.
case GE: gain_classic => [G|]; rewrite /bwd_classic GE //=.
have [u GD] := gainE GE; have GS : G *m S = s_cov rv *m (s_tmat T)^T by rewrite GD mulmxKV.
congr Some; rewrite /classic /condition_state_on_rv /= pos_tril_gram trmxK; congr Normal.
  by congr (_ + G *m _); rewrite opprD addrA.
have -> : (drsubmx B)^T *m drsubmx B
    = s_cov rv + G *m s_cov ob *m G^T - (ursubmx B)^T *m ursubmx B.
  by rewrite -(hz G) // -b3 addrC addKr.
have -> : (ursubmx B)^T *m ursubmx B = G *m S *m G^T.
  have uB : ulsubmx B \in unitmx by rewrite -uS.
  have sP : (s_cov rv)^T = s_cov rv by rewrite -fR trmx_mul trmxK.
  have E : (ulsubmx B)^T *m ursubmx B = S *m G^T.
    by rewrite b2 -[RHS]trmxK trmx_mul trmxK S_sym GS trmx_mul trmxK sP.
  have -> : ursubmx B = ulsubmx B *m G^T.
    have uBT : (ulsubmx B)^T \in unitmx by rewrite unitmx_tr.
    by rewrite -[LHS](mulKmx uBT) E -b1 -mulmxA mulKmx.
  by rewrite trmx_mul trmxK -b1 !mulmxA.
rewrite -[_ + d *: s_ncov T]/S; move: (S) => S0.
by mx_ring.
Qed.
End Transition.
End Update.
End Spec.
