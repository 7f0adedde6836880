(** C10, C14, C67, C68: square-root implementations and Cholesky updates. *)
From mathcomp Require Import all_ssreflect all_algebra.
From mathcomp Require Import realalg.
From Verif Require Import L_Zmod M_Gauss L_Kalman L_Filter L_Psd M_Sqrt L_Sqrt L_QR.
Set Implicit Arguments.
Unset Strict Implicit.
Unset Printing Implicit Defensive.
Import Order.Theory GRing.Theory Num.Theory.
Local Open Scope ring_scope.

(** ** C14: [cholesky_update] *)
Theorem C14_cholesky_update :
  forall (R : realFieldType) (qr : qr_fun R) n a b (S1 : 'M[R]_(n, a)) (S2 : 'M[R]_(n, b)),
  (n <= a)%N -> is_qr_r (col_mx S1^T S2^T) (@qr _ _ (col_mx S1^T S2^T)) ->
  exists L, cholesky_update qr S1 (Some S2) = Some L
    /\ is_cholesky L (S1 *m S1^T + S2 *m S2^T).
Proof. by move=> *; apply: update_ok. Qed.
Print Assumptions C14_cholesky_update.

Theorem C14_cholesky_single :
  forall (R : realFieldType) (qr : qr_fun R) n a b (S1 : 'M[R]_(n, a)),
  is_qr_r S1^T (@qr _ _ S1^T) ->
  exists L, cholesky_update qr S1 (None : option 'M[R]_(n, b)) = Some L
    /\ is_cholesky L (S1 *m S1^T).
Proof.
move=> R qr n a b S1 HQ; eexists; split; first by [].
by rewrite -[in X in is_cholesky _ X](trmxK S1); have := chol_from_qr HQ; rewrite trmxK.
Qed.
Print Assumptions C14_cholesky_single.

Theorem C14_positive_tril :
  forall (R : realFieldType) n (L : 'M[R]_n),
  [/\ pos_tril L *m (pos_tril L)^T = L *m L^T, nonneg_diag (pos_tril L),
      (lower_tri L -> lower_tri (pos_tril L))
    & forall j, col j (pos_tril L) = col j L \/ col j (pos_tril L) = - col j L].
Proof.
move=> R n L; split.
- exact: pos_tril_gram.
- exact: pos_tril_diag.
- exact: pos_tril_lower.
- exact: pos_tril_signs.
Qed.
Print Assumptions C14_positive_tril.

(** C67: when [S1] has more rows than columns, adding any [S2] fails, whatever the QR
    routine returns. *)
Theorem C67_tall_update_refuted :
  forall (R : realFieldType) (qr : qr_fun R) n a b (S1 : 'M[R]_(n, a)) (S2 : 'M[R]_(n, b)),
  (a < n)%N -> (0 < b)%N -> cholesky_update qr S1 (Some S2) = None.
Proof.
move=> R qr n a b S1 S2 lt b0; rewrite /cholesky_update leqNgt lt /=.
suff -> : (minn (a + b) n == a)%N = false by [].
apply/eqP => e; have := leq_addr b a; have := geq_minl (a + b) n; have := geq_minr (a + b) n.
have [le|le] := leqP (a + b) n; last by move: e lt; rewrite (minn_idPr (ltnW le)) => ->; rewrite ltnn.
by move: e b0; rewrite (minn_idPl le) => /eqP; rewrite -{2}[a]addn0 eqn_add2l => /eqP ->.
Qed.
Print Assumptions C67_tall_update_refuted.

(** ** C10: transitions *)
Theorem C10_forward_agrees :
  forall (R : realFieldType) (qr : qr_fun R) sqrt n m (T : slingauss R n m) d (rv : snormal R n),
  (forall p q (B : 'M[R]_(p, q)), is_qr_r B (@qr _ _ B)) ->
  factoredT T -> factored rv -> sqrt d * sqrt d = d -> (m <= n)%N ->
  (exists f, [/\ fwd_sqrt qr sqrt T d rv = Some f,
      classic f = fwd_classic (classicT T) d (classic rv)
    & is_cholesky (s_chol f) (s_cov f)])
  /\ gain_sqrt qr sqrt T d rv = gain_classic (classicT T) d (classic rv).
Proof.
move=> R qr sqrt n m T d rv HQ fT fR dS le; split; last exact: gain_sqrt_classic.
by have [f [f1 f2 f3 f4]] := fwd_sqrt_classic fT fR dS le (HQ _ _ _); exists f.
Qed.
Print Assumptions C10_forward_agrees.

(** Updates with exact data in any dimension; otherwise the gain must be computable. *)
Lemma bwd_sqrt_classic (R : realFieldType) (qr : qr_fun R) sqrt n m (T : slingauss R n m) d
    (ob : snormal R m) (rv : snormal R n) gain :
  (forall p q (B : 'M[R]_(p, q)), is_qr_r B (@qr _ _ B)) ->
  factoredT T -> factored rv -> factored ob -> sqrt d * sqrt d = d ->
  (gain = None /\ (s_cov ob = 0 \/ (m <= n)%N)
   \/ gain = gain_classic (classicT T) d (classic rv) /\ gain) ->
  omap (@classic _ n) (bwd_sqrt qr sqrt T d ob rv gain)
  = bwd_classic (classicT T) d (classic ob) (classic rv) None
  /\ (forall rv', bwd_sqrt qr sqrt T d ob rv gain = Some rv' ->
      is_cholesky (s_chol rv') (s_cov rv')).
Proof.
move=> HQ fT fR fO dS; rewrite /bwd_sqrt.
have main g0 : gain_classic (classicT T) d (classic rv) = Some g0 ->
  omap (@classic _ n) (bwd_sqrt_with qr sqrt T d ob rv g0)
  = bwd_classic (classicT T) d (classic ob) (classic rv) None
  /\ (forall rv', bwd_sqrt_with qr sqrt T d ob rv g0 = Some rv' ->
      is_cholesky (s_chol rv') (s_cov rv')).
  move=> gE; have [||e1 e2] := bwd_with_classic fT fR dS fO (HQ _ _ _) (g0 := g0).
  - by move=> G; rewrite gE => -[->].
  - by [].
  - by split=> // rv' /e2 [].
case=> [[-> H]|[gE]]; last by case: gain gE => [g|] //= /esym gE _; apply: main.
case: eqP => [O0|/eqP O0].
  have [||e1 e2] := bwd_with_classic fT fR dS fO (HQ _ _ _) (g0 := 0).
  - by move=> G _; rewrite O0 !mulmx0 !mul0mx.
  - by rewrite eqxx.
  - by split=> // rv' /e2 [].
case: H => [H|le]; first by rewrite H eqxx in O0.
rewrite /= (gain_sqrt_classic fT fR dS le (HQ _ _ _)).
case gE: gain_classic main => [g|] main /=; last by split.
by have := main g erefl; rewrite /bwd_classic gE.
Qed.

Theorem C10_backward_agrees :
  forall (R : realFieldType) (qr : qr_fun R) sqrt n m (T : slingauss R n m) d ob rv gain,
  (forall p q (B : 'M[R]_(p, q)), is_qr_r B (@qr _ _ B)) ->
  factoredT T -> factored rv -> factored ob -> sqrt d * sqrt d = d ->
  (gain = None /\ (s_cov ob = 0 \/ (m <= n)%N)
   \/ gain = gain_classic (classicT T) d (classic rv) /\ gain) ->
  omap (@classic _ n) (bwd_sqrt qr sqrt T d ob rv gain)
  = bwd_classic (classicT T) d (classic ob) (classic rv) None
  /\ (forall rv', bwd_sqrt qr sqrt T d ob rv gain = Some rv' ->
      is_cholesky (s_chol rv') (s_cov rv')).
Proof. by move=> *; apply: bwd_sqrt_classic. Qed.
Print Assumptions C10_backward_agrees.

(** The Joseph form agrees as well. *)
Theorem C10_joseph_agrees :
  forall (R : realFieldType) n m (T : lingauss R n m) d ob rv,
  0 <= d -> psd (ncov T) -> psd (cov rv) ->
  bwd_joseph T d ob rv None = bwd_classic T d ob rv None.
Proof.
move=> R n m T d ob rv d0 pT pP; rewrite /bwd_joseph /bwd_classic.
case gE: gain_classic => [G|] //=; congr Some.
rewrite /joseph_with /condition_state_on_rv /=; congr Normal.
  by congr (_ + G *m _); rewrite opprD addrA.
rewrite -joseph_form //= ?(proj1 pT) //; move: (tmat T *m _ + _) => S.
by mx_ring.
Qed.
Print Assumptions C10_joseph_agrees.

(** Whole runs. *)
Definition classicM (R : realFieldType) n m (M : sssm R n m) : ssm R n m :=
  Ssm (fun t dt => classicT (s_trans M t dt)) (fun k t => classicT (s_meas M k t))
      (s_loc M) (s_initarg M) (classic (s_init M)).

Section Runs.
Variables (R : realFieldType) (qr : forall p q, 'M[R]_(p, q) -> 'M[R]_(minn p q, q)).
Variables (sqrt : R -> R) (n : nat) (m : nat -> nat) (M : sssm R n m).
Variable y : forall k, 'cV[R]_(m k).
Hypothesis HQ : forall p q (B : 'M[R]_(p, q)), is_qr_r B (qr B).
Hypothesis s1 : sqrt 1 * sqrt 1 = 1.
Hypotheses (fI : factored (s_init M)) (fTr : forall t dt, factoredT (s_trans M t dt)).
Hypothesis fM : forall k t, factoredT (s_meas M k t).

Lemma chol_factored k (f : snormal R k) : is_cholesky (s_chol f) (s_cov f) -> factored f.
Proof. by case. Qed.
Lemma predict_agree k rv : factored rv ->
  omap (@classic _ n) (s_predict qr sqrt M k rv) = Some (predict (classicM M) k (classic rv))
  /\ forall f, s_predict qr sqrt M k rv = Some f -> factored f.
Proof.
move=> fR; rewrite /s_predict /predict /=.
have -> : told (classicM M) k = s_told M k by case: k.
case: ifP => [_|_]; last by split=> // f [<-].
have [f [f1 f2 f3 f4]] := fwd_sqrt_classic (qr := qr)
  (fTr (s_loc M k) (s_loc M k - s_told M k)) fR s1 (leqnn n) (HQ _).
by rewrite f1 /= f2; split=> // ? [<-].
Qed.
Lemma filtered_agree k :
  omap (@classic _ n) (s_filtered qr sqrt M y k) = filtered (classicM M) y k
  /\ forall f, s_filtered qr sqrt M y k = Some f -> factored f.
Proof.
elim: k => [|k [IH1 IH2]] /=; first by split=> // f [<-].
rewrite -IH1; case E: (s_filtered qr sqrt M y k) => [rv|] /=; last by split.
have [p1 p2] := predict_agree k (IH2 _ E).
case P: s_predict p1 p2 => [p|] //= [<-] /(_ _ erefl) fP.
have [||u1 u2] := @bwd_sqrt_classic R qr sqrt n (m k) (s_meas M k None) 1 (sconstant (y k)) p
  None HQ (fM _ _) fP _ s1 _.
- by rewrite /factored /= mul0mx.
- by left; split=> //; left.
split; first by rewrite /s_update u1 /update.
by move=> f /u2 /chol_factored.
Qed.
Lemma smoothed_agree N i :
  omap (@classic _ n) (s_smoothed_back qr sqrt M y N i) = smoothed_back (classicM M) y N i
  /\ forall f, s_smoothed_back qr sqrt M y N i = Some f -> factored f.
Proof.
elim: i => [|i [IH1 IH2]]; first exact: filtered_agree.
rewrite /= -IH1; case E: s_smoothed_back IH2 => [c|] IH2 /=; last by split.
have fC := IH2 _ erefl.
have [F1 F2] := filtered_agree (N.-1 - i); rewrite -F1.
case F: s_filtered F2 => [rv|] F2 /=; last by split.
have fR := F2 _ erefl.
have [|u1 u2] := bwd_sqrt_classic HQ (fTr (s_loc M (N.-1 - i).-1)
  (s_loc M (N.-1 - i) - s_loc M (N.-1 - i).-1)) fR fC s1 (gain := None) _.
- by left; split=> //; right.
by split=> // f /u2 /chol_factored.
Qed.
End Runs.

(** A filter or smoother run with square-root transitions gives what the run with
    the classic ones gives. *)
Theorem C10_runs_agree :
  forall (R : realFieldType) (qr : qr_fun R) sqrt n m (M : sssm R n m) y N k,
  (forall p q (B : 'M[R]_(p, q)), is_qr_r B (@qr _ _ B)) -> sqrt 1 * sqrt 1 = 1 ->
  factored (s_init M) -> (forall t dt, factoredT (s_trans M t dt)) ->
  (forall k t, factoredT (s_meas M k t)) ->
  omap (@classic _ n) (s_filtered qr sqrt M y k) = filtered (classicM M) y k
  /\ omap (@classic _ n) (s_smoothed_back qr sqrt M y N k) = smoothed_back (classicM M) y N k.
Proof.
move=> R qr sqrt n m M y N k HQ s1 fI fT fM.
have [F _] := filtered_agree y HQ s1 fI fT fM k.
by have [G _] := smoothed_agree y HQ s1 fI fT fM N k.
Qed.
Print Assumptions C10_runs_agree.

(** C68: observations of higher dimension than the state cannot be predicted. *)
Theorem C68_forward_high_dimensional_refuted :
  forall (R : realFieldType) (qr : qr_fun R) sqrt n m (T : slingauss R n m) d (rv : snormal R n),
  (n < m)%N -> fwd_sqrt qr sqrt T d rv = None.
Proof.
move=> R qr sqrt n m T d rv lt; rewrite /fwd_sqrt C67_tall_update_refuted //.
exact: leq_trans lt.
Qed.
Print Assumptions C68_forward_high_dimensional_refuted.

(** Non-vacuity. A function giving QR factors exists over every real closed field, e.g.
    the real algebraic numbers; random walk with unit noise in two dimensions. *)
Example ex_qr : exists qr : forall p q, 'M[[realFieldType of realalg]]_(p, q) -> _,
  forall p q (B : 'M_(p, q)), is_qr_r B (qr p q B).
Proof. by exists (fun p q B => qr_of B) => p q B; apply: qr_ofP. Qed.

Example ex_model : exists M : sssm [realFieldType of realalg] 2 (fun _ => 3%N),
  [/\ factored (s_init M), forall t dt, factoredT (s_trans M t dt)
    & forall k t, factoredT (s_meas M k t)].
Proof.
exists (SSsm (fun t dt => SLinGauss 1%:M 0 1%:M 1%:M)
  (fun k t => SLinGauss (const_mx 1) 0 1%:M 1%:M) (fun k => k%:R) 0 (SNormal 0 1%:M 1%:M)).
by split=> *; rewrite /factored /factoredT /= trmx1 mulmx1.
Qed.
