(** Theorems about matrix-based belief updates (M_MatUpd.v). *)
From mathcomp Require Import all_ssreflect all_algebra.
From Verif Require Import L_Zmod L_Ring L_Num2 L_Kalman M_LinSolve L_LinSolve L_BQ2 M_MatUpd L_MatUpd.
Set Implicit Arguments.
Unset Strict Implicit.
Unset Printing Implicit Defensive.
Import Order.Theory GRing.Theory Num.Theory.
Local Open Scope ring_scope.

Section Claims.
Variables (R : rcfType) (n : nat).
Local Notation vec := 'cV[R]_n.
Local Notation mat := 'M[R]_n.
Implicit Types (A : mat) (acts : seq vec) (s y : nat -> vec).
Local Notation kron := (@kron_update R n).
Local Notation sym := (@sym_update R n).

(** C35: after any actions, dependent or not, every past action is mapped to its observation
    by the mean for the matrix and back by the mean for the inverse. *)
Theorem C35_secant A (p : belief (kbel R n)) acts j :
  A \in unitmx -> pd (k_B (b_A p)) -> pd (k_B (b_Ainv p)) -> (j < size acts)%N ->
  let q := calls kron A p acts in
  let s := nth 0 acts j in
  [/\ k_mean (b_A q) *m s = A *m s, k_mean (b_Ainv q) *m (A *m s) = s,
      k_B (b_A q) *m s = 0 & k_B (b_Ainv q) *m (A *m s) = 0].
Proof.
move=> uA pA pV lj q s; rewrite /q (callsE kron A p acts) /=.
have k1 : k_B (upto kron (b_A p) (nth 0 acts) (fun j => A *m nth 0 acts j) (size acts)) *m s = 0.
  by rewrite kron_B downs_kill //; apply: pd_psd.
have k2 : k_B (upto kron (b_Ainv p) (fun j => A *m nth 0 acts j) (nth 0 acts) (size acts)) *m (A *m s) = 0.
  by rewrite kron_B (@downs_kill _ _ _ (fun j => A *m nth 0 acts j)) //; apply: pd_psd.
split=> //; first exact: kron_agrees k1.
have e : upto kron (b_Ainv p) (fun j => A *m nth 0 acts j) (nth 0 acts) (size acts) =
         upto kron (b_Ainv p) (fun j => A *m nth 0 acts j)
           (fun j => invmx A *m (A *m nth 0 acts j)) (size acts).
  by apply: upto_ext => i _; rewrite mulmxA mulVmx // mul1mx.
rewrite e in k2 *; rewrite (kron_agrees (T := invmx A) pV k2) mulmxA mulVmx // mul1mx //.
Qed.

(** The same of the symmetric update, for symmetric matrices and symmetric prior means. *)
Theorem C35_secant_symmetric A (p : belief (sbel R n)) acts j :
  A \in unitmx -> A^T = A -> pd (s_A (b_A p)) -> pd (s_A (b_Ainv p)) ->
  (s_mean (b_A p))^T = s_mean (b_A p) -> (s_mean (b_Ainv p))^T = s_mean (b_Ainv p) ->
  (j < size acts)%N ->
  let q := calls sym A p acts in
  let s := nth 0 acts j in
  [/\ s_mean (b_A q) *m s = A *m s, s_mean (b_Ainv q) *m (A *m s) = s,
      s_A (b_A q) *m s = 0 & s_A (b_Ainv q) *m (A *m s) = 0].
Proof.
move=> uA sA pA pV mA mV lj q s; rewrite /q (callsE sym A p acts) /=.
have k1 : s_A (upto sym (b_A p) (nth 0 acts) (fun j => A *m nth 0 acts j) (size acts)) *m s = 0.
  by rewrite sym_A downs_kill //; apply: pd_psd.
have k2 : s_A (upto sym (b_Ainv p) (fun j => A *m nth 0 acts j) (nth 0 acts) (size acts)) *m (A *m s) = 0.
  by rewrite sym_A (@downs_kill _ _ _ (fun j => A *m nth 0 acts j)) //; apply: pd_psd.
split=> //; first exact: sym_agrees k1.
have e : upto sym (b_Ainv p) (fun j => A *m nth 0 acts j) (nth 0 acts) (size acts) =
         upto sym (b_Ainv p) (fun j => A *m nth 0 acts j)
           (fun j => invmx A *m (A *m nth 0 acts j)) (size acts).
  by apply: upto_ext => i _; rewrite mulmxA mulVmx // mul1mx.
have sV : (invmx A)^T = invmx A by rewrite trmx_inv sA.
rewrite e in k2 *; rewrite (sym_agrees (T := invmx A) sV mV pV k2) mulmxA mulVmx // mul1mx //.
Qed.

(** Actions that span the space determine the matrix, its inverse and the solution. *)
Definition spanning acts := forall v : vec, exists c : nat -> R, v = \sum_(j < size acts) c j *: nth 0 acts j.
Lemma span_ext (M N : mat) acts : spanning acts ->
  (forall j, (j < size acts)%N -> M *m nth 0 acts j = N *m nth 0 acts j) -> M = N.
Proof.
move=> sp e; apply/matrixP => i j; have [c ec] := sp (delta_mx j 0).
suff : M *m delta_mx j 0 = N *m delta_mx j (0 : 'I_1).
  by rewrite -[M *m _]colE -[N *m _]colE => /matrixP/(_ i 0); rewrite !mxE.
rewrite ec !mulmx_sumr; apply: eq_bigr => k _; by rewrite -!scalemxAr e.
Qed.
Lemma span_exact A M V (W W' : mat) (b : vec) acts : A \in unitmx -> spanning acts ->
  (forall j, (j < size acts)%N -> let s := nth 0 acts j in
     [/\ M *m s = A *m s, V *m (A *m s) = s, W *m s = 0 & W' *m (A *m s) = 0]) ->
  [/\ M = A, V = invmx A, W = 0, W' = 0 & A *m (V *m b) = b].
Proof.
move=> uA sp e.
have eM : M = A by apply: (span_ext sp) => j /e [].
have eV : V *m A = 1%:M by apply: (span_ext sp) => j /e [_ h _ _]; rewrite -mulmxA mul1mx h.
have eW : W = 0 by apply: (span_ext sp) => j /e [_ _ h _]; rewrite mul0mx h.
have eW' : W' *m A = 0 by apply: (span_ext sp) => j /e [_ _ _ h]; rewrite -mulmxA mul0mx h.
have {}eV : V = invmx A by rewrite -[LHS]mulmx1 -(mulmxV uA) mulmxA eV mul1mx.
split=> //; first by rewrite -[LHS]mulmx1 -(mulmxV uA) mulmxA eW' mul0mx.
by rewrite eV mulmxA mulmxV // mul1mx.
Qed.
Theorem C35_exact A b (p : belief (kbel R n)) acts :
  A \in unitmx -> pd (k_B (b_A p)) -> pd (k_B (b_Ainv p)) -> spanning acts ->
  let q := calls kron A p acts in
  [/\ k_mean (b_A q) = A, k_mean (b_Ainv q) = invmx A, k_B (b_A q) = 0, k_B (b_Ainv q) = 0
    & A *m induced_x (@k_mean R n) b q = b].
Proof.
by move=> uA pA pV sp /=; apply: (span_exact b uA sp) => j lj; exact: C35_secant.
Qed.
Theorem C35_exact_symmetric A b (p : belief (sbel R n)) acts :
  A \in unitmx -> A^T = A -> pd (s_A (b_A p)) -> pd (s_A (b_Ainv p)) ->
  (s_mean (b_A p))^T = s_mean (b_A p) -> (s_mean (b_Ainv p))^T = s_mean (b_Ainv p) ->
  spanning acts ->
  let q := calls sym A p acts in
  [/\ s_mean (b_A q) = A, s_mean (b_Ainv q) = invmx A, s_A (b_A q) = 0, s_A (b_Ainv q) = 0
    & A *m induced_x (@s_mean R n) b q = b].
Proof.
by move=> uA sA pA pV mA mV sp /=; apply: (span_exact b uA sp) => j lj; exact: C35_secant_symmetric.
Qed.

(** Covariance factors stay positive semidefinite, never grow, and vanish on all past actions,
    whatever is observed. *)
Theorem C35_factor (p : kbel R n) s y k : psd (k_B p) ->
  let W i := k_B (upto kron p s y i) in
  [/\ psd (W k), loewner (W k.+1) (W k), k_A (upto kron p s y k) = k_A p
    & forall j, (j < k)%N -> W k *m s j = 0].
Proof.
move=> pW W; rewrite /W !kron_B kron_A; split=> //; first exact: downs_psd; first exact: downs_le.
by move=> j lj; apply: downs_kill.
Qed.
Theorem C35_factor_symmetric (p : sbel R n) s y k : psd (s_A p) ->
  let W i := s_A (upto sym p s y i) in
  [/\ psd (W k), loewner (W k.+1) (W k) & forall j, (j < k)%N -> W k *m s j = 0].
Proof.
move=> pW W; rewrite /W !sym_A; split=> //; first exact: downs_psd; first exact: downs_le.
by move=> j lj; apply: downs_kill.
Qed.
(** The symmetric update preserves symmetry. *)
Theorem C35_symmetric (p : sbel R n) s y k : psd (s_A p) -> (s_mean p)^T = s_mean p ->
  (s_mean (upto sym p s y k))^T = s_mean (upto sym p s y k).
Proof. by move=> pW sM; exact: sym_mean_sym. Qed.

(** The beliefs are conditional laws: for a random matrix [X] with the prior law, the mean is
    the best prediction of [X] from the data [X s_0, ..., X s_(k-1)], and the covariance is the
    covariance of its error. *)
Theorem C35_law K (X : rmat R n K) V W s k : psd W -> kron_cov X V W ->
  let post y := upto kron (KBel (rm_mean X) V W) s y k in
  predicts X s k (fun y => k_mean (post y)) /\
  forall y, kron_cov (pred_error X s (fun y => k_mean (post y))) (k_A (post y)) (k_B (post y)).
Proof.
move=> pW cX post; split; first exact: (kron_predicts s pW cX k).
by move=> y; rewrite /post kron_A kron_B; exact: (kron_err_cov s pW cX k).
Qed.
Theorem C35_law_symmetric K (X : rmat R n K) W s k : psd W -> symkron_cov X W ->
  let post y := upto sym (SymBel (rm_mean X) W) s y k in
  predicts X s k (fun y => s_mean (post y)) /\
  forall y, symkron_cov (pred_error X s (fun y => s_mean (post y))) (s_A (post y)).
Proof.
move=> pW cX post; split; first exact: (sym_predicts s pW cX k).
by move=> y; rewrite /post sym_A; exact: (sym_err_cov s pW cX k).
Qed.
End Claims.

(** *** Concrete cases *)
Section Cases.
Variable R : rcfType.
(** Random matrices with any mean and covariance factors [L L^T]. *)
Lemma rmat_exists n (M Lv Lw : 'M[R]_n) :
  kron_cov (RMat M (fun l : 'I_(n * n) => Lv *m vec_mx (delta_mx 0 l) *m Lw^T)) (Lv *m Lv^T) (Lw *m Lw^T).
Proof.
move=> a b c d; rewrite /cov_form /=.
have e x z l : dt x (Lv *m vec_mx (delta_mx 0 l) *m Lw^T *m z) = dt (Lv^T *m x) (vec_mx (delta_mx 0 l) *m (Lw^T *m z)).
  by rewrite dtMl trmxK !mulmxA.
under eq_bigr do rewrite !e.
have f (L : 'M[R]_n) x z : dt x (L *m L^T *m z) = dt (L^T *m x) (L^T *m z) by rewrite dtMl trmxK mulmxA.
rewrite !f {f}.
move: (Lv^T *m a) (Lv^T *m c) (Lw^T *m b) (Lw^T *m d) => {e}a {}c {}b {}d.
rewrite (reindex _ (curry_mxvec_bij n n)) /=.
have e (x z : 'cV[R]_n) i j : dt x (vec_mx (delta_mx 0 (mxvec_index i j)) *m z) = x i 0 * z j 0.
  rewrite vec_mx_delta /dt /num mxE (bigD1 i) //= big1 ?addr0 => [|i' ne]; last first.
    by rewrite [X in _ * X]mxE big1 ?mulr0 // => j' _; rewrite mxE (negbTE ne) mul0r.
  rewrite mxE [X in _ * X]mxE (bigD1 j) //= big1 ?addr0 => [|j' ne]; first by rewrite mxE !eqxx mul1r.
  by rewrite mxE (negbTE ne) andbF mul0r.
transitivity (\sum_i \sum_j (a i 0 * b j 0) * (c i 0 * d j 0)).
  by rewrite pair_bigA /=; apply: eq_bigr => [[i j] _] /=; rewrite !e.
have f (x z : 'cV[R]_n) : dt x z = \sum_i x i 0 * z i 0.
  by rewrite /dt /num mxE; apply: eq_bigr => i _; rewrite mxE.
rewrite !f mulr_suml; apply: eq_bigr => i _; rewrite mulr_sumr; apply: eq_bigr => j _.
by rewrite mulrACA.
Qed.
Lemma symrmat_exists n (M L : 'M[R]_n) :
  symkron_cov (RMat M (fun l : 'I_(n * n) => 2%:R^-1 *: (L *m vec_mx (delta_mx 0 l) *m L^T +
      (L *m vec_mx (delta_mx 0 l) *m L^T)^T))) (L *m L^T).
Proof.
move=> a b c d; have := @rmat_exists n M L L.
set P := fun l => L *m vec_mx (delta_mx 0 l) *m L^T => h.
have e x z l : dt x (2%:R^-1 *: (P l + (P l)^T) *m z) = 2%:R^-1 * (dt x (P l *m z) + dt z (P l *m x)).
  by rewrite -scalemxAl dtZr mulmxDl dtDr -dtMl [dt (P l *m x) z]dtC.
rewrite /cov_form /=; under eq_bigr do rewrite !e.
transitivity (4%:R^-1 * (cov_form (RMat M P) (RMat M P) a b c d + cov_form (RMat M P) (RMat M P) a b d c +
   (cov_form (RMat M P) (RMat M P) b a c d + cov_form (RMat M P) (RMat M P) b a d c))).
  rewrite /cov_form /= -!big_split /= mulr_sumr; apply: eq_bigr => l _.
  have n2 : 2%:R != 0 :> R by rewrite pnatr_eq0.
  have n4 : 4%:R != 0 :> R by rewrite pnatr_eq0.
  by move: (dt _ _) (dt _ _) (dt _ _) (dt _ _) => *; mfield.
rewrite !h; move: (dt _ _) (dt _ _) (dt _ _) (dt _ _) => x1 x2 x3 x4.
have n2 : 2%:R != 0 :> R by rewrite pnatr_eq0.
have n4 : 4%:R != 0 :> R by rewrite pnatr_eq0.
by mfield.
Qed.

(** A 2x2 system: the belief after one action, and the conditions of the theorems. *)
Local Notation q := (q R).
Definition mu_A := m2 (q 2%:Q) (q 1%:Q) (q 1%:Q) (q 3%:Q).
Definition mu_I := m2 (q 1%:Q) (q 0%:Q) (q 0%:Q) (q 1%:Q).
Definition mu_p := Belief (SymBel mu_I mu_I) (SymBel mu_I mu_I).
Lemma sym_ex n (M W : 'M[R]_n) s y w h : W *m s = w -> M_MatUpd.pinv (sc (s^T *m w)) = h ->
  sym_update (SymBel M W) s y = SymBel (M + (y - M *m s) *m (h *: w)^T + ((y - M *m s) *m (h *: w)^T)^T
    - (h *: w) *m (s^T *m ((y - M *m s) *m (h *: w)^T))) (W - (h *: w) *m w^T).
Proof. by move=> <- <-. Qed.
Lemma pinv_ex x y : 0 < x -> 1%:Q / x = y -> M_MatUpd.pinv (sc (s1 (q x))) = q y.
Proof.
move=> x0 <-; rewrite /M_MatUpd.pinv /sc s1E {1}(q0 R) q_lt // div1r qV; congr (L_Num2.q R _).
by rewrite div1r.
Qed.
Example C35_case :
  calls (@sym_update R 2) mu_A mu_p [:: c2 (q 1%:Q) (q 0%:Q)]
  = Belief (SymBel (m2 (q 2%:Q) (q 1%:Q) (q 1%:Q) (q 1%:Q)) (m2 (q 0%:Q) (q 0%:Q) (q 0%:Q) (q 1%:Q)))
      (SymBel (m2 (q (17%:Q / 25%:Q)) (q (- 9%:Q / 25%:Q)) (q (- 9%:Q / 25%:Q)) (q (18%:Q / 25%:Q)))
              (m2 (q (1%:Q / 5%:Q)) (q (- 2%:Q / 5%:Q)) (q (- 2%:Q / 5%:Q)) (q (4%:Q / 5%:Q)))).
Proof.
rewrite /calls /= /call /=.
have -> : mu_A *m c2 (q 1%:Q) (q 0%:Q) = c2 (q 2%:Q) (q 1%:Q) by rewrite /mu_A; qcongr.
have e x y : mu_I *m c2 (q x) (q y) = c2 (q x) (q y).
  by rewrite /mu_I m2c; apply: c2_eq; rewrite !qM qD; apply: q_eq; rewrite ?mul1r ?mul0r ?addr0 ?add0r.
rewrite (@sym_ex _ _ _ _ _ _ (q 1%:Q) (e _ _)); last first.
  have -> : (c2 (q 1%:Q) (q 0%:Q))^T *m c2 (q 1%:Q) (q 0%:Q) = s1 (q 1%:Q) by qcongr.
  by apply: pinv_ex; vm_compute.
rewrite (@sym_ex _ _ _ _ _ _ (q (1%:Q / 5%:Q)) (e _ _)); last first.
  have -> : (c2 (q 2%:Q) (q 1%:Q))^T *m c2 (q 2%:Q) (q 1%:Q) = s1 (q 5%:Q) by qcongr.
  by apply: pinv_ex; vm_compute.
by rewrite !e /mu_I; congr Belief; congr SymBel; qcongr.
Qed.
Lemma pd_id n : pd (1%:M : 'M[R]_n).
Proof. by split=> [|x x0]; [rewrite trmx1 | rewrite /qform mulmx1; exact: dt_gt0]. Qed.
Lemma mu_I1 : mu_I = 1%:M.
Proof. by rewrite m21 /mu_I (q0 R) (q1 R). Qed.
(** Three actions, the last one dependent on the others. *)
Definition mu_acts : seq 'cV[R]_2 := [:: c2 (q 1%:Q) (q 0%:Q); c2 (q 1%:Q) (q 1%:Q); c2 (q 2%:Q) (q 1%:Q)].
Example C35_conditions :
  [/\ mu_A \in unitmx, mu_A^T = mu_A, pd (s_A (b_A mu_p)) & (s_mean (b_A mu_p))^T = s_mean (b_A mu_p)]
  /\ spanning mu_acts.
Proof.
split.
  split; first by apply: m2U; rewrite ?(q0 R); qdone.
  - by rewrite /mu_A m2T.
  - by rewrite /= mu_I1; exact: pd_id.
  - by rewrite /= /mu_I m2T.
move=> v; have [a [b ->]] : exists a b, v = c2 a b by do 2 eexists; exact: c2P.
exists (fun j => if j is 0%N then a - b else if j is 1%N then b else 0).
rewrite !big_ord_recl big_ord0 /= scale0r !addr0.
rewrite -(q1 R) -(q0 R); mnorm; by apply: c2_eq; mring.
Qed.
Example C35_used :
  let p := calls (@sym_update R 2) mu_A mu_p mu_acts in s_mean (b_A p) = mu_A /\ s_mean (b_Ainv p) = invmx mu_A.
Proof.
have [[uA sA pA mA] sp] := C35_conditions.
by have [e1 e2 _ _ _] := C35_exact_symmetric 0 uA sA pA pA mA mA sp; split; [exact: e1 | exact: e2].
Qed.
(** With a singular covariance factor an update may do nothing: the secant equation fails. *)
Example C35_singular : let Z := m2 (q 0%:Q) (q 0%:Q) (q 0%:Q) (q 1%:Q) in
  psd Z /\ let p := sym_update (SymBel mu_I Z) (c2 (q 1%:Q) (q 0%:Q)) (mu_A *m c2 (q 1%:Q) (q 0%:Q)) in
  s_mean p *m c2 (q 1%:Q) (q 0%:Q) != mu_A *m c2 (q 1%:Q) (q 0%:Q).
Proof.
move=> Z; split.
  have -> : Z = c2 (q 0%:Q) (q 1%:Q) *m (c2 (q 0%:Q) (q 1%:Q))^T by rewrite /Z; qcongr.
  exact: psd_gram.
move=> p; have -> : p = SymBel mu_I Z.
  have e : Z *m c2 (q 1%:Q) (q 0%:Q) = c2 (q 0%:Q) (q 0%:Q) by rewrite /Z; qcongr.
  have z : c2 (q 0%:Q) (q 0%:Q) = 0 by rewrite c20 (q0 R).
  by rewrite /p (sym_ex _ _ e erefl) z scaler0 !trmx0 !mulmx0 ?trmx0 !subr0 !addr0.
have -> : s_mean (SymBel mu_I Z) *m c2 (q 1%:Q) (q 0%:Q) = c2 (q 1%:Q) (q 0%:Q) by rewrite /mu_I; qcongr.
have -> : mu_A *m c2 (q 1%:Q) (q 0%:Q) = c2 (q 2%:Q) (q 1%:Q) by rewrite /mu_A; qcongr.
have ne : q 1%:Q != q 2%:Q by qdone.
by apply/eqP => /c2_inj [e _]; rewrite e eqxx in ne.
Qed.
End Cases.

Print Assumptions C35_secant.
Print Assumptions C35_secant_symmetric.
Print Assumptions C35_exact.
Print Assumptions C35_exact_symmetric.
Print Assumptions C35_factor.
Print Assumptions C35_factor_symmetric.
Print Assumptions C35_symmetric.
Print Assumptions C35_law.
Print Assumptions C35_law_symmetric.
