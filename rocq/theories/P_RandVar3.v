(** C26, continued: the Cholesky update, when the results exist, and claims that fail. *)
From mathcomp Require Import all_ssreflect all_algebra.
From Verif Require Import M_Sqrt L_Sqrt L_QR L_Ring M_CovFunc L_CovFunc M_RandVar L_RandVar L_RandVar2 P_RandVar P_RandVar2.
Set Implicit Arguments.
Unset Strict Implicit.
Unset Printing Implicit Defensive.
Import Order.Theory GRing.Theory Num.Theory.
Local Open Scope ring_scope.

(** ** The hypothesis on [cholesky_update] holds for the model of that function *)
Section CU.
Variable R : rcfType.
Notation arr := (arr R).
Variable qr : qr_fun R.
(** The matrix of rows in C order, and back. *)
Definition to_mx n a (S : arr) : 'M[R]_(n, a) := \matrix_(i, j) fl S (i * a + j).
Definition of_mx n (M : 'M[R]_n) : arr :=
  tab [:: n; n] (fun b => if (insub (nth 0%N b 0), insub (nth 0%N b 1)) is (Some i, Some j) then M i j else 0).
(** [cholesky_update(S)] (utils/linalg/_cholesky_updates.py 65-78) for vectors and matrices, by M_Sqrt.v;
    [np.vstack] of a vector is a column (68). *)
Definition np_cholesky_update (S : arr) : arr :=
  let n := prodn (behead (rev (shp S))) in
  odflt (Arr [::] [::]) (omap (@of_mx n) (M_Sqrt.cholesky_update qr (to_mx n (last 0%N (shp S)) S) (None : option 'M[R]_(n, 0)))).
Lemma of_mx_fl n (M : 'M[R]_n) (i j : 'I_n) : fl (of_mx M) (i * n + j) = M i j.
Proof. by rewrite -(ravel2 n) fl_tab ?valid2 ?ltn_ord //= !valK. Qed.
Theorem C26_cholesky_update : (forall p q (B : 'M[R]_(p, q)), is_qr_r B (@qr p q B)) -> chol_spec np_cholesky_update.
Proof.
move=> HQ S u a wS eS u1.
have en : prodn (behead (rev (shp S))) = prodn u by rewrite eS rev_rcons /= prodn_rev.
have ea : last 0%N (shp S) = a by rewrite eS last_rcons.
have eE : np_cholesky_update S = of_mx (pos_tril (fit (@qr _ _ (to_mx (prodn u) a S)^T)^T)).
  by rewrite /np_cholesky_update ea; cbv zeta; rewrite en.
rewrite eE; split=> // [|i j ip jp]; first exact: wf_tab.
set L := pos_tril _; have [_ _ LL] : is_cholesky L (to_mx (prodn u) a S *m (to_mx (prodn u) a S)^T).
  by have := chol_from_qr (HQ _ _ (to_mx (prodn u) a S)^T); rewrite trmxK.
have /matrixP /(_ (Ordinal ip) (Ordinal jp)) := LL; rewrite !mxE => E.
transitivity (\sum_k L (Ordinal ip) k * L^T k (Ordinal jp)).
  by apply: eq_bigr => k _; rewrite [L^T _ _]mxE -!of_mx_fl.
by rewrite E; apply: eq_bigr => k _; rewrite !mxE.
Qed.
End CU.
Print Assumptions C26_cholesky_update.

Section Defined.
Variables (R : rcfType).
Notation arr := (arr R).
Notation get := (get (0 : R)).
Notation op := (np_op (0 : R)).
Implicit Types (x : normal R) (c : arr).
Variable cu : arr -> arr.
Hypothesis cuP : chol_spec cu.
(** ** The products exist *)
Lemma matmul_shp (a b : arr) u n w : shp a = rcons u n -> shp b = n :: w -> (size u <= 1)%N -> (size w <= 1)%N ->
  exists z, [/\ np_matmul a b = Some z, shp z = u ++ w & wf z].
Proof.
move=> ea eb su sw; have [z Ez] := matmul_some ea eb su sw; exists z; split=> //;
  have [u1 [n1 [w2 [e1 e2 e3 e4 _]]]] := matmul_fl Ez => //.
by rewrite e3; rewrite ea in e1; rewrite eb in e2; case: (rcons_inj e1) => -> _; case: e2 => _ ->.
Qed.
Lemma mk_normal_some (m v : arr) l : (size (shp m) <= 2)%N -> shp v = cov_shape (shp m) ->
  (shp m = [::] \/ if l is Some l then shp l = shp v else True) -> exists x, mk_normal (Some m) (Some v) l = Some x.
Proof.
move=> s2 ev h; rewrite /mk_normal s2 ev eqxx /=; case: h => [->|]; first by rewrite eqxx; eexists.
by case: l => [l|] h; rewrite ?h ?ev ?eqxx orbT; eexists.
Qed.
Lemma rev2 (w : seq nat) n : (size w <= 1)%N -> rev (n :: w) = rcons w n.
Proof. by case: w => [|? [|? ?]]. Qed.
Lemma rev1 (u : seq nat) n : (size u <= 1)%N -> rev (rcons u n) = n :: u.
Proof. by case: u => [|? [|? ?]]. Qed.
Theorem C26_matmul_nc_defined x c u n w : nwf x -> chol_ok x -> shp (mean x) = rcons u n ->
  shp c = n :: w -> (size w <= 1)%N -> exists x', matmul_nc cu x c = Some x'.
Proof.
case=> wm wv s2 ev ck es ec w1; rewrite es in s2 ev.
have su : (size u <= 1)%N by move: s2; rewrite size_rcons.
have eT : shp (np_T c) = rcons w n by rewrite shp_T ec rev2.
have [m [Em em _]] := matmul_shp es ec su w1.
have sm : (size (shp m) <= 2)%N by rewrite em size_cat; exact: (leq_add su w1).
rewrite /matmul_nc es; case: ifP => [s1|s1].
  have u1 : prodn u = 1%N by clear -s1 su; case: u s1 su => [|d [|? ?]] //=; case: eqP => //= ->.
  have evn : shp (cov x) = rcons [:: n] n.
    rewrite ev; have -> : cov_shape (rcons u n) = [:: prodn (rcons u n); prodn (rcons u n)] by case: (u).
    by rewrite prodn_rcons u1 mul1n.
  have [t [Et et _]] := matmul_shp evn ec isT w1.
  have [z [Ez ez wz]] := matmul_shp eT (et : shp t = n :: w) w1 w1.
  have [l [El hl]] : exists l, ochol cu (Some (np_T c)) (chol x) (@np_matmul R) = Some l /\
      (if l is Some l then shp l = [:: prodn w; prodn w] else True).
    move: ck; rewrite /chol_ok /ochol; case: (chol x) => [l|] h; last by exists None.
    have eL : shp l = n :: [:: n] by case: h => _ [|-> //]; rewrite es; case: (u).
    have [S [ES eS wS]] := matmul_shp eT eL w1 isT; rewrite ES; exists (Some (cu S)); split=> //.
    by rewrite cats1 in eS; have [] := cuP wS eS w1.
  rewrite El Em Et [obind _ _]/= Ez.
  have [wn|wn] := altP (w =P [::]).
    subst w; case: ifP => [/andP[_ /eqP m1]|mn].
      have -> : np_reshape [:: 1%N; 1%N] z = Some (Arr [:: 1%N; 1%N] (dat z)) by rewrite /np_reshape ez.
      by apply: mk_normal_some => //=; rewrite m1 //; right.
    apply: mk_normal_some => //; rewrite em ez cats0 /=.
      rewrite ez em cats0 /= in mn; clear -su u1 mn; case: u su u1 mn => [|d [|? ?]] //= _; rewrite muln1 => -> //.
    left; rewrite ez em cats0 /= in mn; clear -su u1 mn; case: u su u1 mn => [|d [|? ?]] //= _; rewrite muln1 => -> //.
  have zn : (shp z == [::]) = false by rewrite ez; case: (w) wn.
  rewrite zn /=; have cs : shp z = cov_shape (shp m).
    have E : cov_shape (u ++ w) = [:: prodn (u ++ w); prodn (u ++ w)] by case: (u) => //; case: (w) wn.
    by rewrite em E prodn_cat u1 mul1n ez; clear -w1 wn; case: w w1 wn => [|p [|? ?]] //=; rewrite muln1.
  apply: mk_normal_some => //; right; case: (l) hl => // l' ->; rewrite cs em.
  have E : cov_shape (u ++ w) = [:: prodn (u ++ w); prodn (u ++ w)] by case: (u) => //; case: (w) wn.
  by rewrite E prodn_cat u1 mul1n.
have [k uE] : exists k, u = [:: k] by clear -s1 su; case: u s1 su => [|k [|? ?]] // _ _; exists k.
subst u; rewrite [rcons _ _]/=.
have [c2 Ec ec2] : exists2 c2, (if size (shp c) == 1%N then np_reshape [:: nth 0%N (shp c) 0; 1%N] c else Some c) = Some c2 & shp c2 = [:: n; prodn w].
  rewrite ec; clear -w1 ec; case: w w1 ec => [|p [|? ?]] //= _ ec.
    by rewrite /np_reshape ec /= eqxx; eexists.
  by exists c => //; rewrite muln1.
rewrite Ec; have eT2 : shp (np_T c2) = [:: prodn w; n] by rewrite shp_T ec2.
rewrite {1}/np_kron eT2 /=; set U := tab _ _.
have eU : shp U = rcons [:: (k * prodn w)%N] (k * n)%N by [].
have eUT : shp (np_T U) = (k * n)%N :: [:: (k * prodn w)%N] by [].
have evn : shp (cov x) = rcons [:: (k * n)%N] (k * n)%N by rewrite ev /= muln1.
have [t [Et et _]] := matmul_shp evn eUT isT isT.
have [z [Ez ez wz]] := matmul_shp eU (et : shp t = (k * n)%N :: [:: (k * prodn w)%N]) isT isT.
by rewrite Em Et /obind Ez; apply: mk_normal_some => //; [rewrite ez em | right].
Qed.
Theorem C26_matmul_cn_defined x c u n w : nwf x -> chol_ok x -> shp c = rcons u n -> shp (mean x) = n :: w ->
  (size u <= 1)%N -> ~ (u = [::] /\ w = [:: 1%N]) -> exists x', matmul_cn cu c x = Some x'.
Proof.
case=> wm wv s2 ev ck ec es su nu; rewrite es in s2 ev.
have w1 : (size w <= 1)%N by [].
have eT : shp (np_T c) = n :: u by rewrite shp_T ec rev1.
have [m [Em em _]] := matmul_shp ec es su w1.
have sm : (size (shp m) <= 2)%N by rewrite em size_cat; exact: (leq_add su w1).
rewrite /matmul_cn es; case: ifP => [s1|s1].
  have pw : prodn w = 1%N by clear -s1 w1; case: w s1 w1 => [|d [|? ?]] //=; case: eqP => //= ->.
  have evn : shp (cov x) = rcons [:: n] n by rewrite ev /cov_shape /= pw muln1.
  have [t [Et et _]] := matmul_shp evn eT isT su.
  have [z [Ez ez wz]] := matmul_shp ec (et : shp t = n :: u) su su.
  have [l [El hl]] : exists l, ochol cu (Some c) (chol x) (@np_matmul R) = Some l /\
      (if l is Some l then shp l = [:: prodn u; prodn u] else True).
    move: ck; rewrite /chol_ok /ochol; case: (chol x) => [l|] h; last by exists None.
    have eL : shp l = n :: [:: n] by case: h => _ [|-> //]; rewrite es.
    have [S [ES eS wS]] := matmul_shp ec eL su isT; rewrite ES; exists (Some (cu S)); split=> //.
    by rewrite cats1 in eS; have [] := cuP wS eS su.
  rewrite El Em Et /obind Ez.
  have [un|un] := altP (u =P [::]).
    subst u; have wn : w = [::].
      by clear -w1 pw nu; case: w w1 pw nu => [|p [|? ?]] //= _; rewrite muln1 => -> [].
    by apply: mk_normal_some => //; rewrite em ez wn //; left.
  have E : cov_shape (u ++ w) = [:: prodn (u ++ w); prodn (u ++ w)] by case: (u) un.
  have cs : shp z = cov_shape (shp m).
    by rewrite em E prodn_cat pw muln1 ez; clear -su un; case: u su un => [|p [|? ?]] //=; rewrite muln1.
  apply: mk_normal_some => //; right; case: (l) hl => // l' ->; rewrite cs em.
  by rewrite E prodn_cat pw muln1.
have [k wE] : exists k, w = [:: k] by clear -s1 w1; case: w s1 w1 => [|k [|? ?]] // _ _; exists k.
subst w.
have [c2 Ec ec2] : exists2 c2, (if size (shp c) == 1%N then np_reshape [:: 1%N; nth 0%N (shp c) 0] c else Some c) = Some c2 & shp c2 = [:: prodn u; n].
  rewrite ec; clear -su ec; case: u su ec => [|p [|? ?]] //= _ ec.
    by rewrite /np_reshape ec /= mul1n eqxx; eexists.
  by exists c => //; rewrite muln1.
rewrite Ec {1}/np_kron ec2 /=; set U := tab _ _.
have eU : shp U = rcons [:: (prodn u * k)%N] (n * k)%N by [].
have eUT : shp (np_T U) = (n * k)%N :: [:: (prodn u * k)%N] by [].
have evn : shp (cov x) = rcons [:: (n * k)%N] (n * k)%N by rewrite ev /= muln1.
have [t [Et et _]] := matmul_shp evn eUT isT isT.
have [z [Ez ez wz]] := matmul_shp eU (et : shp t = (n * k)%N :: [:: (prodn u * k)%N]) isT isT.
rewrite Em Et /obind Ez; apply: mk_normal_some => //; last by right.
rewrite ez em; have -> : cov_shape (u ++ [:: k]) = [:: prodn (u ++ [:: k]); prodn (u ++ [:: k])] by case: (u).
by rewrite prodn_cat /= muln1.
Qed.
(** ** C123: a constant vector times a normal random variable of shape [(n, 1)] always raises *)
Theorem C123_vector_refuted x c n : nwf x -> shp (mean x) = [:: n; 1%N] -> shp c = [:: n] -> matmul_cn cu c x = None.
Proof.
move=> [wm wv _ ev] es ec; rewrite /matmul_cn es /=; case: (ochol _ _ _ _) => // l.
have ev' : shp (cov x) = rcons [:: n] n by rewrite ev es /= !muln1.
have [m [-> em _]] := matmul_shp (u := [::]) ec es isT isT.
have eT : shp (np_T c) = [:: n] by rewrite shp_T ec.
have [t [-> et _]] := matmul_shp ev' eT isT isT; rewrite /obind.
have [z [-> ez _]] := matmul_shp (u := [::]) ec et isT isT.
by rewrite /mk_normal em ez.
Qed.
(** ** C124: scalar random variables times arrays with one element *)
Theorem C124_scalar_refuted x c : nwf x -> shp (mean x) = [::] -> shp c = [:: 1%N] -> wf c ->
  if support0 c == 0 then exists2 d, mul_nc x c = Some (Cst d) & shp d = [::] else mul_nc x c = None.
Proof.
move=> [wm wv _ ev] es ec wc; rewrite /mul_nc ec /=; case: eqP => _; first by eexists; first reflexivity.
rewrite es /= in ev; case: (omul _ _) => // l; rewrite /np_op /= ec es ev /mk_normal /=.
by [].
Qed.
(** ** C125: the factor of a result *)
(** After scaling by a negative number the diagonal is negative; the factor of [x @ v] for vectors does not have
    the shape of the variance. *)
Theorem C125_factor_refuted :
  (let one := Arr [:: 1%N; 1%N] [:: 1 : R] in
   let x := Normal (Arr [:: 1%N] [:: 0]) one (Some one) in
   mul_nc x (Arr [::] [:: -1]) = Some (Nrm (Normal (Arr [:: 1%N] [:: -1 * 0]) (Arr [:: 1%N; 1%N] [:: (-1) ^+ 2 * 1]) (Some (Arr [:: 1%N; 1%N] [:: -1 * 1])))))
  /\ (forall x c x' n l, nwf x -> chol_ok x -> wf c -> shp (mean x) = [:: n] -> shp c = [:: n] -> chol x = Some l ->
      matmul_nc cu x c = Some x' -> exists2 l', chol x' = Some l' & shp (cov x') = [::] /\ shp l' = [:: 1%N; 1%N]).
Proof.
split=> [|x c x' n l [wm wv _ ev] ck wc es ec el].
  by rewrite /mul_nc /support0 /= oppr_eq0 oner_eq0.
have eT : shp (np_T c) = [:: n] by rewrite shp_T ec.
have eL : shp l = [:: n; n] by move: ck; rewrite /chol_ok el => -[_ []]; rewrite ?ev es //= muln1.
have [S [ES eS wS]] := matmul_shp (u := [::]) eT eL isT isT.
have [m [Em em _]] := matmul_shp (u := [::]) es ec isT isT.
have mb : (shp m == [:: 1%N]) = false by rewrite em.
rewrite /matmul_nc es el /ochol ES Em; case: (obind _ _) => // v; rewrite mb andbF.
move=> /(@mk_normalP R (Some m) (Some v) (Some (cu S))) [[e1] [e2] -> _]; rewrite -e1 em /= => ->; exists (cu S) => //; split=> //.
by have [] := cuP (u := [::]) wS eS isT.
Qed.
End Defined.
(** ** C126: with damping [d > 0] (default 1e-12) the square of the factor is not the variance, and it depends on
    the representation of the covariance *)
Theorem C126_damping_refuted (R : rcfType) (v d : R) : 0 <= v -> 0 < d -> chol_scalar v d ^+ 2 = v + d /\ chol_scalar v d ^+ 2 <> v.
Proof.
move=> v0 d0; rewrite /chol_scalar sqr_sqrtr; last by apply: addr_ge0 => //; exact: ltW.
split=> // /eqP; rewrite -subr_eq0 addrAC subrr add0r => /eqP e; by rewrite e ltxx in d0.
Qed.
Theorem C126_representation_refuted (R : rcfType) (d : R) : 0 < d ->
  chol_kron1 1 1 d ^+ 2 = 1 + d + d + d ^+ 2 /\ chol_scalar 1 d ^+ 2 = 1 + d /\ chol_kron1 1 1 d ^+ 2 <> chol_scalar 1 d ^+ 2.
Proof.
move=> d0; have p : 0 <= 1 + d by rewrite addr_ge0 ?ler01 // ltW.
rewrite /chol_kron1 /chol_scalar exprMn sqr_sqrtr //.
have E (y : R) : (1 + y) * (1 + y) = 1 + y + (y + y ^+ 2) by mring.
split; first by rewrite E addrA; split.
split=> // /eqP; rewrite E -subr_eq0 addrAC subrr add0r => /eqP e.
have : 0 < d + d ^+ 2 by rewrite addr_gt0 // exprn_gt0.
by rewrite e ltxx.
Qed.
(** ** C127: accessing [cov_cholesky] makes a later addition raise *)
Theorem C127_access_refuted : forall t, add_const_ok t false /\ (add_const_ok t true = false <-> [\/ t = TOther, t = TIdKron | t = TSymKron false]).
Proof. case=> [|||[]||]; split=> //; split=> //; try by [case].
- by constructor 2.
- by constructor 3.
- by constructor 1. Qed.
Print Assumptions C125_factor_refuted.
Print Assumptions C126_damping_refuted.
Print Assumptions C126_representation_refuted.
Print Assumptions C127_access_refuted.
Print Assumptions C26_matmul_nc_defined.
Print Assumptions C26_matmul_cn_defined.
Print Assumptions C123_vector_refuted.
Print Assumptions C124_scalar_refuted.

(** ** Non-vacuity: two independent scalars, their sum, scaled; a vector times a matrix *)
Section Ex.
Variable Q : rcfType.
(** [X = (1 + e0, 2 + e0 + e1)], with covariance [[1, 1], [1, 2]]. *)
Definition exX : rarr Q 2 := fun b =>
  if b == [:: 0%N] then row_mx (1 : 'M_1) (\row_j (j == 0)%:R) else row_mx ((2%:R)%:M : 'M_1) (const_mx 1).
Definition exx : normal Q :=
  Normal (Arr [:: 2%N] [:: 1; 2%:R]) (Arr [:: 2%N; 2%N] [:: 1; 1; 1; 2%:R]) (Some (Arr [:: 2%N; 2%N] [:: 1; 0; 1; 1])).
Example ex_law : law [:: 2%N] exX (Nrm exx).
Proof.
have V a : valid [:: 2%N] a -> a = [:: 0%N] \/ a = [:: 1%N].
  by case: a => [|[|[|i]] [|? ?]] //= _; [left|right].
split=> //=.
- split; last by right.
  split=> // -[|[|i]] [|[|j]] //= _ _; rewrite !big_ord_recl big_ord0 /= ?add0n ?addn0; by rewrite ?mulr0 ?mul0r ?mulr1 ?mul1r ?add0r ?addr0 // -mulr2n.
split=> [a /V [->|->]|a b /V [->|->] /V [->|->]].
- by rewrite /Ex /exX eqxx row_mxKl mxE.
- by rewrite /Ex /exX /= row_mxKl mxE.
all: rewrite /Co /exX /= !row_mxKr mxE !big_ord_recl big_ord0 !mxE /covf /M_CovFunc.get /=;
  by rewrite ?mulr0 ?mul0r ?mulr1 ?mul1r ?add0r ?addr0 // -?mulr2n.
Qed.
Example ex_sum : exists z, rv_add (Nrm exx) (Cst (Arr [:: 2%N] [:: 1; 1])) = Some (Nrm z) /\ get 0 (mean z) [:: 1%N] = 2%:R + 1.
Proof. by eexists; split. Qed.
Example ex_scale : exists z, rv_mul (Nrm exx) (Cst (Arr [::] [:: 2%:R])) = Some (Nrm z) /\ get 0 (cov z) [:: 1%N; 1%N] = 2%:R ^+ 2 * 2%:R.
Proof. by rewrite /= /mul_nc /support0 /= pnatr_eq0 /=; eexists; split. Qed.
Example ex_matmul : exists z, matmul_nc (np_cholesky_update (@qr_of Q)) exx (Arr [:: 2%N; 1%N] [:: 1; 1]) = Some z
  /\ law [:: 1%N] (fun b => \sum_(l < 2) get 0 (Arr [:: 2%N; 1%N] [:: 1; 1]) (nat_of_ord l :: drop 0 b) *: exX (rcons (take 0 b) l)) (Nrm z).
Proof.
have P := C26_cholesky_update (@qr_ofP Q).
have [wx ck _ _] := ex_law.
have [z E] := @C26_matmul_nc_defined _ _ P exx (Arr [:: 2%N; 1%N] [:: 1; 1]) [::] 2 [:: 1%N] wx ck erefl erefl isT.
exists z; split=> //; have [u [n [w [e1 e2 H]]]] := C26_matmul_nc P ex_law (isT : wf (Arr [:: 2%N; 1%N] [:: 1; 1])) E.
have eu : u = [::] /\ n = 2%N by case: (rcons_inj (e1 : rcons [::] 2%N = rcons u n)) => <- <-.
by case: eu e2 H => -> -> [<-].
Qed.
(** The same for a matrix-variate random variable, where the Kronecker branch is taken. *)
Definition exM : normal Q := Normal (Arr [:: 2%N; 1%N] [:: 1; 2%:R]) (Arr [:: 2%N; 2%N] [:: 1; 1; 1; 2%:R]) None.
Example ex_matmul2 : exists z, matmul_nc (np_cholesky_update (@qr_of Q)) exM (Arr [:: 1%N] [:: 3%:R]) = Some z /\ shp (mean z) = [:: 2%N].
Proof. by eexists; split. Qed.
End Ex.
