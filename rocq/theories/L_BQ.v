(** Specification and lemmas for Bayesian quadrature (M_BQ.v). *)
From mathcomp Require Import all_ssreflect all_algebra.
From Verif Require Import M_DMx L_DMx L_Kalman L_Sqrt L_Chol L_Zmod M_BQ.
Set Implicit Arguments.
Unset Strict Implicit.
Unset Printing Implicit Defensive.
Import Order.Theory GRing.Theory Num.Theory.
Local Open Scope ring_scope.

Section Spec.
Variables (R : rcfType) (dim : nat).
Local Notation node := 'rV[R]_dim.
Implicit Types (k : kernel R dim) (xs : seq node) (s : state R dim).

(** The kernel is symmetric, and the integral and the function values have a positive
    semidefinite joint covariance. *)
Definition embedded k : Prop :=
  (forall x y, k_eval k x y = k_eval k y x) /\
  forall n (x : 'I_n -> node) (c : 'I_n -> R) a,
    0 <= a ^+ 2 * k_var k + 2%:R * a * (\sum_i c i * k_mean k (x i))
         + \sum_i \sum_j c i * c j * k_eval k (x i) (x j).

(** Covariances of the function values at nodes, and of those with the integral. *)
Definition gmx k n xs : 'M[R]_n := \matrix_(i, j) k_eval k (nth 0 xs i) (nth 0 xs j).
Definition zmx k n xs : 'cV[R]_n := \col_i k_mean k (nth 0 xs i).
Definition cmx k n xs (x : node) : 'cV[R]_n := \col_i k_eval k (nth 0 xs i) x.

(** ** Positive definite matrices *)
Lemma chol_pd n (L : 'M[R]_n) : (forall i j : 'I_n, (i < j)%N -> L i j = 0) -> (forall i, 0 < L i i) ->
  pd (L *m L^T).
Proof.
move=> lo pos; split; first by rewrite trmx_mul trmxK.
have u : L \in unitmx.
  rewrite unitmxE unitfE det_trig; last by apply/is_trig_mxP.
  by apply/prodf_neq0 => i _; rewrite gt_eqF.
move=> x x0; rewrite /qform mulmxA -mulmxA -[x^T *m L]trmxK trmx_mul trmxK lt_def dot_ge0 andbT.
apply: contra x0 => /eqP/dot_eq0 e.
have : L^T *m x = 0 by [].
by move/(congr1 (mulmx (invmx L^T))); rewrite mulKmx ?unitmx_tr // mulmx0 => ->.
Qed.
Lemma chol_lower n (A : 'M[R]_n) (i j : 'I_n) : (i < j)%N -> chol_of A i j = 0.
Proof.
elim: n A i j => [|n IH] A i j; first by case: i.
rewrite /=; set B := chol_of _.
move: (_ *: _) => b; move: (Num.sqrt _) => a.
suff H : forall i j : 'I_(1 + n), (i < j)%N -> block_mx a%:M 0 b B i j = 0 by apply: H.
move=> {i j} i j; rewrite -[i]splitK -[j]splitK.
case: (split i) => i'; case: (split j) => j' /=.
- by rewrite !ord1.
- by rewrite (block_mxEur _ _ _ B) mxE.
- by rewrite !ord1.
- by rewrite (block_mxEdr _ _ _ B) ltn_add2l; apply: IH.
Qed.
Lemma posdefP n (A : 'M[R]_n) : reflect (pd A) (posdef A).
Proof.
apply: (iffP andP) => [[/forallP p /eqP e]|p].
  by rewrite -e; apply: chol_pd => // i j; apply: chol_lower.
move: (chol_ofP (pd_psd p)); move: (chol_of A) => L [lo nn e]; split; last by apply/eqP.
apply/forallP => i; rewrite lt_def nn andbT.
have : \det L != 0.
  by have := pd_unit p; rewrite -e unitmxE det_mulmx det_tr unitrM andbb unitfE.
rewrite det_trig; last by apply/is_trig_mxP.
by move/prodf_neq0 => H; apply: H.
Qed.
Lemma upper_symE n (A : 'M[R]_n) : A^T = A -> upper_sym A = A.
Proof.
move=> sA; apply/matrixP => i j; rewrite mxE; case: leqP => // _.
by rewrite -{1}sA mxE.
Qed.
Lemma posdef_upper n (A : 'M[R]_n) : A^T = A -> posdef (upper_sym A) = posdef A.
Proof. by move=> /upper_symE ->. Qed.

(** ** The Gram matrix *)
Lemma kmat_sq k n xs : n = size xs -> sq n (kmat k xs xs) = gmx k n xs.
Proof.
move=> ->; apply/matrixP => i j; rewrite !mxE get_mk //.
Qed.
Definition ksym k := forall x y, k_eval k x y = k_eval k y x.
Lemma gmx_sym k n xs : ksym k -> (gmx k n xs)^T = gmx k n xs.
Proof. by move=> s; apply/matrixP => i j; rewrite !mxE s. Qed.
Definition jgmx k (jit : R) n xs : 'M[R]_n := gmx k n xs + jit%:M.
Lemma jgmx_sym k jit n xs : ksym k -> (jgmx k jit n xs)^T = jgmx k jit n xs.
Proof. by move=> e; rewrite /jgmx linearD /= gmx_sym // tr_scalar_mx. Qed.

Lemma gram_append k xs ys : ksym k ->
  dhcat (dvcat (kmat k xs xs) (kmat k ys xs)) (dvcat (dtr (kmat k ys xs)) (kmat k ys ys))
  = kmat k (xs ++ ys) (xs ++ ys).
Proof.
move=> sk; apply: dmx_ext; rewrite /= ?size_cat // => i j lti ltj.
rewrite /= in lti ltj.
rewrite [RHS]get_mk ?size_cat // [LHS]get_mk //= !nth_cat.
case: ltnP => hj; last first.
  have hj' : (j - size xs < size ys)%N by rewrite ltn_subLR.
  rewrite get_mk //=; case: ltnP => hi; last first.
    by rewrite get_mk // ltn_subLR.
  by rewrite /dtr /= !get_mk //= sk.
rewrite get_mk //=; case: ltnP => hi; first by rewrite get_mk.
by rewrite get_mk // ltn_subLR.
Qed.

(** ** What a state contains *)
Definition state_ok k jit s : Prop :=
  [/\ size (nodes s) != 0%N, size (evals s) = size (nodes s),
      gram s = kmat k (nodes s) (nodes s), kmeans s = map (k_mean k) (nodes s) &
      factor s = DMx (jgmx k jit (size (nodes s)) (nodes s))
      /\ pd (jgmx k jit (size (nodes s)) (nodes s))].

(** The quadratic forms with the inverse. *)
Definition qinv n (A : 'M[R]_n) (u v : 'cV[R]_n) : R := num (u^T *m invmx A *m v).

(** The update recomputed from all data. *)
Definition full k jit e (sc : R) (prev : seq (R * R)) xs ys : option (state R dim) :=
  let n := size xs in
  if size ys != n then None else
  if posdef (jgmx k jit n xs) then
    let A := jgmx k jit n xs in
    let sc' := if e is Mle then qinv A (colv n ys) (colv n ys) / n%:R else sc in
    Some (State xs ys sc' (kmat k xs xs) (DMx A) (map (k_mean k) xs)
      (qinv A (zmx k n xs) (colv n ys), sc' * (k_var k - qinv A (zmx k n xs) (zmx k n xs))) prev)
  else None.

Lemma colv_means k xs n : n = size xs -> colv n (map (k_mean k) xs) = zmx k n xs.
Proof. by move=> ->; apply/matrixP => i j; rewrite !mxE (nth_map 0). Qed.

Lemma invmx_sym n (A : 'M[R]_n) : A^T = A -> (invmx A)^T = invmx A.
Proof. by move=> sA; rewrite trmx_inv sA. Qed.

Lemma update_full k jit e s xs ys : ksym k -> nodes s = [::] /\ evals s = [::] \/ state_ok k jit s ->
  update k jit e s xs ys =
  full k jit e (scale_sq s) (rcons (previous s) (belief s)) (nodes s ++ xs) (evals s ++ ys).
Proof.
move=> sk H; rewrite /update /full; case: ifP => // sz.
set first := size (nodes s) == 0%N.
have -> : (if first then kmat k (nodes s ++ xs) (nodes s ++ xs)
     else dhcat (dvcat (gram s) (kmat k xs (nodes s))) (dvcat (dtr (kmat k xs (nodes s))) (kmat k xs xs)))
  = kmat k (nodes s ++ xs) (nodes s ++ xs).
  rewrite /first; case: H => [[-> _] //|[/negPf -> _ -> _ _]]; exact: gram_append.
have -> : (if first then map (k_mean k) (nodes s ++ xs) else kmeans s ++ map (k_mean k) xs)
  = map (k_mean k) (nodes s ++ xs).
  by rewrite /first; case: H => [[-> _] //|[/negPf -> _ _ -> _]]; rewrite map_cat.
rewrite /cho_factor kmat_sq // -/(jgmx k jit (size (nodes s ++ xs)) (nodes s ++ xs)).
have sA := jgmx_sym jit (size (nodes s ++ xs)) (nodes s ++ xs) sk.
rewrite upper_symE //; case: ifP => // pA; rewrite /= colv_means //; congr (Some (State _ _ _ _ _ _ _ _)).
- by rewrite /estimate_scale /qinv /cho_solve !mulmxA; case: e.
- rewrite /cho_solve trmx_mul invmx_sym //; congr (_, _ * _).
  by rewrite /estimate_scale /qinv /cho_solve !mulmxA; case: e.
Qed.

Lemma full_ok k jit e sc prev xs ys s : xs != [::] -> full k jit e sc prev xs ys = Some s ->
  state_ok k jit s /\ nodes s = xs /\ evals s = ys.
Proof.
move=> nx; rewrite /full; case: eqP => //= sz; case: posdefP => // pA [<-] /=; split => //.
by split => //=; rewrite size_eq0.
Qed.

(** ** Batches *)
(** Everything but the list of previous beliefs. *)
Definition forget s : state R dim :=
  State (nodes s) (evals s) (scale_sq s) (gram s) (factor s) (kmeans s) (belief s) [::].
Lemma full_forget k jit e sc prev xs ys :
  omap forget (full k jit e sc prev xs ys) = full k jit e sc [::] xs ys.
Proof. by rewrite /full; case: ifP => //= _; case: ifP. Qed.

Lemma full_scale k jit e sc prev xs ys s : full k jit e sc prev xs ys = Some s ->
  full k jit e sc [::] =2 full k jit e (scale_sq s) [::].
Proof.
by move=> E xs' ys'; move: E; rewrite /full; case: ifP => // _; case: ifP => // _; case: e => // -[<-].
Qed.

(** A leading block of a positive definite matrix. *)
Lemma pd_lead k jit n p xs : pd (jgmx k jit (n + p) xs) -> pd (jgmx k jit n xs).
Proof.
move=> [sA pA].
have ulE : ulsubmx (jgmx k jit (n + p) xs) = jgmx k jit n xs.
  by apply/matrixP => i j; rewrite !mxE /= -!(inj_eq (@ord_inj _)).
split; first by rewrite -ulE trmx_ulsub sA.
move=> x x0; have := pA (col_mx x 0).
have -> : qform (jgmx k jit (n + p) xs) (col_mx x 0) = qform (jgmx k jit n xs) x.
  rewrite /qform -{1}[jgmx k jit (n + p) xs]submxK ulE tr_col_mx trmx0 mul_row_block.
  by rewrite !mul0mx !addr0 mul_row_col mulmx0 addr0.
apply; apply: contra x0 => /eqP e; apply/eqP.
by have := congr1 usubmx e; rewrite col_mxKu linear0.
Qed.
Lemma gmx_cat k jit n xs ys : (n <= size xs)%N -> jgmx k jit n (xs ++ ys) = jgmx k jit n xs.
Proof.
move=> le; apply/matrixP => i j; rewrite !mxE !nth_cat.
by rewrite !(leq_trans (ltn_ord _) le).
Qed.
Lemma posdef_cat k jit xs ys : posdef (jgmx k jit (size (xs ++ ys)) (xs ++ ys)) ->
  posdef (jgmx k jit (size xs) xs).
Proof.
move=> /posdefP p; apply/posdefP; rewrite -(gmx_cat _ _ ys (leqnn _)).
by apply: (@pd_lead _ _ _ (size ys)); rewrite -size_cat.
Qed.

Definition good_batch (b : seq node * seq R) := (b.1 != [::]) && (size b.2 == size b.1).

Lemma updates_none k jit e bs :
  foldl (fun os (b : seq node * seq R) => obind (fun s => update k jit e s b.1 b.2) os) None bs = None.
Proof. by elim: bs. Qed.

Lemma updates_full k jit e bs s : ksym k -> all good_batch bs ->
  state_ok k jit s ->
  omap forget (updates k jit e s bs) =
  if bs is [::] then Some (forget s) else
  full k jit e (scale_sq s) [::] (nodes s ++ flatten (unzip1 bs)) (evals s ++ flatten (unzip2 bs)).
Proof.
move=> sk; elim: bs s => [//|b bs IH] s /= /andP[gb gbs] ok.
rewrite /updates /= update_full //; last by right.
have [nz sz _ _ _] := ok.
have nx : nodes s ++ b.1 != [::].
  by rewrite -size_eq0 size_cat addn_eq0 negb_and nz.
have sz1 : size (evals s ++ b.2) = size (nodes s ++ b.1).
  by case/andP: gb => _ /eqP e2; rewrite !size_cat sz e2.
case E: (full _ _ _ _ _ _ _) => [s1|]; last first.
  rewrite updates_none /=; case: bs gbs {IH} => [|b' bs'] gbs.
    by rewrite /= !cats0 -(full_forget k jit e _ (rcons (previous s) (belief s))) E.
  symmetry; rewrite /full; case: ifP => // szb; case: ifP => // p.
  move: p; rewrite catA => /posdef_cat p; move: E; rewrite /full sz1 eqxx /=.
  by rewrite p.
have [ok1 [n1 e1]] := full_ok nx E.
have sc1 := full_scale E.
rewrite -/(updates k jit e s1 bs) IH // n1 e1 -!catA.
case: bs gbs IH => [|b' bs'] gbs IH; last by rewrite sc1.
by rewrite /= !cats0 -(full_forget k jit e _ (rcons (previous s) (belief s))) E.
Qed.

Lemma batching k jit e bs : ksym k -> all good_batch bs -> bs != [::] ->
  omap forget (updates k jit e (init k) bs)
  = omap forget (update k jit e (init k) (flatten (unzip1 bs)) (flatten (unzip2 bs))).
Proof.
move=> sk; case: bs => // b bs /= /andP[gb gbs] _.
rewrite /updates /= !update_full //; try by left.
rewrite full_forget /=.
have nx : b.1 != [::] by case/andP: gb.
case E: (full k jit e 1 _ b.1 b.2) => [s1|]; last first.
  rewrite updates_none /=; move: E; rewrite /full; case/andP: gb => _ /eqP ->; rewrite eqxx /=.
  by case: ifP => // np _; case: ifP => // _; case: ifP => // /posdef_cat; rewrite np.
have [ok1 [n1 e1]] := full_ok nx E.
rewrite -/(updates k jit e s1 bs) updates_full // n1 e1.
have sc1 := full_scale E.
case: bs gbs => [|b' bs'] gbs; last by rewrite sc1.
by rewrite /= !cats0 -(full_forget k jit e _ [:: (0, k_var k)]) E.
Qed.
End Spec.
