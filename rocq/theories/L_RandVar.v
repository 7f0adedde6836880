(** Specification and lemmas for random variables. *)
From mathcomp Require Import all_ssreflect all_algebra.
From Verif Require Import L_Ring M_CovFunc L_CovFunc M_RandVar.
Set Implicit Arguments.
Unset Strict Implicit.
Unset Printing Implicit Defensive.
Import Order.Theory GRing.Theory Num.Theory.
Local Open Scope ring_scope.

(** ** Random scalars: affine functions of [K] independent standard normals, by their coefficients *)
Section Scalars.
Variables (R : rcfType) (K : nat).
Definition rsc := 'rV[R]_(1 + K).
Implicit Types x y : rsc.
Definition Ex x : R := lsubmx x 0 0.
Definition Co x y : R := (rsubmx x *m (rsubmx y)^T) 0 0.
Definition cst (r : R) : rsc := row_mx r%:M 0.
Lemma ExD x y : Ex (x + y) = Ex x + Ex y. Proof. by rewrite /Ex !mxE. Qed.
Lemma ExN x : Ex (- x) = - Ex x. Proof. by rewrite /Ex !mxE. Qed.
Lemma ExZ a x : Ex (a *: x) = a * Ex x. Proof. by rewrite /Ex !mxE. Qed.
Lemma Excst r : Ex (cst r) = r. Proof. by rewrite /Ex row_mxKl mxE eqxx. Qed.
Lemma CoC x y : Co x y = Co y x.
Proof. by rewrite /Co -[in LHS](trmxK (rsubmx x)) -trmx_mul [LHS]mxE. Qed.
Lemma CoD x x' y : Co (x + x') y = Co x y + Co x' y.
Proof. by rewrite /Co linearD mulmxDl mxE. Qed.
Lemma CoN x y : Co (- x) y = - Co x y.
Proof. by rewrite /Co linearN mulNmx mxE. Qed.
Lemma CoZ a x y : Co (a *: x) y = a * Co x y.
Proof. by rewrite /Co linearZ -scalemxAl mxE. Qed.
Lemma Cocst r y : Co (cst r) y = 0.
Proof. by rewrite /Co row_mxKr mul0mx mxE. Qed.
Lemma Exsum (I : Type) (l : seq I) F : Ex (\sum_(i <- l) F i) = \sum_(i <- l) Ex (F i).
Proof. by elim/big_rec2: _ => [|i a b _ <-]; [rewrite /Ex !mxE | rewrite ExD]. Qed.
Lemma Cosum (I : Type) (l : seq I) F y : Co (\sum_(i <- l) F i) y = \sum_(i <- l) Co (F i) y.
Proof. by elim/big_rec2: _ => [|i a b _ <-]; [rewrite /Co linear0 mul0mx mxE | rewrite CoD]. Qed.
Lemma CoDr x y y' : Co x (y + y') = Co x y + Co x y'. Proof. by rewrite CoC CoD !(CoC x). Qed.
Lemma CoNr x y : Co x (- y) = - Co x y. Proof. by rewrite CoC CoN (CoC x). Qed.
Lemma CoZr a x y : Co x (a *: y) = a * Co x y. Proof. by rewrite CoC CoZ (CoC x). Qed.
Lemma Cocstr r x : Co x (cst r) = 0. Proof. by rewrite CoC Cocst. Qed.
Lemma Cosumr (I : Type) (l : seq I) F x : Co x (\sum_(i <- l) F i) = \sum_(i <- l) Co x (F i).
Proof. by rewrite CoC Cosum; apply: eq_bigr => i _; rewrite CoC. Qed.
Lemma cstD r q : cst (r + q) = cst r + cst q.
Proof. by rewrite /cst add_row_mx addr0; congr row_mx; apply/matrixP => i j; rewrite !mxE mulrnDl. Qed.
Lemma cstN r : cst (- r) = - cst r.
Proof. by rewrite /cst opp_row_mx oppr0; congr row_mx; apply/matrixP => i j; rewrite !mxE mulNrn. Qed.
Lemma cstZ r q : cst (r * q) = r *: cst q.
Proof. by rewrite /cst scale_row_mx scaler0; congr row_mx; apply/matrixP => i j; rewrite !mxE mulrnAr. Qed.
Lemma cst0 : cst 0 = 0.
Proof. by rewrite -(mul0r (0 : R)) cstZ scale0r. Qed.
End Scalars.

(** ** Laws of random arrays
    A random array of shape [s] has random scalars as entries. *)
Section Law.
Variables (R : rcfType) (K : nat).
Notation arr := (arr R).
Notation get := (get (0 : R)).
Notation op := (np_op (0 : R)).
Notation rsc := (rsc R K).
Definition rarr := seq nat -> rsc.
(** The covariance that a normal random variable states for two of its entries. *)
Definition covf (n : normal R) (a b : seq nat) : R :=
  let s := shp (mean n) in if s is [::] then get (cov n) [::] else get (cov n) [:: ravel s a; ravel s b].
(** Well-formed normal random variables; the factor, if known, is a square root. *)
Definition nwf (n : normal R) : Prop :=
  [/\ wf (mean n), wf (cov n), (size (shp (mean n)) <= 2)%N & shp (cov n) = cov_shape (shp (mean n))].
Definition sqrt_of (n : nat) (l v : arr) : Prop :=
  [/\ wf l, prodn (shp l) = (n * n)%N & forall i j, (i < n)%N -> (j < n)%N ->
     \sum_(k < n) nth 0 (dat l) (i * n + k) * nth 0 (dat l) (j * n + k) = nth 0 (dat v) (i * n + j)].
Definition chol_ok (n : normal R) : Prop := if chol n is Some l then sqrt_of (prodn (shp (mean n))) l (cov n) /\ (shp (mean n) = [::] \/ shp l = shp (cov n)) else True.
(** [X] has the law stated by [r]. *)
Definition law (s : seq nat) (X : rarr) (r : rv R) : Prop :=
  match r with
  | Nrm n => [/\ nwf n, chol_ok n, shp (mean n) = s &
      (forall a, valid s a -> Ex (X a) = get (mean n) a) /\
      (forall a b, valid s a -> valid s b -> Co (X a) (X b) = covf n a b)]
  | Cst c => [/\ wf c, shp c = s & forall a, valid s a -> X a = cst K (get c a)]
  | Generic => False
  end.
Definition indep (s t : seq nat) (X Y : rarr) : Prop := forall a b, valid s a -> valid t b -> Co (X a) (Y b) = 0.

(** ** Lemmas *)
Lemma op_shape f (x y z : arr) : op f x y = Some z ->
  exists2 B, broadcast (shp x) (shp y) = Some B & [/\ shp z = B, wf z &
    forall b, valid B b -> get z b = f (get x (bidx (shp x) b)) (get y (bidx (shp y) b))].
Proof.
rewrite /np_op; case E : (broadcast _ _) => [B|] //= [<-]; exists B => //; split=> // [|b v]; first exact: wf_tab.
by rewrite get_tab.
Qed.
Lemma op_same f (x y : arr) : shp x = shp y ->
  exists z, [/\ op f x y = Some z, shp z = shp x, wf z & forall b, valid (shp x) b -> get z b = f (get x b) (get y b)].
Proof.
move=> e; rewrite /np_op e broadcast_refl /=; eexists; split; [by []|by []|exact: wf_tab|].
by move=> b v; rewrite get_tab // bidx_refl.
Qed.
Lemma prodn_rev s : prodn (rev s) = prodn s.
Proof. by elim: s => //= d s IH; rewrite rev_cons -cats1 prodn_cat IH /= muln1 mulnC. Qed.
Lemma bc_rev_prodn s t B b : bc_rev s t = Some B -> valid B b -> (prodn s <= prodn B)%N.
Proof.
elim: s t B b => [|d s IH] t B b.
  move=> [<-]; elim: t b => [|e t IH] [|j b] //= /andP[je /IH h].
  by rewrite muln_gt0 (leq_ltn_trans (leq0n j) je); exact: h.
case: t => [|e t] /=; first by move=> [<-].
case: ifP => [_|_].
  by case E : (bc_rev s t) => [B'|] //= [<-]; case: b => // j b /= /andP[_ /(IH _ _ _ E)]; rewrite leq_mul2l orbC => ->.
case: eqP => // ->; case E : (bc_rev s t) => [B'|] //= [<-]; case: b => // j b /= /andP[je /(IH _ _ _ E) h].
by apply: leq_mul => //; exact: leq_ltn_trans (leq0n j) je.
Qed.
Lemma mask_refl s b : valid s b -> [seq if p.1 == 1%N then 0%N else p.2 | p <- zip s b] = b.
Proof.
by elim: s b => [|d s IH] [|j b] //= /andP[jd /IH ->]; case: eqP jd => // ->; case: j.
Qed.
Lemma ravel_rcons s a d j : size a = size s -> ravel (rcons s d) (rcons a j) = (ravel s a * d + j)%N.
Proof. by move=> e; rewrite -!cats1 ravel_cat //= !muln1 addn0. Qed.
Lemma ravel_bc_rev s t B b : bc_rev s t = Some B -> valid B b -> prodn B = prodn s ->
  ravel (rev s) (rev [seq if p.1 == 1%N then 0%N else p.2 | p <- zip s b]) = ravel (rev B) (rev b).
Proof.
elim: s t B b => [|d s IH] t B b.
  move=> [<-] v p; have /ravel_lt : valid (rev t) (rev b) by rewrite valid_rev.
  by rewrite prodn_rev p /=; case: (ravel _ _); case: b v.
case: t => [|e t] /=; first by move=> [<-] v _; rewrite (@mask_refl (d :: s)).
case: ifP => [_|_].
  case E : (bc_rev s t) => [B'|] //= [<-]; case: b => // j b /= /andP[jd v] /eqP.
  rewrite eqn_mul2l => /orP[/eqP d0|/eqP p]; first by rewrite d0 in jd.
  have [sb _] := bc_rev_valid E v.
  rewrite !rev_cons !ravel_rcons ?size_rev ?size_map ?size_zip ?(valid_size v) //; last by apply/minn_idPl; rewrite -(valid_size v).
  by rewrite (IH _ _ _ E v p); case: eqP jd => // ->; case: j.
case: eqP => // ->; case E : (bc_rev s t) => [B'|] //= [<-]; case: b => // j b /= /andP[je v] p.
have h := bc_rev_prodn E v; rewrite mul1n in p.
have [sb _] := bc_rev_valid E v.
have p0 : (0 < prodn B')%N by apply: leq_ltn_trans (ravel_lt v).
have e1 : e = 1%N.
  apply/eqP; rewrite eqn_leq (leq_ltn_trans (leq0n j) je) // andbT leqNgt; apply/negP => e2.
  have : (prodn B' < e * prodn B')%N by rewrite -{1}[prodn B']mul1n ltn_mul2r p0.
  by rewrite p ltnNge h.
rewrite !rev_cons !ravel_rcons ?size_rev ?size_map ?size_zip ?(valid_size v) //; last by apply/minn_idPl; rewrite -(valid_size v).
by rewrite e1 in p je *; rewrite mul1n in p; rewrite (IH _ _ _ E v p); case: j je.
Qed.
(** A broadcast array of the same size has the same order. *)
Lemma ravel_bidx s t B b : broadcast s t = Some B -> valid B b -> prodn B = prodn s ->
  ravel s (bidx s b) = ravel B b.
Proof.
move=> E v p; have sb := broadcast_size E; rewrite -(valid_size v) in sb.
move: E; rewrite /broadcast; case E : (bc_rev _ _) => [C|] //= [e].
have := @ravel_bc_rev (rev s) (rev t) C (rev b) E; rewrite -bidx_rev // !revK e; apply; last by rewrite prodn_rev -p -e prodn_rev.
by rewrite -(revK C) e valid_rev.
Qed.
Lemma valid2 p q i j : valid [:: p; q] [:: i; j] = (i < p)%N && (j < q)%N.
Proof. by rewrite /= andbT. Qed.
Lemma ravel2 p q i j : ravel [:: p; q] [:: i; j] = (i * q + j)%N.
Proof. by rewrite /= !muln1 addn0. Qed.
Lemma covfE n a b : shp (cov n) = cov_shape (shp (mean n)) ->
  valid (shp (mean n)) a -> valid (shp (mean n)) b ->
  covf n a b = nth 0 (dat (cov n)) (ravel (shp (mean n)) a * prodn (shp (mean n)) + ravel (shp (mean n)) b).
Proof.
rewrite /covf /M_CovFunc.get => ->; case: (shp (mean n)) a b => [|d s] [|i a] [|j b] // _ _.
by rewrite [cov_shape _]/cov_shape ravel2.
Qed.
Lemma ravel_nth s k : (k < prodn s)%N -> valid s (nth [::] (indices s) k) /\ ravel s (nth [::] (indices s) k) = k.
Proof.
move=> kp; have kz : (k < size (indices s))%N by rewrite size_indices.
have va : valid s (nth [::] (indices s) k) by rewrite -mem_indices mem_nth.
split=> //; have := nth_indices va.
have U : uniq (indices s).
  elim: (s) => //= d t IH; apply: allpairs_uniq => //; first exact: iota_uniq.
  by move=> [p q] [p' q'] _ _ /= [-> ->].
by move=> /eqP; rewrite nth_uniq // => [/eqP//|]; rewrite size_indices ravel_lt.
Qed.
Lemma bc_ones_rev s t B : bc_rev s t = Some B -> prodn t = 1%N -> prodn B = prodn s.
Proof.
elim: s t B => [|d s IH] t B; first by move=> [<-] ->.
case: t => [|e t] /=; first by move=> [<-].
move=> h /eqP; rewrite muln_eq1 => /andP[/eqP e1 /eqP t1]; move: h; rewrite e1 orbT.
by case E : (bc_rev s t) => [B'|] //= [<-] /=; rewrite (IH _ _ E t1).
Qed.
Lemma bc_ones s t B : broadcast s t = Some B -> prodn t = 1%N -> prodn B = prodn s.
Proof.
rewrite /broadcast; case E : (bc_rev _ _) => [C|] //= [<-] t1; rewrite prodn_rev (bc_ones_rev E) ?prodn_rev //.
Qed.
Lemma bc_small s t : prodn t = 1%N -> (size t <= size s)%N -> broadcast s t = Some s.
Proof.
rewrite /broadcast -(prodn_rev t) -(size_rev t) -(size_rev s) => t1 ts.
suff -> : bc_rev (rev s) (rev t) = Some (rev s) by rewrite /= revK.
elim: (rev s) (rev t) t1 ts => [|d u IH] [|e v] //= /eqP; rewrite muln_eq1 => /andP[/eqP -> /eqP v1] vs.
by rewrite orbT IH.
Qed.
Lemma opC f (x y : arr) : op f x y = op (fun u v => f v u) y x.
Proof. by rewrite /np_op broadcastC. Qed.
Lemma get1 (c : arr) a : prodn (shp c) = 1%N -> valid (shp c) a -> get c a = support0 c.
Proof. by move=> p /ravel_lt; rewrite p /M_CovFunc.get; case: (ravel _ _). Qed.
(** Operations with an array of one element. *)
Lemma op_flat f (x c z : arr) : wf x -> prodn (shp c) = 1%N -> op f x c = Some z ->
  prodn (shp z) = prodn (shp x) /\ dat z = [seq f u (support0 c) | u <- dat x].
Proof.
move=> /eqP wx c1 /op_shape [B bc [eB /eqP wz gz]]; have pB := bc_ones bc c1; rewrite eB; split=> //.
apply: (@eq_from_nth _ 0) => [|k]; first by rewrite size_map wz eB wx.
rewrite wz eB => kp.
rewrite (nth_map 0) ?wx -?pB //; have [va ek] := ravel_nth kp.
have := gz _ va; rewrite {1}/M_CovFunc.get eB ek => ->; congr (f _ _); last first.
  by apply: get1 => //; apply: bidx_valid va; rewrite broadcastC; exact: bc.
by rewrite /M_CovFunc.get (ravel_bidx bc va pB) ek.
Qed.
Lemma pair_lt i j m n : (i < m)%N -> (j < n)%N -> (i * n + j < m * n)%N.
Proof.
move=> im jn; apply: leq_trans (_ : i.+1 * n <= _)%N; last by rewrite leq_mul2r im orbT.
by rewrite mulSn addnC ltn_add2r.
Qed.
Lemma sqrt_scale n (l v l' v' : arr) r : wf l' -> wf v -> prodn (shp v) = (n * n)%N -> sqrt_of n l v ->
  prodn (shp l') = prodn (shp l) -> dat l' = [seq u * r | u <- dat l] -> dat v' = [seq u * r ^+ 2 | u <- dat v] ->
  sqrt_of n l' v'.
Proof.
move=> wl' /eqP wv pv [/eqP wl pl H] pl' dl dv; split=> //; first by rewrite pl'.
move=> i j im jn; rewrite dv (nth_map 0) ?wv ?pv ?pair_lt // -H // big_distrl /=; apply: eq_bigr => k _.
have E (p q : R) : p * r * (q * r) = p * q * r ^+ 2 by mring.
by rewrite dl !(nth_map 0) ?wl ?pl ?pair_lt.
Qed.
End Law.
