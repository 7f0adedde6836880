(** Iterated integrals for the test problems of M_Zoo.v. *)
From Coq Require Import Reals Lra.
From Coquelicot Require Import Coquelicot.
From mathcomp Require Import all_ssreflect all_algebra.
From Verif Require Import L_Ring L_Kalman L_RStruct L_Expm L_Int1 M_Embed L_Embed M_Zoo L_ZooInt.
Set Implicit Arguments.
Unset Strict Implicit.
Unset Printing Implicit Defensive.
Import Order.Theory GRing.Theory Num.Theory.
Delimit Scope R_scope with coqR.
Local Open Scope ring_scope.

Lemma sumS n (F : 'I_n.+1 -> R) : \sum_(d < n.+1) F d = F ord0 + \sum_(d < n) F (lift ord0 d).
Proof. exact: big_ord_recl. Qed.
Lemma prodS n (F : 'I_n.+1 -> R) : \prod_(d < n.+1) F d = F ord0 * \prod_(d < n) F (lift ord0 d).
Proof. exact: big_ord_recl. Qed.
(** ** Alternating sums over subsets *)
Fixpoint alt T (a : T -> R) (l : seq T) (h : R -> R) (c : R) : R :=
  if l is x :: l' then alt a l' h (c + a x)%R - alt a l' h c else h c.
Lemma alt_cons T (a : T -> R) x l h c : alt a (x :: l) h c = alt a l h (c + a x)%R - alt a l h c.
Proof. by []. Qed.
Lemma alt_map S T (f : S -> T) (a : T -> R) l h c : alt a (map f l) h c = alt (a \o f) l h c.
Proof. by elim: l c => //= x l IH c; rewrite !IH. Qed.
Lemma alt_scal T (a : T -> R) l h k c : alt a l (fun t => k * h t) c = k * alt a l h c.
Proof. by elim: l c => //= x l IH c; rewrite !IH mulrBr. Qed.
Lemma comb_long T (l : seq T) k : (size l < k)%N -> combinations k l = [::].
Proof. by elim: l k => [|x l IH] [|k] //= h; rewrite !IH //= ltnW. Qed.
Lemma comb0 T (l : seq T) : combinations 0 l = [:: [::]].
Proof. by case: l. Qed.
Lemma combinations_alt T (a : T -> R) (l : seq T) (h : R -> R) (c : R) :
  \sum_(k <- iota 0 (size l).+1) \sum_(s <- combinations k l) (-1) ^+ k * h (c + \sum_(d <- l) a d - \sum_(d <- s) a d)%R = alt a l h c.
Proof.
elim: l c => [|x l IH] c; first by rewrite /= !big_seq1 !big_nil subr0 addr0 mul1r.
rewrite alt_cons -!IH.
pose t (s : seq T) := c + \sum_(d <- x :: l) a d - \sum_(d <- s) a d.
have -> : \sum_(k <- iota 0 (size (x :: l)).+1) \sum_(s <- combinations k (x :: l)) (-1) ^+ k * h (t s) =
  \sum_(k <- iota 0 (size l).+2) \sum_(s <- combinations k l) (-1) ^+ k * h (t s) +
  \sum_(k <- iota 0 (size l).+1) \sum_(s <- combinations k l) (-1) ^+ k.+1 * h (t (x :: s)).
  have iS N : iota 0 N.+1 = 0%N :: map S (iota 0 N) by rewrite /= (iotaDl 1 0).
  rewrite [size _]/= iS; move: (size l).+1 => N; rewrite !big_cons !big_map !comb0 !big_seq1 !big_nil !addr0 -addrA; congr (_ + _).
  by rewrite -big_split /=; apply: eq_bigr => k _; rewrite [in LHS]/= big_cat big_map addrC.
have eD N (F : nat -> R) : \sum_(k <- iota 0 N.+1) F k = \sum_(k <- iota 0 N) F k + F N by rewrite -addn1 iotaD big_cat big_seq1.
rewrite eD (comb_long (ltnSn _)) big_nil addr0; congr (_ + _).
  by apply: eq_bigr => k _; apply: eq_bigr => s _; rewrite /t big_cons addrA.
rewrite -sumrN; apply: eq_bigr => k _; rewrite -sumrN; apply: eq_bigr => s _.
rewrite exprS mulN1r mulNr /t !big_cons opprD [c + (a x + _)]addrCA addrACA addrN add0r //.
Qed.
(** ** Integrals of functions of a linear form *)
Section Antiderivative.
Variables (H : nat -> R -> R) (Q : R -> Prop) (N : nat).
Hypothesis dH : forall k t, (k < N)%N -> Q t -> is_derive (H k.+1) t (H k t).
Hypothesis cH : forall k t, (k <= N)%N -> Q t -> continuous (H k) t.
Definition corner n (a : 'I_n -> R) (c : R) : Prop :=
  forall e : 'I_n -> R, (forall d, Rle 0 (e d) /\ Rle (e d) 1) -> Q (c + \sum_(d < n) a d * e d)%R.
Lemma corner_cons n (a : 'I_n.+1 -> R) (c x : R) : Rle 0 x -> Rle x 1 -> corner a c -> corner (a \o lift ord0) (c + a ord0 * x)%R.
Proof.
move=> x0 x1 h e he; have := h (fun d => if unlift ord0 d is Some k then e k else x).
rewrite sumS unlift_none addrA; under eq_bigr do rewrite liftK.
by apply=> d; case: unliftP.
Qed.
Lemma alt_derive n (a : 'I_n -> R) k (c b x : R) : (k < N)%N -> corner a (c + b * x)%R ->
  is_derive (fun t => alt a (enum 'I_n) (H k.+1) (c + b * t)%R) x (b * alt a (enum 'I_n) (H k) (c + b * x)%R).
Proof.
move=> kN; elim: n a c => [|n IH] a c h.
  rewrite enum_ord0 /=.
  have q : Q (c + b * x)%R by have := h (fun=> 0); rewrite big_ord0 addr0; apply=> -[].
  have e := is_derive_comp (H k.+1) (fun t : R => (c + b * t)%coqR) x _ b (dH kN q).
  apply: e; auto_derive=> //; exact: Rmult_1_r.
rewrite enum_ordSl; set l := map _ _.
have E j t : alt a (ord0 :: l) j t = alt (a \o lift ord0) (enum 'I_n) j (t + a ord0)%R - alt (a \o lift ord0) (enum 'I_n) j t.
  by rewrite alt_cons /l !alt_map.
apply: (is_derive_ext (fun t : R => alt (a \o lift ord0) (enum 'I_n) (H k.+1) ((c + a ord0) + b * t)%R - alt (a \o lift ord0) (enum 'I_n) (H k.+1) (c + b * t)%R)).
  by move=> t; rewrite E addrAC.
rewrite E mulrBr.
have h1 := corner_cons (Rle_0_1) (Rle_refl 1) h; have h0 := corner_cons (Rle_refl 0) (Rle_0_1) h.
have i1 := IH (a \o lift ord0) (c + a ord0)%R; have i0 := IH (a \o lift ord0) c.
rewrite mulr1 in h1; rewrite mulr0 addr0 in h0.
rewrite addrAC in h1; rewrite [c + b * x + a ord0]addrAC.
exact: (is_derive_minus (V := R_NormedModule) _ _ _ _ _ (i1 h1) (i0 h0)).
Qed.
Lemma alt_cont n (a : 'I_n -> R) k (c b x : R) : (k <= N)%N -> corner a (c + b * x)%R ->
  continuous (fun t => alt a (enum 'I_n) (H k) (c + b * t)%R) x.
Proof.
move=> kN; elim: n a c => [|n IH] a c h.
  rewrite enum_ord0 /=.
  have q : Q (c + b * x)%R by have := h (fun=> 0); rewrite big_ord0 addr0; apply=> -[].
  apply: (continuous_comp (fun t : R => (c + b * t)%coqR) (H k)); last exact: cH.
  by apply: (ex_derive_continuous (V := R_NormedModule)); auto_derive.
rewrite enum_ordSl; set l := map _ _.
have E j t : alt a (ord0 :: l) j t = alt (a \o lift ord0) (enum 'I_n) j (t + a ord0)%R - alt (a \o lift ord0) (enum 'I_n) j t.
  by rewrite alt_cons /l !alt_map.
apply: (continuous_ext (fun t : R => alt (a \o lift ord0) (enum 'I_n) (H k) ((c + a ord0) + b * t)%R - alt (a \o lift ord0) (enum 'I_n) (H k) (c + b * t)%R)).
  by move=> t; rewrite E addrAC.
have h1 := corner_cons (Rle_0_1) (Rle_refl 1) h; have h0 := corner_cons (Rle_refl 0) (Rle_0_1) h.
have i1 := IH (a \o lift ord0) (c + a ord0)%R; have i0 := IH (a \o lift ord0) c.
rewrite mulr1 in h1; rewrite mulr0 addr0 in h0.
rewrite addrAC in h1.
exact: (continuous_minus (V := R_NormedModule) _ _ _ (i1 h1) (i0 h0)).
Qed.
Lemma box_alt n (a : 'I_n -> R) j (c : R) : (j + n <= N)%N -> (forall d, a d <> 0) -> corner a c ->
  box_int (const_mx 0) (const_mx 1) (fun x : 'rV[R]_n => H j (c + \sum_(d < n) a d * x ord0 d)%R)
    (alt a (enum 'I_n) (H (j + n)) c / \prod_(d < n) a d)%R.
Proof.
elim: n a c => [|n IH] a c jn a0 h.
  by rewrite enum_ord0 /= !big_ord0 addr0 divr1 addn0.
have jn' : (j + n < N)%N by rewrite -addnS.
have p0 : \prod_(d < n) a (lift ord0 d) <> 0.
  by move=> /eqP; apply/negP/prodf_neq0 => d _; apply/eqP.
pose P : R := (\prod_(d < n) a (lift ord0 d))^-1.
exists (fun x : R => P * alt (a \o lift ord0) (enum 'I_n) (H (j + n)) (c + a ord0 * x)%R); split=> [x|].
  rewrite !mxE => x0 x1; rewrite mulrC.
  have -> : rsubmx (const_mx 0 : 'rV[R]_(1 + n)) = const_mx 0 by apply/matrixP => i k; rewrite !mxE.
  have -> : rsubmx (const_mx 1 : 'rV[R]_(1 + n)) = const_mx 1 by apply/matrixP => i k; rewrite !mxE.
  apply: box_int_ext (IH (a \o lift ord0) (c + a ord0 * x)%R (ltnW jn') _ (corner_cons x0 x1 h)) => [y _|d]; last exact: a0.
  congr (H j); rewrite sumS addrA row_mx0; congr (_ + _); apply: eq_bigr => d _.
  congr (_ * _); have -> : lift ord0 d = rshift 1 d :> 'I_(1 + n) by apply: val_inj.
  by rewrite row_mxS.
rewrite !mxE.
have q (x : R) : Rle 0 x /\ Rle x 1 -> corner (a \o lift ord0) (c + a ord0 * x)%R.
  by case=> x0 x1; apply: corner_cons.
have b0 : a ord0 <> 0 := a0 ord0.
have W : is_RInt (fun x : R => P * alt (a \o lift ord0) (enum 'I_n) (H (j + n)) (c + a ord0 * x)%R) 0 1
   (P / a ord0 * alt (a \o lift ord0) (enum 'I_n) (H (j + n).+1) (c + a ord0 * 1)%R - P / a ord0 * alt (a \o lift ord0) (enum 'I_n) (H (j + n).+1) (c + a ord0 * 0)%R)%R.
  apply: (@int_anti (fun x : R => P / a ord0 * alt (a \o lift ord0) (enum 'I_n) (H (j + n).+1) (c + a ord0 * x)%R)) => // [|x hx|x hx].
  - exact: Rle_0_1.
  - have e := is_derive_scal _ _ (P / a ord0)%R _ (alt_derive jn' (q x hx)).
    by have E1 : P * alt (a \o lift ord0) (enum 'I_n) (H (j + n)) (c + a ord0 * x)%R = (P / a ord0) * (a ord0 * alt (a \o lift ord0) (enum 'I_n) (H (j + n)) (c + a ord0 * x)%R) by [rewrite mulrA divfK //; exact/eqP]; rewrite E1; exact: e.
  - by apply: (continuous_scal_r (V := R_NormedModule)); apply: alt_cont (ltnW jn') _; apply: q.
rewrite mulr0 addr0 mulr1 in W; apply: RInt_at W _.
rewrite addnS enum_ordSl alt_cons !alt_map prodS invfM -mulrBr -/P mulrC; congr (_ * _).
by rewrite mulrC.
Qed.
End Antiderivative.

(** ** The cosine *)
Definition cosn (k : nat) (t : R) : R := cos (t - INR k * (PI / 2))%coqR.
Lemma cosn_derive k t : is_derive (cosn k.+1) t (cosn k t).
Proof.
rewrite /cosn S_INR; auto_derive=> //.
have -> : (t + - ((INR k + 1) * (PI * / 2)) = t - INR k * (PI / 2) - PI / 2)%coqR by field.
by rewrite sin_minus sin_PI2 cos_PI2; ring.
Qed.
Lemma cosn_cont k t : continuous (cosn k) t.
Proof. by rewrite /cosn; apply: (ex_derive_continuous (V := R_NormedModule)); auto_derive. Qed.
Lemma cosn_hfunc n t : cosn n.+1 t = hfunc n t.
Proof.
rewrite /cosn /hfunc.
have -> : (INR n.+1 = 4 * INR (n.+1 %/ 4) + INR (n.+1 %% 4))%coqR.
  rewrite {1}(divn_eq n.+1 4) plus_INR mult_INR Rmult_comm; congr (Rplus (Rmult _ _) _); rewrite /=; ring.
have : (n.+1 %% 4 < 4)%N by exact: ltn_pmod.
have E (z : R) (k : nat) : cos (z - 4 * INR k * (PI / 2))%coqR = cos z.
  by rewrite -(cos_period _ k); congr cos; field.
have -> (m : nat) : (t - (4 * INR (n.+1 %/ 4) + INR m) * (PI / 2) = (t - INR m * (PI / 2)) - 4 * INR (n.+1 %/ 4) * (PI / 2))%coqR by ring.
rewrite E; case: (n.+1 %% 4)%N => [|[|[|[|]]]] //= _.
- by congr cos; ring.
- by rewrite Rmult_1_l cos_minus sin_PI2 cos_PI2; ring.
- have -> : ((1 + 1) * (PI / 2) = PI)%coqR by field.
  by rewrite cos_minus cos_PI sin_PI; ring.
- have -> : ((1 + 1 + 1) * (PI / 2) = 3 * (PI / 2))%coqR by ring.
  by rewrite cos_minus cos_3PI2 sin_3PI2; ring.
Qed.

(** ** Negative powers *)
Definition negp (d k : nat) (t : R) : R := ((-1) ^ k * INR (fact (d - k)) / INR (fact d) / t ^ (d.+1 - k))%coqR.
Lemma negp_derive d k t : (k < d)%N -> (0 < t)%coqR -> is_derive (negp d k.+1) t (negp d k t).
Proof.
move=> kd t0; have [m ->] : exists m, d = (k.+1 + m)%N by exists (d - k.+1)%N; rewrite subnKC.
rewrite /negp.
have -> : (k.+1 + m - k.+1 = m)%N by rewrite addKn.
have -> : (k.+1 + m - k = m.+1)%N by rewrite addSnnS addKn.
have -> : ((k.+1 + m).+1 - k.+1 = m.+1)%N by rewrite -addnS addKn.
have -> : ((k.+1 + m).+1 - k = m.+2)%N by rewrite -addnS addSnnS addKn.
have F0 : INR (fact (k.+1 + m)) <> 0 by exact: INR_fact_neq_0.
have -> : INR (fact m.+1) = ((INR m + 1) * INR (fact m))%coqR by rewrite -S_INR -mult_INR.
have p0 : (t ^ m <> 0)%coqR by apply: pow_nonzero; apply: Rgt_not_eq.
move: (INR _) F0 => F F0; auto_derive; first by repeat split; apply: (pow_nonzero t m.+1); apply: Rgt_not_eq.
change ((-1) ^ k.+1)%coqR with (-1 * (-1) ^ k)%coqR.
have {}F0 : (F <> 0)%coqR := F0.
rewrite -[match m with 0%N => 1%coqR | _.+1 => (INR m + 1)%coqR end]/(INR m.+1) S_INR.
rewrite -[(t ^ m.+2)%coqR]/(t * (t * t ^ m))%coqR.
have e (x y z u v w : R) : (x <> 0 -> y <> 0 -> 0 < z -> -1 * u * v / x * (- (1 * (w * y)) * / (z * y * (z * y))) = u * (w * v) / x / (z * (z * y)))%coqR.
  by move=> x0 y0 z0; field; lra.
exact: e.
Qed.
Lemma negp_cont d k t : (0 < t)%coqR -> continuous (negp d k) t.
Proof.
move=> t0; rewrite /negp; apply: (ex_derive_continuous (V := R_NormedModule)); auto_derive.
by apply: pow_nonzero; apply: Rgt_not_eq.
Qed.
Lemma comb_sub (T : eqType) k (l s : seq T) : s \in combinations k l -> subseq s l.
Proof.
elim: l k s => [|x l IH] [|k] s; rewrite ?comb0 ?inE.
- by move/eqP->.
- by [].
- by move/eqP->.
rewrite /= mem_cat => /orP[/mapP[s' h ->]|h]; first by rewrite /= eqxx; exact: IH h.
exact: subseq_trans (IH _ _ h) (subseq_cons _ _).
Qed.
Lemma part_vertex n (a : 'rV[R]_n.+1) k s : s \in combinations k (enum 'I_n.+1) ->
  total a - part a s = \sum_(d < n.+1) a ord0 d * (if d \in s then 0 else 1).
Proof.
move=> /comb_sub /subseq_uniq /(_ (enum_uniq _)) us.
rewrite /total /part (bigID (mem s)) [\sum_(d <- s) _]big_uniq //= addrAC subrr add0r.
rewrite [RHS](bigID (mem s)) /= [X in _ = X + _]big1 ?add0r => [|d ->]; last by rewrite mulr0.
by apply: eq_bigr => d /negbTE ->; rewrite mulr1.
Qed.

(** ** Sums and products *)
Lemma box_sum n (a b : 'rV[R]_n) p (F : 'I_p -> 'rV[R]_n -> R) (v : 'I_p -> R) :
  (forall i, box_int a b (F i) (v i)) -> box_int a b (fun x => \sum_(i < p) F i x) (\sum_(i < p) v i)%R.
Proof.
elim: n a b F v => [|n IH] a b F v H /=; first by apply: eq_bigr => i _; exact: H.
have G i : exists g : R -> R, (forall x : R, Rle (a 0 0) x -> Rle x (b 0 0) ->
         box_int (rsubmx (a : 'rV_(1 + n))) (rsubmx (b : 'rV_(1 + n))) (fun y => F i (row_mx x%:M y)) (g x)) /\
      is_RInt g (a 0 0) (b 0 0) (v i) := H i.
have [g hg] := fin_all_exists G.
exists (fun x => \sum_(i < p) g i x); split=> [x x1 x2|].
  by apply: (IH _ _ (fun i y => F i (row_mx x%:M y))) => i; apply: (hg i).1.
clear IH; elim: p F v H G g hg => [|p IHp] F v H G g hg.
  apply: (is_RInt_ext (V := R_NormedModule) (fun=> 0)) => [x _|]; first by rewrite big_ord0.
  rewrite big_ord0; exact: int_zero.
apply: (is_RInt_ext (V := R_NormedModule) (fun x => g ord0 x + \sum_(i < p) g (lift ord0 i) x)) => [x _|]; first by rewrite sumS.
rewrite sumS; apply: (is_RInt_plus (V := R_NormedModule)); first exact: (hg ord0).2.
exact: (IHp (fun i => F (lift ord0 i)) (fun i => v (lift ord0 i)) (fun i => H (lift ord0 i)) (fun i => G (lift ord0 i)) (fun i => g (lift ord0 i)) (fun i => hg (lift ord0 i))).
Qed.
Lemma line_sum n p (F : 'I_p -> 'rV[R]_n -> R) (v : 'I_p -> R) :
  (forall i, line_int (F i) (v i)) -> line_int (fun x => \sum_(i < p) F i x) (\sum_(i < p) v i)%R.
Proof.
elim: n F v => [|n IH] F v H /=; first by apply: eq_bigr => i _; exact: H.
have G i : exists g : R -> R, (forall x : R, line_int (fun y => F i (row_mx x%:M y)) (g x)) /\ is_int_line g (v i) := H i.
have [g hg] := fin_all_exists G.
exists (fun x => \sum_(i < p) g i x); split=> [x|].
  by apply: (IH (fun i y => F i (row_mx x%:M y))) => i; apply: (hg i).1.
clear IH; elim: p F v H G g hg => [|p IHp] F v H G g hg.
  by rewrite big_ord0; apply: (@line_fext (fun=> 0)); [move=> x; rewrite big_ord0|exact: line_zero].
apply: (@line_fext (fun x => g ord0 x + \sum_(i < p) g (lift ord0 i) x)) => [x|]; first by rewrite sumS.
rewrite sumS; apply: (is_RInt_gen_plus (V := R_NormedModule)); first exact: (hg ord0).2.
exact: (IHp (fun i => F (lift ord0 i)) (fun i => v (lift ord0 i)) (fun i => H (lift ord0 i)) (fun i => G (lift ord0 i)) (fun i => g (lift ord0 i)) (fun i => hg (lift ord0 i))).
Qed.
Lemma line_prod n (h : 'I_n -> R -> R) (v : 'I_n -> R) (c : R) :
  (forall d, is_int_line (h d) (v d)) ->
  line_int (fun x => c * \prod_(d < n) h d (x 0 d)) (c * \prod_(d < n) v d)%R.
Proof.
elim: n h v c => [|n IH] h v c H /=; first by rewrite !big_ord0.
exists (fun x => (c * \prod_(d < n) v (lift ord0 d)) * h ord0 x); split=> [x|].
  rewrite mulrAC.
  apply: (line_int_ext _ (IH (fun d => h (lift ord0 d)) _ _ (fun d => H (lift ord0 d)))) => y.
  rewrite prodS mulrA row_mx0; congr (_ * _); apply: eq_bigr => d _.
  have -> : lift ord0 d = rshift 1 d :> 'I_(1 + n) by apply: val_inj.
  by rewrite row_mxS.
have E : c * \prod_(d < n.+1) v d = Rmult (c * \prod_(d < n) v (lift ord0 d))%R (v ord0) by rewrite prodS mulrCA mulrC.
rewrite E; exact: (is_RInt_gen_scal (V := R_NormedModule) _ _ _ (H ord0)).
Qed.

(** ** Normal distributions with diagonal covariance matrices *)
Lemma expS n (F : 'I_n -> R) : exp (\sum_(d < n) F d)%R = \prod_(d < n) exp (F d).
Proof.
elim: n F => [|n IH] F; first by rewrite !big_ord0 exp_0.
by rewrite sumS prodS exp_plus IH.
Qed.
Lemma invmx_dg n (v : 'rV[R]_n) : (forall d, v ord0 d <> 0) -> invmx (diag_mx v) = diag_mx (\row_d (v ord0 d)^-1).
Proof.
move=> v0; have E : diag_mx v *m diag_mx (\row_d (v ord0 d)^-1) = 1%:M.
  apply/matrixP => i j; rewrite mul_diag_mx !mxE; case: eqP => [->|]; last by rewrite mulr0.
  by rewrite !mulr1n mulfV //; apply/eqP.
have [U1 U2] := mulmx1_unit E.
by rewrite -[LHS]mulmx1 -E mulmxA mulVmx // mul1mx.
Qed.
Lemma qform_diag n (w : 'rV[R]_n) (x : 'rV[R]_n) : qform (diag_mx w) x^T = \sum_(d < n) w ord0 d * x ord0 d ^+ 2.
Proof.
rewrite /qform trmxK mul_mx_diag !mxE; apply: eq_bigr => d _.
by rewrite !mxE mulrAC -expr2 mulrC.
Qed.
Lemma sqrt_prod n (w : 'I_n -> R) : (forall d, Rlt 0 (w d)) ->
  sqrt ((2 * PI) ^ n * (\prod_(i < n) w i)%R)%coqR = \prod_(i < n) sqrt (2 * PI * w i)%coqR.
Proof.
have p0 := PI_RGT_0; have q : (0 <= 2 * PI)%coqR by lra.
elim: n w => [|k IH] w w0; first by rewrite !big_ord0 /= Rmult_1_l sqrt_1.
rewrite !prodS -(IH (fun d => w (lift ord0 d))) //.
rewrite -[sqrt _ * _ in RHS]/(Rmult _ _) -sqrt_mult_alt; last by apply: Rmult_le_pos => //; exact: Rlt_le.
congr sqrt; have e (a b c d : R) : (a * b * (c * d) = a * c * (b * d))%coqR by ring.
exact: e.
Qed.
Lemma density_diag n (m v x : 'rV[R]_n) : (forall d, Rlt 0 (v ord0 d)) ->
  density m (diag_mx v) x = \prod_(d < n) gs (v ord0 d) (x ord0 d - m ord0 d)%R.
Proof.
move=> v0; have n0 d : v ord0 d <> 0 by apply: Rgt_not_eq; exact: v0.
have p0 := PI_RGT_0.
rewrite /density invmx_dg // qform_diag det_diag.
rewrite (sqrt_prod (w := fun i => v ord0 i)) //.
have -> : (- (\sum_(d < n) (\row_d0 (v ord0 d0)^-1) ord0 d * (x - m) ord0 d ^+ 2)%R / 2)%coqR =
    \sum_(d < n) (- (x ord0 d - m ord0 d)%R ^ 2 / (2 * v ord0 d))%coqR.
  elim/big_rec2: _ => [|d a b _ <-]; first by have e : (- 0 / 2 = 0)%coqR by [field]; exact: e.
  rewrite !mxE powE -[(v ord0 d)^-1]mul1r divRE //.
  have e (a1 b1 c1 : R) : (c1 <> 0 -> - (1 / c1 * a1 ^ 2 + b1) / 2 = - a1 ^ 2 / (2 * c1) + - b1 / 2)%coqR by move=> c0; field.
  exact: e.
rewrite expS -[(_ / _)%coqR]divRE; last first.
  by move/eqP; apply/negP/prodf_neq0 => d _; apply/eqP/Rgt_not_eq; exact: sqrt_gs.
rewrite -prodfV -big_split /=; apply: eq_bigr => d _; rewrite /gs; apply: divRE.
by apply: Rgt_not_eq; apply: sqrt_gs.
Qed.
Lemma gs_phi (s t : R) : Rlt 0 s -> gs (s ^+ 2) t = (phi (t / s) / s)%coqR.
Proof.
move=> s0; have p0 := PI_RGT_0; rewrite /gs /phi sqrRE.
have -> : sqrt (2 * PI * s ^ 2)%coqR = (sqrt (2 * PI) * s)%coqR by rewrite sqrt_mult_alt ?sqrt_pow2 //; lra.
have -> : (- t ^ 2 / (2 * s ^ 2) = - (t / s) ^ 2 / 2)%coqR by field; lra.
have s2 := s2pi; by field; split; apply: Rgt_not_eq.
Qed.
(** The iterated integral over the unit box, with partial integrals that are continuous inside. *)
Fixpoint cbox_int n : ('rV[R]_n -> R) -> R -> Prop :=
  if n is n'.+1 then fun (f : 'rV[R]_(1 + n') -> R) v =>
    exists g : R -> R, [/\ forall x : R, Rle 0 x -> Rle x 1 -> cbox_int (fun y => f (row_mx x%:M y)) (g x),
      forall x : R, Rlt 0 x /\ Rlt x 1 -> continuous g x & is_RInt g 0 1 v]
  else fun f v => f 0 = v.
Lemma cbox_int_ext n (f f' : 'rV[R]_n -> R) v :
  (forall x : 'rV[R]_n, (forall d, Rle 0 (x ord0 d) /\ Rle (x ord0 d) 1) -> f x = f' x) -> cbox_int f v -> cbox_int f' v.
Proof.
elim: n f f' v => [|n IH] f f' v H /=; first by move=> <-; rewrite H // => -[].
case=> g [h1 h2 h3]; exists g; split=> // x x1 x2; apply: (IH (fun y => f (row_mx x%:M y))); last exact: h1.
move=> y hy; apply: (H (row_mx x%:M y : 'rV[R]_(1 + n))); apply: row_cases => [|d]; first by rewrite row_mx0.
by rewrite row_mxS; exact: hy.
Qed.
Lemma cbox_box n (f : 'rV[R]_n -> R) v : cbox_int f v -> box_int (const_mx 0) (const_mx 1) f v.
Proof.
elim: n f v => [|n IH] f v //= [g [h1 h2 h3]]; exists g; rewrite !mxE; split=> // x x1 x2.
have -> : rsubmx (const_mx 0 : 'rV[R]_(1 + n)) = const_mx 0 by apply/matrixP => i k; rewrite !mxE.
have -> : rsubmx (const_mx 1 : 'rV[R]_(1 + n)) = const_mx 1 by apply/matrixP => i k; rewrite !mxE.
exact: IH (h1 _ _ _).
Qed.
Lemma cbox_prod n (h : 'I_n -> R -> R) (v : 'I_n -> R) (c : R) :
  (forall d, is_RInt (h d) 0 1 (v d)) -> (forall d x, Rlt 0 x /\ Rlt x 1 -> continuous (h d) x) ->
  cbox_int (fun x => c * \prod_(d < n) h d (x ord0 d)) (c * \prod_(d < n) v d)%R.
Proof.
elim: n h v c => [|n IH] h v c H C /=; first by rewrite !big_ord0.
exists (fun x => (c * \prod_(d < n) v (lift ord0 d)) * h ord0 x); split=> [x x0 x1|x hx|].
- rewrite mulrAC.
  apply: (cbox_int_ext _ (IH (fun d => h (lift ord0 d)) _ _ (fun d => H (lift ord0 d)) (fun d => C (lift ord0 d)))) => y _.
  rewrite prodS mulrA row_mx0; congr (_ * _); apply: eq_bigr => d _.
  have -> : lift ord0 d = rshift 1 d :> 'I_(1 + n) by apply: val_inj.
  by rewrite row_mxS.
- by apply: (continuous_scal_r (V := R_NormedModule)); exact: C.
have E : c * \prod_(d < n.+1) v d = Rmult (c * \prod_(d < n) v (lift ord0 d))%R (v ord0) by rewrite prodS mulrCA mulrC.
rewrite E; exact: (is_RInt_scal (V := R_NormedModule) _ _ _ _ _ (H ord0)).
Qed.
Lemma line_cdf n (f : 'rV[R]_n -> R) v (m s : 'I_n -> R) : (forall d, Rlt 0 (s d)) -> cbox_int f v ->
  line_int (fun t => f (\row_d normal_cdf ((t ord0 d - m d) / s d)%coqR) * \prod_(d < n) (phi ((t ord0 d - m d) / s d) / s d)%coqR) v.
Proof.
elim: n f v m s => [|n IH] f v m s s0 /=.
  by move=> <-; rewrite big_ord0 mulr1; congr f; apply/matrixP => i [].
case=> g [h1 h2 h3].
exists (fun t : R => Rmult (g (normal_cdf ((t - m ord0) / s ord0)%coqR)) (phi ((t - m ord0) / s ord0) / s ord0)%coqR); split=> [t|].
  pose z := normal_cdf ((t - m ord0) / s ord0)%coqR.
  have [z0 z1] := cdf_range ((t - m ord0) / s ord0)%coqR.
  have k := IH (fun y => f (row_mx z%:M y)) (g z) (fun d => m (lift ord0 d)) (fun d => s (lift ord0 d)) (fun d => s0 (lift ord0 d)) (h1 z (Rlt_le _ _ z0) (Rlt_le _ _ z1)).
  have := line_int_scal (phi ((t - m ord0) / s ord0) / s ord0)%coqR k.
  rewrite -[Rmult (g _) _]/(g z * _) mulrC; apply: line_int_ext => y.
  rewrite prodS mulrCA row_mx0; congr (_ * (_ * _)).
    congr f; apply/rowP; apply: row_cases => [|d]; first by rewrite row_mx0 mxE row_mx0.
    have E : lift ord0 d = rshift 1 d :> 'I_(1 + n) by apply: val_inj.
    by rewrite [LHS]row_mxS [LHS]mxE [RHS]mxE row_mxS -E.
  apply: eq_bigr => d _.
  have -> : lift ord0 d = rshift 1 d :> 'I_(1 + n) by apply: val_inj.
  by rewrite row_mxS.
exact: int_cdf.
Qed.
