(** Algebra of matrices that carry their shape. *)
From mathcomp Require Import all_ssreflect all_algebra.
From Verif Require Import M_DMx.
Set Implicit Arguments.
Unset Strict Implicit.
Unset Printing Implicit Defensive.
Import Order.Theory GRing.Theory Num.Theory.
Local Open Scope ring_scope.

Section DMx.
Variable R : fieldType.
Implicit Types A B C D : dmx R.

Lemma get_mk m n f i j : (i < m)%N -> (j < n)%N -> get (@mk R m n f) i j = f i j.
Proof. by move=> im jn; rewrite /get !insubT /= mxE. Qed.
Lemma get_val m n (M : 'M[R]_(m, n)) (i : 'I_m) (j : 'I_n) : get (DMx M) i j = M i j.
Proof. by rewrite /get !valK. Qed.
Lemma dmx_ext A B : drow A = drow B -> dcol A = dcol B ->
  (forall i j, (i < drow A)%N -> (j < dcol A)%N -> get A i j = get B i j) -> A = B.
Proof.
case: A B => [m n M] [m' n' N] /= em en; case: m' / em N; case: n' / en => N H.
by congr DMx; apply/matrixP=> i j; have := H i j (ltn_ord i) (ltn_ord j); rewrite !get_val.
Qed.
Lemma mk_get A : mk (drow A) (dcol A) (get A) = A.
Proof. by apply: dmx_ext => //= i j im jn; rewrite get_mk. Qed.
Lemma mk_ext m n f g : (forall i j, (i < m)%N -> (j < n)%N -> f i j = g i j) ->
  @mk R m n f = mk m n g.
Proof. by move=> H; apply: dmx_ext => //= i j im jn; rewrite !get_mk //; apply: H. Qed.
Lemma deqP A B : reflect (A = B) (deq A B).
Proof.
apply: (iffP andP) => [[/eqP [em en] /forallP H]|<-].
  apply: dmx_ext => // i j im jn.
  by have /forallP /(_ (Ordinal jn)) /eqP := H (Ordinal im).
by split=> //; apply/forallP=> i; apply/forallP=> j.
Qed.

(** Products. *)
Lemma dmulA A B C : dcol A = drow B -> dcol B = drow C ->
  dmul A (dmul B C) = dmul (dmul A B) C.
Proof.
move=> e1 e2; apply: dmx_ext => //= i j im jn; rewrite !get_mk //.
transitivity (\sum_(k < dcol A) \sum_(l < dcol B) get A i k * get B k l * get C l j).
  apply: eq_bigr => k _; rewrite get_mk //; last by rewrite -e1.
  by rewrite mulr_sumr; apply: eq_bigr => l _; rewrite mulrA.
by rewrite exchange_big; apply: eq_bigr => l _; rewrite get_mk // mulr_suml.
Qed.
Lemma sum_delta n (f : nat -> R) i : (i < n)%N -> \sum_(k < n) (i == k)%:R * f k = f i.
Proof.
move=> im; rewrite (bigD1 (Ordinal im)) //= eqxx mul1r big1 ?addr0 // => k ki.
by rewrite (_ : (i == k) = false) ?mul0r //; apply: contra_neqF ki => /eqP ik; apply/val_inj.
Qed.
Lemma sum_delta' n (f : nat -> R) i : (i < n)%N -> \sum_(k < n) f k * (k == i :> nat)%:R = f i.
Proof.
by move=> im; rewrite -[RHS](@sum_delta n f i im); apply: eq_bigr => k _; rewrite mulrC eq_sym.
Qed.
Lemma dmul1l A n : n = drow A -> dmul (did R n) A = A.
Proof.
move=> ->; apply: dmx_ext => //= i j im jn; rewrite get_mk //.
rewrite -[RHS](@sum_delta _ (fun k => get A k j) i im).
by apply: eq_bigr => k _; rewrite get_mk.
Qed.
Lemma dmul1r A n : n = dcol A -> dmul A (did R n) = A.
Proof.
move=> ->; apply: dmx_ext => //= i j im jn; rewrite get_mk //.
rewrite -[RHS](@sum_delta' _ (fun k => get A i k) j jn).
by apply: eq_bigr => k _; rewrite get_mk.
Qed.
Lemma dmul0l A m n : n = drow A -> dmul (dzero R m n) A = dzero R m (dcol A).
Proof.
move=> e; apply: dmx_ext => //= i j im jn; rewrite !get_mk // big1 // => k _.
by rewrite get_mk // mul0r.
Qed.
Lemma dmul0r A m n : m = dcol A -> dmul A (dzero R m n) = dzero R (drow A) n.
Proof.
move=> e; apply: dmx_ext => //= i j im jn; rewrite !get_mk // big1 // => k _.
by rewrite get_mk ?mulr0 // e.
Qed.
Lemma dmulDl A B C : dcol A = dcol B -> drow A = drow B ->
  dmul (dadd A B) C = dadd (dmul A C) (dmul B C).
Proof.
move=> e e'; apply: dmx_ext => //= i j im jn; rewrite !get_mk // -?e' // -e -big_split /=.
by apply: eq_bigr => k _; rewrite get_mk // mulrDl.
Qed.
Lemma dmulDr A B C : drow B = drow C -> dcol B = dcol C -> dcol A = drow B ->
  dmul A (dadd B C) = dadd (dmul A B) (dmul A C).
Proof.
move=> e e' e2; apply: dmx_ext => //= i j im jn; rewrite !get_mk // -?e' // -big_split /=.
by apply: eq_bigr => k _; rewrite get_mk -?e2 // mulrDr.
Qed.
Lemma dmulZl c A B : dmul (dscale c A) B = dscale c (dmul A B).
Proof.
apply: dmx_ext => //= i j im jn; rewrite !get_mk // mulr_sumr.
by apply: eq_bigr => k _; rewrite get_mk // mulrA.
Qed.
Lemma dmulZr c A B : dcol A = drow B -> dmul A (dscale c B) = dscale c (dmul A B).
Proof.
move=> e; apply: dmx_ext => //= i j im jn; rewrite !get_mk // mulr_sumr.
by apply: eq_bigr => k _; rewrite get_mk -?e // mulrCA.
Qed.

(** Scaling, sums, negation. *)
Lemma dscaleA c d A : dscale c (dscale d A) = dscale (c * d) A.
Proof. by apply: dmx_ext => //= i j im jn; rewrite !get_mk // mulrA. Qed.
Lemma dscale1 A : dscale 1 A = A.
Proof. by apply: dmx_ext => //= i j im jn; rewrite !get_mk // mul1r. Qed.
Lemma dscale0 c m n : dscale c (dzero R m n) = dzero R m n.
Proof. by apply: dmx_ext => //= i j im jn; rewrite !get_mk // mulr0. Qed.
Lemma dscaleN A : dscale (-1) A = dopp A.
Proof. by apply: dmx_ext => //= i j im jn; rewrite !get_mk // mulN1r. Qed.
Lemma doppK A : dopp (dopp A) = A.
Proof. by apply: dmx_ext => //= i j im jn; rewrite !get_mk // opprK. Qed.
Lemma dscaleD c A B : dshape A = dshape B -> dscale c (dadd A B) = dadd (dscale c A) (dscale c B).
Proof.
by case=> e e'; apply: dmx_ext => //= i j im jn; rewrite !get_mk -?e -?e' // mulrDr.
Qed.
Lemma daddA A B C : dshape A = dshape B -> dshape B = dshape C ->
  dadd A (dadd B C) = dadd (dadd A B) C.
Proof.
by case=> e e' [e1 e2]; apply: dmx_ext => //= i j im jn; rewrite !get_mk -?e -?e' // addrA.
Qed.
Lemma dadd0l A m n : (m, n) = dshape A -> dadd (dzero R m n) A = A.
Proof. by case=> -> ->; apply: dmx_ext => //= i j im jn; rewrite !get_mk // add0r. Qed.
Lemma dadd0r A m n : (m, n) = dshape A -> dadd A (dzero R m n) = A.
Proof. by case=> -> ->; apply: dmx_ext => //= i j im jn; rewrite !get_mk // addr0. Qed.

(** Transposition. *)
Lemma dtrK A : dtr (dtr A) = A.
Proof. by apply: dmx_ext => //= i j im jn; rewrite !get_mk. Qed.
Lemma dtrM A B : dcol A = drow B -> dtr (dmul A B) = dmul (dtr B) (dtr A).
Proof.
move=> e; apply: dmx_ext => //= i j im jn; rewrite get_mk // get_mk // get_mk // e.
apply: eq_bigr => k _; rewrite mulrC get_mk // get_mk ?e //.
Qed.
Lemma dtrD A B : dshape A = dshape B -> dtr (dadd A B) = dadd (dtr A) (dtr B).
Proof. by case=> e e'; apply: dmx_ext => //= i j im jn; rewrite !get_mk -?e -?e'. Qed.
Lemma dtrZ c A : dtr (dscale c A) = dscale c (dtr A).
Proof. by apply: dmx_ext => //= i j im jn; rewrite !get_mk. Qed.
Lemma dtr0 m n : dtr (dzero R m n) = dzero R n m.
Proof. by apply: dmx_ext => //= i j im jn; rewrite !get_mk. Qed.
Lemma dtr1 n : dtr (did R n) = did R n.
Proof. by apply: dmx_ext => //= i j im jn; rewrite !get_mk // eq_sym. Qed.

(** Kronecker products. *)
Lemma divmod_lt a m n : (a < m * n)%N -> (a %/ n < m)%N /\ (a %% n < n)%N.
Proof.
by case: n => [|n]; rewrite ?muln0 // => H; rewrite ltn_divLR // H ltn_mod.
Qed.
Lemma pair_lt i j m n : (i < m)%N -> (j < n)%N -> (i * n + j < m * n)%N.
Proof.
move=> im jn; apply: (@leq_trans (i.+1 * n)); last by rewrite leq_mul2r im orbT.
by rewrite mulSn addnC ltn_add2r.
Qed.
Lemma divmod_pair i j n : (j < n)%N -> ((i * n + j) %/ n = i)%N /\ ((i * n + j) %% n = j)%N.
Proof.
move=> jn; have n0 : (0 < n)%N by apply: leq_ltn_trans jn.
by rewrite divnMDl // modnMDl divn_small ?addn0 ?modn_small.
Qed.
Lemma sum_pair m n (f : nat -> nat -> R) :
  \sum_(k < m * n) f (k %/ n)%N (k %% n)%N = \sum_(i < m) \sum_(j < n) f i j.
Proof.
rewrite -(big_mkord xpredT (fun k => f (k %/ n)%N (k %% n)%N)) /=.
elim: m => [|m IH]; first by rewrite mul0n big_geq // big_ord0.
rewrite big_ord_recr /= -IH (@big_cat_nat _ _ _ (m * n)) //=; last by rewrite leq_mul2r leqnSn orbT.
congr (_ + _); rewrite -{1}[(m * n)%N]add0n big_addn mulSn addnK big_mkord.
by apply: eq_bigr => j _; rewrite addnC; case: (divmod_pair m (ltn_ord j)) => -> ->.
Qed.
Lemma get_kron A B i j k l : (i < drow A)%N -> (j < drow B)%N -> (k < dcol A)%N -> (l < dcol B)%N ->
  get (dkron A B) (i * drow B + j) (k * dcol B + l) = get A i k * get B j l.
Proof.
move=> iA jB kA lB; rewrite get_mk ?pair_lt //.
by case: (divmod_pair i jB) => -> ->; case: (divmod_pair k lB) => -> ->.
Qed.
Lemma dkronM A B C D : dcol A = drow C -> dcol B = drow D ->
  dmul (dkron A B) (dkron C D) = dkron (dmul A C) (dmul B D).
Proof.
move=> e1 e2; apply: dmx_ext => //= i j im jn; rewrite get_mk // get_mk //.
have [i1 i2] := divmod_lt im; have [j1 j2] := divmod_lt jn.
transitivity (\sum_(k < dcol A * dcol B)
  get A (i %/ drow B) (k %/ dcol B) * get B (i %% drow B) (k %% dcol B)
  * (get C (k %/ dcol B) (j %/ dcol D) * get D (k %% dcol B) (j %% dcol D))).
  apply: eq_bigr => k _; have [k1 k2] := divmod_lt (ltn_ord k).
  by rewrite !get_mk //= -?e1 -?e2.
rewrite (@sum_pair _ _ (fun a b => get A (i %/ drow B) a * get B (i %% drow B) b
  * (get C a (j %/ dcol D) * get D b (j %% dcol D)))).
rewrite /= get_mk // get_mk // big_distrlr /=; apply: eq_bigr => a _; apply: eq_bigr => b _.
by rewrite -!mulrA; congr (_ * _); rewrite mulrCA.
Qed.
Lemma dkron_tr A B : dtr (dkron A B) = dkron (dtr A) (dtr B).
Proof.
apply: dmx_ext => //= i j im jn.
by have [i1 i2] := divmod_lt im; have [j1 j2] := divmod_lt jn; do 3 rewrite !get_mk //=.
Qed.
Lemma dkronDl A B C : dshape A = dshape B -> dkron (dadd A B) C = dadd (dkron A C) (dkron B C).
Proof.
case=> e e'; apply: dmx_ext => //= i j im jn.
have [i1 i2] := divmod_lt im; have [j1 j2] := divmod_lt jn.
by rewrite get_mk // get_mk //= get_mk //= get_mk //= ?get_mk -?e -?e' //= mulrDl.
Qed.
Lemma dkronDr A B C : dshape B = dshape C -> dkron A (dadd B C) = dadd (dkron A B) (dkron A C).
Proof.
case=> e e'; apply: dmx_ext => //= i j im jn.
have [i1 i2] := divmod_lt im; have [j1 j2] := divmod_lt jn.
by rewrite get_mk // get_mk //= get_mk //= get_mk //= ?get_mk -?e -?e' //= mulrDr.
Qed.
Lemma dkronZl c A B : dkron (dscale c A) B = dscale c (dkron A B).
Proof.
apply: dmx_ext => //= i j im jn; have [i1 i2] := divmod_lt im; have [j1 j2] := divmod_lt jn.
by rewrite get_mk // get_mk //= get_mk //= get_mk //= mulrA.
Qed.
Lemma dkronZr c A B : dkron A (dscale c B) = dscale c (dkron A B).
Proof.
apply: dmx_ext => //= i j im jn; have [i1 i2] := divmod_lt im; have [j1 j2] := divmod_lt jn.
by rewrite get_mk // get_mk //= get_mk //= get_mk //= mulrCA.
Qed.
Lemma dkron1 m n : dkron (did R m) (did R n) = did R (m * n).
Proof.
apply: dmx_ext => //= i j im jn; have [i1 i2] := divmod_lt im; have [j1 j2] := divmod_lt jn.
rewrite [RHS]get_mk // get_mk //= get_mk //= get_mk //= -natrM mulnb; congr (nat_of_bool _)%:R.
apply/andP/eqP => [[/eqP e1 /eqP e2]|-> //].
by rewrite (divn_eq i n) (divn_eq j n) e1 e2.
Qed.

(** Inverses. *)
Lemma sq_mul n A B : n = dcol A -> sq n (dmul A B) = sq n A *m sq n B
  \/ drow A <> n \/ dcol B <> n.
Proof.
move=> e; have [eA|nA] := drow A =P n; last by right; left.
have [eB|nB] := dcol B =P n; last by right; right.
left; apply/matrixP=> i j; rewrite !mxE get_mk ?eA ?eB // -e.
by apply: eq_bigr => k _; rewrite !mxE.
Qed.
Lemma sq_val n (M : 'M[R]_n) : sq n (DMx M) = M.
Proof. by apply/matrixP=> i j; rewrite mxE get_val. Qed.
Lemma dmx_sq A : drow A = dcol A -> A = DMx (sq (drow A) A).
Proof.
move=> e; apply: dmx_ext => //= i j im jn; have jm : (j < drow A)%N by rewrite e.
by rewrite (@get_val _ _ _ (Ordinal im) (Ordinal jm)) mxE.
Qed.
Lemma dmul_val m n p (M : 'M[R]_(m, n)) (N : 'M[R]_(n, p)) :
  dmul (DMx M) (DMx N) = DMx (M *m N).
Proof.
apply: dmx_ext => //= i j im jn; rewrite get_mk //.
rewrite (@get_val _ _ _ (Ordinal im) (Ordinal jn)) mxE; apply: eq_bigr => k _.
by rewrite (@get_val _ _ _ (Ordinal im) k) (@get_val _ _ _ k (Ordinal jn)).
Qed.
Lemma did_val n : did R n = DMx (1%:M : 'M[R]_n).
Proof.
by apply: dmx_ext => //= i j im jn; rewrite get_mk // (@get_val _ _ _ (Ordinal im) (Ordinal jn)) mxE.
Qed.
Lemma dtr_val m n (M : 'M[R]_(m, n)) : dtr (DMx M) = DMx (M^T).
Proof.
apply: dmx_ext => //= i j im jn; rewrite get_mk //.
by rewrite (@get_val _ _ _ (Ordinal im) (Ordinal jn)) (@get_val _ _ _ (Ordinal jn) (Ordinal im)) mxE.
Qed.
Lemma dmulV A : dunit A -> dmul A (dinv A) = did R (drow A).
Proof.
by case/andP => /eqP e u; rewrite {1}(dmx_sq e) /dinv dmul_val mulmxV // did_val.
Qed.
Lemma dmulVl A : dunit A -> dmul (dinv A) A = did R (drow A).
Proof.
by case/andP => /eqP e u; rewrite {2}(dmx_sq e) /dinv dmul_val mulVmx // did_val.
Qed.
(** A two-sided (equivalently one-sided) inverse is the inverse. *)
Lemma dinv_uniq A B : drow A = dcol A -> drow B = drow A -> dcol B = drow A ->
  dmul A B = did R (drow A) -> dunit A /\ dinv A = B.
Proof.
move=> e eB eB' AB.
have B' : B = DMx (sq (drow A) B).
  by apply: dmx_ext => //= i j im jn; rewrite eB in im; rewrite eB' in jn;
     rewrite (@get_val _ _ _ (Ordinal im) (Ordinal jn)) mxE.
have H : sq (drow A) A *m sq (drow A) B = 1%:M.
  have [E|[] //] := @sq_mul (drow A) A B e.
  by rewrite -E AB did_val sq_val.
have [u iu] := mulmx1_unit H; split; first by rewrite /dunit e eqxx -e.
by rewrite B' /dinv; congr DMx; rewrite -[LHS]mulmx1 -H mulmxA mulVmx // mul1mx.
Qed.
End DMx.
