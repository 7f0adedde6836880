(** Determinants and traces of Kronecker products and block diagonals. *)
From mathcomp Require Import all_ssreflect all_fingroup all_algebra.
From Verif Require Import L_Kalman L_Chol M_DMx L_DMx M_LinOps L_LinOps L_LinOps2 L_LinOps3 L_LinOps4
  L_LinOps5.
Set Implicit Arguments.
Unset Strict Implicit.
Unset Printing Implicit Defensive.
Import Order.Theory GRing.Theory Num.Theory.
Local Open Scope ring_scope.

Section Det.
Variable R : rcfType.
Local Notation dmx := (dmx R).
Implicit Types A B C D : dmx.

(** ** Determinants *)
Lemma sq_mul n A B : drow A = n -> dcol A = n -> drow B = n -> dcol B = n ->
  sq n (dmul A B) = sq n A *m sq n B.
Proof.
move=> a1 a2 b1 b2; apply/matrixP=> i j; rewrite !mxE get_mk ?a1 ?b2 // a2.
by apply: eq_bigr => k _; rewrite !mxE.
Qed.
Lemma ddet_mul n A B : drow A = n -> dcol A = n -> drow B = n -> dcol B = n ->
  ddet (dmul A B) = ddet A * ddet B.
Proof. by move=> a1 a2 b1 b2; rewrite /ddet /= a1 b1 sq_mul // det_mulmx. Qed.
Lemma ddet_id n : ddet (did R n) = 1.
Proof.
rewrite /ddet (_ : sq _ _ = 1%:M) ?det1 //.
by apply/matrixP=> i j; rewrite !mxE get_mk.
Qed.
Lemma ddet_diag (d : seq R) : ddet (ddiag d) = \prod_(x <- d) x.
Proof.
rewrite /ddet (_ : sq _ _ = diag_mx (\row_(i < size d) d`_i)).
  by rewrite det_diag (big_nth 0) big_mkord; apply: eq_bigr => i _; rewrite mxE.
apply/matrixP=> i j; rewrite !mxE get_mk //.
by rewrite -val_eqE /=; case: eqP => [e|_]; rewrite ?mulr1n ?mulr0n.
Qed.
Lemma ddet_tr A : dsq A -> ddet (dtr A) = ddet A.
Proof.
move/eqP=> e; rewrite /ddet -[in RHS]det_tr /= -e; congr (\det _).
by apply/matrixP=> i j; rewrite !mxE get_mk // -e.
Qed.
Lemma ddet_inv A : ddet (dinv A) = (ddet A)^-1.
Proof. by rewrite /ddet /= sq_val det_inv. Qed.
Lemma sq_block2 A B : dsq A -> dsq B ->
  sq (drow (dblock2 A B)) (dblock2 A B) = block_mx (sq (drow A) A) 0 0 (sq (drow B) B).
Proof.
move=> /eqP a /eqP b; rewrite /=; apply/matrixP=> i j.
case: (split_ordP i) => i' ->; case: (split_ordP j) => j' ->;
  rewrite ?block_mxEul ?block_mxEur ?block_mxEdl ?block_mxEdr !mxE /= get_mk /= -?a -?b;
  rewrite ?ltn_add2l ?ltn_ord ?(leq_trans (ltn_ord _) (leq_addr _ _)) //=.
- by rewrite [(_ + _ < _)%N]ltnNge leq_addr /= leqNgt ltn_ord.
- by rewrite [(_ + _ < _)%N]ltnNge leq_addr /= [(_ <= j')%N]leqNgt ltn_ord.
- by rewrite !ltnNge !leq_addr /= !addKn.
Qed.
Lemma ddet_block2 A B : dsq A -> dsq B -> ddet (dblock2 A B) = ddet A * ddet B.
Proof. by move=> a b; rewrite {1}/ddet sq_block2 // det_ublock. Qed.
Lemma dsq_block (s : seq dmx) : all (@dsq R) s -> dsq (dblock s).
Proof.
by elim: s => //= d s IH /andP[/eqP q /IH /eqP e]; rewrite /dsq /= q e.
Qed.
Lemma ddet_block (s : seq dmx) : all (@dsq R) s -> ddet (dblock s) = \prod_(d <- s) ddet d.
Proof.
elim: s => [|d s IH] /=; first by rewrite big_nil /ddet det_mx00.
by case/andP=> q qs; rewrite ddet_block2 ?dsq_block // big_cons IH.
Qed.
Lemma dunit_det A : dunit A = dsq A && (ddet A != 0).
Proof. by rewrite /dunit unitmxE unitfE. Qed.

(** ** Kronecker products *)
Lemma get_kronE A B i j : (i < drow A * drow B)%N -> (j < dcol A * dcol B)%N ->
  get (dkron A B) i j = get A (i %/ drow B) (j %/ dcol B) * get B (i %% drow B) (j %% dcol B).
Proof. exact: get_mk. Qed.
Lemma get_block2 A B i j : (i < drow A + drow B)%N -> (j < dcol A + dcol B)%N ->
  get (dblock2 A B) i j =
  if (i < drow A)%N && (j < dcol A)%N then get A i j
  else if (drow A <= i)%N && (dcol A <= j)%N then get B (i - drow A) (j - dcol A) else 0.
Proof. exact: get_mk. Qed.
Lemma get_id n i j : (i < n)%N -> (j < n)%N -> get (did R n) i j = (i == j)%:R.
Proof. exact: get_mk. Qed.
Lemma dkron_idl n B : dkron (did R n) B = dblock (nseq n B).
Proof.
elim: n => [|n IH]; first by apply: dmx_ext.
rewrite /= -IH; apply: dmx_ext; rewrite /= ?mulSn // => i j im jn.
have b0 : (0 < drow B)%N by move: im; case: (drow B) => //; rewrite mulnC.
have c0 : (0 < dcol B)%N by move: jn; case: (dcol B) => //; rewrite mulnC.
rewrite get_kronE ?mulSn // get_block2 // get_id ?ltn_divLR ?mulSn //.
case: (ltnP i (drow B)) => ib; case: (ltnP j (dcol B)) => jb /=.
- by rewrite !divn_small // !modn_small // eqxx mul1r.
- rewrite divn_small // (_ : (0%N == _) = false) ?mul0r //; last first.
    by apply/eqP=> e; move: jb; rewrite -(divn_gt0 _ c0) -e.
- rewrite (divn_small jb) (_ : (_ == 0%N) = false) ?mul0r //; last first.
    by apply/eqP=> e; move: ib; rewrite -(divn_gt0 _ b0) e.
- rewrite get_kronE ?ltn_subLR //.
  have ei : (i %/ drow B = ((i - drow B) %/ drow B).+1)%N by rewrite -{1}(subnKC ib) divnDl ?divnn ?b0.
  have ej : (j %/ dcol B = ((j - dcol B) %/ dcol B).+1)%N by rewrite -{1}(subnKC jb) divnDl ?divnn ?c0.
  have mi : (i %% drow B = (i - drow B) %% drow B)%N by rewrite -{1}(subnKC ib) modnDl.
  have mj : (j %% dcol B = (j - dcol B) %% dcol B)%N by rewrite -{1}(subnKC jb) modnDl.
  rewrite get_id ?ltn_divLR ?ltn_subLR //; by rewrite ei ej mi mj eqSS.
Qed.
Lemma ddetE n D : drow D = n -> ddet D = \det (sq n D).
Proof. by move=> <-. Qed.
Lemma det_reindex n (s : 'S_n) (M : 'M[R]_n) : \det (\matrix_(i, j) M (s i) (s j)) = \det M.
Proof.
rewrite (_ : (\matrix_(i, j) _) = row_perm s (col_perm s M)); last by apply/matrixP=> i j; rewrite !mxE.
rewrite row_permE col_permE !det_mulmx !det_perm odd_permV mulrC -mulrA.
by rewrite -signr_addb addbb mulr1.
Qed.
Lemma flat_lt m n i : (i < m * n)%N -> ((i %% n) * m + i %/ n < m * n)%N.
Proof.
move=> H; have n0 : (0 < n)%N by case: n H => //; rewrite muln0.
have m1 : (i %/ n < m)%N by rewrite ltn_divLR.
have m2 : (i %% n < n)%N by rewrite ltn_mod.
by rewrite [X in (_ < X)%N]mulnC pair_lt.
Qed.
Lemma ord_gt0 m n (i : 'I_(m * n)) : (0 < n)%N.
Proof. by have := leq_ltn_trans (leq0n _) (ltn_ord i); rewrite muln_gt0 => /andP[]. Qed.
Definition flat m n (i : 'I_(m * n)) : 'I_(m * n) := Ordinal (flat_lt (ltn_ord i)).
Lemma flat_div m n (i : 'I_(m * n)) : (flat i %/ m = i %% n)%N /\ (flat i %% m = i %/ n)%N.
Proof.
have n0 := ord_gt0 i.
have m1 : (i %/ n < m)%N by rewrite ltn_divLR.
have m0 : (0 < m)%N by apply: leq_ltn_trans m1.
rewrite /= modnMDl (modn_small m1) divnMDl // (divn_small m1) addn0; by split.
Qed.
Lemma flat_inj m n : injective (@flat m n).
Proof.
move=> i j e; have [i1 i2] := flat_div i; have [j1 j2] := flat_div j.
by apply/val_inj; rewrite /= (divn_eq i n) (divn_eq j n) -i1 -i2 -j1 -j2 e.
Qed.
Lemma ddet_kron_idr n A : dsq A -> ddet (dkron A (did R n)) = ddet A ^+ n.
Proof.
move/eqP=> e; transitivity (ddet (dkron (did R n) A)); last first.
  rewrite dkron_idl ddet_block; last by rewrite all_nseq /dsq e eqxx orbT.
  elim: n => [|n IH] /=; first by rewrite big_nil expr0.
  by rewrite big_cons IH exprS.
rewrite [RHS](@ddetE (drow A * n) (dkron (did R n) A) (mulnC n (drow A))) [LHS](@ddetE (drow A * n)) //.
rewrite -[RHS](det_reindex (perm (@flat_inj (drow A) n))); congr (\det _).
apply/matrixP=> i j; rewrite !mxE !permE.
have [i1 i2] := flat_div i; have [j1 j2] := flat_div j.
have n0 := ord_gt0 i.
have il : (i %/ n < drow A)%N by rewrite ltn_divLR.
have jl : (j %/ n < drow A)%N by rewrite ltn_divLR.
rewrite (get_kronE (A := A)) -?e // (get_kronE (B := A)) -?e; [|by rewrite [X in (_ < X)%N]mulnC; exact: ltn_ord|by rewrite [X in (_ < X)%N]mulnC; exact: ltn_ord].
by rewrite i1 i2 j1 j2 mulrC.
Qed.
Lemma ddet_kron A B : dsq A -> dsq B ->
  ddet (dkron A B) = ddet A ^+ drow B * ddet B ^+ drow A.
Proof.
move=> a b; have ea := eqP a; have eb := eqP b.
have -> : dkron A B = dmul (dkron A (did R (drow B))) (dkron (did R (drow A)) B).
  by rewrite dkronM //= ?dmul1l ?dmul1r ?ea // eb.
rewrite (@ddet_mul (drow A * drow B)) //= -?ea -?eb // ddet_kron_idr //; congr (_ * _).
rewrite dkron_idl ddet_block; last by rewrite all_nseq b orbT.
elim: (drow A) => [|n IH] /=; first by rewrite big_nil expr0.
by rewrite big_cons IH exprS.
Qed.

(** ** Traces *)
Lemma dtraceE n D : drow D = n -> dtrace D = \sum_(i < n) get D i i.
Proof. by move=> <-. Qed.
Lemma dtrace_kron A B : dsq A -> dsq B -> dtrace (dkron A B) = dtrace A * dtrace B.
Proof.
move=> /eqP a /eqP b; rewrite /dtrace /= big_distrl /=.
rewrite (eq_bigr (fun i : 'I__ => get A (i %/ drow B) (i %/ drow B) * get B (i %% drow B) (i %% drow B))).
  rewrite (@sum_pair R _ _ (fun i j => get A i i * get B j j)).
  by apply: eq_bigr => i _; rewrite big_distrr.
by move=> i _; rewrite get_kronE -?a -?b.
Qed.
Lemma dtrace_block2 A B : dsq A -> dsq B -> dtrace (dblock2 A B) = dtrace A + dtrace B.
Proof.
move=> /eqP a /eqP b; rewrite /dtrace /= big_split_ord /=; congr (_ + _); apply: eq_bigr => i _.
  by rewrite get_block2 -?a -?b ?(leq_trans (ltn_ord _) (leq_addr _ _)) // ltn_ord.
rewrite get_block2 -?a -?b ?ltn_add2l // [(_ + _ < _)%N]ltnNge leq_addr /= addKn.
by [].
Qed.
Lemma dtrace_block (s : seq dmx) : all (@dsq R) s -> dtrace (dblock s) = \sum_(d <- s) dtrace d.
Proof.
elim: s => [|d s IH] /=; first by rewrite big_nil /dtrace big_ord0.
by case/andP=> q qs; rewrite dtrace_block2 ?dsq_block // big_cons IH.
Qed.
Lemma dtrace_tr A : dsq A -> dtrace (dtr A) = dtrace A.
Proof. by move/eqP=> e; rewrite /dtrace /= -e; apply: eq_bigr => i _; rewrite get_mk // -e. Qed.
Lemma dtrace_scale c A : dsq A -> dtrace (dscale c A) = c * dtrace A.
Proof.
by move/eqP=> e; rewrite /dtrace /= big_distrr; apply: eq_bigr => i _; rewrite get_mk // -e.
Qed.
Lemma dtrace_add A B : dsq A -> dshape A = dshape B -> dtrace (dadd A B) = dtrace A + dtrace B.
Proof.
move=> /eqP e [e1 e2]; rewrite [in RHS](@dtraceE (drow A) B) // /dtrace /= -big_split /=.
by apply: eq_bigr => i _; rewrite get_mk // -e.
Qed.
End Det.
