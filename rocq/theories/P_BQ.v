(** Theorems about the numbers of Bayesian quadrature (M_BQ.v). *)
From mathcomp Require Import all_ssreflect all_algebra.
From Verif Require Import L_Ring M_DMx L_DMx L_Kalman L_Sqrt L_Chol L_Zmod L_Num2 M_BQ L_BQ L_BQ2.
Set Implicit Arguments.
Unset Strict Implicit.
Unset Printing Implicit Defensive.
Import Order.Theory GRing.Theory Num.Theory.
Local Open Scope ring_scope.

Section Claims.
Variables (R : rcfType) (dim : nat).
Local Notation node := 'rV[R]_dim.
Implicit Types (k : kernel R dim) (s : state R dim) (bs : seq (seq node * seq R)).

(** A run: updates with batches that are not empty, from the starting state. *)
Definition run k jit e bs s : Prop := all (@good_batch R dim) bs /\ updates k jit e (init k) bs = Some s.

(** C39: the batches do not matter. *)
Theorem C39_batching k jit e bs : ksym k -> all (@good_batch R dim) bs -> bs != [::] ->
  omap (@forget R dim) (updates k jit e (init k) bs)
  = omap (@forget R dim) (update k jit e (init k) (flatten (unzip1 bs)) (flatten (unzip2 bs))).
Proof. exact: batching. Qed.

(** ** What a run computes *)
Lemma run_char k jit e bs s : ksym k -> run k jit e bs s ->
  let xs := flatten (unzip1 bs) in let ys := flatten (unzip2 bs) in
  let n := size (nodes s) in
  let A := jgmx k jit n xs in
  [/\ nodes s = xs, evals s = ys, size ys = size xs & pd A] /\
  [/\ (bs != [::] -> state_ok k jit s), kmeans s = map (k_mean k) xs,
      scale_sq s = (if (e, bs) is (Mle, _ :: _)
                    then qinv A (colv n ys) (colv n ys) / n%:R else 1) &
      belief s = (qinv A (zmx k n xs) (colv n ys),
                  scale_sq s * (k_var k - qinv A (zmx k n xs) (zmx k n xs)))].
Proof.
move=> sk [good run] xs ys.
case: bs good run @xs @ys => [|b bs] good run xs ys.
  case: run => <- /=; split; first by split => //; split => [|x]; [rewrite jgmx_sym | rewrite [x]flatmx0 eqxx].
  split => //=; first by case: e.
  have z (u v : 'cV[R]_0) : qinv (jgmx k jit 0 xs) u v = 0.
    by rewrite /qinv [u^T]thinmx0 !mul0mx /num mxE.
  by rewrite !z subr0 mul1r.
have := C39_batching jit e sk good isT; rewrite run /= update_full //; last by left.
rewrite full_forget -/xs -/ys /= => E.
have nx : xs != [::].
  by case/andP: good => /andP[+ _] _; rewrite /xs /=; case: (b.1).
have [] := full_ok nx (esym E); rewrite /= => ok [en ee].
move: E; rewrite /full; case: eqP => //= sz; case: posdefP => // pA [en' ee' es eg ef em eb].
rewrite en; split; first by split.
by split => //; rewrite es; exact: eb.
Qed.

Lemma predict_char k jit e bs s x : ksym k -> run k jit e bs s ->
  let n := size (nodes s) in
  let A := jgmx k jit n (nodes s) in let c := cmx k n (nodes s) x in
  predict k s x = (qinv A c (colv n (evals s)), scale_sq s * (k_eval k x x - qinv A c c)).
Proof.
move=> sk r n A c; have [[en ee sz pA] [ok _ _ _]] := run_char sk r.
rewrite /predict; case: ifP => [|nz].
  rewrite ee sz -en => /eqP n0; move: A c; rewrite {}/n n0 => A c.
  by rewrite /qinv [c^T]thinmx0 !mul0mx /num mxE subr0.
have nb : bs != [::] by case: (bs) ee nz => // ->.
have [_ _ _ _ [-> _]] := ok nb; rewrite sq_val -/A /cho_solve.
by rewrite trmx_mul invmx_sym // jgmx_sym.
Qed.

Lemma scale_ge0 k jit e bs s : ksym k -> run k jit e bs s -> 0 <= scale_sq s.
Proof.
move=> sk r; have [[_ _ _ pA] [_ _ -> _]] := run_char sk r.
case: e {r} => //; first by rewrite ler01.
case: bs pA => [|b bs] /= pA; first by rewrite ler01.
by rewrite divr_ge0 ?ler0n // qinv_ge0.
Qed.

(** ** C40: variances *)
(** The variance of the integral is not negative and at most the prior variance (times the
    scale); the variance of every predicted value is not negative. *)
Theorem C40_variance k jit e bs s : embedded k -> 0 <= jit -> run k jit e bs s ->
  0 <= (belief s).2 <= scale_sq s * k_var k.
Proof.
move=> ek j0 r; have sk := emb_sym ek; have sc0 := scale_ge0 sk r.
have [[_ _ _ pA] [_ _ _ ->]] := run_char sk r; rewrite /= mulr_ge0 //=; last exact: post_var_ge0.
by rewrite ler_wpmul2l // ger_addl oppr_le0 qinv_ge0.
Qed.
Theorem C40_predict k jit e bs s x : embedded k -> 0 <= jit -> run k jit e bs s ->
  0 <= (predict k s x).2 <= scale_sq s * k_eval k x x.
Proof.
move=> ek j0 r; have sk := emb_sym ek; have sc0 := scale_ge0 sk r.
rewrite (predict_char x sk r) /=; have [[en _ _ pA] _] := run_char sk r; rewrite -en in pA.
rewrite ler_wpmul2l // ?ger_addl ?oppr_le0 ?qinv_ge0 // andbT mulr_ge0 //.
have := post_form ek x 0 1 (erefl _) j0 pA.
by rewrite !(expr0n, mul0r, mulr0, mul1r, add0r, expr1n).
Qed.
Lemma run_cat k jit e bs bs' s s' : run k jit e bs s -> all (@good_batch R dim) bs' ->
  updates k jit e s bs' = Some s' -> run k jit e (bs ++ bs') s'.
Proof.
move=> [g r] g' r'; split; first by rewrite all_cat g.
by rewrite /updates foldl_cat -/(updates k jit e (init k) bs) r.
Qed.
(** Further nodes never increase the variance while the scale is not estimated. *)
Theorem C40_variance_decreases k jit bs s bs' s' : embedded k -> 0 <= jit ->
  run k jit Keep bs s -> all (@good_batch R dim) bs' -> updates k jit Keep s bs' = Some s' ->
  (belief s').2 <= (belief s).2.
Proof.
move=> ek j0 r g' r'; have sk := emb_sym ek; have r2 := run_cat r g' r'.
have [[en ee sz pA] [_ _ -> ->]] := run_char sk r.
have [[en' ee' sz' pA'] [_ _ -> ->]] := run_char sk r2.
rewrite /= !mul1r ler_add2l ler_opp2.
move: pA' pA; rewrite en en' /unzip1 map_cat flatten_cat -/unzip1; set xs := flatten _; set xs' := flatten _.
rewrite size_cat => pA' pA.
have ulE : ulsubmx (jgmx k jit (size xs + size xs') (xs ++ xs')) = jgmx k jit (size xs) xs.
  apply/matrixP => i j; rewrite !mxE /= -!(inj_eq (@ord_inj _)) /=.
  by rewrite !nth_cat !ltn_ord.
have uE : usubmx (zmx k (size xs + size xs') (xs ++ xs')) = zmx k (size xs) xs.
  by apply/matrixP => i j; rewrite !mxE /= nth_cat ltn_ord.
by have := qinv_lead (zmx k (size xs + size xs') (xs ++ xs')) pA'; rewrite ulE uE; apply.
Qed.
(** With zero jitter the conditioned process interpolates. *)
Theorem C40_interpolates k e bs s i : ksym k -> run k 0 e bs s -> (i < size (nodes s))%N ->
  predict k s (nth 0 (nodes s) i) = ((evals s)`_i, 0).
Proof.
move=> sk r lti; rewrite (predict_char _ sk r) /=.
have [[en _ _ pA] _] := run_char sk r; rewrite -en in pA.
set A := jgmx _ _ _ _; set c := cmx _ _ _ _; pose o := Ordinal lti.
have uA := pd_unit pA.
have cE : c = A *m delta_mx o 0.
  apply/matrixP => a b; rewrite -colE !mxE.
  by case: (a == o); rewrite ?mulr0n ?mulr1n addr0.
have solE v : qinv A c v = v o 0.
  rewrite /qinv cE trmx_mul jgmx_sym // -!mulmxA mulKVmx // /num mxE (bigD1 o) //=.
  rewrite !mxE !eqxx mul1r big1 ?addr0 // => a ne.
  by rewrite !mxE (negPf ne) mul0r.
by rewrite !solE !mxE subrr mulr0.
Qed.

(** ** C143: the predictive variance acquisition *)
(** The values are the variances of the predictions (C103) times the squared density, divided by the scale. *)
Theorem C143_value k p jit e bs s x : embedded k -> 0 <= jit -> run k jit e bs s -> scale_sq s != 0 ->
  exists v, [/\ acq_variance k p s x = Some v, v * scale_sq s = (predict k s x).2 * p x ^+ 2 &
    0 <= v <= k_eval k x x * p x ^+ 2].
Proof.
move=> ek j0 r nz; have sp : 0 < scale_sq s by rewrite lt_def nz (scale_ge0 (emb_sym ek) r).
have /andP[l u] := C40_predict x ek j0 r; rewrite /acq_variance (negPf nz); eexists; split=> //.
  by rewrite mulrAC mul1r mulfVK.
rewrite mul1r mulr_ge0 ?sqr_ge0 ?mulr_ge0 ?invr_ge0 ?(ltW sp) //=.
by rewrite ler_wpmul2r ?sqr_ge0 // ler_pdivr_mulr // mulrC.
Qed.
(** The largest value is at the largest product of variance and squared density. *)
Theorem C143_order k p jit e bs s x y v w : embedded k -> 0 <= jit -> run k jit e bs s ->
  acq_variance k p s x = Some v -> acq_variance k p s y = Some w ->
  (v <= w) = ((predict k s x).2 * p x ^+ 2 <= (predict k s y).2 * p y ^+ 2).
Proof.
move=> ek j0 r hv hw; have nz : scale_sq s != 0 by move: hv; rewrite /acq_variance; case: eqP.
have [v' [e1 e2 _]] := C143_value p x ek j0 r nz; have [w' [e3 e4 _]] := C143_value p y ek j0 r nz.
move: hv hw; rewrite e1 e3 => -[<-] [<-]; rewrite -e2 -e4 ler_pmul2r //.
by rewrite lt_def nz (scale_ge0 (emb_sym ek) r).
Qed.
(** Nodes are not sampled again while there is no jitter. *)
Theorem C143_nodes k p e bs s i v : ksym k -> run k 0 e bs s -> (i < size (nodes s))%N ->
  acq_variance k p s (nth 0 (nodes s) i) = Some v -> v = 0.
Proof.
move=> sk r li; rewrite /acq_variance (C40_interpolates sk r li); case: ifP => // _ [<-].
by rewrite !mul0r.
Qed.

(** ** C41: the variance reduction acquisition *)
Lemma reduction_char k jit e bs s x : ksym k -> run k jit e bs s ->
  let n := size (nodes s) in let xs := nodes s in
  let A := jgmx k jit n xs in let c := cmx k n xs x in let z := zmx k n xs in
  acq_reduction k s x =
  let d := (belief s).2 * (scale_sq s * (k_eval k x x - qinv A c c)) in
  if d == 0 then None else Some ((scale_sq s * (k_mean k x - qinv A z c)) ^+ 2 / d).
Proof.
move=> sk r n xs A c z; rewrite /acq_reduction (predict_char x sk r) /= -/n -/xs -/A -/c.
have [[en ee sz pA] [ok em _ _]] := run_char sk r.
suff -> : (if (0 < size (evals s))%N
  then k_mean k x - num ((colv n (kmeans s))^T *m cho_solve (sq n (factor s)) (kcol k s x))
  else k_mean k x) = k_mean k x - qinv A z c by [].
case: ifP => nz; last first.
  have n0 : size (nodes s) = 0%N by rewrite en -sz -ee; case: (evals s) nz.
  rewrite /qinv; move: {ok} A c z pA; rewrite {}/n n0 => A c z pA.
  by rewrite [z^T]thinmx0 !mul0mx /num mxE subr0.
have nb : bs != [::] by case: (bs) ee nz => // ->.
have [_ _ _ _ [-> _]] := ok nb; rewrite sq_val -/A /cho_solve em -en colv_means // -/z mulmxA.
by [].
Qed.
Lemma discr (V e v : R) : (forall a b, 0 <= a ^+ 2 * V + 2%:R * a * b * e + b ^+ 2 * v) ->
  e ^+ 2 <= V * v.
Proof.
move=> H.
have v0 : 0 <= v by have := H 0 1; rewrite !(expr0n, mul0r, mulr0, mul1r, add0r, expr1n).
have [v1|] := boolP (v == 0).
  have [e0|ne] := boolP (e == 0); first by rewrite (eqP e0) (eqP v1) expr2 !mulr0.
  have := H 1 (- (V + 1) / (2%:R * e)).
  rewrite (eqP v1) mulr0 addr0 expr1n mul1r mulr1.
  have -> : 2%:R * (- (V + 1) / (2%:R * e)) * e = - (V + 1).
    have n2 : 2%:R != 0 :> R by rewrite pnatr_eq0.
    have f (t w : R) : t != 0 -> w != 0 -> t * (- (V + 1) / (t * w)) * w = - (V + 1).
      by move=> t0 w0; mfield.
    exact: f.
  by rewrite opprD addrA subrr add0r oppr_ge0 leNgt ltr01.
move=> nv; have vp : 0 < v by rewrite lt_def nv.
have := H v (- e).
have -> : v ^+ 2 * V + 2%:R * v * - e * e + (- e) ^+ 2 * v = v * (V * v - e ^+ 2) by mring.
by rewrite pmulr_rge0 // subr_ge0.
Qed.

(** The value is between zero and one. *)
Theorem C41_range k jit e bs s x r : embedded k -> 0 <= jit -> run k jit e bs s ->
  acq_reduction k s x = Some r -> 0 <= r <= 1.
Proof.
move=> ek j0 ru; have sk := emb_sym ek; rewrite (reduction_char x sk ru) /=.
have [[en ee sz pA] [ok em _ ->]] := run_char sk ru; rewrite -en in pA *; rewrite /=.
have pf := post_form ek x _ _ (erefl _) j0 pA; move: (discr pf) => cs {pf}.
have V0 := post_var_ge0 ek j0 pA.
have v0 : 0 <= k_eval k x x - qinv (jgmx k jit (size (nodes s)) (nodes s)) (cmx k (size (nodes s)) (nodes s) x) (cmx k (size (nodes s)) (nodes s) x).
  have := post_form ek x 0 1 (erefl _) j0 pA.
  by rewrite !(expr0n, mul0r, mulr0, mul1r, add0r, expr1n).
have sc0 := scale_ge0 sk ru.
move: cs V0 v0; move: (_ - qinv _ (zmx _ _ _) (zmx _ _ _)) (_ - qinv _ (cmx _ _ _ _) _) (_ - qinv _ _ _).
move=> V v em' cs V0 v0; case: eqP => // /eqP ne [<-].
have d0 : 0 < scale_sq s * V * (scale_sq s * v).
  by rewrite lt_def ne !mulr_ge0.
apply/andP; split; first by apply: divr_ge0; [exact: sqr_ge0 | exact: ltW].
rewrite ler_pdivr_mulr // mul1r exprMn.
have -> : scale_sq s * V * (scale_sq s * v) = scale_sq s ^+ 2 * (V * v) by mring.
by rewrite ler_wpmul2l // sqr_ge0.
Qed.

Lemma reduction_one k jit e bs s x y s' : ksym k -> run k jit e bs s ->
  update k jit Keep s [:: x] [:: y] = Some s' ->
  let n := size (nodes s) in let xs := nodes s in
  let A := jgmx k jit n xs in let c := cmx k n xs x in let z := zmx k n xs in
  0 < k_eval k x x + jit - qinv A c c /\
  (belief s).2 - (belief s').2
  = scale_sq s * ((k_mean k x - qinv A z c) ^+ 2 / (k_eval k x x + jit - qinv A c c)).
Proof.
move=> sk r; have [[en ee sz pA] [ok em _ ->]] := run_char sk r; rewrite -en in pA *.
rewrite update_full //; last first.
  case: bs r en ee sz em ok => [|b bs] r en ee sz em ok; first by left.
  by right; apply: ok.
rewrite /full; case: eqP => //= sz'; case: posdefP => // pA' [<-] /=.
rewrite size_cat addn1 -addn1 in pA' *.
rewrite zmx_append // jgmx_append // in pA' *.
split; first exact: block_schur_pos pA'.
rewrite (qinv_append _ _ pA'); move: (qinv _ _ _) => q1; move: (_ / _) => q2; mring.
Qed.
(** With zero jitter and no scale estimation, the value is the relative decrease of the
    variance when the point is added, whatever the function value there. *)
Theorem C41_reduction k e bs s x y s' r : embedded k -> run k 0 e bs s ->
  acq_reduction k s x = Some r -> update k 0 Keep s [:: x] [:: y] = Some s' ->
  r = ((belief s).2 - (belief s').2) / (belief s).2.
Proof.
move=> ek ru; have sk := emb_sym ek; rewrite (reduction_char x sk ru) /=.
case: eqP => // /eqP ne [<-] /(reduction_one sk ru) /= [+ ->]; rewrite addr0.
move: ne; set v := _ - qinv _ (cmx _ _ _ _) _; set m := _ - qinv _ _ _; move: (belief s).2 => V.
rewrite !mulf_eq0 !negb_or => /and3P[nV ns nv] _.
have e1 (a b c d : R) : a != 0 -> b != 0 -> c != 0 -> (b * d) ^+ 2 / (a * (b * c)) = b * (d ^+ 2 / c) / a.
  by move=> a0 b0 c0; mfield.
exact: e1.
Qed.
(** With jitter it is at least that. *)
Theorem C41_overestimates k jit e bs s x y s' r : embedded k -> 0 <= jit -> run k jit e bs s ->
  acq_reduction k s x = Some r -> update k jit Keep s [:: x] [:: y] = Some s' ->
  ((belief s).2 - (belief s').2) / (belief s).2 <= r.
Proof.
move=> ek j0 ru; have sk := emb_sym ek; rewrite (reduction_char x sk ru) /=.
have /andP[V0 _] := C40_variance ek j0 ru.
have /andP[+ _] := C40_predict x ek j0 ru; rewrite (predict_char x sk ru) /=.
have sc0 := scale_ge0 sk ru.
case: eqP => // /eqP ne + [<-] /(reduction_one sk ru) /= [+ ->].
have -> : k_eval k x x + jit - qinv (jgmx k jit (size (nodes s)) (nodes s))
    (cmx k (size (nodes s)) (nodes s) x) (cmx k (size (nodes s)) (nodes s) x)
  = (k_eval k x x - qinv (jgmx k jit (size (nodes s)) (nodes s))
    (cmx k (size (nodes s)) (nodes s) x) (cmx k (size (nodes s)) (nodes s) x)) + jit.
  by rewrite addrAC.
move: ne V0; set v := _ - qinv _ (cmx _ _ _ _) _; set m := _ - qinv _ _ _; move: (belief s).2 => V.
rewrite !mulf_eq0 !negb_or => /and3P[nV ns nv] V0 v0 vj.
have sp : 0 < scale_sq s by rewrite lt_def ns.
have Vp : 0 < V by rewrite lt_def nV.
have vp : 0 < v by rewrite lt_def nv /=; move: v0; rewrite pmulr_rge0.
have e1 (a b c d : R) : a != 0 -> b != 0 -> c != 0 -> (b * d) ^+ 2 / (a * (b * c)) = b * (d ^+ 2 / c) / a.
  by move=> a0 b0 c0; mfield.
rewrite e1 // ler_pmul2r ?invr_gt0 // ler_pmul2l // ler_wpmul2l ?sqr_ge0 //.
by rewrite lef_pinv // ler_addl.
Qed.

(** ** C103: the beliefs are conditional laws *)
(** A centred Gaussian process with covariance [scale * kernel], observed with independent
    noise of variance [scale * jitter]: the data [Y], the integral [I] and a value [f]. *)
Lemma cond_data K n (X : rvec R K 1) (Y : rvec R K n) (A : 'M[R]_n) (c : 'cV[R]_n) (sc v : R) :
  pd A -> Mean X = 0 -> Mean Y = 0 -> Cov Y Y = sc *: A -> Cov X Y = sc *: c^T ->
  Cov X X = (sc * v)%:M ->
  cond_law X (fun _ => Y) 1 (fun y : nat -> 'cV[R]_n => (qinv A c (y 0%N))%:M) (sc * (v - qinv A c c))%:M.
Proof.
move=> pA mX mY cY cX vX; have uA := pd_unit pA; have sA := pA.1.
exists 0, (fun _ => c^T *m invmx A); split.
  by move=> y; rewrite /predictor big_ord_recl big_ord0 add0r addr0 /qinv scal_num.
rewrite /predictor_rv big_ord_recl big_ord0 addr0.
have -> : Cst K (0 : 'cV[R]_1) = 0 by rewrite /Cst row_mx0.
rewrite add0r; set P := c^T *m invmx A; split; first by rewrite MeanB MeanM mX mY mulmx0 subr0.
have c0 : Cov (X - P *m Y) Y = 0.
  by rewrite CovBl CovMl cX cY /P -scalemxAr -mulmxA mulVmx // mulmx1 subrr.
split=> [_ _ //|]; rewrite CovBr CovMr c0 mul0mx subr0 CovBl vX CovMl -CovT cX.
rewrite linearZ /= trmxK /P -scalemxAr -[_ *m c]scal_num -/(qinv A c c).
by rewrite scale_scalar_mx -raddfB /= -mulrBr.
Qed.
Definition data_law K k jit sc n xs (Y : rvec R K n) : Prop :=
  Mean Y = 0 /\ forall i j, Cov Y Y i j = sc * (k_eval k (nth 0 xs (nat_of_ord i)) (nth 0 xs (nat_of_ord j)) + jit *+ (i == j)).
Theorem C103_integral K k jit e bs s (X : rvec R K 1) (Y : rvec R K (size (nodes s))) :
  ksym k -> run k jit e bs s ->
  data_law k jit (scale_sq s) (nodes s) Y ->
  Mean X = 0 -> Cov X X 0 0 = scale_sq s * k_var k ->
  (forall i, Cov X Y 0 i = scale_sq s * k_mean k (nth 0 (nodes s) i)) ->
  exists mu, cond_law X (fun _ => Y) 1 mu (belief s).2%:M
    /\ (belief s).1%:M = mu (fun _ => \col_i (evals s)`_i).
Proof.
move=> sk r [mY cY] mX vX cX; have [[en ee sz pA] [ok em _ ->]] := run_char sk r.
rewrite -en -ee in pA *.
exists (fun y : nat -> 'cV[R]_(size (nodes s)) => (qinv (jgmx k jit (size (nodes s)) (nodes s)) (zmx k (size (nodes s)) (nodes s)) (y 0%N))%:M).
split=> //; apply: cond_data => //.
- by apply/matrixP => i j; rewrite cY !mxE.
- by apply/matrixP => i j; rewrite ord1 cX !mxE.
- by rewrite [LHS]mx11_scalar vX.
Qed.
Theorem C103_value K k jit e bs s x (X : rvec R K 1) (Y : rvec R K (size (nodes s))) :
  ksym k -> run k jit e bs s ->
  data_law k jit (scale_sq s) (nodes s) Y ->
  Mean X = 0 -> Cov X X 0 0 = scale_sq s * k_eval k x x ->
  (forall i, Cov X Y 0 i = scale_sq s * k_eval k (nth 0 (nodes s) i) x) ->
  exists mu, cond_law X (fun _ => Y) 1 mu (predict k s x).2%:M
    /\ (predict k s x).1%:M = mu (fun _ => \col_i (evals s)`_i).
Proof.
move=> sk r [mY cY] mX vX cX; have [[en ee sz pA] _] := run_char sk r.
rewrite -en in pA; rewrite (predict_char x sk r) /=.
exists (fun y : nat -> 'cV[R]_(size (nodes s)) => (qinv (jgmx k jit (size (nodes s)) (nodes s)) (cmx k (size (nodes s)) (nodes s) x) (y 0%N))%:M).
split=> //; apply: cond_data => //.
- by apply/matrixP => i j; rewrite cY !mxE.
- by apply/matrixP => i j; rewrite ord1 cX !mxE.
- by rewrite [LHS]mx11_scalar vX.
Qed.

(** ** C46: multilevel quadrature *)
Lemma mapfold (f : seq node * seq R * kernel R dim -> option (R * R)) l a b :
  foldl (fun acc q => obind (fun a => omap (add_normal a) (f q)) acc) (Some a) l = Some b <->
  exists2 bs, map f l = map Some bs & b = (a.1 + \sum_(c <- bs) c.1, a.2 + \sum_(c <- bs) c.2).
Proof.
elim: l a => [|q l IH] a /=.
  split=> [[<-]|[[|c bs] // _ ->]]; last by rewrite !big_nil !addr0; case: a.
  by exists [::]; rewrite // !big_nil !addr0; case: a.
case E: (f q) => [c|] /=; last first.
  split; last by case=> -[|c bs].
  suff -> : foldl (fun acc q => obind (fun a => omap (add_normal a) (f q)) acc) None l = None by [].
  by elim: (l).
rewrite IH; split=> -[bs e1 e2].
  by exists (c :: bs); rewrite /= ?e1 // !big_cons !addrA.
case: bs e1 e2 => // c' bs [-> e1] ->; exists bs => //.
by rewrite !big_cons /= !addrA.
Qed.
Theorem C46_multilevel jit e (xss : seq (seq node)) (yss : seq (seq R)) (ks : seq (kernel R dim)) b k0 :
  let nd i := if size xss == 1%N then nth [::] xss 0 else nth [::] xss i in
  multilevel jit e xss yss ks = Some b <->
  [/\ size ks = size yss, size xss = 1%N \/ size xss = size yss &
    exists2 bs : seq (R * R), size bs = size yss
      /\ (forall i, (i < size yss)%N ->
           from_data (nth k0 ks i) jit e (nd i) (nth [::] yss i) = Some (nth (0, 0) bs i)) &
      b = (\sum_(i < size yss) (nth (0, 0) bs i).1, \sum_(i < size yss) (nth (0, 0) bs i).2)].
Proof.
move=> nd; rewrite /multilevel.
set X := if size xss == 1%N then _ else xss.
have szX : size X == size yss = ((size xss == 1%N) || (size xss == size yss)).
  by rewrite /X; case: ifP => //; rewrite size_nseq eqxx.
have ndE i : (i < size yss)%N -> nth [::] X i = nd i.
  by rewrite /X /nd nth0; case: ifP => // _ lt; rewrite nth_nseq lt.
rewrite szX [size yss == _]eq_sym; case: ifP => [/andP[h1 /eqP h2]|h]; last first.
  split=> // -[h2 h1 _]; move/negP: h; case; rewrite h2 eqxx andbT.
  by case: h1 => ->; rewrite eqxx ?orbT.
rewrite -szX in h1; move/eqP in h1.
have szz : size (zip (zip X yss) ks) = size yss by rewrite !size_zip h1 minnn h2 minnn.
rewrite mapfold; split.
  case=> bs e1 e2; split=> //.
    by move/eqP: h1; rewrite szX => /orP[]/eqP; [left | right].
  have szb : size bs = size yss by rewrite -szz -(size_map Some) -e1 size_map.
  exists bs; last by rewrite e2 !add0r !(big_nth (0, 0)) szb !big_mkord.
  split=> // i lti.
  have := congr1 (fun l => nth None l i) e1.
  rewrite (nth_map ([::], [::], k0)) ?szz // nth_zip ?size_zip ?h1 ?minnn // nth_zip //=.
  by rewrite (nth_map (0, 0)) ?szb // ndE.
case=> _ _ [bs [szb fb] ->]; exists bs; last by rewrite !add0r !(big_nth (0, 0)) szb !big_mkord.
apply: (@eq_from_nth _ None); first by rewrite !size_map szz szb.
rewrite size_map szz => i lti.
rewrite (nth_map ([::], [::], k0)) ?szz // nth_zip ?size_zip ?h1 ?minnn // nth_zip //=.
by rewrite (nth_map (0, 0)) ?szb // ndE // fb.
Qed.

(** ** The history of beliefs *)
(** After a run, the previous beliefs are the beliefs after the shorter runs, in order. *)
Theorem C104_history k jit e bs s : updates k jit e (init k) bs = Some s ->
  size (previous s) = size bs /\
  forall i, (i < size bs)%N ->
    exists2 s', updates k jit e (init k) (take i bs) = Some s' & nth (0, 0) (previous s) i = belief s'.
Proof.
elim/last_ind: bs s => [|bs b IH] s; first by case=> <-.
rewrite /updates foldl_rcons -/(updates k jit e (init k) bs).
case E: (updates k jit e (init k) bs) => [s0|] //= U.
have [sz h] := IH _ E.
have -> : previous s = rcons (previous s0) (belief s0).
  by move: U; rewrite /update; case: ifP => // _; case: cho_factor => //= F [<-].
rewrite !size_rcons sz; split=> // i; rewrite ltnS leq_eqVlt => /orP[/eqP ->|lti].
  by exists s0; rewrite -?cats1 ?take_size_cat // nth_cat sz ltnn subnn.
have [s' e1 e2] := h _ lti; exists s'; first by rewrite -cats1 takel_cat // ltnW.
by rewrite nth_rcons sz lti.
Qed.

(** ** The variance acquisition after maximum likelihood scaling *)
(** If every evaluation was zero, the estimated scale is zero, the belief has no variance and
    both acquisition functions divide by zero. *)
Theorem C105_zero_data k jit b bs s x p : ksym k -> run k jit Mle (b :: bs) s ->
  all (fun y => y == 0) (evals s) ->
  [/\ scale_sq s = 0, belief s = (0, 0), acq_variance k p s x = None & acq_reduction k s x = None].
Proof.
move=> sk r z; have [[en ee sz pA] [ok em es eb]] := run_char sk r.
have y0 n : colv n (flatten (unzip2 (b :: bs))) = 0.
  apply/matrixP => i j; rewrite !mxE -ee; have [lt|ge] := ltnP i (size (evals s)).
    by apply/eqP; apply: (allP z); rewrite mem_nth.
  by rewrite nth_default.
have q0 n (A : 'M[R]_n) u : qinv A u 0 = 0 by rewrite /qinv mulmx0 /num mxE.
move: es; rewrite y0 q0 mul0r => es.
have bb : belief s = (0, 0) by rewrite eb y0 q0 es mul0r.
split=> //; first by rewrite /acq_variance es eqxx.
by rewrite /acq_reduction bb mul0r eqxx.
Qed.
End Claims.

(** ** Non-vacuity and refuted claims *)
(** The process [a + b x] with standard normal [a], [b] on [[0, 1]] with the Lebesgue measure. *)
Section Witness.
Variable R : rcfType.
Local Notation Q x := (q R x).
Definition lin : kernel R 1 :=
  Kernel (fun x y => 1 + x 0 0 * y 0 0) (fun x => 1 + x 0 0 / 2%:R) (5%:R / 4%:R).
Definition pt (a : R) : 'rV[R]_1 := const_mx a.
Lemma ptE a i j : pt a i j = a. Proof. by rewrite mxE. Qed.
Lemma lin_sym : ksym lin. Proof. by move=> x y; rewrite /= mulrC. Qed.
Lemma lin_embedded : embedded lin.
Proof.
split; first exact: lin_sym.
move=> n x c a; pose s0 := \sum_i c i; pose s1 := \sum_i c i * x i 0 0.
have -> : \sum_i c i * k_mean lin (x i) = s0 + s1 / 2%:R.
  by rewrite /= mulr_suml -big_split /=; apply: eq_bigr => i _; rewrite mulrDr mulr1 mulrA.
have -> : \sum_i \sum_j c i * c j * k_eval lin (x i) (x j) = s0 ^+ 2 + s1 ^+ 2.
  rewrite expr2 mulr_suml expr2 mulr_suml -big_split /=; apply: eq_bigr => i _.
  rewrite !mulr_sumr -big_split /=; apply: eq_bigr => j _; mring.
have -> : a ^+ 2 * k_var lin + 2%:R * a * (s0 + s1 / 2%:R) + (s0 ^+ 2 + s1 ^+ 2)
        = (a + s0) ^+ 2 + (a / 2%:R + s1) ^+ 2.
  have n2 : 2%:R != 0 :> R by rewrite pnatr_eq0.
  have n4 : 4%:R != 0 :> R by rewrite pnatr_eq0.
  by rewrite /=; mfield.
by rewrite addr_ge0 // sqr_ge0.
Qed.
(** Small matrices. *)
Lemma pd_s1 (a : R) : 0 < a -> pd (s1 a).
Proof.
move=> a0; split; first exact: s1T.
move=> x x0; rewrite /qform [x]mx11_scalar -/(s1 _) s1T !s1M mxE eqxx mulr1n.
rewrite mulrAC -expr2 pmulr_lgt0 // lt_def sqr_ge0 andbT sqrf_eq0.
by apply: contra x0 => /eqP e; rewrite [x]mx11_scalar e raddf0.
Qed.
Lemma qinv_s1 (a u v : R) : a != 0 -> qinv (s1 a) (s1 u) (s1 v) = u * v / a.
Proof. by move=> a0; rewrite /qinv s1V s1T !s1M /num s1E mulrAC. Qed.
Lemma pd_m2 (a b d : R) : 0 < a -> 0 < a * d - b ^+ 2 -> pd (m2 a b b d).
Proof.
move=> a0 D0; split; first exact: m2T.
move=> x x0; have xE : x = c2 (x (lshift 1 0) 0) (x (rshift 1 0) 0).
  by rewrite -[LHS]vsubmxK; congr col_mx; rewrite [LHS]mx11_scalar mxE.
move: x0; rewrite {}xE; move: (x _ _) (x _ _) => v u x0; rewrite /qform c2T r2m r2c s1E.
rewrite -(pmulr_rgt0 _ a0).
have -> : a * ((u * a + v * b) * u + (u * b + v * d) * v)
  = (a * u + b * v) ^+ 2 + (a * d - b ^+ 2) * v ^+ 2 by mring.
have [v0|nv] := boolP (v == 0).
  rewrite (eqP v0) mulr0 addr0 expr0n mulr0 addr0 lt_def sqr_ge0 andbT sqrf_eq0 mulf_neq0 //.
    by rewrite gt_eqF.
  by apply: contra x0 => /eqP ->; rewrite (eqP v0) -c20.
by rewrite ltr_paddl ?sqr_ge0 // mulr_gt0 // lt_def sqr_ge0 sqrf_eq0 nv.
Qed.
Lemma qinv_m2 (a b d u0 u1 v0 v1 : R) : a * d - b ^+ 2 != 0 ->
  qinv (m2 a b b d) (c2 u0 u1) (c2 v0 v1)
  = (d * u0 * v0 - b * (u0 * v1 + u1 * v0) + a * u1 * v1) / (a * d - b ^+ 2).
Proof.
set D := _ - _ => nD; pose w := c2 ((d * v0 - b * v1) / D) ((a * v1 - b * v0) / D).
have uA : m2 a b b d \in unitmx by apply: m2U; rewrite -expr2.
have sol : m2 a b b d *m w = c2 v0 v1.
  by rewrite m2c; apply: c2_eq; rewrite /D in nD *; mfield.
by rewrite /qinv -{1}sol -mulmxA mulKmx // c2T r2c /num s1E; mfield.
Qed.
(** One node at zero, then another at one. *)
Lemma gram1 jit : jgmx lin jit 1 [:: pt 0] = s1 (1 + jit).
Proof. by apply/matrixP => i j; rewrite !ord1 !mxE /= !ptE mulr0 addr0 !mulr1n. Qed.
Lemma gram2 jit : jgmx lin jit 2 [:: pt 0; pt 1] = m2 (1 + jit) 1 1 (2%:R + jit).
Proof.
rewrite [LHS](@m2P R); apply: m2_eq; rewrite !mxE /= !ptE.
- by rewrite mulr0 addr0 ?mulr1n.
- by rewrite mul0r !addr0 ?mulr0n.
- by rewrite mulr0 !addr0 ?mulr0n.
- by rewrite mulr1 ?mulr1n.
Qed.
Lemma colv1 (y : R) : colv 1 [:: y] = s1 y.
Proof. by apply/matrixP => i j; rewrite !mxE !ord1 eqxx mulr1n. Qed.
Lemma colv2 (y z : R) : colv 2 [:: y; z] = c2 y z.
Proof. by rewrite [LHS](@c2P R); apply: c2_eq; rewrite mxE. Qed.
Lemma step1 jit e y : 0 < 1 + jit -> exists2 s, run lin jit e [:: ([:: pt 0], [:: y])] s &
  [/\ nodes s = [:: pt 0], evals s = [:: y],
     scale_sq s = (if e is Mle then y ^+ 2 / (1 + jit) else 1) &
     belief s = (y / (1 + jit), scale_sq s * (5%:R / 4%:R - 1 / (1 + jit)))].
Proof.
move=> j0; have n0 : 1 + jit != 0 by rewrite gt_eqF.
have: exists s, updates lin jit e (init lin) [:: ([:: pt 0], [:: y])] = Some s.
  rewrite /updates /= update_full; [|exact: lin_sym|by left].
  rewrite /full /= gram1; case: posdefP => [_|[]]; last exact: pd_s1.
  by eexists.
case=> s e1; have r : run lin jit e [:: ([:: pt 0], [:: y])] s by [].
exists s => //; have [[en ee _ _] [_ _ es eb]] := run_char lin_sym r.
rewrite en ee; split=> //.
  by rewrite es en /= gram1 colv1 qinv_s1 // divr1.
rewrite eb en /= gram1 colv1 -(colv_means _ (xs := [:: pt 0])) //= colv1 ptE mul0r addr0.
by rewrite !qinv_s1 // !mul1r.
Qed.
Lemma step2 jit e y z : 0 < 1 + jit -> 0 < (1 + jit) * (2%:R + jit) - 1 ^+ 2 ->
  let D := (1 + jit) * (2%:R + jit) - 1 ^+ 2 in
  exists s s', [/\ run lin jit e [:: ([:: pt 0], [:: y])] s,
    update lin jit e s [:: pt 1] [:: z] = Some s',
    run lin jit e [:: ([:: pt 0], [:: y]); ([:: pt 1], [:: z])] s' &
  [/\ nodes s' = [:: pt 0; pt 1], evals s' = [:: y; z],
     scale_sq s' = (if e is Mle then ((2%:R + jit) * y ^+ 2 - 2%:R * y * z + (1 + jit) * z ^+ 2) / D / 2%:R
                    else 1) &
     (belief s').2 = scale_sq s' * (5%:R / 4%:R - ((2%:R + jit) - 3%:R + (1 + jit) * (9%:R / 4%:R)) / D)]].
Proof.
move=> j0 D0 D; have [s r [en ee _ _]] := step1 e y j0.
have nD : D != 0 by rewrite gt_eqF.
have n2 : 2%:R != 0 :> R by rewrite pnatr_eq0.
have n4 : 4%:R != 0 :> R by rewrite pnatr_eq0.
have: exists s', update lin jit e s [:: pt 1] [:: z] = Some s'.
  rewrite update_full; [|exact: lin_sym|right]; last first.
    by have [_ [ok _ _ _]] := run_char lin_sym r; apply: ok.
  rewrite /full en ee /= gram2; case: posdefP => [_|[]]; last exact: pd_m2.
  by eexists.
case=> s' e1; have r' : run lin jit e [:: ([:: pt 0], [:: y]); ([:: pt 1], [:: z])] s'.
  by split=> //; case: r => _; rewrite /updates /= => ->.
exists s, s'; split=> //; have [[en' ee' _ _] [_ _ es eb]] := run_char lin_sym r'.
rewrite en' ee'; split=> //.
  rewrite es en' /= gram2 colv2 qinv_m2 // -/D; case: (e) => //; congr (_ / _ / _); mring.
rewrite eb en' /= gram2 -(colv_means _ (xs := [:: pt 0; pt 1])) //= colv2 !ptE mul0r addr0 mul1r.
rewrite qinv_m2 // -/D; congr (_ * (_ - _)); mfield.
Qed.
Lemma run_inj (k : kernel R 1) jit e bs s s' : run k jit e bs s -> run k jit e bs s' -> s = s'.
Proof. by move=> [_ e1] [_ e2]; move: e2; rewrite e1 => -[]. Qed.

(** C39, C40, C41, C103: runs of two batches exist, with zero and positive jitter. *)
Example ex_run e : exists s, run lin 0 e [:: ([:: pt 0], [:: 1]); ([:: pt 1], [:: 5%:R])] s
  /\ predict lin s (pt 1) = (5%:R, 0).
Proof.
have j0 : 0 < 1 + 0 :> R by rewrite addr0 ltr01.
have d0 : 0 < (1 + 0) * (2%:R + 0) - 1 ^+ 2 :> R.
  have -> : (1 + 0) * (2%:R + 0) - 1 ^+ 2 = 1 :> R by mring.
  exact: ltr01.
have [s [s' [_ _ r [en ee _ _]]]] := step2 e 1 5%:R j0 d0.
exists s'; split=> //; have := C40_interpolates (i := 1) lin_sym r.
by rewrite en ee; apply.
Qed.
Lemma jit1 : 0 < 1 + 1 :> R /\ 0 < (1 + 1) * (2%:R + 1) - 1 ^+ 2 :> R.
Proof.
split; first by rewrite addr_gt0 ?ltr01.
have -> : (1 + 1) * (2%:R + 1) - 1 ^+ 2 = 5%:R :> R by mring.
by rewrite ltr0n.
Qed.

(** The variance can grow when the scale is estimated. *)
Theorem C106_mle_growth_refuted :
  ~ (forall (k : kernel R 1) jit bs s bs' s', embedded k -> 0 <= jit ->
       run k jit Mle bs s -> all (@good_batch R 1) bs' -> updates k jit Mle s bs' = Some s' ->
       (belief s').2 <= (belief s).2).
Proof.
move=> H; have [j0 d0] := jit1.
have [s [s' [r u _ [_ _ es eb]]]] := step2 Mle 1 5%:R j0 d0.
have [s1' r1 [_ _ es1 eb1]] := step1 Mle 1 j0.
have e1 := run_inj r1 r.
subst s1'; have := H lin 1 _ s [:: ([:: pt 1], [:: 5%:R])] s' lin_embedded ler01 r isT.
rewrite /updates /= u => /(_ erefl); apply/negP; rewrite -ltNge eb eb1 es es1 /=.
have n2 : 2%:R != 0 :> R by rewrite pnatr_eq0.
have n4 : 4%:R != 0 :> R by rewrite pnatr_eq0.
have n5 : 5%:R != 0 :> R by rewrite pnatr_eq0.
have n8 : 8%:R != 0 :> R by rewrite pnatr_eq0.
rewrite -subr_gt0.
set x := (X in 0 < X).
have -> : x = 113%:R / 100%:R.
  rewrite /x; have -> : 100%:R = 4%:R * 5%:R * 5%:R :> R by rewrite -!natrM.
  have -> : (1 + 1) * (2%:R + 1) - 1 ^+ 2 = 5%:R :> R by mring.
  have -> : 1 + 1 = 2%:R :> R by mring.
  by mfield.
by rewrite divr_gt0 ?ltr0n.
Qed.
(** With jitter the acquisition value is not the relative decrease. *)
Theorem C107_jitter_refuted e :
  ~ (forall (k : kernel R 1) jit bs s x y s' r, embedded k -> 0 <= jit -> run k jit e bs s ->
       acq_reduction k s x = Some r -> update k jit e s [:: x] [:: y] = Some s' ->
       r = ((belief s).2 - (belief s').2) / (belief s).2).
Proof.
move=> H; have [j0 d0] := jit1.
have [s [s' [r u _ [_ _ es eb]]]] := step2 e 1 5%:R j0 d0.
have [s1' r1 [en1 ee1 es1 eb1]] := step1 e 1 j0.
have e1 := run_inj r1 r.
subst s1'.
have n2 : 2%:R != 0 :> R by rewrite pnatr_eq0.
have n3 : 3%:R != 0 :> R by rewrite pnatr_eq0.
have n4 : 4%:R != 0 :> R by rewrite pnatr_eq0.
have n5 : 5%:R != 0 :> R by rewrite pnatr_eq0.
have w1 : 5%:R / 4%:R - 1 / (1 + 1) = 3%:R / 4%:R :> R.
  by have -> : 1 + 1 = 2%:R :> R; [mring | mfield].
have w2 : 1 + 1 * 1 - 1 * 1 / (1 + 1) = 3%:R / 2%:R :> R.
  by have -> : 1 + 1 = 2%:R :> R; [mring | mfield].
have w3 : 1 + 1 / 2%:R - 1 * 1 / (1 + 1) = 1 :> R.
  by have -> : 1 + 1 = 2%:R :> R; [mring | mfield].
have acq : acq_reduction lin s (pt 1) = Some (8%:R / 9%:R).
  rewrite (reduction_char (pt 1) lin_sym r) /= en1 /= gram1 eb1 es1.
  have -> : cmx lin 1 [:: pt 0] (pt 1) = s1 1.
    by apply/matrixP => i j; rewrite !ord1 !mxE /= !ptE mul0r addr0 mulr1n.
  rewrite -(colv_means _ (xs := [:: pt 0])) //= colv1 !ptE mul0r addr0 !qinv_s1 ?gt_eqF //.
  set sc := match e with Keep => _ | Mle => _ end; cbv zeta.
    have scE : sc != 0.
      rewrite /sc; case: (e); rewrite ?oner_eq0 // mulf_neq0 ?expr1n ?oner_eq0 //.
      by rewrite invr_eq0 gt_eqF.
    congr Some; rewrite w1 w2 w3.
    have -> : 9%:R = 3%:R * 3%:R :> R by mring.
    have -> : 8%:R = 4%:R * 2%:R :> R by mring.
    by mfield.
  have sp : 0 < match e with Keep => 1 | Mle => 1 ^+ 2 / (1 + 1) end :> R.
    by case: (e); rewrite ?ltr01 // divr_gt0 // expr1n ltr01.
  by rewrite w1 w2 !mulr_gt0 ?invr_gt0 ?ltr0n.
have := H lin 1 _ s _ _ s' _ lin_embedded ler01 r acq u.
rewrite eb eb1 es es1 w1 /=.
have -> : (1 + 1) * (2%:R + 1) - 1 ^+ 2 = 5%:R :> R by mring.
have -> : 5%:R / 4%:R - (2%:R + 1 - 3%:R + (1 + 1) * (9%:R / 4%:R)) / 5%:R = 7%:R / (5%:R * 4%:R) :> R.
  by mfield.
have -> : 1 + 1 = 2%:R :> R by mring.
have n7 : 7%:R != 0 :> R by rewrite pnatr_eq0.
have n9 : 9%:R != 0 :> R by rewrite pnatr_eq0.
move/(congr1 (fun x : R => x * (9%:R * 15%:R))); case: (e).
  have -> : 8%:R / 9%:R * (9%:R * 15%:R) = 120%:R :> R by mfield.
  have -> : (1 * (3%:R / 4%:R) - 1 * (7%:R / (5%:R * 4%:R))) / (1 * (3%:R / 4%:R)) * (9%:R * 15%:R) = 72%:R :> R by mfield.
  by move/eqP; rewrite eqr_nat.
have -> : 8%:R / 9%:R * (9%:R * 15%:R) = 120%:R :> R by mfield.
set x := (X in _ = X); suff -> : x = - (2034%:R / 5%:R).
  by move=> h; have := ltr0n R 120; rewrite h oppr_gt0 ltNge divr_ge0 ?ler0n.
by rewrite /x; mfield.
Qed.
(** After scale estimation from zero data the acquisition functions are not finite. *)
Theorem C105_finite_refuted :
  ~ (forall (k : kernel R 1) jit bs s x p, embedded k -> 0 <= jit -> run k jit Mle bs s ->
       acq_variance k p s x <> None).
Proof.
move=> H; have [j0 _] := jit1.
have [s r [_ ee _ _]] := step1 Mle 0 j0.
have [|_ _ e1 _] := C105_zero_data (pt 0) (fun=> 1) lin_sym r; first by rewrite ee /= eqxx.
exact: (H lin 1 _ s (pt 0) (fun=> 1) lin_embedded ler01 r e1).
Qed.
(** C46: two levels on the same nodes. *)
Example ex_multilevel : exists b, multilevel 1 Keep [:: [:: pt 0]] [:: [:: 1]; [:: 3%:R]] [:: lin; lin] = Some b
  /\ b.1 = 2%:R.
Proof.
have [j0 _] := jit1.
have [s r [_ _ es eb]] := step1 Keep 1 j0; have [s' r' [_ _ es' eb']] := step1 Keep 3%:R j0.
exists (0 + (belief s).1 + (belief s').1, 0 + (belief s).2 + (belief s').2); split; last first.
  have n2 : 2%:R != 0 :> R by rewrite pnatr_eq0.
  rewrite eb eb' /= add0r; have -> : 1 + 1 = 2%:R :> R by mring.
  by mfield.
case: r r' => _ r [_ r']; rewrite /multilevel /= /from_data.
by move: r r'; rewrite /updates /= => -> ->.
Qed.
End Witness.

Print Assumptions C39_batching.
Print Assumptions C40_variance_decreases.
Print Assumptions C40_interpolates.
Print Assumptions C143_value.
Print Assumptions C143_order.
Print Assumptions C143_nodes.
Print Assumptions C41_range.
Print Assumptions C41_reduction.
Print Assumptions C103_integral.
Print Assumptions C46_multilevel.
Print Assumptions C106_mle_growth_refuted.
Print Assumptions C107_jitter_refuted.
