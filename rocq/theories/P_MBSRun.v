(** Runs of the matrix-based solver (M_MBS.v): non-vacuity and refuted claims. *)
From mathcomp Require Import all_ssreflect all_algebra.
From Verif Require Import L_Zmod L_Ring L_Num2 L_Kalman M_LinSolve L_LinSolve M_MBS L_MBS P_BQ P_MBS.
Set Implicit Arguments.
Unset Strict Implicit.
Unset Printing Implicit Defensive.
Import Order.Theory GRing.Theory Num.Theory.
Local Open Scope ring_scope.

Section Runs.
Variable R : rcfType.
Local Notation q := (q R).
Lemma dotp2 (a b c d : R) : dotp (c2 a b) (c2 c d) = a * c + b * d.
Proof. by rewrite /dotp c2T r2c s1E. Qed.

(** Above the tolerances. *)
Lemma sqrt_gt (a v : R) : 0 <= a -> a ^+ 2 < v -> (Num.sqrt v <= a) = false.
Proof.
move=> a0 av; apply: negbTE; rewrite -ltNge -[a]ger0_norm // -sqrtr_sqr ltr_sqrt //.
exact: le_lt_trans (sqr_ge0 a) av.
Qed.
Lemma conv_none n (sv : solver R n) r v atol rtol : 0 <= atol -> 0 <= rtol -> 
  atol ^+ 2 < dotp r r -> rtol ^+ 2 * dotp (b sv) (b sv) < dotp r r ->
  atol ^+ 2 < v -> rtol ^+ 2 * dotp (b sv) (b sv) < v ->
  converged sv (Some r) (Some v) atol rtol = None.
Proof.
move=> a0 t0 h1 h2 h3 h4; have v0 : 0 <= v by apply: le_trans (ltW h3); exact: sqr_ge0.
have rb : 0 <= rtol * norm (b sv) by rewrite mulr_ge0 // sqrtr_ge0.
have rb2 : (rtol * norm (b sv)) ^+ 2 = rtol ^+ 2 * dotp (b sv) (b sv).
  by rewrite exprMn sqr_sqrtr // dotpE dt_ge0.
by rewrite /converged /= /below v0 /norm !sqrt_gt ?rb2.
Qed.
(** A run that meets no criterion. *)
Lemma solve_max n (sv : solver R n) t mx atol rtol :
  (forall j, (j < mx)%N -> converged sv (l_r (after sv t j)) (o_tr (get_output sv j.-1 (after sv t j))) atol rtol = None) ->
  let l := after sv t mx in
  solve sv t mx atol rtol = Result (get_output sv mx.-1 l) mx (omap (@norm R n) (l_r l)) Maxiter (l_at l).
Proof.
move=> h; cbv zeta; have [[e1 e2 e3 e4 e5] _] := solve_after sv t mx atol rtol.
case E : (solve _ _ _ _ _) e1 e2 e3 e4 e5 => [o i nm c at_] /= e1 e2 e3 e4 e5.
have im : i = mx.
  apply/eqP; rewrite eqn_leq e4 leqNgt; apply/negP => lt; move: e5 lt.
  by case: c E => E => [->|[lt]|[lt]|[lt]|[lt]]; rewrite ?ltnn // e1 h.
have cm : c = Maxiter by move: e5; rewrite im; case: c E => // E []; rewrite ltnn.
by rewrite e1 e2 e3 cm im.
Qed.

(** One iteration with finite numbers. *)
Definition up n (p : bel R n) iter cov0 (s y : 'cV[R]_n) (g : R) : bel R n :=
  let u := g^-1 *: (cov p *m s) in let d := y - mean p *m s in
  let v := d - (2%:R^-1 * dotp s d) *: u in
  let t := if iter == 0%N then (cov p *m s) *m u^T else term p + (cov p *m s) *m u^T in
  Bel (mean p + (u *m v^T + v *m u^T)) (cov0 - t) t.
Lemma iterE n (sv : solver R n) k x pA pH S Y r c s y sy gA gH :
  s = - (mean pH *m r) -> y = A sv *m s -> dotp s y = sy -> sy != 0 ->
  dotp s (cov pA *m s) = gA -> gA != 0 -> dotp y (cov pH *m y) = gH -> gH != 0 ->
  iterate sv k (Lv (Attrs (Some x) (Some pA) (Some pH) S Y) (Some r) (Some c)) =
  Lv (Attrs (Some (x - (dotp s r / sy) *: s)) (Some (up pA k (V0 sv) s y gA)) (Some (up pH k (W0 sv) y s gH))
     (rcons S (Some s)) (rcons Y (Some y))) (Some (r - (dotp s r / sy) *: y))
     (Some (c + 1 / gH * dotp (cov pH *m y) (cov pH *m y))).
Proof.
move=> es ey esy sy0 eA gA0 eH gH0; rewrite /iterate /= -es -ey /= esy (negbTE sy0) /=.
by rewrite /bupd eA (negbTE gA0) eH (negbTE gH0) !scaleNr.
Qed.
Lemma lv_eq n (x x' : 'cV[R]_n) pA pA' pH pH' S S' Y Y' r r' c c' :
  x = x' -> pA = pA' -> pH = pH' -> S = S' -> Y = Y' -> r = r' -> c = c' ->
  Lv (Attrs (Some x) (Some pA) (Some pH) S Y) (Some r) (Some c) =
  Lv (Attrs (Some x') (Some pA') (Some pH') S' Y') (Some r') (Some c').
Proof. by do 7 move=> ->. Qed.

Definition tol := q (1%:Q / 100%:Q).
Lemma tol0 : 0 <= tol. Proof. by rewrite /tol (q0 R); qdone. Qed.
Lemma m2I : (1%:M : 'M[R]_(1 + 1)) = m2 (q 1%:Q) (q 0%:Q) (q 0%:Q) (q 1%:Q).
Proof. by rewrite m21 (q0 R) (q1 R). Qed.
Lemma m2O : (0 : 'M[R]_(1 + 1)) = m2 (q 0%:Q) (q 0%:Q) (q 0%:Q) (q 0%:Q).
Proof. by rewrite m20 (q0 R). Qed.
Lemma half : (2%:R : R) = q 2%:Q. Proof. exact: qn. Qed.

(** A system with the default prior: one iteration. *)
Definition dA := m2 (q 5%:Q) (q 2%:Q) (q 2%:Q) (q 1%:Q).
Definition db := c2 (q 1%:Q) (q (- 5%:Q / 2%:Q)).
Definition dsv := (default_prior dA db).1.
Definition dat := (default_prior dA db).2.
Definition y0 := c2 (q 1%:Q) (q 0%:Q).
Definition s0 := c2 (q 1%:Q) (q (- 2%:Q)).
Definition mV1 := m2 (q 4%:Q) (q 2%:Q) (q 2%:Q) (q 1%:Q).
Definition mH1 := m2 (q 1%:Q) (q (- 2%:Q)) (q (- 2%:Q)) (q 1%:Q).
Definition mW1 := m2 (q 0%:Q) (q 0%:Q) (q 0%:Q) (q 1%:Q).
Definition mT1 := m2 (q 1%:Q) (q 0%:Q) (q 0%:Q) (q 0%:Q).
Definition d1 : attrs R 2 := Attrs (Some (c2 (q 6%:Q) (q (- 25%:Q / 2%:Q))))
  (Some (Bel dA mV1 mT1)) (Some (Bel mH1 mW1 mT1)) [:: Some s0] [:: Some y0].
Lemma dstart : start dsv dat = Lv (Attrs (Some db) (Some (Bel 1%:M dA 0)) (Some (Bel 1%:M 1%:M 0)) [::] [::])
  (Some (c2 (q (- 1%:Q)) (q 2%:Q))) (Some 0).
Proof.
rewrite /start /dat /= /init !mul1mx; congr (Lv _ (Some _) _).
by rewrite /dA /db; qcongr.
Qed.
Lemma dstep : after dsv dat 1 = Lv d1 (Some (c2 (q 4%:Q) (q 2%:Q))) (Some (q 1%:Q)).
Proof.
rewrite /= dstart (@iterE _ _ _ _ _ _ _ _ _ _ s0 y0 (q 1%:Q) (q 1%:Q) (q 1%:Q)).
- rewrite /d1 /up /=; apply: lv_eq => //; rewrite ?mul1mx /s0 /y0 /dA /db ?m2I ?m2c ?dotp2.
  + by qcongr.
  + by congr Bel; mnorm; rewrite ?dotp2 ?half; qcongr.
  + by congr Bel; mnorm; rewrite ?dotp2 ?half; qcongr.
  + by qcongr.
  + by rewrite (q0 R) (q1 R); qdone.
- by rewrite mul1mx /s0; qcongr.
- by rewrite /y0 /dA /s0 /=; qcongr.
- by rewrite /y0 /s0 dotp2; qdone.
- by rewrite (q0 R); qdone.
- by rewrite /s0 /= /dA m2c dotp2; qdone.
- by rewrite (q0 R); qdone.
- by rewrite /= mul1mx dotp2; qdone.
- by rewrite (q0 R); qdone.
Qed.
Lemma dA_spd : pd dA.
Proof. by apply: pd_m2; rewrite ?expr2 (q0 R); qdone. Qed.
Lemma norm2 n (v : 'cV[R]_n) : norm v ^+ 2 = dotp v v.
Proof. by rewrite /norm sqr_sqrtr // dotpE dt_ge0. Qed.
Local Transparent m2.
Lemma tr2 (a b c d : R) : \tr (m2 a b c d) = a + d.
Proof. by rewrite /m2 mxtrace_block !mxtrace_scalar !mulr1n. Qed.
Local Opaque m2.
(** The tolerances are not met before the second iteration. *)
Lemma dgo0 : converged dsv (l_r (after dsv dat 0)) (o_tr (get_output dsv 0 (after dsv dat 0))) tol tol = None.
Proof.
rewrite [after _ _ _]dstart /=.
have -> : 2%:R^-1 * (dotp (1%:M *m db) db * (\tr (1%:M : 'M[R]_2) - 0) + norm (1%:M *m db) ^+ 2) = q (87%:Q / 8%:Q).
  rewrite norm2 !mul1mx /db !dotp2 m2I tr2 half (q0 R); qdone.
apply: conv_none; rewrite ?tol0 // /dsv /= /db /tol ?dotp2 !expr2; qdone.
Qed.
Lemma done_ mx : (mx <= 1)%N -> 
  (forall j, (j < mx)%N -> converged dsv (l_r (after dsv dat j)) (o_tr (get_output dsv j.-1 (after dsv dat j))) tol tol = None).
Proof. by move=> mx1 [|j] lj; [exact: dgo0|have := leq_trans lj mx1]. Qed.
Lemma drun : solve dsv dat 1 tol tol =
  Result (get_output dsv 0 (after dsv dat 1)) 1 (omap (@norm R 2) (l_r (after dsv dat 1))) Maxiter d1.
Proof. by rewrite (solve_max (done_ (leqnn 1))) [in l_at _]dstep. Qed.

(** One iteration only: the returned covariance factors are those of the prior, which ignore the
    observation, and [trace_sol_cov] is not the trace of the returned covariance. *)
Theorem C108_one_iteration_refuted : exists (A : 'M[R]_2) (b : 'cV[R]_2) (atol : R),
  [/\ pd A, 0 < atol & let r := solve (default_prior A b).1 (default_prior A b).2 1 atol atol in
  [/\ res_iter r = 1%N, exists (s y : 'cV[R]_2), a_S (res_at r) = [:: Some s] /\ a_Y (res_at r) = [:: Some y] /\
        exists V W : 'M[R]_2, [/\ o_V (res_o r) = Some V, o_W (res_o r) = Some W, V *m s != 0 & W *m y != 0]
    & o_tr (res_o r) <> omap mxtrace (o_xcov (res_o r))]].
Proof.
exists dA, db, tol; split; first exact: dA_spd.
  by rewrite /tol (q0 R); qdone.
cbv zeta; rewrite -/dsv -/dat drun dstep /=; split=> //.
  exists s0, y0; split=> //; split=> //; exists dA, 1%:M; split=> //.
    rewrite /dA /s0 m2c; apply/eqP; rewrite c20 => /c2_inj [] /eqP + _; apply/negP; rewrite (q0 R); qdone.
  rewrite mul1mx /y0; apply/eqP; rewrite c20 => /c2_inj [] /eqP + _; apply/negP; rewrite (q0 R); qdone.
case; rewrite norm2 !mul1mx /db m2I; mnorm; rewrite !dotp2 !tr2 half; mnorm; rewrite ?tr2.
apply/eqP; qdone.
Qed.

(** The mean of the returned solution is not the mean of the inverse times the right-hand side. *)
Theorem C109_solution_mean_refuted : exists (A : 'M[R]_2) (b : 'cV[R]_2) (atol : R),
  [/\ pd A, 0 < atol & let r := solve (default_prior A b).1 (default_prior A b).2 1 atol atol in
   exists x H, [/\ res_iter r = 1%N, o_x (res_o r) = Some x, o_H (res_o r) = Some H & x != H *m b]].
Proof.
exists dA, db, tol; split; first exact: dA_spd.
  by rewrite /tol (q0 R); qdone.
cbv zeta; rewrite -/dsv -/dat drun dstep /=.
exists (c2 (q 6%:Q) (q (- 25%:Q / 2%:Q))), mH1; split=> //.
by rewrite /mH1 /db m2c; apply/eqP => /c2_inj [_] /eqP; apply/negP; qdone.
Qed.

(** The second iteration, after one call of [solve] and within the same call. *)
Definition y1 := c2 (q 12%:Q) (q 6%:Q).
Definition s1_ := c2 (q 0%:Q) (q 6%:Q).
Lemma dstep2 k : exists l, iterate dsv k (Lv d1 (Some (c2 (q 4%:Q) (q 2%:Q))) (Some (q (if k is 0 then 0%:Q else 1%:Q)))) = l /\
  [/\ a_S (l_at l) = [:: Some s0; Some s1_], a_Y (l_at l) = [:: Some y0; Some y1],
      exists2 x, a_x (l_at l) = Some x & dA *m x = db
    & exists p p', [/\ a_A (l_at l) = Some p', a_H (l_at l) = Some p &
      cov p = if k is 0 then m2 (q 1%:Q) (q 0%:Q) (q 0%:Q) (q 0%:Q) else 0]].
Proof.
eexists; split; first by reflexivity.
rewrite (@iterE _ _ _ _ _ _ _ _ _ _ s1_ y1 (q 36%:Q) (q 36%:Q) (q 36%:Q)).
- split=> //=.
    eexists; first by reflexivity.
    by rewrite /s1_ /db /dA !dotp2; qcongr.
  do 2 eexists; split; try by reflexivity.
  rewrite /up /= /mW1 /y1 /mT1 m2I; case: k => [|k]; rewrite /= ?m2O; qcongr.
- by rewrite /= /mH1 /s1_; qcongr.
- by rewrite /= /dA /s1_ /y1; qcongr.
- by rewrite /s1_ /y1 dotp2; qdone.
- by rewrite (q0 R); qdone.
- by rewrite /= /mV1 /s1_ m2c dotp2; qdone.
- by rewrite (q0 R); qdone.
- by rewrite /= /mW1 /y1 m2c dotp2; qdone.
- by rewrite (q0 R); qdone.
Qed.

(** Solving a second time: the covariance factor forgets the observations of the first call. *)
Theorem C111_second_call_refuted : exists (A : 'M[R]_2) (b : 'cV[R]_2) (atol : R),
  [/\ pd A, 0 < atol & let sv := (default_prior A b).1 in
   let r := solve sv (res_at (solve sv (default_prior A b).2 1 atol atol)) 1 atol atol in
   exists y y' p, [/\ a_Y (res_at r) = [:: Some y; Some y'], a_H (res_at r) = Some p & cov p *m y != 0]].
Proof.
exists dA, db, tol; split; first exact: dA_spd.
  by rewrite /tol (q0 R); qdone.
cbv zeta; rewrite -/dsv -/dat drun /=.
have e0 : after dsv d1 0 = Lv d1 (Some (c2 (q 4%:Q) (q 2%:Q))) (Some (q 0%:Q)).
  by rewrite /= /start /=; congr (Lv _ (Some _) (Some _)); [rewrite /dA /db; qcongr|exact: q0].
have h j : (j < 1)%N -> converged dsv (l_r (after dsv d1 j)) (o_tr (get_output dsv j.-1 (after dsv d1 j))) tol tol = None.
  case: j => // _; rewrite e0 /=.
  have -> : 2%:R^-1 * (dotp (1%:M *m db) db * (\tr (1%:M : 'M[R]_2) - q 0%:Q) + norm (1%:M *m db) ^+ 2) = q (87%:Q / 8%:Q).
    rewrite norm2 !mul1mx /db !dotp2 m2I tr2 half; qdone.
  apply: conv_none; rewrite ?tol0 // /dsv /= /db /tol ?dotp2 !expr2; qdone.
rewrite (solve_max h) -[after dsv d1 1]/(iterate dsv 0 (after dsv d1 0)) e0; have [l [-> [eS eY _ [p [p' [_ ep cp]]]]]] := dstep2 0.
exists y0, y1, p; split=> //; rewrite cp /y0 m2c; apply/eqP; rewrite c20 => /c2_inj [] /eqP + _.
apply/negP; rewrite (q0 R); qdone.
Qed.

(** C36: two iterations in two dimensions with finite numbers. *)
Example C36_case : exists mx, let r := solve dsv dat mx tol tol in
  [/\ res_iter r = 2%N, mx = 2%N, exists2 x, o_x (res_o r) = Some x & dA *m x = db,
      exists V, o_V (res_o r) = Some V & o_W (res_o r) = Some 0].
Proof.
exists 2%N; cbv zeta.
have h j : (j < 2)%N -> converged dsv (l_r (after dsv dat j)) (o_tr (get_output dsv j.-1 (after dsv dat j))) tol tol = None.
  case: j => [|[|]] // _; first exact: dgo0.
  rewrite dstep /=.
  have -> : 2%:R^-1 * (dotp (1%:M *m db) db * (\tr (1%:M : 'M[R]_2) - q 1%:Q) + norm (1%:M *m db) ^+ 2) = q (29%:Q / 4%:Q).
    rewrite norm2 !mul1mx /db !dotp2 m2I tr2 half; qdone.
  apply: conv_none; rewrite ?tol0 // /dsv /= /db /tol ?dotp2 !expr2; qdone.
rewrite (solve_max h) -[after dsv dat 2]/(iterate dsv 1 (after dsv dat 1)) dstep.
have [l [-> [eS eY [x ex xb] [p [p' [eA ep cp]]]]]] := dstep2 1.
rewrite /get_output /= ex eA ep /= cp; split=> //; first by exists x.
by exists (cov p').
Qed.

(** The default prior can break down on a symmetric positive definite system. *)
Definition bA := m2 (q 2%:Q) (q 1%:Q) (q 1%:Q) (q 1%:Q).
Definition bb := c2 (q 1%:Q) (q (- 2%:Q)).
Definition bsv := (default_prior bA bb).1.
Definition bat := (default_prior bA bb).2.
Lemma bstart : start bsv bat = Lv (Attrs (Some bb) (Some (Bel 1%:M bA 0)) (Some (Bel 1%:M 1%:M 0)) [::] [::])
  (Some (c2 (q (- 1%:Q)) (q 1%:Q))) (Some 0).
Proof.
rewrite /start /bat /= /init !mul1mx; congr (Lv _ (Some _) _).
by rewrite /bA /bb; qcongr.
Qed.
Lemma bstep : exists pA pH, after bsv bat 1 = Lv (Attrs (Some (c2 (q 3%:Q) (q (- 4%:Q)))) (Some pA) (Some pH)
  [:: Some (c2 (q 1%:Q) (q (- 1%:Q)))] [:: Some (c2 (q 1%:Q) (q 0%:Q))]) (Some (c2 (q 1%:Q) (q 1%:Q))) (Some (q 1%:Q))
  /\ mean pH *m c2 (q 1%:Q) (q 1%:Q) = 0.
Proof.
rewrite /= bstart (@iterE _ _ _ _ _ _ _ _ _ _ (c2 (q 1%:Q) (q (- 1%:Q))) (c2 (q 1%:Q) (q 0%:Q)) (q 1%:Q) (q 1%:Q) (q 1%:Q)).
- do 2 eexists; split.
    apply: lv_eq; try by reflexivity.
    + by rewrite /bb dotp2; qcongr.
    + by rewrite dotp2; qcongr.
    + by rewrite /= mul1mx dotp2 (q0 R) (q1 R); qdone.
  by rewrite /up /= m2I; mnorm; rewrite dotp2 half; mnorm; rewrite c20 (q0 R); apply: c2_eq; qdone.
- by rewrite mul1mx; qcongr.
- by rewrite /bA /=; qcongr.
- by rewrite dotp2; qdone.
- by rewrite (q0 R); qdone.
- by rewrite /= /bA m2c dotp2; qdone.
- by rewrite (q0 R); qdone.
- by rewrite /= mul1mx dotp2; qdone.
- by rewrite (q0 R); qdone.
Qed.
Lemma bnan k : let l := after bsv bat k.+2 in [/\ a_x (l_at l) = None, l_r l = None & l_tr l = None].
Proof.
elim: k => [|k]; cbv zeta.
  have [pA [pH [e z]]] := bstep; rewrite -[after _ _ 2]/(iterate bsv 1 (after bsv bat 1)) e /iterate /= z oppr0.
  by rewrite /bupd !(mulmx0, dotpE, dt0r, eqxx).
rewrite -[after _ _ k.+3]/(iterate bsv k.+2 (after bsv bat k.+2)).
by move: (after bsv bat k.+2) => [[x pA pH S Y] r tr] /= [-> -> ->]; case: pH => //= p; split.
Qed.
Theorem C110_breakdown_refuted : exists (A : 'M[R]_2) (b : 'cV[R]_2) (atol : R),
  [/\ pd A, 0 < atol & forall mx, (2 <= mx)%N ->
   let r := solve (default_prior A b).1 (default_prior A b).2 mx atol atol in
   [/\ o_x (res_o r) = None, res_norm r = None & res_iter r = mx]].
Proof.
exists bA, bb, tol; split.
- by apply: pd_m2; rewrite ?expr2 (q0 R); qdone.
- by rewrite /tol (q0 R); qdone.
move=> mx mx2; cbv zeta; rewrite -/bsv -/bat.
have h j : (j < mx)%N -> converged bsv (l_r (after bsv bat j)) (o_tr (get_output bsv j.-1 (after bsv bat j))) tol tol = None.
  case: j => [|[|j]] _.
  - rewrite [after _ _ _]bstart /=.
    have -> : 2%:R^-1 * (dotp (1%:M *m bb) bb * (\tr (1%:M : 'M[R]_2) - 0) + norm (1%:M *m bb) ^+ 2) = q (15%:Q / 2%:Q).
      rewrite norm2 !mul1mx /bb !dotp2 m2I tr2 half (q0 R); qdone.
    apply: conv_none; rewrite ?tol0 // /bsv /= /bb /tol ?dotp2 !expr2; qdone.
  - have [pA [pH [-> _]]] := bstep; rewrite /=.
    have -> : 2%:R^-1 * (dotp (1%:M *m bb) bb * (\tr (1%:M : 'M[R]_2) - q 1%:Q) + norm (1%:M *m bb) ^+ 2) = q 5%:Q.
      rewrite norm2 !mul1mx /bb !dotp2 m2I tr2 half; qdone.
    apply: conv_none; rewrite ?tol0 // /bsv /= /bb /tol ?dotp2 !expr2; qdone.
  have [h1 h2 h3] := bnan j.
  have -> : o_tr (get_output bsv j.+2.-1 (after bsv bat j.+2)) = None.
    by move: (after bsv bat j.+2) h3 => l h3; rewrite /get_output /= h3; case: (a_H _).
  by rewrite h2.
rewrite (solve_max h); case: mx mx2 h => [|[|k]] // _ _.
by have [h1 h2 h3] := bnan k; rewrite /get_output h1 h2.
Qed.

(** A guess with [b.x0 < 0]: the prior mean of the inverse maps [b] to [-x0], the solution starts
    at [x0]. *)
Theorem C112_guess_refuted : exists (A : 'M[R]_2) (b x0 : 'cV[R]_2) sv t H,
  [/\ pd A, guess_prior A b x0 = Some (sv, t), omap (@mean R 2) (a_H t) = Some H, a_x t = Some x0 & H *m b != x0].
Proof.
pose x0 := c2 (q (- 1%:Q)) (q 0%:Q).
have neg : L_LinSolve.dt y0 x0 < 0 by rewrite -dotpE /y0 /x0 dotp2 (q0 R); qdone.
have [h _ _] := C37_otherwise dA y0 x0; have [M [H [e [eb _ _]]]] := h neg.
exists dA, y0, x0, (Solver dA y0 dA H), (init M dA H H y0 (Some x0)), H; split=> //.
- exact: dA_spd.
- by rewrite /guess_prior e.
rewrite eb /x0 c2N; apply/eqP => /c2_inj [] /eqP + _; apply/negP; qdone.
Qed.
(** C37: a guess with [b.x0 > 0]. *)
Example C37_case : 0 < L_LinSolve.dt db y0.
Proof. by rewrite -dotpE /y0 /db dotp2 (q0 R); qdone. Qed.
End Runs.
Print Assumptions C108_one_iteration_refuted.
Print Assumptions C109_solution_mean_refuted.
Print Assumptions C110_breakdown_refuted.
Print Assumptions C111_second_call_refuted.
Print Assumptions C112_guess_refuted.
