(** Lemmas on diffusion models and the Gaussian ODE filter, and their specification. *)
From mathcomp Require Import all_ssreflect all_algebra.
From Verif Require Import L_Zmod M_Gauss L_Kalman L_Filter L_SSMExists M_Sqrt L_Sqrt P_Sqrt M_Series L_Series.
From Verif Require Import M_ODEFilter.
Set Implicit Arguments.
Unset Strict Implicit.
Unset Printing Implicit Defensive.
Import Order.Theory GRing.Theory Num.Theory.
Local Open Scope ring_scope.
Local Arguments cholesky_update : simpl never.

(** ** Diffusion models *)
Section Diffusion.
Variable R : rcfType.
Implicit Types (es : seq (R * R)).

(** Updates with (time, estimate) pairs, in this order. *)
Definition d_updates (dm : diffusion R) es := foldl (fun dm te => d_update dm te.2 te.1) dm es.

Lemma updates_cons dm te es : d_updates dm (te :: es) = d_updates (d_update dm te.2 te.1) es.
Proof. by []. Qed.

Lemma const_updates_aux v k es : (0 < k)%N ->
  d_updates (ConstD (Some v) k.+1) es
  = ConstD (Some ((v * k%:R + \sum_(te <- es) te.2) / (k + size es)%:R)) (k.+1 + size es).
Proof.
elim: es v k => [|te es IH] v k k0.
  by rewrite big_nil addr0 !addn0 mulfK // pnatr_eq0 -lt0n.
rewrite updates_cons IH // big_cons -!addSnnS /=; congr (ConstD (Some (_ / _)) _).
have nz : k.+1%:R != 0 :> R by rewrite pnatr_eq0.
rewrite addrA; congr (_ + _); set a := 1 / _.
have aK : a * k.+1%:R = 1 by rewrite divfK.
rewrite [LHS]mulrDl [a * te.2]mulrC -mulrA aK mulr1 mulrAC mulrBl mul1r aK mulrSr addrK.
by rewrite addrC mulrC.
Qed.

Lemma const_updates te es :
  d_updates (new_constant R) (te :: es)
  = ConstD (Some (if es is [::] then te.2 else (\sum_(te <- es) te.2) / (size es)%:R)) (size es).+1.
Proof.
case: es => // te' es; rewrite !updates_cons /= divr1 subrr mul0r addr0 mul1r const_updates_aux // big_cons !add1n mulr1.
by [].
Qed.

Lemma piece_updates locs diffs es :
  d_updates (PieceD locs diffs) es = PieceD (locs ++ unzip1 es) (diffs ++ unzip2 es).
Proof.
elim: es locs diffs => [|[t e] es IH] locs diffs; first by rewrite !cats0.
by rewrite updates_cons IH /= !cat_rcons.
Qed.

Lemma search_between (l : seq R) k t : sorted <=%O l -> (k.+1 < size l)%N ->
  nth 0 l k < t <= nth 0 l k.+1 -> searchsorted l t = k.+1.
Proof.
rewrite /searchsorted; elim: l k => //= x l IH k so; rewrite ltnS => lt /andP[l1 l2].
have xt : (t <= x) = false.
  apply/negbTE; rewrite -ltNge; apply: le_lt_trans l1; case: k lt l2 => //= k lt _.
  by have /allP := order_path_min le_trans so; apply; apply: mem_nth; apply: ltnW.
rewrite xt; congr _.+1; case: k lt l1 l2 => [|k] lt l1 l2.
  by case: l lt l2 {IH so l1} => //= y l _ ->.
by apply: IH (path_sorted so) _ _ => //; rewrite l1 l2.
Qed.

Section Call.
Variables (locs diffs : seq R).
Hypotheses (so : sorted <=%O locs) (sz : size locs = (size diffs).+1) (ne : diffs != [::]).
Let sz1 : (size locs <= 1)%N = false.
Proof. by rewrite sz ltnS leqn0 size_eq0 (negbTE ne). Qed.
Let d0 : (0 < size diffs)%N. Proof. by rewrite lt0n size_eq0. Qed.
Let lastE : last 0 locs = nth 0 locs (size diffs).
Proof. by rewrite -nth_last sz. Qed.
Let dlast : at_pred diffs 0 = Some (last 0 diffs).
Proof. by rewrite /at_pred prednK // leqnn nth_last. Qed.

Lemma call_after t : last 0 locs < t -> d_call (PieceD locs diffs) t = Some (last 0 diffs).
Proof. by rewrite /d_call sz1 => ->. Qed.
Lemma head_last : head 0 locs <= last 0 locs.
Proof.
case: locs so sz => //= x l px _; have /allP H := order_path_min le_trans px.
by have := mem_last x l; rewrite inE => /predU1P[->//|/H].
Qed.
Lemma call_before t : t < head 0 locs -> d_call (PieceD locs diffs) t = Some (head 0 diffs).
Proof.
move=> lt; rewrite /d_call sz1 lt ltNge (le_trans (ltW lt) head_last) /=.
by rewrite /at_pred d0 nth0.
Qed.
Lemma call_first : d_call (PieceD locs diffs) (head 0 locs) = Some (last 0 diffs).
Proof.
rewrite /d_call sz1 ltNge head_last ltxx /= -dlast; congr at_pred.
by case: locs sz => //= x l _; rewrite /searchsorted /= lexx.
Qed.
Lemma call_between k t : (k < size diffs)%N -> nth 0 locs k < t <= nth 0 locs k.+1 ->
  d_call (PieceD locs diffs) t = Some (nth 0 diffs k).
Proof.
move=> lt bt; have kz : (k.+1 < size locs)%N by rewrite sz ltnS.
rewrite /d_call sz1 (search_between so kz bt) /at_pred lt.
case/andP: bt => b1 b2.
have -> : (last 0 locs < t) = false.
  apply/negbTE; rewrite -leNgt lastE; apply: le_trans b2 _.
  by apply: (le_sorted_leq_nth 0 so) => //; rewrite inE ?sz.
have -> // : (t < head 0 locs) = false.
apply/negbTE; rewrite -leNgt -nth0; apply: ltW; apply: le_lt_trans b1.
by apply: (le_sorted_leq_nth 0 so) => //; rewrite inE ?sz // ltnW.
Qed.
End Call.
End Diffusion.

(** ** One step *)
Section Spec.
Variable R : rcfType.

(** The mean of the squares of the whitened coordinates of [z]. *)
Definition qmle d (C : 'M[R]_d) (z : 'cV[R]_d) : option R :=
  if C \in unitmx then Some ((z^T *m invmx C *m z) 0 0 / d%:R) else None.

Lemma invmx_unique d (C D : 'M[R]_d) : C *m D = 1%:M -> invmx C = D.
Proof. by move=> E; have [u _] := mulmx1_unit E; rewrite -[invmx C]mulmx1 -E mulKmx. Qed.
Lemma inv_gram d (L : 'M[R]_d) : L \in unitmx ->
  invmx (L *m L^T) = (invmx L)^T *m invmx L.
Proof.
move=> u; apply: invmx_unique.
by rewrite -mulmxA [L^T *m _]mulmxA -trmx_mul mulVmx // trmx1 mul1mx mulmxV.
Qed.
Lemma quasi_mleE d (m : snormal R d) : factored m -> quasi_mle m = qmle (s_cov m) (s_mean m).
Proof.
move=> fM; rewrite /quasi_mle /qmle -fM unit_gram; case: ifP => // u.
by rewrite inv_gram // trmx_mul !mulmxA.
Qed.
Lemma quasi_mle_ge0 d (m : snormal R d) s : quasi_mle m = Some s -> 0 <= s.
Proof.
rewrite /quasi_mle; case: ifP => // _ [<-]; rewrite divr_ge0 ?ler0n //.
exact: L_Kalman.dot_ge0.
Qed.

Lemma qmle_ge0 d (C : 'M[R]_d) z e : psd C -> qmle C z = Some e -> 0 <= e.
Proof.
move=> [sC pC]; rewrite /qmle; case: ifP => // u [<-]; rewrite divr_ge0 ?ler0n //.
have := pC (invmx C *m z); rewrite /qform trmx_mul trmx_inv sC !mulmxA.
by rewrite -[_ *m C *m _]mulmxA mulmxV // mulmx1.
Qed.

(** [EK] step: from the state [rv], with the prior transition [dyn] and diffusion [s], to
    the law given that the residual, linearised at the predicted mean, is zero. *)
Section Step.
Variables (qr : qr_fun R) (n d k : nat).
Hypothesis HQ : forall p q (B : 'M[R]_(p, q)), is_qr_r B (@qr _ _ B).
Hypothesis dn : (d <= n)%N.
Variables (S : odefilter R n d k) (dm : diffusion R) (t dt : R) (rv : snormal R n).

Definition predicted (dyn : slingauss R n n) s (rv : normal R n) : normal R n :=
  Normal (s_tmat dyn *m mean rv + s_shift dyn)
         (s_tmat dyn *m cov rv *m (s_tmat dyn)^T + s *: s_ncov dyn).
Definition step_law_at (u : option R) (S : odefilter R n d k) s (t t' : R) (rv : normal R n)
  : option (normal R n) :=
  let p := predicted (of_dyn S (t' - t)) s rv in
  bwd_classic (classicT (linearize (of_meas S) (mean p) u)) 1 (constant 0) p None.
Definition step_law S s t t' rv := step_law_at (Some t') S s t t' rv.

Let dyn := of_dyn S dt.
Let x1 := s_tmat dyn *m s_mean rv + s_shift dyn.
Let H := nl_jac (of_meas S) (Some (t + dt)) x1.
Let z := nl_fun (of_meas S) (Some (t + dt)) x1.
Let S0 := H *m s_ncov dyn *m H^T.
Let S1 := H *m (s_tmat dyn *m s_cov rv *m (s_tmat dyn)^T) *m H^T.
Definition estimate : option R :=
  match dm with
  | ConstD _ _ => qmle (S0 + S1) z
  | PieceD locs _ => if last 0 locs <= t + dt then qmle S0 z else None
  end.

Hypotheses (fR : factored rv) (fD : factoredT dyn).
Hypothesis noise0 : forall t, nl_noise (of_meas S) t = sconstant 0.
Hypothesis auto : nl_jac (of_meas S) None x1 = H.

Let sq0 (s : R) : 0 <= s -> Num.sqrt s * Num.sqrt s = s.
Proof. by move=> s0; rewrite -expr2 sqr_sqrtr. Qed.

Lemma fwd_pred_ef : exists f, [/\ fwd_sqrt qr Num.sqrt dyn 1 (sconstant (s_mean rv)) = Some f,
  s_mean f = x1, s_cov f = s_ncov dyn & factored f].
Proof.
have f0 : factored (sconstant (s_mean rv)) by rewrite /factored /= mul0mx.
have [f [f1 f2 f3 _]] := fwd_sqrt_classic fD f0 (sq0 ler01) (leqnn n) (HQ _).
case: f2 => e1 e2; exists f; split=> //.
by rewrite e2 /fwd_crosscov /= mul0mx mulmx0 add0r scale1r.
Qed.

Let lin := linearize (of_meas S) x1 (Some (t + dt)).
Let linE : lin = SLinGauss H (z - H *m x1) 0 0.
Proof. by rewrite /lin /linearize noise0 /= addr0. Qed.

Lemma fwd_meas_ef pred : s_mean pred = x1 -> s_cov pred = s_ncov dyn -> factored pred ->
  exists f, [/\ fwd_sqrt qr Num.sqrt lin 1 pred = Some f,
    s_mean f = z, s_cov f = S0 & factored f].
Proof.
move=> m1 c1 f0; have fL : factoredT lin by rewrite linE /factoredT /= mul0mx.
have [f [f1 f2 f3 _]] := fwd_sqrt_classic fL f0 (sq0 ler01) dn (HQ _).
rewrite linE in f2; case: f2 => e1 e2; exists f; split=> //.
  by rewrite e1 m1 addrC subrK.
by rewrite e2 /fwd_crosscov /= c1 scaler0 addr0 mulmxA.
Qed.

(** Cholesky updates of scaled factors. *)
Lemma update_scaled p (L : 'M[R]_p) q (B : 'M[R]_(p, q)) s : 0 <= s ->
  exists L', cholesky_update qr (Num.sqrt s *: L) (Some B) = Some L'
    /\ is_cholesky L' (s *: (L *m L^T) + B *m B^T).
Proof.
move=> s0; have [L' [E C]] := update_ok (leqnn p) (HQ (col_mx (Num.sqrt s *: L)^T B^T)).
exists L'; split=> //; move: C; rewrite trmxZ -scalemxAl -scalemxAr scalerA sq0 //.
Qed.

Lemma attempt_spec :
  match estimate with
  | None => attempt_step qr S dm t rv dt = None
  | Some s =>
      let err := \col_i (Num.sqrt s * Num.sqrt (S0 i i)) in
      let ref := \col_i `|(of_proj S *m s_mean rv) i 0| in
      if of_accept S err ref then
        match step_law_at None S (if dynamic dm then s else 1) t (t + dt) (classic rv) with
        | None => attempt_step qr S dm t rv dt = None
        | Some f => exists rv',
            [/\ attempt_step qr S dm t rv dt
                 = Some (Accepted (t + dt) rv' err ref (d_update dm s t)),
                classic rv' = f & is_cholesky (s_chol rv') (s_cov rv')]
        end
      else attempt_step qr S dm t rv dt = Some (Rejected _ (t + dt) err ref)
  end.
Proof.
have [pe [pE pm pc pf]] := fwd_pred_ef.
have [me [mE mm mc mf]] := fwd_meas_ef pm pc pf.
rewrite /attempt_step -/dyn pE /= pm -/lin mE /= -/H.
set PS := s_tmat dyn *m s_chol rv; set MS := H *m PS.
have MSE : MS *m MS^T = S1.
  by rewrite /MS /PS /S1 -fR !trmx_mul !mulmxA.
have PSE : PS *m PS^T = s_tmat dyn *m s_cov rv *m (s_tmat dyn)^T.
  by rewrite /PS -fR !trmx_mul !mulmxA.
have [Lm [LmE LmC]] := update_ok (leqnn d) (HQ (col_mx (s_chol me)^T MS^T)).
rewrite LmE /=.
have LmG : Lm *m Lm^T = S0 + S1 by case: LmC => _ _ ->; rewrite mf mc MSE.
have -> : d_estimate dm (SNormal (s_mean me) (Lm *m Lm^T) Lm) me (t + dt) = estimate.
  rewrite /d_estimate /estimate; case: dm => [v seen|locs diffs].
    by rewrite quasi_mleE //= LmG mm.
  by case: ifP => // _; rewrite quasi_mleE // mc mm.
case sE: estimate => [s|] //=.
have s0 : 0 <= s.
  move: sE; rewrite /estimate; case: dm => [v seen|locs diffs].
    by rewrite -LmG -mm -(@quasi_mleE _ (SNormal (s_mean me) (Lm *m Lm^T) Lm)) //; apply: quasi_mle_ge0.
  by case: ifP => // _; rewrite -mc -mm -quasi_mleE //; apply: quasi_mle_ge0.
rewrite mc; set err := \col_i _; set ref := \col_i _.
case: (of_accept S err ref) => //=.
set sg := if dynamic dm then s else 1.
have sg0 : 0 <= sg by rewrite /sg; case: ifP => _ //; apply: ler01.
have -> : (if dynamic dm then Num.sqrt s *: s_chol pe else s_chol pe) = Num.sqrt sg *: s_chol pe.
  by rewrite /sg; case: (dynamic dm) => //; rewrite sqrtr1 scale1r.
have [Lp [-> [_ _ LpG]]] := update_scaled (s_chol pe) PS sg0.
have [Lm' [-> LmG']] : exists L, (if dynamic dm then
    cholesky_update qr (Num.sqrt s *: s_chol me) (Some MS) else Some Lm) = Some L
  /\ L *m L^T = sg *: S0 + S1.
  rewrite /sg; case: (dynamic dm); last by exists Lm; rewrite scale1r.
  have [L [-> [_ _ LG]]] := update_scaled (s_chol me) MS s0.
  by exists L; rewrite LG mf mc MSE.
rewrite /=; set pred := SNormal x1 (Lp *m Lp^T) Lp.
have pG : s_cov pred = s_tmat dyn *m s_cov rv *m (s_tmat dyn)^T + sg *: s_ncov dyn.
  by rewrite /= LpG pf pc PSE addrC.
have predE : classic pred = predicted dyn sg (classic rv).
  by rewrite /classic pG.
pose lin0 := linearize (of_meas S) x1 None.
have linE0 : lin0 = SLinGauss H (nl_fun (of_meas S) None x1 - H *m x1) 0 0.
  by rewrite /lin0 /linearize noise0 /= auto addr0.
have gE : chol_gain Lm' (s_cov pred *m H^T) = gain_classic (classicT lin0) 1 (classic pred).
  rewrite /gain_classic.
  have -> : cov (fwd_classic (classicT lin0) 1 (classic pred)) = Lm' *m Lm'^T.
    rewrite LmG' linE0 /= /fwd_crosscov /= scaler0 addr0 LpG pf pc PSE.
    by rewrite mulmxDl mulmxDr /S0 /S1 -scalemxAl -scalemxAr !mulmxA.
  rewrite trmx_mul trmxK unit_gram /chol_gain linE0 //.
rewrite /ekf_backward /lin_point -[Lp *m Lp^T *m H^T]/(s_cov pred *m H^T) gE -/lin0.
have fL : factoredT lin0 by rewrite linE0 /factoredT /= mul0mx.
have fP : factored pred by [].
have fO : factored (sconstant (0 : 'cV[R]_d)) by rewrite /factored /= mul0mx.
rewrite /step_law_at [t + dt - t]addrAC subrr add0r -/dyn -predE.
case gC: gain_classic => [g|] /=; last by rewrite gC.
have [E C] := bwd_sqrt_classic (gain := Some g) HQ fL fP fO (sq0 ler01)
  (or_intror (conj (esym gC) isT)).
move: E C; rewrite /bwd_classic gC.
case: bwd_sqrt => [f|] //= /Some_inj E C; exists f; split=> //; exact: C.
Qed.
End Step.

(** ** Runs *)
Section Runs.
Variables (qr : qr_fun R) (n d k : nat).
Hypothesis HQ : forall p q (B : 'M[R]_(p, q)), is_qr_r B (@qr _ _ B).
Variable S : odefilter R n d k.

(** The dimensions fit, the prior's noise covariances come with square roots, the
    information operator has no noise and its ODE does not depend on time. *)
Record proper : Prop := Proper {
  pr_dim : (d <= n)%N;
  pr_dyn : forall dt, 0 < dt -> factoredT (of_dyn S dt);
  pr_noise : forall t, nl_noise (of_meas S) t = sconstant 0;
  pr_auto : forall t x, nl_fun (of_meas S) None x = nl_fun (of_meas S) (Some t) x
                        /\ nl_jac (of_meas S) None x = nl_jac (of_meas S) (Some t) x }.
Hypothesis pS : proper.

(** The scale estimate of the step from [t] to [t']: of the residual at the predicted mean,
    relative to its covariance if the state at [t] is exact ([dyn]) or not. *)
Definition local_scale (dyn : bool) (t t' : R) (rv : normal R n) : option R :=
  let p := predicted (of_dyn S (t' - t)) 1 rv in
  let H := nl_jac (of_meas S) (Some t') (mean p) in
  qmle (H *m (if dyn then s_ncov (of_dyn S (t' - t)) else cov p) *m H^T)
       (nl_fun (of_meas S) (Some t') (mean p)).
Definition step_ok (dyn : bool) (t t' : R) (rv rv' : snormal R n) (e : R) : Prop :=
  [/\ t < t', local_scale dyn t t' (classic rv) = Some e,
      step_law S (if dyn then e else 1) t t' (classic rv) = Some (classic rv')
    & is_cholesky (s_chol rv') (s_cov rv')].

(** States, latest first, with the estimates of the steps between them. *)
Fixpoint chain (dyn : bool) (t0 : R) (rv0 : snormal R n) (es : seq R) (st : seq (R * snormal R n))
  : Prop :=
  match st, es with
  | [:: x], [::] => x = (t0, rv0)
  | x' :: ((x :: _) as st'), e :: es' =>
      step_ok dyn x.1 x'.1 x.2 x'.2 e /\ chain dyn t0 rv0 es' st'
  | _, _ => False
  end.

Lemma estimateE dm t dt rv : (if dm is PieceD locs _ then last 0 locs <= t + dt else true) ->
  estimate S dm t dt rv = local_scale (dynamic dm) t (t + dt) (classic rv).
Proof.
rewrite /local_scale [t + dt - t]addrAC subrr add0r.
case: dm => [v seen|locs diffs] /= H; last by rewrite H.
by rewrite scale1r mulmxDr mulmxDl [in RHS]addrC.
Qed.

Lemma local_scale_ge0 dyn t t' rv e : t < t' -> psd (cov rv) ->
  local_scale dyn t t' rv = Some e -> 0 <= e.
Proof.
move=> lt pv; rewrite /local_scale; set D := of_dyn S _; apply: qmle_ge0.
have pD : psd (s_ncov D).
  by rewrite -(pr_dyn pS) ?subr_gt0 //; apply: psd_gram.
apply: psd_conj; case: dyn => //=; apply: psdD; first exact: psd_conj.
by rewrite scale1r.
Qed.

Lemma attempt_accepted dm t rv dt t' rv' err ref dm' : 0 < dt -> factored rv ->
  attempt_step qr S dm t rv dt = Some (Accepted t' rv' err ref dm') ->
  exists e, [/\ step_ok (dynamic dm) t t' rv rv' e, t' = t + dt & dm' = d_update dm e t].
Proof.
move=> dt0 fR E.
have fL x : nl_jac (of_meas S) None x = nl_jac (of_meas S) (Some (t + dt)) x.
  by have [] := pr_auto pS (t + dt) x.
have fS u rv0 : step_law_at None S u t (t + dt) rv0 = step_law S u t (t + dt) rv0.
  by rewrite /step_law /step_law_at /linearize !(pr_noise pS) fL; set x := mean (predicted _ _ _); have [-> _] := pr_auto pS (t + dt) x.
have := attempt_spec HQ (pr_dim pS) dm fR (pr_dyn pS dt0) (pr_noise pS) (fL _).
case sE: estimate => [s|]; last by rewrite E.
move=> /=; case: ifP => _; last by rewrite E.
rewrite fS; case lE: step_law => [f|]; last by rewrite E.
move=> [f' []]; rewrite E => -[-> -> _ _ ->] fE fC; exists s; split=> //.
split=> //; first by rewrite ltr_addl.
- rewrite -estimateE //; move: sE; rewrite /estimate; case: (dm) => // locs diffs.
  by case: ifP.
- by rewrite lE fE.
Qed.

Lemma chain_factored dyn t0 rv0 es x st : factored rv0 -> chain dyn t0 rv0 es (x :: st) -> factored x.2.
Proof.
case: st => [|y st] f0 /=; first by case: es => // ->.
by case: es => // e es [[_ _ _ [_ _ C]] _].
Qed.

Lemma chain_ge0 dyn t0 rv0 es st : factored rv0 -> chain dyn t0 rv0 es st ->
  all (fun e => 0 <= e) es.
Proof.
move=> f0; elim: st es => [|x' [|x st] IH] [|e es] // C.
have [[l1 l2 _ _] C'] : step_ok dyn x.1 x'.1 x.2 x'.2 e /\ chain dyn t0 rv0 es (x :: st) by [].
rewrite /= IH // andbT; apply: local_scale_ge0 l1 _ l2.
by rewrite /= -(chain_factored f0 C'); apply: psd_gram.
Qed.

(** What a run leaves behind. *)
Definition is_run dm0 t0 rv0 (p : progress R n) (es : seq R) : Prop :=
  chain (dynamic dm0) t0 rv0 es (p_states p)
  /\ p_diff p = d_updates dm0 (rev (zip (unzip1 (behead (p_states p))) es)).

Lemma dynamic_updates dm (es : seq (R * R)) : dynamic (d_updates dm es) = dynamic dm.
Proof. by elim: es dm => // te es IH dm; rewrite updates_cons IH; case: dm. Qed.
Lemma updates_rcons dm es te :
  d_updates dm (rcons es te) = d_update (d_updates dm es) te.2 te.1 :> diffusion R.
Proof. by rewrite /d_updates -cats1 foldl_cat. Qed.

Lemma attempts_run dm0 t0 rv0 dts p : factored rv0 -> all (fun dt => 0 < dt) dts ->
  attempts qr S t0 rv0 dm0 dts = Some p -> exists es, is_run dm0 t0 rv0 p es.
Proof.
move=> f0; rewrite /attempts.
have : exists es, is_run dm0 t0 rv0 (Prog [:: (t0, rv0)] dm0) es by exists [::].
move: (Prog _ _) => q; elim: dts q => [|dt dts IH] q /=; first by move=> ? _ [<-].
case=> es [cq dq] /andP[dt0 dts0].
have none l : foldl (attempt1 qr S) None l = None by elim: l.
case: q cq dq => -[|[t rv] st] dm /= cq dq; first by rewrite none.
case aE: attempt_step => [[t' err ref|t' rv' err ref dm']|] /=; last by rewrite none.
  by apply: IH => //; exists es.
apply: IH => //; have fR := chain_factored f0 cq.
have [e [ok _ ->]] := attempt_accepted dt0 fR aE.
exists (e :: es); split.
  by move: ok; rewrite dq dynamic_updates.
by rewrite /= rev_cons updates_rcons -dq.
Qed.

(** Chronological order. *)
Lemma chain_sizes dyn t0 rv0 es st : chain dyn t0 rv0 es st -> size st = (size es).+1.
Proof.
elim: st es => [|x' [|x st] IH] [|e es] //= [_ C].
by rewrite -(IH es).
Qed.
Lemma chain_nth dyn t0 rv0 es st : chain dyn t0 rv0 es st ->
  nth (t0, rv0) (rev st) 0 = (t0, rv0)
  /\ forall j, (j < size es)%N ->
     let x := nth (t0, rv0) (rev st) j in let x' := nth (t0, rv0) (rev st) j.+1 in
     step_ok dyn x.1 x'.1 x.2 x'.2 (nth 0 (rev es) j).
Proof.
elim: st es => [|x' [|x st] IH] [|e es] //.
move=> C; have [ok C'] : step_ok dyn x.1 x'.1 x.2 x'.2 e /\ chain dyn t0 rv0 es (x :: st) by [].
have sz := chain_sizes C'; have [I0 I1] := IH _ C'.
have rsz : size (rev (x :: st)) = (size es).+1 by rewrite size_rev.
split; first by rewrite rev_cons nth_rcons rsz.
move=> j; rewrite /= ltnS leq_eqVlt => /predU1P[->|lt].
  rewrite [rev (x' :: _)]rev_cons [rev (e :: _)]rev_cons !nth_rcons rsz size_rev ltnSn ltnn eqxx.
  rewrite ltnn eqxx.
  have -> // : nth (t0, rv0) (rev (x :: st)) (size es) = x.
  by rewrite nth_rev ?sz // subnn.
rewrite [rev (x' :: _)]rev_cons [rev (e :: _)]rev_cons !nth_rcons rsz size_rev lt ltnS (ltnW lt) ltnS lt.
exact: I1.
Qed.

Definition scaleN n (c : R) (p : normal R n) : normal R n := Normal (mean p) (c *: cov p).
Lemma bwd_scale (H : 'M[R]_(d, n)) b c (p : normal R n) : c != 0 ->
  bwd_classic (LinGauss H b 0) 1 (constant 0) (scaleN c p) None
  = omap (scaleN c) (bwd_classic (LinGauss H b 0) 1 (constant 0) p None).
Proof.
move=> c0; have cu : c \is a GRing.unit by rewrite unitfE.
rewrite /bwd_classic /gain_classic.
have SE : cov (fwd_classic (LinGauss H b 0) 1 (scaleN c p)) = c *: cov (fwd_classic (LinGauss H b 0) 1 p).
  by rewrite /= /fwd_crosscov /= scaler0 !addr0 -scalemxAl -scalemxAr.
rewrite SE trmxZ unitmxZ //; case: ifP => //= u; congr Some.
rewrite invmxZ; last by rewrite unitmxZ.
have -> : fwd_crosscov (LinGauss H b 0) (scaleN c p) = c *: fwd_crosscov (LinGauss H b 0) p.
  by rewrite /fwd_crosscov /= -scalemxAl.
rewrite trmxZ -scalemxAl -scalemxAr scalerA mulVf // [1 *: (invmx _ *m _)]scale1r.
set G := trmx _; rewrite /condition_state_on_rv SE; move: (cov (fwd_classic _ _ p)) => Sg.
rewrite /scaleN /=; congr Normal.
by rewrite !sub0r !(mulmxN, mulNmx) scalerDr scalerN -scalemxAr -scalemxAl.
Qed.

(** The model given by the linearisations of a run. *)
Section Posterior.
Variables (dyn : bool) (t0 : R) (rv0 : snormal R n) (es : seq R) (st : seq (R * snormal R n)).
Hypothesis C : chain dyn t0 rv0 es st.
Definition time j := (nth (t0, rv0) (rev st) j).1.
Definition state j := (nth (t0, rv0) (rev st) j).2.
Definition stepdyn j := of_dyn S (time j.+1 - time j).
Definition stepmean j := s_tmat (stepdyn j) *m s_mean (state j) + s_shift (stepdyn j).
Definition stepjac j := nl_jac (of_meas S) (Some (time j.+1)) (stepmean j).
Definition stepres j := nl_fun (of_meas S) (Some (time j.+1)) (stepmean j).
Definition stepdiff j := if dyn then nth 0 (rev es) j else 1.
Variables (c : R) (K : nat) (Z W : nat -> rvec R K n).
Hypothesis c0 : c != 0.
Let N := size es.
Let Tm j := LinGauss (s_tmat (stepdyn j)) (s_shift (stepdyn j)) ((c * stepdiff j) *: s_ncov (stepdyn j)).
Let Gm j := LinGauss (stepjac j) (stepres j - stepjac j *m stepmean j) 0.
Let look (dt : R) := index dt [seq 2%:R ^+ j | j <- iota 0 N].
Let M : ssm R n (fun _ => d) :=
  Ssm (fun _ dt => Tm (look dt)) (fun j _ => Gm j) (fun j => 2%:R ^+ j.+1) 1
      (scaleN c (classic rv0)).

Let pow2 j : (2%:R : R) ^+ j.+1 - 2%:R ^+ j = 2%:R ^+ j.
Proof. by rewrite exprS mulr_natl mulr2n addrK. Qed.
Let toldE j : told M j = 2%:R ^+ j.
Proof. by case: j => [|j] /=; rewrite ?expr0. Qed.
Let pow_lt j : (2%:R : R) ^+ j < 2%:R ^+ j.+1.
Proof. by rewrite -subr_gt0 pow2 exprn_gt0 // ltr0n. Qed.
Let lookE j : (j < N)%N -> look (2%:R ^+ j) = j.
Proof.
move=> lt; rewrite /look (@index_map _ _ (fun j => 2%:R ^+ j)).
  by have := @index_uniq _ 0%N j (iota 0 N); rewrite size_iota nth_iota // add0n => -> //; apply: iota_uniq.
apply: ieexprIn; first by rewrite ltr0n.
by rewrite gt_eqF // ltr1n.
Qed.
Let trE j : (j < N)%N -> tr M j = Tm j.
Proof. by move=> lt; rewrite /tr /= toldE pow2 lookE. Qed.

Lemma run_filtered j : (j <= N)%N -> filtered M (fun _ => 0) j = Some (scaleN c (classic (state j))).
Proof.
have [C0 C1] := chain_nth C.
elim: j => [|j IH] lt; first by rewrite /= /state C0.
rewrite /= IH 1?ltnW //=.
have PE : predict M j (scaleN c (classic (state j)))
    = scaleN c (predicted (stepdyn j) (stepdiff j) (classic (state j))).
  rewrite /predict toldE subr_gt0 pow_lt pow2 /= lookE //.
  rewrite /fwd_classic /scaleN /fwd_crosscov /=; congr Normal.
  by rewrite scale1r -scalemxAl -scalemxAr mulmxA scalerDr scalerA.
rewrite PE /update -[meas M j None]/(LinGauss (stepjac j) (stepres j - stepjac j *m stepmean j) 0).
have [_ _ L _] := C1 j lt; rewrite (bwd_scale _ _ _ c0).
move: L; rewrite -/(time j) -/(time j.+1) -/(state j) -/(state j.+1) /step_law /step_law_at -/(stepdyn j).
rewrite -[if dyn then _ else _]/(stepdiff j).
have -> : classicT (linearize (of_meas S)
    (mean (predicted (stepdyn j) (stepdiff j) (classic (state j)))) (Some (time j.+1)))
  = LinGauss (stepjac j) (stepres j - stepjac j *m stepmean j) 0.
  by rewrite /classicT /linearize (pr_noise pS) /= addr0.
by move=> ->.
Qed.

(** The prior along the steps of the run: initial state and noise covariances, with the
    diffusions of the steps, scaled by [c]. *)
Record prior_path : Prop := PriorPath {
  pp_mean0 : Mean (Z 0%N) = s_mean rv0;
  pp_cov0 : Cov (Z 0%N) (Z 0%N) = c *: s_cov rv0;
  pp_meanW : forall j, (j < N)%N -> Mean (W j) = s_shift (stepdyn j);
  pp_covW : forall j, (j < N)%N -> Cov (W j) (W j) = (c * stepdiff j) *: s_ncov (stepdyn j);
  pp_ZW : forall j, (j < N)%N -> Cov (Z 0%N) (W j) = 0;
  pp_WW : forall i j, (i < N)%N -> (j < N)%N -> i != j -> Cov (W i) (W j) = 0;
  pp_Z : forall j, (j < N)%N -> Z j.+1 = s_tmat (stepdyn j) *m Z j + W j }.
(** The residual of the [j]-th step, linearised at the predicted mean. *)
Definition lin_residual j : rvec R K d :=
  stepjac j *m Z j.+1 + Cst K (stepres j - stepjac j *m stepmean j).
Hypothesis PP : prior_path.

Lemma run_posterior j : (j < N)%N ->
  exists mu, mu (fun _ => 0) = s_mean (state j.+1)
    /\ cond_law (m := fun _ => d) (Z j.+1) lin_residual j.+1 mu (c *: s_cov (state j.+1)).
Proof.
move=> lt.
have HR : realises M N Z W (fun i => Cst K (stepres i - stepjac i *m stepmean i))
   lin_residual.
  case: PP => Z0m Z0c Wm Wc ZW WW ZE; split=> //.
  - by move=> i li; rewrite trE // Wm.
  - by move=> i li; rewrite trE // Wc.
  - by move=> i li; rewrite MeanC.
  - by move=> i li; rewrite CovCl.
  - by move=> i li; rewrite CovCr.
  - by move=> i l li ll ne; rewrite CovCr.
  - by move=> i l li ll; rewrite CovCr.
  - by move=> i li; rewrite toldE pow_lt trE // ZE.
have TI : time_invariant M by split.
have F := run_filtered lt.
have ok : filtered M (fun _ => 0) j.+1 by rewrite F.
have [k0 [Kc [P [F' ME CE PE]]]] := filter_correct HR TI lt ok.
move: (F' (fun _ => 0)); rewrite F => -[me ce].
exists (predictor j.+1 k0 Kc); split; first by rewrite -me.
by exists k0, Kc; split=> //=; rewrite ce.
Qed.
End Posterior.

Lemma prior_path_exists dyn t0 rv0 es st c : chain dyn t0 rv0 es st ->
  factored rv0 -> 0 <= c -> all (fun e => 0 <= e) es ->
  exists K Z W, @prior_path dyn t0 rv0 es st c K Z W.
Proof.
move=> C f0 c0 e0; pose D j := stepdyn t0 rv0 st j; pose sd j := stepdiff dyn es j.
have [C0 C1] := chain_nth C.
have sd0 j : 0 <= c * sd j.
  rewrite mulr_ge0 // /sd /stepdiff; case: (dyn); last exact: ler01.
  have [lt|ge] := ltnP j (size (rev es)); last by rewrite nth_default.
  by apply: (allP e0); rewrite -mem_rev mem_nth.
have [KW [XW [W1 W2]]] := indep_family (fun j => Num.sqrt (c * sd j) *: s_nchol (D j)) (size es).
pose Z0 : rvec R (n + KW) n := row_mx (s_mean rv0) (row_mx (Num.sqrt c *: s_chol rv0) 0).
pose W j : rvec R (n + KW) n := row_mx (s_shift (D j)) (row_mx 0 (XW j)).
pose fix Z j := if j is j'.+1 then s_tmat (D j') *m Z j' + W j' else Z0.
have sq x (L : 'M[R]_n) : 0 <= x ->
  (Num.sqrt x *: L) *m (Num.sqrt x *: L)^T = x *: (L *m L^T).
  by move=> x0; rewrite trmxZ -scalemxAl -scalemxAr scalerA -expr2 sqr_sqrtr.
exists (n + KW)%N, Z, W; split=> //.
- by rewrite /Mean row_mxKl.
- by rewrite /Cov row_mxKr tr_row_mx mul_row_col trmx0 mulmx0 addr0 sq // f0.
- by move=> j _; rewrite /Mean row_mxKl.
- move=> j lt; rewrite /Cov row_mxKr tr_row_mx mul_row_col mul0mx add0r W1 // sq //.
  rewrite (pr_dyn pS) //; have [H _ _ _] := C1 j lt.
  by rewrite subr_gt0.
- by move=> j lt; rewrite /Cov !row_mxKr tr_row_mx mul_row_col trmx0 mulmx0 mul0mx addr0.
- by move=> i j li lj ne; rewrite /Cov !row_mxKr tr_row_mx mul_row_col mul0mx add0r W2.
Qed.

(** ** Diffusions of a run *)
Lemma calls_nth dm (ts vs : seq R) : size ts = size vs ->
  (forall i, (i < size ts)%N -> d_call dm (nth 0 ts i) = Some (nth 0 vs i)) ->
  d_calls dm ts = Some vs.
Proof.
elim: ts vs => [|t ts IH] [|v vs] //= [sz] H; rewrite (H 0%N) //= -/(d_calls dm ts).
by rewrite (IH vs sz) // => i; apply: (H i.+1).
Qed.

Section PieceRun.
Variables (dyn : bool) (t0 : R) (rv0 : snormal R n) (es : seq R) (st : seq (R * snormal R n)).
Hypothesis C : chain dyn t0 rv0 es st.
Let N := size es.
Let T := unzip1 (rev st).
Let tE j : nth t0 T j = time t0 rv0 st j.
Proof.
have [lt|ge] := ltnP j (size st); first by rewrite (nth_map (t0, rv0)) ?size_rev.
by rewrite /time !nth_default ?size_map ?size_rev.
Qed.
Let T0 : nth t0 T 0 = t0. Proof. by rewrite tE /time; have [-> _] := chain_nth C. Qed.
Let tlt j : (j < N)%N -> nth t0 T j < nth t0 T j.+1.
Proof. by move=> lt; rewrite !tE; have [_ /(_ j lt) [H _ _ _]] := chain_nth C. Qed.
Let Tsz : size T = N.+1. Proof. by rewrite size_map size_rev (chain_sizes C). Qed.

Lemma run_pieces : d_updates (new_piecewise t0) (rev (zip (unzip1 (behead st)) es))
  = PieceD (t0 :: take N T) (rev es).
Proof.
have sz := chain_sizes C; have sb : size (unzip1 (behead st)) = size es.
  by rewrite size_map size_behead sz.
rewrite piece_updates; congr PieceD; last by rewrite /= /unzip2 map_rev -/(unzip2 _) unzip2_zip ?sb.
rewrite /= /unzip1 map_rev -/(unzip1 _) unzip1_zip ?sb // /T.
case: (st) sz => // x st' /= [sz]; rewrite rev_cons /unzip1 map_rcons -cats1 take_size_cat ?map_rev //.
by rewrite size_rev size_map.
Qed.

Lemma pieces_sorted : sorted <=%O (t0 :: take N T).
Proof.
apply/(sortedP t0) => i; rewrite /= size_take Tsz ltnSn ltnS.
case: i => [|i] lt /=; first by rewrite nth_take // T0.
by rewrite !nth_take //; [apply: ltW; apply: tlt; apply: ltnW|apply: ltnW].
Qed.

Lemma run_calls : (0 < N)%N ->
  d_calls (PieceD (t0 :: take N T) (rev es)) (take N (unzip1 st)) = Some (head 0 es :: take N.-1 es).
Proof.
move=> N0.
have ss : size (t0 :: take N T) = (size (rev es)).+1 by rewrite /= size_take Tsz ltnSn size_rev.
have ne : rev es != [::] by rewrite -size_eq0 size_rev -lt0n.
have nz j : (j < N)%N -> nth 0 (t0 :: take N T) j.+1 = nth t0 T j.
  by move=> lt; rewrite /= nth_take // (set_nth_default t0) // Tsz ltnW.
have stE i : (i <= N)%N -> nth 0 (unzip1 st) i = nth t0 T (N - i).
  move=> le; rewrite /T /unzip1 map_rev nth_rev ?size_map (chain_sizes C) ?ltnS ?leq_subr //.
  by rewrite subSS subKn // (set_nth_default t0) // size_map (chain_sizes C).
apply: calls_nth; first by rewrite size_take size_map (chain_sizes C) ltnSn /= size_take prednK // leqnn prednK.
move=> i; rewrite size_take size_map (chain_sizes C) ltnSn => lt.
rewrite nth_take // stE 1?ltnW //; case: i lt => [|i] lt.
  rewrite subn0 (call_after ss ne) /=; first by rewrite -nth_last nth_rev ?size_rev ?prednK // subnn nth0.
  rewrite -nth_last size_take Tsz ltnSn nth_take ?prednK //.
  by have := @tlt N.-1; rewrite prednK //; apply.
have lt' : (N - i.+1 < N)%N by rewrite ltn_subrL.
rewrite (call_between (k := (N - i.+1)%N) pieces_sorted ss ne) ?size_rev //.
  rewrite nth_rev // subnSK 1?ltnW // subKn 1?ltnW 1?ltnW // /= nth_take //.
  by rewrite -ltnS prednK.
rewrite nz // lexx andbT.
have : (0 < N - i.+1)%N by rewrite subn_gt0.
case: (N - i.+1)%N lt' => // j lj _; rewrite nz 1?ltnW //.
by apply: tlt; apply: ltnW.
Qed.
End PieceRun.
End Runs.
End Spec.
