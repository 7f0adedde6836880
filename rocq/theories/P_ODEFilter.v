(** C48, C49, C54, C97-C102: linearisation, diffusion models and the Gaussian ODE filter. *)
From mathcomp Require Import all_ssreflect all_algebra.
From mathcomp Require Import realalg.
From Verif Require Import L_Zmod M_Gauss L_Kalman L_Filter L_SSMExists M_Sqrt L_Sqrt L_QR P_Sqrt.
From Verif Require Import M_Series L_Series M_ODEFilter L_ODEFilter L_Num2.
Set Implicit Arguments.
Unset Strict Implicit.
Unset Printing Implicit Defensive.
Import Order.Theory GRing.Theory Num.Theory.
Local Open Scope ring_scope.

(** ** C48: linearisation *)
(** Affine models: forward and backward transitions are those of the linear model,
    wherever it is linearised. *)
Theorem C48_affine_exact :
  forall (R : rcfType) qr n d (N : nonlin R n d) (A : option R -> 'M[R]_(d, n)) b,
  (forall t x, nl_fun N t x = A t *m x + b t /\ nl_jac N t x = A t) ->
  forall t s rv at_,
  let L := SLinGauss (A t) (b t + s_mean (nl_noise N t)) (s_cov (nl_noise N t)) (s_chol (nl_noise N t)) in
  ekf_forward qr N t s rv at_ = fwd_sqrt qr Num.sqrt L s rv
  /\ forall ob gain, ekf_backward qr N t s ob rv gain at_ = bwd_sqrt qr Num.sqrt L s ob rv gain.
Proof.
move=> R qr n d N A b H t s rv at_ L.
have E x : linearize N x t = L.
  rewrite /linearize /L; have [-> ->] := H t x; congr SLinGauss.
  by rewrite [A t *m x + _]addrC addrK.
by split=> [|ob gain]; rewrite /ekf_forward /ekf_backward E.
Qed.
Print Assumptions C48_affine_exact.

(** Any model: the linearisation has the value and the Jacobian of the model at the point
    of linearisation, and its noise covariance. *)
Theorem C48_first_order :
  forall (R : rcfType) n d (N : nonlin R n d) x t,
  let L := linearize N x t in
  [/\ s_tmat L = nl_jac N t x, s_tmat L *m x + s_shift L = nl_fun N t x + s_mean (nl_noise N t),
      s_ncov L = s_cov (nl_noise N t) & s_nchol L = s_chol (nl_noise N t)].
Proof. by move=> R n d N x t L; split=> //=; rewrite addrA [_ *m x + _]addrC subrK. Qed.
Print Assumptions C48_first_order.

(** The residual of an affine ODE is linearised exactly by EK1, that of a constant vector
    field by EK0. *)
Theorem C48_ek_exact :
  forall (R : rcfType) n d (h0 h1 : 'M[R]_(d, n)) (B : option R -> 'M[R]_d) c t x0 x,
  let f1 t y := B t *m y + c t in
  let L1 := linearize (ek1 h0 h1 f1 (fun t _ => B t)) x0 t in
  let L0 := linearize (ek0 h0 h1 (fun t _ => c t)) x0 t in
  [/\ s_tmat L1 *m x + s_shift L1 = h1 *m x - f1 t (h0 *m x), s_ncov L1 = 0,
      s_tmat L0 *m x + s_shift L0 = h1 *m x - c t & s_ncov L0 = 0].
Proof.
move=> R n d h0 h1 B c t x0 x f1 L1 L0; split=> //=.
  rewrite /residual /residual_jac /f1 addr0 !mulmxBl !mulmxA.
  by move: (h1 *m x) (h1 *m x0) (B t *m h0 *m x) (B t *m h0 *m x0) (c t) => p q r s e; zmod_eq.
rewrite /residual /residual_jac addr0 !mul0mx subr0.
by move: (h1 *m x) (h1 *m x0) (c t) => p q e; zmod_eq.
Qed.
Print Assumptions C48_ek_exact.

(** If [df] is the derivative of [f], the error of EK1's linear model of the residual is small
    of first order around the point of linearisation. *)
Definition abs_sum (R : rcfType) n (v : 'cV[R]_n) : R := \sum_i `|v i 0|.
Definition small_order (R : rcfType) n d (e : 'cV[R]_n -> 'cV[R]_d) : Prop :=
  forall eps, 0 < eps -> exists2 del, 0 < del &
  forall h, abs_sum h <= del -> abs_sum (e h) <= eps * abs_sum h.
Lemma abs_sum_mul (R : rcfType) n d (M : 'M[R]_(d, n)) : exists2 c, 0 < c & forall h, abs_sum (M *m h) <= c * abs_sum h.
Proof.
exists (1 + \sum_i \sum_j `|M i j|); first by rewrite ltr_spaddl // sumr_ge0 // => i _; rewrite sumr_ge0.
move=> h; have hj j : `|h j 0| <= abs_sum h by rewrite /abs_sum (bigD1 j) //= ler_addl sumr_ge0.
have h0 : 0 <= abs_sum h by rewrite sumr_ge0.
rewrite mulrDl mul1r; apply: le_trans (_ : (\sum_i \sum_j `|M i j|) * abs_sum h <= _); last by rewrite ler_addr.
rewrite mulr_suml; apply: ler_sum => i _; rewrite mxE mulr_suml.
by apply: le_trans (ler_norm_sum _ _ _) _; apply: ler_sum => j _; rewrite normrM ler_wpmul2l.
Qed.
Theorem C48_ek_derivative :
  forall (R : rcfType) n d (h0 h1 : 'M[R]_(d, n)) f df t x,
  small_order (fun k => f t (h0 *m x + k) - f t (h0 *m x) - df t (h0 *m x) *m k) ->
  let L := linearize (ek1 h0 h1 f df) x t in
  small_order (fun h => s_tmat L *m (x + h) + s_shift L - (h1 *m (x + h) - f t (h0 *m (x + h)))).
Proof.
move=> R n d h0 h1 f df t x H L eps e0.
have [c c0 hc] := abs_sum_mul h0; have ec : 0 < eps / c by rewrite divr_gt0.
have [del d0 hd] := H _ ec; exists (del / c); first by rewrite divr_gt0.
move=> h hh; have kd : abs_sum (h0 *m h) <= del.
  by apply: le_trans (hc h) _; rewrite mulrC -ler_pdivl_mulr.
have := hd _ kd; rewrite /L /= /residual /residual_jac.
have -> : (h1 - df t (h0 *m x) *m h0) *m (x + h)
    + (h1 *m x - f t (h0 *m x) - (h1 - df t (h0 *m x) *m h0) *m x + 0)
    - (h1 *m (x + h) - f t (h0 *m (x + h)))
    = f t (h0 *m x + h0 *m h) - f t (h0 *m x) - df t (h0 *m x) *m (h0 *m h).
  rewrite [h0 *m (x + h)]mulmxDr !mulmxDr !mulmxBl -!mulmxA.
  move: (h1 *m x) (h1 *m h) (df t _ *m (_ *m x)) (df t _ *m (_ *m h)) (f t (_ + _)) (f t _) => p q r s u v.
  by zmod_eq.
move/le_trans; apply; rewrite mulrAC ler_pdivr_mulr // -mulrA [_ * c]mulrC.
by rewrite ler_pmul2l.
Qed.
Print Assumptions C48_ek_derivative.
(** A quadratic vector field has a derivative that depends on the point. *)
Example C48_derivative_case (R : rcfType) (y : 'cV[R]_1) :
  small_order (fun k : 'cV[R]_1 => (y + k) 0 0 *: (y + k) - y 0 0 *: y - (y 0 0 + y 0 0)%:M *m k).
Proof.
move=> eps e0; exists eps => // h; rewrite /abs_sum !big_ord1 => hh.
rewrite mul_scalar_mx !mxE; have -> : (y 0 0 + h 0 0) * (y 0 0 + h 0 0) - y 0 0 * y 0 0 - (y 0 0 + y 0 0) * h 0 0 = h 0 0 * h 0 0.
  by rewrite mulrDl !mulrDr mulrDl [h 0 0 * y 0 0]mulrC; move: (y 0 0 * y 0 0) (y 0 0 * h 0 0) (h 0 0 * h 0 0) => a b c; zmod_eq.
by rewrite normrM ler_wpmul2r.
Qed.

(** ** C49: constant diffusion *)
(** The first estimate is dropped as soon as there is a second one. *)
Theorem C49_constant_mean_partial :
  forall (R : rcfType) te (es : seq (R * R)) t, es != [::] ->
  d_call (d_updates (new_constant R) (te :: es)) t = Some ((\sum_(te <- es) te.2) / (size es)%:R)
  /\ d_call (d_updates (new_constant R) [:: te]) t = Some te.2.
Proof. by move=> R te [|te' es] t // _; rewrite !const_updates. Qed.
Print Assumptions C49_constant_mean_partial.

Theorem C49_constant_mean_refuted :
  forall (R : rcfType), exists (es : seq (R * R)) t v,
  [/\ d_call (d_updates (new_constant R) es) t = Some v, es != [::]
    & v != (\sum_(te <- es) te.2) / (size es)%:R].
Proof.
move=> R; exists [:: (0, 0); (1, 1)], 0, 1; split=> //.
  by rewrite const_updates /= big_seq1 divr1.
rewrite big_cons big_seq1 /= add0r.
by rewrite lt0r_neq0 // -subr_gt0 subr0 || rewrite eq_sym lt_eqF // ltr_pdivr_mulr ?ltr0n // mul1r ltr1n.
Qed.
Print Assumptions C49_constant_mean_refuted.

(** ** C97: piecewise constant diffusion *)
(** Estimates [es] at locations [locs] after [t0]. Before the first and after the last
    location, and between locations, the documented value; at a location the one of the
    piece on its left, and at the first location the last one. *)
Theorem C97_piecewise_partial :
  forall (R : rcfType) t0 (es : seq (R * R)), es != [::] -> sorted <%O (t0 :: unzip1 es) ->
  let D := d_call (d_updates (new_piecewise t0) es) in
  let tj j := nth 0 (t0 :: unzip1 es) j in let sg j := nth 0 (unzip2 es) j in
  [/\ (forall t, t < t0 -> D t = Some (sg 0%N)),
      (forall j t, (j < size es)%N -> tj j < t < tj j.+1 -> D t = Some (sg j)),
      (forall t, tj (size es) < t -> D t = Some (sg (size es).-1)),
      (forall j, (j < size es)%N -> D (tj j.+1) = Some (sg j))
    & D t0 = Some (sg (size es).-1)].
Proof.
move=> R t0 es ne so; rewrite piece_updates cat1s cat0s => D tj sg; rewrite /D /sg /tj {D tj sg}.
have so' : sorted <=%O (t0 :: unzip1 es) by apply: sub_sorted so => x y /ltW.
have sz : size (t0 :: unzip1 es) = (size (unzip2 es)).+1 by rewrite /= !size_map.
have ne' : unzip2 es != [::] by case: (es) ne.
have lastE : last 0 (unzip2 es) = nth 0 (unzip2 es) (size es).-1 by rewrite -nth_last size_map.
split.
- by move=> t lt; rewrite (call_before so' sz ne') // nth0.
- move=> j t lt /andP[l1 /ltW l2].
  by apply: (call_between so' sz ne'); rewrite ?size_map // l1.
- move=> t lt; rewrite (call_after sz ne') ?lastE //.
  by move: lt; rewrite -nth_last /= size_map.
- move=> j lt; apply: (call_between so' sz ne'); rewrite ?size_map // lexx andbT.
  by have /(sortedP 0) := so; apply; rewrite /= size_map ltnS.
- by rewrite -lastE -(call_first so' sz ne').
Qed.
Print Assumptions C97_piecewise_partial.

(** Not the documented [sg 0] at [t0], and not continuous from the right. *)
Theorem C97_piecewise_refuted :
  forall (R : rcfType),
  let D := d_call (d_updates (new_piecewise (0 : R)) [:: (1, 1); (2%:R, 2%:R)]) in
  [/\ D 0 = Some 2%:R, D (1 / 2%:R) = Some 1, D 1 = Some 1
    & D (3%:R / 2%:R) = Some 2%:R].
Proof.
move=> R D; have so : sorted <%O (0 :: unzip1 [:: (1 : R, 1 : R); (2%:R, 2%:R)]).
  by rewrite /= ltr01 ltr1n.
have [_ H2 _ H4 H5] := @C97_piecewise_partial R 0 [:: (1, 1); (2%:R, 2%:R)] isT so.
split; first exact: H5.
- apply: (H2 0%N) => //=; rewrite divr_gt0 ?ltr01 ?ltr0n //=.
  by rewrite ltr_pdivr_mulr ?ltr0n // mul1r ltr1n.
- exact: (H4 0%N).
- apply: (H2 1%N) => //=; rewrite ltr_pdivl_mulr ?ltr0n // ltr_pdivr_mulr ?ltr0n //.
  by rewrite mul1r -natrM !ltr_nat.
Qed.
Print Assumptions C97_piecewise_refuted.

(** ** C98: steps of the ODE filter *)
(** A step succeeds if the covariances can be inverted. The error estimate is the standard
    deviation of the residual at the predicted mean if the last state was exact, scaled with
    the estimated diffusion. If the step is accepted the diffusion model takes the estimate,
    and the new state is the law given a zero linearised residual; otherwise nothing changes. *)
Theorem C98_step :
  forall (R : rcfType) (qr : qr_fun R) n d k (S : odefilter R n d k) dm t rv dt,
  (forall p q (B : 'M[R]_(p, q)), is_qr_r B (@qr _ _ B)) -> proper S -> factored rv -> 0 < dt ->
  (if dm is PieceD locs _ then last 0 locs <= t + dt else true) ->
  let dyn := of_dyn S dt in
  let H := nl_jac (of_meas S) (Some (t + dt)) (s_tmat dyn *m s_mean rv + s_shift dyn) in
  match local_scale S (dynamic dm) t (t + dt) (classic rv) with
  | None => attempt_step qr S dm t rv dt = None
  | Some e =>
      let err := \col_i (Num.sqrt e * Num.sqrt ((H *m s_ncov dyn *m H^T) i i)) in
      let ref := \col_i `|(of_proj S *m s_mean rv) i 0| in
      if of_accept S err ref then
        match step_law S (if dynamic dm then e else 1) t (t + dt) (classic rv) with
        | None => attempt_step qr S dm t rv dt = None
        | Some f => exists rv',
            [/\ attempt_step qr S dm t rv dt
                 = Some (Accepted (t + dt) rv' err ref (d_update dm e t)),
                classic rv' = f & is_cholesky (s_chol rv') (s_cov rv')]
        end
      else attempt_step qr S dm t rv dt = Some (Rejected _ (t + dt) err ref)
  end.
Proof.
move=> R qr n d k S dm t rv dt HQ pS fR dt0 g dyn H.
have fL x : nl_jac (of_meas S) None x = nl_jac (of_meas S) (Some (t + dt)) x.
  by have [] := pr_auto pS (t + dt) x.
have := attempt_spec HQ (pr_dim pS) dm fR (pr_dyn pS dt0) (pr_noise pS) (fL _).
rewrite estimateE //; case: local_scale => // e /=; case: ifP => // _.
have -> // : step_law_at None S (if dynamic dm then e else 1) t (t + dt) (classic rv)
  = step_law S (if dynamic dm then e else 1) t (t + dt) (classic rv).
rewrite /step_law /step_law_at /linearize !(pr_noise pS) fL.
by set x := mean (predicted _ _ _); have [-> _] := pr_auto pS (t + dt) x.
Qed.
Print Assumptions C98_step.

(** Runs: after any step sizes, with rejected steps, every reached state is the conditional
    law given that all linearised residuals so far are zero: of the prior with the diffusion
    model's estimates (piecewise), or unit diffusion (constant), for any common scale of
    the initial covariance and the prior's. *)
Theorem C98_posterior :
  forall (R : rcfType) (qr : qr_fun R) n d k (S : odefilter R n d k) t0 rv0 dm dts p,
  (forall p q (B : 'M[R]_(p, q)), is_qr_r B (@qr _ _ B)) -> proper S -> factored rv0 ->
  all (fun dt => 0 < dt) dts -> attempts qr S t0 rv0 dm dts = Some p ->
  exists es : seq R, let N := size es in
  let tm := time t0 rv0 (p_states p) in let st := state t0 rv0 (p_states p) in
  [/\ size (p_states p) = N.+1, tm 0%N = t0 /\ st 0%N = rv0,
      p_diff p = d_updates dm [seq (tm j, nth 0 (rev es) j) | j <- iota 0 N],
      forall j, (j < N)%N ->
        [/\ tm j < tm j.+1, is_cholesky (s_chol (st j.+1)) (s_cov (st j.+1))
          & local_scale S (dynamic dm) (tm j) (tm j.+1) (classic (st j)) = Some (nth 0 (rev es) j)]
    & forall c K (Z W : nat -> rvec R K n), c != 0 ->
        prior_path S (dynamic dm) t0 rv0 es (p_states p) c Z W ->
        forall j, (j < N)%N ->
        exists mu, mu (fun _ => 0) = s_mean (st j.+1)
          /\ cond_law (m := fun _ => d) (Z j.+1) (lin_residual S t0 rv0 (p_states p) Z) j.+1
               mu (c *: s_cov (st j.+1))].
Proof.
move=> R qr n d k S t0 rv0 dm dts p HQ pS f0 pos E.
have [es [C D]] := attempts_run HQ pS f0 pos E; exists es => N tm st.
have [C0 C1] := chain_nth C; have sz := chain_sizes C; split=> //.
- by rewrite /tm /st /time /state C0.
- rewrite D; congr d_updates; apply: (@eq_from_nth _ (0, 0)).
    by rewrite size_rev size_zip !size_map size_iota size_behead sz /= minnn.
  move=> i; rewrite size_rev size_zip size_map size_behead sz /= minnn => lt.
  rewrite nth_rev ?size_zip ?size_map ?size_behead ?sz /= ?minnn // nth_zip ?size_map ?size_behead ?sz //=.
  rewrite (nth_map 0%N) ?size_iota // nth_iota // add0n; congr pair; last by rewrite nth_rev.
  rewrite (nth_map (t0, rv0)) ?size_behead ?sz ?ltn_subrL ?(leq_trans _ lt) //.
  by rewrite nth_behead /tm /time nth_rev ?sz ?ltnS 1?ltnW // subSS subnSK.
- by move=> j lt; have [t1 t2 t3 t4] := C1 j lt.
- by move=> c K Z W c0 PP j lt; apply: (run_posterior pS C c0 PP lt).
Qed.
Print Assumptions C98_posterior.

(** ** C54: calibration with a constant diffusion *)
(** The returned filtering states are the conditional laws for the prior and the initial
    covariance scaled with the final estimate [s]. *)
Theorem C54_calibrated :
  forall (R : rcfType) (qr : qr_fun R) n d k (S : odefilter R n d k) t0 rv0 dts p,
  (forall p q (B : 'M[R]_(p, q)), is_qr_r B (@qr _ _ B)) -> proper S -> factored rv0 ->
  all (fun dt => 0 < dt) dts -> attempts qr S t0 rv0 (new_constant R) dts = Some p ->
  (1 < size (p_states p))%N ->
  exists es s filt, let N := size es in
  [/\ p_diff p = ConstD (Some s) N,
      s = (if (N == 1)%N then nth 0 (rev es) 0 else (\sum_(1 <= j < N) nth 0 (rev es) j) / N.-1%:R),
      forall j, (j < N)%N ->
        local_scale S false (time t0 rv0 (p_states p) j) (time t0 rv0 (p_states p) j.+1)
          (classic (state t0 rv0 (p_states p) j)) = Some (nth 0 (rev es) j),
      postprocess qr S false p = Some (filt, None) /\ size filt = N.+1
    & forall j, (j <= N)%N -> let rv := nth rv0 (rev filt) j in
      [/\ s_mean rv = s_mean (state t0 rv0 (p_states p) j),
          s_cov rv = s *: s_cov (state t0 rv0 (p_states p) j), factored rv
        & s != 0 -> forall K (Z W : nat -> rvec R K n),
          prior_path S false t0 rv0 es (p_states p) s Z W -> (0 < j)%N ->
          exists mu, mu (fun _ => 0) = s_mean rv
          /\ cond_law (m := fun _ => d) (Z j) (lin_residual S t0 rv0 (p_states p) Z) j mu (s_cov rv)]].
Proof.
move=> R qr n d k S t0 rv0 dts p HQ pS f0 pos E sz1.
have [es [C D]] := attempts_run HQ pS f0 pos E.
have [es' [sz [_ S0] D' P1 P2]] := C98_posterior HQ pS f0 pos E.
have Esz : size es' = size es by have := chain_sizes C; rewrite sz => -[].
pose N := size es'; have N0 : (0 < N)%N by move: sz1; rewrite sz.
pose e1 := nth 0 (rev es') 0.
have [s [sE D1]] : exists s, s = (if (N == 1)%N then nth 0 (rev es') 0
      else (\sum_(1 <= j < N) nth 0 (rev es') j) / N.-1%:R) /\ p_diff p = ConstD (Some s) N.
  eexists; split; first by []; rewrite D' -/N.
  case: (N) N0 => // N' _; rewrite -[iota _ _]/(0%N :: iota 1%N N') map_cons const_updates.
  rewrite size_map size_iota; congr (ConstD (Some _) _).
  case: N' => [|N'] //; rewrite -[iota 1%N _]/(1%N :: iota 2%N N') map_cons.
  by rewrite -map_cons big_map /index_iota subn1 /=.
have fS j : (j <= N)%N -> factored (state t0 rv0 (p_states p) j).
  case: j => [|j] lt; first by rewrite S0.
  by have [_ [_ _ H] _] := P1 j lt.
have e0 j : (j < N)%N -> 0 <= nth 0 (rev es') j.
  move=> lt; have [l1 _ l3] := P1 j lt; apply: local_scale_ge0 l1 _ l3 => //.
  by rewrite /= -fS 1?ltnW //; apply: psd_gram.
have s0 : 0 <= s.
  rewrite sE; case: ifP => _; first exact: e0.
  rewrite divr_ge0 ?ler0n // big_nat_cond; apply: sumr_ge0 => j /andP[/andP[_ lt] _].
  exact: e0.
have ppE : postprocess qr S false p = Some ([seq calibrate s tr.2 | tr <- p_states p], None).
  by rewrite /postprocess D1.
exists es', s, [seq calibrate s tr.2 | tr <- p_states p]; split=> //.
- by move=> j lt; have [] := P1 j lt.
- by rewrite ppE size_map.
move=> j le /=.
have rE : nth rv0 (rev [seq calibrate s tr.2 | tr <- p_states p]) j
    = calibrate s (state t0 rv0 (p_states p) j).
  by rewrite -map_rev (nth_map (t0, rv0)) // size_rev sz ltnS.
rewrite rE /=; split=> //.
  by rewrite /factored /= trmxZ -scalemxAl -scalemxAr scalerA -expr2 sqr_sqrtr // fS.
move=> nz K Z W PP; case: j le {rE} => // j lt _.
exact: (P2 s K Z W nz PP j lt).
Qed.
Print Assumptions C54_calibrated.

(** ** C99, C100: smoothing *)
(** What is smoothed: the uncalibrated states, with the constant diffusion or with the
    estimates shifted by one interval (latest first; the last one twice). *)
Lemma post_smooth (R : rcfType) (qr : qr_fun R) n d k (S : odefilter R n d k)
    (p : progress R n) t rv rest s ds :
  p_states p = (t, rv) :: rest -> (0 < size rest)%N ->
  (if p_diff p is ConstD v _ then v else Some 1) = Some s ->
  d_calls (p_diff p) (take (size rest) (unzip1 (p_states p))) = Some ds ->
  postprocess qr S true p
  = omap (fun sm => ([seq calibrate s tr.2 | tr <- p_states p], Some sm))
      (smooth_steps qr S rv t rest ds).
Proof.
move=> E ne sE dE; rewrite /postprocess sE /= E.
suff -> : d_calls (p_diff p) (if rest is [::] then [::]
   else t :: [seq tr.1 | tr <- take (size rest).-1 rest]) = Some ds by [].
by rewrite -dE E; case: rest ne {E dE} => // x rest _; rewrite /= map_take.
Qed.

Theorem C99_smoothing_partial :
  forall (R : rcfType) (qr : qr_fun R) n d k (S : odefilter R n d k) t0 rv0 dts p t rv rest,
  (forall p q (B : 'M[R]_(p, q)), is_qr_r B (@qr _ _ B)) -> proper S -> factored rv0 ->
  all (fun dt => 0 < dt) dts -> p_states p = (t, rv) :: rest -> (0 < size rest)%N ->
  attempts qr S t0 rv0 (new_constant R) dts = Some p ->
  exists s, p_diff p = ConstD (Some s) (size rest)
     /\ postprocess qr S true p
        = omap (fun sm => ([seq calibrate s tr.2 | tr <- p_states p], Some sm))
            (smooth_steps qr S rv t rest (nseq (size rest) s)).
Proof.
move=> R qr n d k S t0 rv0 dts p t rv rest HQ pS f0 pos E ne A.
have sz : (1 < size (p_states p))%N by rewrite E.
have [es [s [filt [D _ _ [Pf szf] _]]]] := C54_calibrated HQ pS f0 pos A sz.
have sr : size es = size rest.
  move: Pf szf; rewrite /postprocess D /= E => -[<-] /=.
  by rewrite size_map => -[].
exists s; rewrite D sr; split=> //; apply: post_smooth => //; rewrite ?D //.
have H l : d_calls (ConstD (Some s) (size rest)) l = Some (nseq (size l) s).
  by elim: l => //= x l ->.
by rewrite sr H size_take size_map E /= ltnSn.
Qed.
Print Assumptions C99_smoothing_partial.

Theorem C100_smoothing_partial :
  forall (R : rcfType) (qr : qr_fun R) n d k (S : odefilter R n d k) t0 rv0 dts p t rv rest,
  (forall p q (B : 'M[R]_(p, q)), is_qr_r B (@qr _ _ B)) -> proper S -> factored rv0 ->
  all (fun dt => 0 < dt) dts -> p_states p = (t, rv) :: rest -> (0 < size rest)%N ->
  attempts qr S t0 rv0 (new_piecewise t0) dts = Some p ->
  exists es, chain S true t0 rv0 es (p_states p)
     /\ postprocess qr S true p
        = omap (fun sm => ([seq calibrate 1 tr.2 | tr <- p_states p], Some sm))
            (smooth_steps qr S rv t rest (head 0 es :: take (size es).-1 es)).
Proof.
move=> R qr n d k S t0 rv0 dts p t rv rest HQ pS f0 pos E ne A.
have [es [C D]] := attempts_run HQ pS f0 pos A; exists es; split=> //.
have sr : size rest = size es by have := chain_sizes C; rewrite E => -[].
have D' : p_diff p = PieceD (t0 :: take (size es) (unzip1 (rev (p_states p)))) (rev es).
  by rewrite D (run_pieces C).
apply: post_smooth => //; first by rewrite D'.
by rewrite D' sr; apply: (run_calls C); rewrite -sr.
Qed.
Print Assumptions C100_smoothing_partial.

(** *** A concrete run: y' = y, once-integrated Wiener process, EK0, two steps of length 1 *)
Section Witness.
Variables (R : rcfType) (qr : qr_fun R).
Hypothesis HQ : forall p q (B : 'M[R]_(p, q)), is_qr_r B (@qr _ _ B).
Local Notation q := (@q R).
Local Notation fr a b := (q (a%:R / b%:R)).
Definition ex_a : R := Num.sqrt (fr 1 3).
Definition ex_dyn (dt : R) : slingauss R (1 + 1) (1 + 1) :=
  let L := Num.sqrt dt *: m2 (dt * ex_a) 0 ((fr 3 2) * ex_a) (fr 1 2) in
  SLinGauss (m2 1 dt 0 1) 0 (L *m L^T) L.
Definition ex_h0 : 'rV[R]_(1 + 1) := r2 1 0.
Definition ex_h1 : 'rV[R]_(1 + 1) := r2 0 1.
Definition ex_sys : odefilter R (1 + 1) 1 1 :=
  ODEFilter ex_dyn (ek0 ex_h0 ex_h1 (fun _ y => y)) ex_h0 (fun _ _ => true).
Definition ex_rv0 : snormal R (1 + 1) := SNormal (c2 1 (fr 1 4)) (m2 0 0 0 1) (m2 0 0 0 1).

Lemma ex_proper : proper ex_sys.
Proof. by split. Qed.
Lemma ex_fac0 : factored ex_rv0.
Proof. by rewrite /factored /= m2T m2M !(q0 R, q1 R); qcongr. Qed.
Lemma ex_ncov : s_ncov (ex_dyn 1) = m2 (fr 1 3) (fr 1 2) (fr 1 2) 1.
Proof.
have aa : ex_a * ex_a = fr 1 3.
  by rewrite -expr2 sqr_sqrtr // (q0 R); apply: q_le.
have e1 x : ex_a * (x * ex_a) = x * (fr 1 3) by rewrite mulrCA aa.
have e2 x : x * ex_a * ex_a = x * (fr 1 3) by rewrite -mulrA aa.
have e3 x : (x * ex_a) * (x * ex_a) = x * x * (fr 1 3) by rewrite mulrACA aa.
rewrite /= sqrtr1 scale1r m2T m2M !mul1r !(mul0r, mulr0, addr0, add0r) e1 e2 e3 aa.
by rewrite !(q1 R); qcongr.
Qed.

(** Updates with one-dimensional data, and smoothing steps. *)
Lemma upd1 n (T : lingauss R n 1) ob rv c : cov (fwd_classic T 1 rv) = s1 c -> c != 0 ->
  bwd_classic T 1 ob rv None = Some (condition_state_on_rv ob (fwd_classic T 1 rv) rv
    (c^-1 *: fwd_crosscov T rv)).
Proof.
move=> SE c0; rewrite /bwd_classic /gain_classic SE s1T s1U c0 /= s1V.
congr (Some (condition_state_on_rv _ _ _ _)).
by rewrite trmx_mul trmxK s1T -[s1 _]/(_%:M) mul_mx_scalar.
Qed.
Lemma smo1 n m (T : lingauss R n m) s ob rv Si : (cov (fwd_classic T s rv))^T *m Si = 1%:M ->
  bwd_classic T s ob rv None = Some (condition_state_on_rv ob (fwd_classic T s rv) rv
    (fwd_crosscov T rv *m Si^T)).
Proof.
move=> SE; rewrite /bwd_classic /gain_classic.
have [-> _] := mulmx1_unit SE; rewrite (invmx_unique SE) /=.
by rewrite trmx_mul trmxK.
Qed.

Definition ex_n1 : normal R (1 + 1) := Normal (c2 (q 2%:R) (fr 5 4)) (m2 (fr 5 24) 0 0 0).
Definition ex_n2 : normal R (1 + 1) := Normal (c2 (fr 17 4) (fr 13 4)) (m2 (fr 13 24) 0 0 0).
Lemma ex_pred (a b u w s : rat) : predicted (ex_dyn 1) (q s) (Normal (c2 (q a) (q b)) (m2 (q u) 0 0 (q w)))
  = Normal (c2 (q (a + b)) (q b))
      (m2 (q (u + w + s / 3%:R)) (q (w + s / 2%:R)) (q (w + s / 2%:R)) (q (w + s))).
Proof.
rewrite /predicted ex_ncov /= addr0 m2T m2c !m2M m2Z m2D; congr Normal.
  by rewrite !mul1r mul0r add0r (qD R).
by rewrite !(mul1r, mulr1, mul0r, mulr0, addr0, add0r) !(qM R) !(qD R).
Qed.

Lemma ex_jac (t : R) x : nl_jac (of_meas ex_sys) (Some t) x = r2 0 1.
Proof. by rewrite /= /residual_jac mul0mx subr0. Qed.
Lemma ex_res (t : R) (a b : rat) : nl_fun (of_meas ex_sys) (Some t) (c2 (q a) (q b)) = s1 (q (b - a)).
Proof. by rewrite /= /residual /ex_h0 /ex_h1 !r2c s1N s1D !(mul0r, mul1r, addr0, add0r) (qN R) (qD R). Qed.

Lemma ex_scale dyn t (a b u w : rat) (e : rat) :
  (if dyn then 1 else w + 1) != 0 -> a * a / (if dyn then 1 else w + 1) == e ->
  local_scale ex_sys dyn t (t + 1) (Normal (c2 (q a) (q b)) (m2 (q u) 0 0 (q w))) = Some (q e).
Proof.
move=> nz eE; rewrite /local_scale [t + 1 - t]addrAC subrr add0r; have := ex_pred a b u w 1; rewrite -(q1 R) => ->.
rewrite [of_dyn _ _]/(ex_dyn 1) ex_ncov ex_jac [mean _]/= ex_res.
have -> : r2 0 1 *m (if dyn then m2 (fr 1 3) (fr 1 2) (fr 1 2) 1 else
   cov (Normal (c2 (q (a + b)) (q b)) (m2 (q (u + w + 1 / 3%:R)) (q (w + 1 / 2%:R))
       (q (w + 1 / 2%:R)) (q (w + 1))))) *m (r2 0 1)^T = s1 (q (if dyn then 1 else w + 1)).
  case: dyn nz eE => nz eE; rewrite /= r2m r2T r2c !(mul0r, mul1r, mulr0, mulr1, addr0, add0r) //.
  by rewrite (q1 R).
rewrite /qmle s1U (_ : q _ != 0) ?(q0 R) ?q_neq // s1V s1T !s1M s1E.
congr Some; rewrite -[1%:R]/(1 : R) divr1 (qV R) !(qM R); apply: q_eq.
rewrite -(eqP eE) opprD addrCA subrr addr0.
by rewrite mulrAC mulrNN.
Qed.

Lemma ex_law t (a b u w s c : rat) f : c != 0 -> w + s == c ->
  let m := q ((w + s / 2%:R) / c) in
  f = Normal (c2 (q (a + b) + m * q a) (q b + q a))
    (m2 (q (u + w + s / 3%:R) - m * q c * m) (q (w + s / 2%:R) - m * q c)
        (q (w + s / 2%:R) - q c * m) (q (w + s) - q c)) ->
  step_law ex_sys (q s) t (t + 1) (Normal (c2 (q a) (q b)) (m2 (q u) 0 0 (q w))) = Some f.
Proof.
move=> c0 cE m ->; rewrite /step_law /step_law_at [t + 1 - t]addrAC subrr add0r ex_pred.
set p := Normal _ _; set T := classicT _.
have TE : T = LinGauss (r2 0 1) (s1 (q (b - (a + b))) - r2 0 1 *m mean p) 0.
  rewrite /T /linearize /classicT /= -[residual _ _ _ _ _]/(nl_fun (of_meas ex_sys) (Some (t + 1)) (mean p)).
  by rewrite ex_res addr0 -(ex_jac (t + 1) (mean p)).
have FE : fwd_classic T 1 p = Normal (s1 (q (- a))) (s1 (q c)).
  rewrite TE /fwd_classic /fwd_crosscov /= addrC subrK; congr Normal.
    by rewrite opprD addrCA subrr addr0.
  by rewrite r2T scaler0 addr0 m2c r2c !(mul0r, mul1r, mulr0, mulr1, addr0, add0r) (eqP cE).
have nz : q c != 0 by rewrite (q0 R) q_neq.
rewrite (@upd1 _ T _ p (q c)) ?FE //.
congr Some; rewrite /condition_state_on_rv /= /fwd_crosscov TE /= r2T m2c c2Z sub0r sub0r.
rewrite !(mulr0, mulr1, add0r) s1N c2s c2D.
have mE : (q c)^-1 * q (w + s / 2%:R) = m by rewrite (qV R) (qM R) mulrC.
have mE' : (q c)^-1 * q (w + s) = 1 by rewrite (eqP cE) mulVf // (q0 R) q_neq.
rewrite mE mE' mul1r -(qN R) opprK; congr Normal.
rewrite s1N c2s c2T c2r m2D !mulrN !mulNr !mulr1 !mul1r.
by [].
Qed.

Lemma ex_attempt dm t rv e f : factored rv ->
  (if dm is PieceD locs _ then last 0 locs <= t + 1 else true) ->
  local_scale ex_sys (dynamic dm) t (t + 1) (classic rv) = Some e ->
  step_law ex_sys (if dynamic dm then e else 1) t (t + 1) (classic rv) = Some f ->
  exists rv' err ref,
    [/\ attempt_step qr ex_sys dm t rv 1 = Some (Accepted (t + 1) rv' err ref (d_update dm e t)),
        classic rv' = f & factored rv'].
Proof.
move=> fR dmE eE lE; have := C98_step HQ ex_proper fR ltr01 dmE; rewrite eE lE.
move=> [rv' [E c [_ _ F]]]; exists rv'.
by do 2 eexists; split; first exact: E.
Qed.

Lemma ex_n0 : classic ex_rv0 = Normal (c2 (q 1) (fr 1 4)) (m2 (q 0) 0 0 (q 1)).
Proof. by rewrite /classic /= -(q1 R) -(q0 R). Qed.
Lemma ex_law0 t : step_law ex_sys 1 t (t + 1) (classic ex_rv0) = Some ex_n1.
Proof.
rewrite ex_n0; have := @ex_law t 1 (1%:R / 4%:R) 0 1 1 2%:R ex_n1 isT isT; rewrite -(q1 R); apply.
rewrite /ex_n1 [in RHS](q1 R) [in LHS](q0 R); congr Normal.
  by apply: c2_eq; qdone.
by apply: m2_eq; qdone.
Qed.
Lemma ex_scale0 dyn t : local_scale ex_sys dyn t (t + 1) (classic ex_rv0)
  = Some (if dyn then 1 else fr 1 2).
Proof.
rewrite ex_n0; case: dyn; last exact: ex_scale.
by have := @ex_scale true t 1 (1%:R / 4%:R) 0 1 1 isT isT; rewrite -(q1 R).
Qed.
Lemma ex_run1 : exists rv1,
  [/\ attempts qr ex_sys 0 ex_rv0 (new_constant R) [:: 1]
       = Some (Prog [:: (0 + 1, rv1); (0, ex_rv0)] (ConstD (Some (fr 1 2)) 1)),
      classic rv1 = ex_n1 & factored rv1].
Proof.
have [rv1 [err [ref [E c f]]]] := @ex_attempt (new_constant R) 0 ex_rv0 _ _ ex_fac0 isT
  (ex_scale0 false 0) (ex_law0 0).
by exists rv1; rewrite /attempts /= E.
Qed.

Lemma ex_run2 : exists rv1 rv2,
  [/\ attempts qr ex_sys 0 ex_rv0 (new_piecewise 0) [:: 1; 1]
       = Some (Prog [:: (0 + 1 + 1, rv2); (0 + 1, rv1); (0, ex_rv0)] (PieceD [:: 0; 0; 0 + 1] [:: 1; q 4%:R])),
      classic rv1 = ex_n1, classic rv2 = ex_n2, factored rv1 & factored rv2].
Proof.
have [|rv1 [err [ref [E c f]]]] := @ex_attempt (new_piecewise 0) 0 ex_rv0 _ _ ex_fac0 _
  (ex_scale0 true 0) (ex_law0 0); first by rewrite /= add0r ler01.
have [|||rv2 [err2 [ref2 [E2 n2E f2]]]] := @ex_attempt (PieceD [:: 0; 0] [:: 1]) (0 + 1) rv1 (q 4%:R) ex_n2 f.
- by rewrite /= add0r addr_ge0 ?ler01.
- rewrite c /ex_n1 (q0 R); have := ex_scale; rewrite (q0 R); apply => //.
- rewrite c /ex_n1 (q0 R); have := @ex_law (0 + 1) 2%:R (5%:R / 4%:R) (5%:R / 24%:R) 0 4%:R 4%:R ex_n2 isT isT.
  rewrite (q0 R); apply.
  rewrite /ex_n2 [in LHS](q0 R); congr Normal.
    by apply: c2_eq; qdone.
  by apply: m2_eq; qdone.
by exists rv1, rv2; rewrite /attempts /= E /= E2.
Qed.

Lemma ex_smooth curr rv s (a b d : R) u : 0 <= s -> factored curr -> factored rv ->
  cov (fwd_classic (classicT (ex_dyn 1)) s (classic rv)) = m2 a b b d -> a * d - b * b != 0 ->
  m2 a b b d *m u = s_mean curr - m2 1 1 0 1 *m s_mean rv ->
  exists new, [/\ bwd_sqrt qr Num.sqrt (ex_dyn 1) s curr rv None = Some new, factored new
    & s_mean new = s_mean rv + s_cov rv *m (m2 1 1 0 1)^T *m u].
Proof.
move=> s0 fC fR SE D0 uE.
have sq : Num.sqrt s * Num.sqrt s = s by rewrite -expr2 sqr_sqrtr.
have [E C] := bwd_sqrt_classic (gain := None) HQ (erefl : factoredT (ex_dyn 1)) fR fC sq
  (or_introl (conj erefl (or_intror (leqnn _)))).
move: E C; rewrite /bwd_classic /gain_classic SE m2T (m2U D0) /=.
case: bwd_sqrt => [new|] //= /Some_inj E C; exists new; have [_ _ F] := C _ erefl; split=> //.
rewrite -[s_mean new]/(mean (classic new)) E /condition_state_on_rv /= addr0 -uE trmx_mul trmxK trmx_inv m2T mulmxA mulmxKV ?m2U //.
Qed.

Lemma ex_cov (a b u w s : rat) rv : classic rv = Normal (c2 (q a) (q b)) (m2 (q u) 0 0 (q w)) ->
  cov (fwd_classic (classicT (ex_dyn 1)) (q s) (classic rv))
  = m2 (q (u + w + s / 3%:R)) (q (w + s / 2%:R)) (q (w + s / 2%:R)) (q (w + s)).
Proof.
move=> ->; have := ex_pred a b u w s; rewrite /predicted => -[_] <-.
by rewrite /= /fwd_crosscov mulmxA.
Qed.

(** The smoothing steps of the runs. *)
Lemma ex_smooth0 curr s : 0 <= s -> factored curr -> (s = 1 \/ s = q 4%:R \/ s = fr 1 2) ->
  exists new, [/\ bwd_sqrt qr Num.sqrt (ex_dyn 1) s curr ex_rv0 None = Some new, factored new
    & s_mean curr = c2 (q 2%:R) (fr 5 4) ->
      s = 1 /\ s_mean new = c2 1 (fr 3 4) \/ s = q 4%:R /\ s_mean new = c2 1 (fr 9 16)
      \/ s = fr 1 2].
Proof.
move=> s0 fC.
have main x : s = q x -> q (1 + x / 3%:R) * q (1 + x) - q (1 + x / 2%:R) * q (1 + x / 2%:R) != 0 ->
   exists new, [/\ bwd_sqrt qr Num.sqrt (ex_dyn 1) s curr ex_rv0 None = Some new, factored new
     & forall u, m2 (q (1 + x / 3%:R)) (q (1 + x / 2%:R)) (q (1 + x / 2%:R)) (q (1 + x)) *m u
       = s_mean curr - m2 1 1 0 1 *m c2 1 (fr 1 4) ->
       s_mean new = c2 1 (fr 1 4) + m2 0 0 0 1 *m (m2 1 1 0 1)^T *m u].
  move=> sE D0; have cE := ex_cov x ex_n0; rewrite add0r -sE in cE.
  pose u := invmx (m2 (q (1 + x / 3%:R)) (q (1 + x / 2%:R)) (q (1 + x / 2%:R)) (q (1 + x)))
     *m (s_mean curr - m2 1 1 0 1 *m c2 1 (fr 1 4)).
  have [|new [E F M]] := @ex_smooth curr ex_rv0 s _ _ _ u s0 fC ex_fac0 cE D0.
    by rewrite mulKVmx ?m2U.
  by exists new; split=> // v vE; rewrite M /u -vE mulKmx ?m2U.
case=> [s1E|[s2E|s3E]].
- have [||new [E F M]] := main 1; first by rewrite -(q1 R).
    by rewrite (q0 R); qdone.
  exists new; split=> // mE; left; split=> //.
  rewrite (M (c2 (q 0) (fr 1 2))) ?mE !(q1 R, q0 R); first by qcongr.
  by mnorm; apply: c2_eq; qdone.
- have [|new [E F M]] := main _ s2E.
    by rewrite (q0 R); qdone.
  exists new; split=> // mE; right; left; split=> //.
  rewrite (M (c2 (fr 9 32) (fr 1 32))) ?mE !(q1 R, q0 R).
    by mnorm; apply: c2_eq; qdone.
  by mnorm; apply: c2_eq; qdone.
- have [|new [E F M]] := main _ s3E.
    by rewrite (q0 R); qdone.
  by exists new; split=> // _; right; right.
Qed.

Lemma ex_smooth1 curr rv : factored curr -> factored rv -> classic rv = ex_n1 ->
  s_mean curr = c2 (fr 17 4) (fr 13 4) ->
  exists new, [/\ bwd_sqrt qr Num.sqrt (ex_dyn 1) (q 4%:R) curr rv None = Some new, factored new
    & s_mean new = c2 (q 2%:R) (fr 5 4)].
Proof.
move=> fC fR rE cE; have [mE vE] : s_mean rv = mean ex_n1 /\ s_cov rv = cov ex_n1 by rewrite -rE.
have n1E : classic rv = Normal (c2 (q 2%:R) (fr 5 4)) (m2 (fr 5 24) 0 0 (q 0)).
  by rewrite rE -(q0 R).
have [|||new [E F M]] := @ex_smooth curr rv (q 4%:R) _ _ _ (c2 (q 0) (fr 1 2)) _ fC fR (ex_cov _ n1E).
- by rewrite (q0 R); qdone.
- by rewrite (q0 R); qdone.
- rewrite cE mE /= !(q1 R, q0 R); mnorm; apply: c2_eq; qdone.
exists new; split=> //; rewrite M mE vE /= !(q1 R, q0 R); mnorm; apply: c2_eq; qdone.
Qed.
End Witness.

Theorem C99_smoothing_refuted :
  forall (R : rcfType) (qr : qr_fun R), (forall p q (B : 'M[R]_(p, q)), is_qr_r B (@qr _ _ B)) ->
  exists (S : odefilter R 2 1 1) rv0 p filt sm,
  [/\ proper S, factored rv0, attempts qr S 0 rv0 (new_constant R) [:: 1] = Some p,
      postprocess qr S true p = Some (filt, Some sm)
    & s_cov (head rv0 filt) != s_cov (head rv0 sm)].
Proof.
move=> R qr HQ; exists (ex_sys R), (ex_rv0 R); have [rv1 [E1 c1 f1]] := ex_run1 HQ.
have pos : all (fun dt : R => 0 < dt) [:: 1] by rewrite /= ltr01.
have [s [[sE] PE]] := C99_smoothing_partial HQ (ex_proper R) (ex_fac0 R) pos (erefl : p_states (Prog [:: (0 + 1, rv1); (0, ex_rv0 R)] _) = _) isT E1.
have [||new [nE _ _]] := @ex_smooth0 R qr HQ rv1 s _ f1.
- by rewrite -sE (q0 R); qdone.
- by right; right.
do 3 eexists; split; [exact: ex_proper | exact: ex_fac0 | exact: E1 | |].
  by rewrite PE /= subr0 add0r nE.
have vE : s_cov rv1 = cov (ex_n1 R) by rewrite -c1.
apply/eqP; rewrite /= vE /= -sE m2Z => /m2_inj [/eqP + _ _ _].
by apply/negP; qdone.
Qed.

Print Assumptions C99_smoothing_refuted.

(** The estimates are 1 and 4. The second is used for both intervals, so the smoothed
    derivative at the initial time is 9/16, not 3/4. *)
Theorem C100_smoothing_refuted :
  forall (R : rcfType) (qr : qr_fun R), (forall p q (B : 'M[R]_(p, q)), is_qr_r B (@qr _ _ B)) ->
  exists (S : odefilter R 2 1 1) rv0 p es t rv rest filt sm sm',
  [/\ proper S /\ factored rv0, attempts qr S 0 rv0 (new_piecewise 0) [:: 1; 1] = Some p,
      chain S true 0 rv0 es (p_states p) /\ p_states p = (t, rv) :: rest,
      postprocess qr S true p = Some (filt, Some sm)
    & smooth_steps qr S rv t rest es = Some sm'
      /\ s_mean (last rv0 sm) != s_mean (last rv0 sm')].
Proof.
move=> R qr HQ; exists (ex_sys R), (ex_rv0 R); have [rv1 [rv2 [E2 c1 c2E f1 f2]]] := ex_run2 HQ.
have pos : all (fun dt : R => 0 < dt) [:: 1; 1] by rewrite /= ltr01.
have [es [C PE]] := C100_smoothing_partial HQ (ex_proper R) (ex_fac0 R) pos
  (erefl : p_states (Prog [:: (0 + 1 + 1, rv2); (0 + 1, rv1); (0, ex_rv0 R)] _) = _) isT E2.
have esE : es = [:: q R 4%:R; 1].
  case: es C {PE} => [|e2 [|e1 [|e0 es]]] C.
  - by case: C.
  - by case: C => _ [].
  - case: C => [[_ L2 _ _] [[_ L1 _ _] _]]; move: L1 L2 => /= L1 L2; congr [:: _; _].
      move: L2; rewrite c1 /ex_n1 (q0 R); have := @ex_scale R true (0 + 1) 2%:R (5%:R / 4%:R) (5%:R / 24%:R) 0 4%:R isT isT.
      by rewrite (q0 R) => -> [].
    by move: L1; rewrite ex_scale0 => -[].
  - by case: C => _ [_ []].
have m2E : s_mean rv2 = c2 (q R (17%:R / 4%:R)) (q R (13%:R / 4%:R)) by rewrite -[s_mean rv2]/(mean (classic rv2)) c2E.
have [n1 [n1E nf1 nm1]] := ex_smooth1 HQ f2 f1 c1 m2E.
have [||a [aE _ am]] := @ex_smooth0 R qr HQ n1 1 _ nf1; [exact: ler01 | by left |].
have [||b [bE _ bm]] := @ex_smooth0 R qr HQ n1 (q R 4%:R) _ nf1.
- by rewrite (q0 R); qdone.
- by right; left.
exists (Prog [:: (0 + 1 + 1, rv2); (0 + 1, rv1); (0, ex_rv0 R)] (PieceD [:: 0; 0; 0 + 1] [:: 1; q R 4%:R])).
exists es, (0 + 1 + 1), rv2, [:: (0 + 1, rv1); (0, ex_rv0 R)]; do 3 eexists; split=> //.
- by split; [exact: ex_proper | exact: ex_fac0].
- have t1 : 0 + 1 + 1 - (0 + 1) = 1 :> R by rewrite [0 + 1 + 1]addrC addrK.
  by rewrite PE esE /= t1 n1E /= subr0 add0r bE.
split.
  have t1 : 0 + 1 + 1 - (0 + 1) = 1 :> R by rewrite [0 + 1 + 1]addrC addrK.
  by rewrite esE /= t1 n1E /= subr0 add0r aE.
have ne x y : x != y -> q R x = q R y -> False by move=> /(@q_neq R) /eqP.
have am' : s_mean a = c2 1 (q R (3%:R / 4%:R)).
  by case: (am nm1) => [[_ ->] //|[[+ _]|]]; rewrite (q1 R) => /ne [].
have bm' : s_mean b = c2 1 (q R (9%:R / 16%:R)).
  case: (bm nm1) => [[+ _]|[[_ ->] //|]]; rewrite ?(q1 R) => /ne H.
    by case: H; vm_compute.
  by case: H; vm_compute.
rewrite /= am' bm'; apply/eqP => /c2_inj [_ /ne H].
by case: H; vm_compute.
Qed.
Print Assumptions C100_smoothing_refuted.

(** ** C101: time-dependent ODEs *)
(** y' = t, with the value [c] if no time is passed, which is what the update does: the
    derivative at the new time is [c] instead of the new time. *)
Definition ex_time (R : rcfType) (c : R) : odefilter R (1 + 1) 1 1 :=
  ODEFilter (@ex_dyn R) (ek0 (ex_h0 R) (ex_h1 R) (fun t _ => s1 (if t is Some u then u else c)))
    (ex_h0 R) (fun _ _ => true).
Theorem C101_time_refuted :
  forall (R : rcfType) (qr : qr_fun R), (forall p q (B : 'M[R]_(p, q)), is_qr_r B (@qr _ _ B)) ->
  forall (c t : R), exists rv' err ref dm',
  attempt_step qr (ex_time c) (new_constant R) t (ex_rv0 R) 1 = Some (Accepted (t + 1) rv' err ref dm')
  /\ ex_h1 R *m s_mean rv' = s1 c.
Proof.
move=> R qr HQ c t.
have jE u x : nl_jac (of_meas (ex_time c)) u x = r2 0 1 by rewrite /= /residual_jac mul0mx subr0.
have := @attempt_spec R qr 2 1 1 HQ isT (ex_time c) (new_constant R) t 1 (ex_rv0 R) (ex_fac0 R)
  erefl (fun _ => erefl) (etrans (jE _ _) (esym (jE _ _))).
have pE := ex_pred R 1 (1%:R / 4%:R) 0 1 1; rewrite -(q1 R) -(q0 R) -[Normal _ _]/(classic (ex_rv0 R)) in pE.
set E := estimate _ _ _ _ _.
have [e ->] : exists e, E = Some e.
  rewrite /E /estimate !jE /qmle; set M := _ + _.
  have -> : M = s1 (q R 2%:R).
    move: pE; rewrite /predicted scale1r => -[_ /(congr1 (fun X => r2 0 1 *m X *m (r2 0 1)^T))] pE.
    rewrite /M -mulmxDl -mulmxDr [_ + _ *m _]addrC pE r2m r2T r2c.
    by rewrite !(mul0r, mul1r, mulr0, mulr1, addr0, add0r).
  by rewrite s1U (_ : q R _ != 0) ?(q0 R) ?q_neq //; eexists.
have acc a b : of_accept (ex_time c) a b = true by [].
cbv zeta; rewrite acc /step_law_at [t + 1 - t]addrAC subrr add0r [dynamic _]/= pE.
set p := Normal _ _; set T := classicT _; set z := nl_fun (of_meas (ex_time c)) None (mean p).
have TE : T = LinGauss (r2 0 1) (z - r2 0 1 *m mean p) 0.
  by rewrite /T /linearize /classicT /= addr0 /residual_jac mul0mx subr0.
have CE : fwd_crosscov T p = c2 (q R (3%:R / 2%:R)) (q R 2%:R).
  rewrite /fwd_crosscov TE /= r2T m2c !(mulr0, mulr1, add0r).
  by apply: c2_eq; qdone.
rewrite (@upd1 R _ T _ p (q R 2%:R)); last by rewrite (q0 R) q_neq.
  move=> [rv' [E1 E2 _]]; exists rv'; do 3 eexists; split; first exact: E1.
  rewrite -[s_mean rv']/(mean (classic rv')) E2 /condition_state_on_rv CE.
  have g1 : ex_h1 R *m ((q R 2%:R)^-1 *: c2 (q R (3%:R / 2%:R)) (q R 2%:R)) = 1%:M.
    by rewrite c2Z r2c mul0r add0r mul1r mulVf // (q0 R) q_neq.
  rewrite -[mean (Normal _ _)]/(mean p + _ *: _ *m _) mulmxDr mulmxA g1 mul1mx.
  have -> : mean (fwd_classic T 1 p) = z by rewrite TE /= addrC subrK.
  have -> : mean (constant 0) - z = - z :> 'cV[R]_1 by rewrite sub0r.
  by rewrite /z /= /residual opprB addrC subrK.
rewrite -[cov _]/(tmat T *m fwd_crosscov T p + 1 *: ncov T) CE TE /= scaler0 addr0 r2c.
by rewrite mul0r mul1r add0r.
Qed.
Print Assumptions C101_time_refuted.

(** ** C102: exact states *)
(** From a state without uncertainty, with a zero residual at the predicted mean, steps
    with a dynamic diffusion divide by zero; constant ODEs with an exact initial state are
    an instance. *)
Theorem C102_exact_refuted :
  (forall (R : rcfType) (qr : qr_fun R) n d k (S : odefilter R n d k) locs diffs t rv dt,
   (forall p q (B : 'M[R]_(p, q)), is_qr_r B (@qr _ _ B)) -> proper S -> factored rv -> 0 < dt ->
   last 0 locs <= t + dt -> (0 < d)%N -> (forall err ref, of_accept S err ref) ->
   let dyn := of_dyn S dt in let m := s_tmat dyn *m s_mean rv + s_shift dyn in
   s_cov rv = 0 -> nl_fun (of_meas S) (Some (t + dt)) m = 0 ->
   attempt_step qr S (PieceD locs diffs) t rv dt = None)
  /\ forall (R : rcfType) (qr : qr_fun R) (y : R), (forall p q (B : 'M[R]_(p, q)), is_qr_r B (@qr _ _ B)) ->
   let S := ODEFilter (@ex_dyn R) (ek0 (ex_h0 R) (ex_h1 R) (fun _ _ => 0)) (ex_h0 R) (fun _ _ => true) in
   attempt_step qr S (new_piecewise 0) 0 (sconstant (c2 y 0)) 1 = None.
Proof.
have main (R : rcfType) (qr : qr_fun R) n d k (S : odefilter R n d k) locs diffs t rv dt :
   (forall p q (B : 'M[R]_(p, q)), is_qr_r B (@qr _ _ B)) -> proper S -> factored rv -> 0 < dt ->
   last 0 locs <= t + dt -> (0 < d)%N -> (forall err ref, of_accept S err ref) ->
   let dyn := of_dyn S dt in let m := s_tmat dyn *m s_mean rv + s_shift dyn in
   s_cov rv = 0 -> nl_fun (of_meas S) (Some (t + dt)) m = 0 ->
   attempt_step qr S (PieceD locs diffs) t rv dt = None.
  move=> HQ pS fR dt0 lt d0 acc dyn m c0 z0.
  have := @C98_step R qr n d k S (PieceD locs diffs) t rv dt HQ pS fR dt0 lt.
  rewrite /local_scale [t + dt - t]addrAC subrr add0r -/dyn [mean _]/= -/m z0 /qmle.
  case: ifP => // u; rewrite trmx0 mul0mx mulmx0 mxE mul0r; cbv zeta; rewrite acc.
  rewrite /step_law /step_law_at [t + dt - t]addrAC subrr add0r -/dyn /bwd_classic /gain_classic.
  set SS := cov _; have -> // : SS^T \in unitmx = false.
  have -> : SS = 0.
    rewrite /SS /linearize (pr_noise pS) /= scaler0 addr0 /fwd_crosscov /= c0.
    by rewrite mulmx0 mul0mx scale0r addr0 mul0mx mulmx0.
  by case: (d) d0 => // d' _; rewrite trmx0 unitmxE det0 unitr0.
split=> // R qr y HQ S; apply: main => //.
- by rewrite /factored /= mul0mx.
- exact: ltr01.
- by rewrite /= add0r ler01.
- by rewrite /= /residual /= addr0 m2c /ex_h1 r2c !(mul0r, mul1r, addr0) subr0 -s10.
Qed.
Print Assumptions C102_exact_refuted.

(** ** Non-vacuity *)
(** The runs above, with a computed QR decomposition over the real algebraic numbers: they
    meet the hypotheses of C54 and C98-C100, and there are priors as in C54 and C98. *)
Example C98_nonvacuous : let F := [rcfType of realalg] in let qr := @qr_of F in
  [/\ forall p q (B : 'M[F]_(p, q)), is_qr_r B (@qr _ _ B), proper (ex_sys F), factored (ex_rv0 F),
      exists p, attempts qr (ex_sys F) 0 (ex_rv0 F) (new_constant F) [:: 1] = Some p
        /\ size (p_states p) = 2%N
    & exists p es K (Z W : nat -> rvec F K 2),
      [/\ attempts qr (ex_sys F) 0 (ex_rv0 F) (new_piecewise 0) [:: 1; 1] = Some p,
          size (p_states p) = 3%N, chain (ex_sys F) true 0 (ex_rv0 F) es (p_states p)
        & prior_path (ex_sys F) true 0 (ex_rv0 F) es (p_states p) 1 Z W]].
Proof.
move=> F qr; have HQ p q (B : 'M[F]_(p, q)) : is_qr_r B (@qr _ _ B) by apply: qr_ofP.
apply: And5 => //; first exact: ex_fac0.
  by have [rv1 [E _ _]] := ex_run1 HQ; eexists; split; first exact: E.
have [rv1 [rv2 [E _ _ _ _]]] := ex_run2 HQ.
have pos : all (fun dt : F => 0 < dt) [:: 1; 1] by rewrite /= ltr01.
have [es [C _]] := attempts_run HQ (ex_proper F) (ex_fac0 F) pos E.
have e0 := chain_ge0 (ex_proper F) (ex_fac0 F) C.
have [K [Z [W PP]]] := prior_path_exists (ex_proper F) C (ex_fac0 F) ler01 e0.
by eexists _, es, K, Z, W; split; first exact: E.
Qed.
