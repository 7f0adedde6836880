(** C08, C09, C11, C65, C66: Kalman filter and smoother. *)
From mathcomp Require Import all_ssreflect all_algebra.
From Verif Require Import L_Zmod M_Gauss L_Kalman L_Filter L_Smooth L_SSMExists L_Psd.
Set Implicit Arguments.
Unset Strict Implicit.
Unset Printing Implicit Defensive.
Import Order.Theory GRing.Theory Num.Theory.
Local Open Scope ring_scope.

(** Filtering: at every location the returned mean, as a function of the data, and
    the returned covariance are those of the conditional law of the state given the
    data up to that location. *)
Theorem C08_filter_is_conditional_law :
  forall (R : realFieldType) K n m (M : ssm R n m) N (Z W : nat -> rvec R K n)
    (V Y : forall k, rvec R K (m k)),
  realises M N Z W V Y -> time_invariant M ->
  forall y0 k, (k < N)%N -> filter_state M y0 N k ->
  exists mu P, (forall y, filter_state M y N k = Some (Normal (mu y) P))
    /\ cond_law (Z k.+1) Y k.+1 mu P.
Proof.
move=> R K n m M N Z W V Y HR TI y0 k lt; rewrite /filter_state; case: ifP => // _ ok.
have [k0 [Kc [P [F ME CE PE]]]] := filter_correct HR TI lt ok.
exists (predictor k.+1 k0 Kc), P; split=> //.
by exists k0, Kc.
Qed.
Print Assumptions C08_filter_is_conditional_law.

(** The conditional law is determined by its defining conditions, and its mean is the
    best affine predictor. *)
Theorem C08_conditional_law_unique :
  forall (R : realFieldType) K n m (X : rvec R K n) (Y : forall j, rvec R K (m j)) k mu P mu' P',
  cond_law X Y k mu P -> cond_law X Y k mu' P' ->
  P = P' /\ exists k0 Kc k0' Kc', mu =1 predictor k k0 Kc /\ mu' =1 predictor k k0' Kc'
    /\ predictor_rv k k0 Kc Y = predictor_rv k k0' Kc' Y.
Proof.
move=> R K n m X Y k mu P mu' P' [k0 [K0 [F0 [M0 [C0 P0]]]]] [k1 [K1 [F1 [M1 [C1 P1]]]]].
have E := cond_law_unique M0 C0 M1 C1.
split; first by rewrite -P0 -P1 E.
by exists k0, K0, k1, K1.
Qed.
Print Assumptions C08_conditional_law_unique.

(** The filter raises no error when the measurement noise is non-degenerate. *)
Theorem C08_filter_succeeds :
  forall (R : realFieldType) n m (M : ssm R n m) N y k,
  sorted_locs M N -> psd (cov (init M)) -> (forall t dt, psd (ncov (trans M t dt))) ->
  (forall k, pd (ncov (meas M k None))) ->
  exists rv, filter_state M y N k = Some rv.
Proof.
move=> R n m M N y k s pI pT qM; rewrite /filter_state s.
pose M' := Ssm (trans M) (fun k _ => meas M k None) (loc M) (initarg M) (init M).
have pM' k' t : psd (ncov (meas M' k' t)) by apply: pd_psd; apply: qM.
have [rv E] := @filtered_total _ _ _ M' y pI pT pM' (fun k' => qM k') k.+1.
exists rv; rewrite -E; elim: (k.+1) => //= j ->; congr obind.
Qed.
Print Assumptions C08_filter_succeeds.

(** Smoothing: the same given all data. *)
Theorem C09_smoother_is_conditional_law :
  forall (R : realFieldType) K n m (M : ssm R n m) N (Z W : nat -> rvec R K n)
    (V Y : forall k, rvec R K (m k)),
  realises M N Z W V Y -> time_invariant M ->
  forall y0 k, (k < N)%N -> smooth_state M y0 N k ->
  exists mu P, (forall y, smooth_state M y N k = Some (Normal (mu y) P))
    /\ cond_law (Z k.+1) Y N mu P.
Proof.
move=> R K n m M N Z W V Y HR TI y0 k lt; rewrite /smooth_state; case: ifP => // s ok.
have [k0 [Kc [P [F ME CE PE]]]] : exists k0 Kc P, smooth_inv M N Z Y (N.-1 - k) k0 Kc P.
  have : (N.-1 - k < N)%N by case: (N) lt => // N' _; rewrite ltnS leq_subr.
  elim: (N.-1 - k)%N ok => [|i IH] ok lti.
    have [k0 [Kc [P [F ME CE PE]]]] := filter_correct HR TI (leqnn N) ok.
    by exists k0, Kc, P; rewrite /smooth_inv subn0; split.
  have okS : smoothed_back M y0 N i.
    by move: ok => /=; case: (smoothed_back M y0 N i).
  have [k0s [Kcs [Ps Is]]] := IH okS (ltnW lti).
  have [k0 [Kc [P [I _]]]] := smooth_step HR TI s lti Is ok.
  by exists k0, Kc, P.
have idx : (N - (N.-1 - k))%N = k.+1.
  by case: (N) lt => // N'; rewrite ltnS /= => le; rewrite subSn ?leq_subr // subKn.
rewrite idx in ME CE PE.
by exists (predictor N k0 Kc), P; split=> //; exists k0, Kc.
Qed.
Print Assumptions C09_smoother_is_conditional_law.

Theorem C09_smoother_succeeds :
  forall (R : realFieldType) n m (M : ssm R n m) N y k,
  sorted_locs M N -> psd (cov (init M)) -> (forall t dt, pd (ncov (trans M t dt))) ->
  (forall k t, pd (ncov (meas M k t))) ->
  exists rv, smooth_state M y N k = Some rv.
Proof.
move=> R n m M N y k s pI qT qM; rewrite /smooth_state s.
by apply: smoothed_total => // *; apply: pd_psd.
Qed.
Print Assumptions C09_smoother_succeeds.

(** C11: covariances. *)
Theorem C11_transitions_keep_psd :
  forall (R : realFieldType) n p (T : lingauss R n p) d (rv : normal R n) obtained rv',
  0 <= d -> psd (ncov T) -> psd (cov rv) ->
  psd (cov (fwd_classic T d rv))
  /\ (psd (cov obtained) -> bwd_classic T d obtained rv None = Some rv' -> psd (cov rv'))
  /\ (bwd_classic T d (constant (mean obtained)) rv None = Some rv' ->
      loewner (cov rv') (cov rv)).
Proof.
move=> R n p T d rv ob rv' d0 pT pP; split; [exact: psd_fwd|split].
- exact: psd_bwd.
- exact: loewner_bwd.
Qed.
Print Assumptions C11_transitions_keep_psd.

Theorem C11_runs_keep_psd :
  forall (R : realFieldType) n m (M : ssm R n m) y N k rv,
  psd (cov (init M)) -> (forall t dt, psd (ncov (trans M t dt))) ->
  (forall k t, psd (ncov (meas M k t))) ->
  (filter_state M y N k = Some rv -> psd (cov rv))
  /\ (smooth_state M y N k = Some rv -> psd (cov rv))
  /\ (forall f, filtered M y k = Some f -> filtered M y k.+1 = Some rv ->
      loewner (cov rv) (cov (predict M k f))).
Proof.
move=> R n m M y N k rv pI pT pM; rewrite /filter_state /smooth_state.
split; last split.
- by case: ifP => // _; apply: psd_filtered.
- by case: ifP => // _; apply: psd_smoothed.
- move=> f F /=; rewrite F /= => U; apply: (update_decreases pM _ U).
  by apply: psd_predict => //; apply: psd_filtered F.
Qed.
Print Assumptions C11_runs_keep_psd.

(** ** Time-dependent models *)
(** The filter evaluates the transition at the end instead of the start of the step. *)
Definition m1 : nat -> nat := fun _ => 1%N.
Definition M65 : ssm [realFieldType of rat] 1 m1 :=
  Ssm (fun t dt => LinGauss (if t == 0 then 1%:M else 0) 0 0)
      (fun k t => LinGauss 1%:M 0 1%:M) (fun k => k.+1%:R) 0 (Normal 0 1%:M).

Lemma M65_filter y : filtered M65 y 1 = Some (Normal 0 0).
Proof.
rewrite /= /update /predict /bwd_classic /gain_classic /=.
rewrite /fwd_classic /fwd_crosscov /= ?(mul0mx, mulmx0, scaler0, addr0, add0r, scale1r, trmx0).
rewrite trmx1 unitmx1 /= /condition_state_on_rv /= ?(mulmx0, mul0mx, trmx0, addr0, add0r, subr0).
by rewrite ?(mulmx0, mul0mx, trmx0).
Qed.

Theorem C65_time_dependent_transition_refuted :
  exists (M : ssm [realFieldType of rat] 1 m1) K (Z W : nat -> rvec _ K 1)
    (V Y : forall k, rvec _ K (m1 k)) y0,
  [/\ realises M 1 Z W V Y, (forall k t t', meas M k t = meas M k t'),
      filter_state M y0 1 0
    & ~ exists mu P, (forall y, filter_state M y 1 0 = Some (Normal (mu y) P))
        /\ cond_law (Z 1%N) Y 1 mu P].
Proof.
have [|k _|k _|K [Z [W [V [Y HR]]]]] :=
  @realises_exists _ _ _ M65 1 1%:M (fun _ => 0) (fun _ => 1%:M).
- by rewrite trmx1 mulmx1.
- by rewrite mul0mx.
- by rewrite trmx1 mulmx1.
have s : sorted_locs M65 1 by apply/forallP => -[[|]].
exists M65, K, Z, W, V, Y, (fun _ => 0); split=> //.
- by rewrite /filter_state s M65_filter.
case=> mu [P [F [k0 [Kc [_ [_ [CE PE]]]]]]].
have P0 : P = 0.
  by move: (F (fun _ => 0)); rewrite /filter_state s M65_filter => -[].
move: CE PE; rewrite P0; move EE : (Z 1%N - _) => E CE PE.
have E0 : rsubmx E = 0 by apply: gram_eq0.
have CE0 q (X : rvec _ K q) : Cov E X = 0 by rewrite /Cov E0 mul0mx.
have lt1 : (0 < 1)%N by [].
have Z1 : Z 1%N = Z 0%N + W 0%N.
  by rewrite (rz_Z HR lt1) /= mul1mx.
have Y0 : Y 0%N = Z 0%N + W 0%N + V 0%N by rewrite (rz_Y HR lt1) /= mul1mx Z1.
have EE' : E = Z 0%N + W 0%N - (Cst K k0 + Kc 0%N *m (Z 0%N + W 0%N + V 0%N)).
  by rewrite -EE /predictor_rv big_ord1 Y0 Z1.
have ZV := rz_ZV HR lt1; have ZW := rz_ZW HR lt1; have WV := rz_WV HR lt1 lt1.
have VV : Cov (V 0%N) (V 0%N) = 1%:M := rz_covV HR lt1.
have ZZ : Cov (Z 0%N) (Z 0%N) = 1%:M := rz_cov0 HR.
have K0 : Kc 0%N = 0.
  have := CE0 _ (V 0%N); rewrite EE' !CovE ZV WV VV /= !add0r mulmx1.
  by move/eqP; rewrite oppr_eq0 => /eqP.
have := CE0 _ (Z 0%N); rewrite EE' K0 !CovE (Cov0_sym ZW) ZZ /=.
rewrite !mul0mx !addr0 oppr0 addr0 => /matrixP/(_ 0 0).
by rewrite !mxE.
Qed.
Print Assumptions C65_time_dependent_transition_refuted.

(** The filter does not pass the time to the measurement model. *)
Definition M66 : ssm [realFieldType of rat] 1 m1 :=
  Ssm (fun t dt => LinGauss 1%:M 0 0)
      (fun k t => LinGauss (if t is None then 0 else 1%:M) 0 1%:M)
      (fun k => k%:R) 0 (Normal 0 1%:M).

Lemma M66_filter y : filtered M66 y 1 = Some (Normal 0 1%:M).
Proof.
rewrite /= /update /predict /bwd_classic /gain_classic /=.
rewrite /fwd_classic /fwd_crosscov /= ?(mul0mx, mulmx0, scaler0, addr0, add0r, scale1r, trmx0).
rewrite trmx1 unitmx1 /= /condition_state_on_rv /=.
by rewrite ?(mulmx0, mul0mx, trmx0, addr0, add0r, subr0).
Qed.

Theorem C66_measurement_time_refuted :
  exists (M : ssm [realFieldType of rat] 1 m1) K (Z W : nat -> rvec _ K 1)
    (V Y : forall k, rvec _ K (m1 k)) y0,
  [/\ realises M 1 Z W V Y, (forall t t' dt, trans M t dt = trans M t' dt),
      filter_state M y0 1 0
    & ~ exists mu P, (forall y, filter_state M y 1 0 = Some (Normal (mu y) P))
        /\ cond_law (Z 1%N) Y 1 mu P].
Proof.
have [|k _|k _|K [Z [W [V [Y HR]]]]] :=
  @realises_exists _ _ _ M66 1 1%:M (fun _ => 0) (fun _ => 1%:M).
- by rewrite trmx1 mulmx1.
- by rewrite mul0mx.
- by rewrite trmx1 mulmx1.
have s : sorted_locs M66 1 by apply/forallP => -[[|]].
exists M66, K, Z, W, V, Y, (fun _ => 0); split=> //.
- by rewrite /filter_state s M66_filter.
case=> mu [P [F [k0 [Kc [_ [_ [CE PE]]]]]]].
have P0 : P = 1%:M.
  by move: (F (fun _ => 0)); rewrite /filter_state s M66_filter => -[].
have lt1 : (0 < 1)%N by [].
move: CE PE => /(_ _ lt1); rewrite P0; move EE : (Z 1%N - _) => E CE PE.
have Z1 : Z 1%N = Z 0%N by rewrite (rz_Z HR lt1).
have Y0 : Y 0%N = Z 0%N + V 0%N by rewrite (rz_Y HR lt1) /= mul1mx Z1.
have EE' : E = Z 0%N - (Cst K k0 + Kc 0%N *m (Z 0%N + V 0%N)).
  by rewrite -EE /predictor_rv big_ord1 Y0 Z1.
have ZV := rz_ZV HR lt1; have VV : Cov (V 0%N) (V 0%N) = 1%:M := rz_covV HR lt1.
have ZZ : Cov (Z 0%N) (Z 0%N) = 1%:M := rz_cov0 HR.
have EZ : Cov E E = Cov E (Z 0%N).
  rewrite {2}EE' (CovBr E) (CovDr E) CovCr add0r (CovMr (Kc 0%N) E) -Y0 CE.
  by rewrite mul0mx subr0.
have EZ1 : Cov E (Z 0%N) = 1%:M - Kc 0%N.
  by rewrite EE' !CovE ZZ (Cov0_sym ZV) /= ?(addr0, add0r, mulmx1).
have K0 : Kc 0%N = 0.
  by move: PE; rewrite EZ EZ1 => /eqP; rewrite subr_eq addrC -subr_eq subrr eq_sym => /eqP.
move: CE; rewrite Y0 EE' K0 !CovE ZZ ZV VV /= !mul0mx !addr0 oppr0 addr0.
by move=> /matrixP/(_ 0 0); rewrite !mxE.
Qed.
Print Assumptions C66_measurement_time_refuted.

(** Non-vacuity: every time-invariant model whose covariances have square roots is
    realised (see [realises_exists]); this one (scalar random walk, unit noise)
    also meets the hypotheses of the success theorems. *)
Definition Mrw : ssm [realFieldType of rat] 1 m1 :=
  Ssm (fun t dt => LinGauss 1%:M 0 1%:M) (fun k t => LinGauss 1%:M 0 1%:M)
      (fun k => k.+1%:R) 0 (Normal 0 1%:M).
Lemma pd_1 n : pd (1%:M : 'M[[realFieldType of rat]]_n).
Proof.
split=> [|x nz]; first exact: trmx1.
rewrite /qform mulmx1 lt_neqAle dot_ge0 andbT eq_sym; apply: contra nz => /eqP/dot_eq0 ->.
exact: eqxx.
Qed.
Example ex_rw : exists K Z W V Y, @realises _ K _ _ Mrw 5 Z W V Y
  /\ time_invariant Mrw /\ sorted_locs Mrw 5
  /\ forall y k, exists f s, filter_state Mrw y 5 k = Some f /\ smooth_state Mrw y 5 k = Some s.
Proof.
have [|k _|k _|K [Z [W [V [Y HR]]]]] :=
  @realises_exists _ _ _ Mrw 5 1%:M (fun _ => 1%:M) (fun _ => 1%:M).
- by rewrite trmx1 mulmx1.
- by rewrite trmx1 mulmx1.
- by rewrite trmx1 mulmx1.
exists K, Z, W, V, Y.
have s : sorted_locs Mrw 5.
  by apply/forallP => k; apply/implyP => _; rewrite /= ltr_nat.
do 3!split=> //; move=> y k.
have [f F] := @C08_filter_succeeds _ _ _ Mrw 5 y k s (pd_psd (pd_1 1))
  (fun _ _ => pd_psd (pd_1 1)) (fun _ => pd_1 1).
have [g G] := @C09_smoother_succeeds _ _ _ Mrw 5 y k s (pd_psd (pd_1 1))
  (fun _ _ => pd_1 1) (fun _ _ => pd_1 1).
by exists f, g.
Qed.
