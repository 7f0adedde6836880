(** The Kalman filter computes conditional laws. *)
From mathcomp Require Import all_ssreflect all_algebra.
From Verif Require Import L_Zmod M_Gauss L_Kalman.
Set Implicit Arguments.
Unset Strict Implicit.
Unset Printing Implicit Defensive.
Import Order.Theory GRing.Theory Num.Theory.
Local Open Scope ring_scope.

(** Replacing one coefficient of a predictor. *)
Section Upd.
Variables (R : realFieldType) (n : nat) (m : nat -> nat).
Definition upd k (G : 'M[R]_(n, m k)) (Kc : forall j, 'M[R]_(n, m j)) : forall j, 'M[R]_(n, m j) :=
  fun j => match @eqP _ k j with
           | ReflectT e => ecast z 'M[R]_(n, m z) e G
           | ReflectF _ => Kc j
           end.
Lemma upd_same k G Kc : @upd k G Kc k = G.
Proof.
rewrite /upd; case: eqP => // e.
by rewrite (eq_irrelevance e (erefl k)).
Qed.
Lemma upd_other k G Kc j : (j < k)%N -> @upd k G Kc j = Kc j.
Proof. by rewrite /upd => lt; case: eqP => // e; rewrite e ltnn in lt. Qed.

Lemma predictor_upd k k0 G Kc (y : forall j, 'cV[R]_(m j)) :
  predictor k.+1 k0 (@upd k G Kc) y = predictor k k0 Kc y + G *m y k.
Proof.
rewrite /predictor big_ord_recr /= upd_same addrA; congr (_ + _ + _).
by apply: eq_bigr => j _; rewrite upd_other.
Qed.
Lemma predictor_rv_upd K k k0 G Kc (Y : forall j, rvec R K (m j)) :
  predictor_rv k.+1 k0 (@upd k G Kc) Y = predictor_rv k k0 Kc Y + G *m Y k.
Proof.
rewrite /predictor_rv big_ord_recr /= upd_same addrA; congr (_ + _ + _).
by apply: eq_bigr => j _; rewrite upd_other.
Qed.
(** Affine images of predictors. *)
Lemma predictor_aff p k k0 Kc (A : 'M[R]_(p, n)) b (y : forall j, 'cV[R]_(m j)) :
  A *m predictor k k0 Kc y + b = predictor k (A *m k0 + b) (fun j => A *m Kc j) y.
Proof.
rewrite /predictor mulmxDr mulmx_sumr addrAC; congr (_ + _).
by apply: eq_bigr => j _; rewrite mulmxA.
Qed.
Lemma predictor_rv_aff K p k k0 Kc (A : 'M[R]_(p, n)) b (Y : forall j, rvec R K (m j)) :
  A *m predictor_rv k k0 Kc Y + Cst K b = predictor_rv k (A *m k0 + b) (fun j => A *m Kc j) Y.
Proof.
rewrite /predictor_rv mulmxDr mulmx_sumr addrAC CstD CstM; congr (_ + _).
by apply: eq_bigr => j _; rewrite mulmxA.
Qed.
End Upd.

(** ** Specification: the state-space model *)
Section Spec.
Variables (R : realFieldType) (K n : nat) (m : nat -> nat).
Variable M : ssm R n m.
(** The transition from the previous location (or the initial time) to location
    [k], starting at the previous location; the measurement model of datum [k]. *)
Definition tr k := trans M (told M k) (loc M k - told M k).
Definition ms k := meas M k (Some (loc M k)).

(** [Z k]: state before datum [k]'s location is reached ([Z 0] initial state,
    [Z k.+1] state at location [k]); [Y k] datum [k]; [W], [V] the noises. *)
Record realises N (Z : nat -> rvec R K n) (W : nat -> rvec R K n)
    (V : forall k, rvec R K (m k)) (Y : forall k, rvec R K (m k)) : Prop := Realises {
  rz_mean0 : Mean (Z 0%N) = mean (init M);
  rz_cov0 : Cov (Z 0%N) (Z 0%N) = cov (init M);
  rz_meanW : forall k, (k < N)%N -> Mean (W k) = shift (tr k);
  rz_covW : forall k, (k < N)%N -> Cov (W k) (W k) = ncov (tr k);
  rz_meanV : forall k, (k < N)%N -> Mean (V k) = shift (ms k);
  rz_covV : forall k, (k < N)%N -> Cov (V k) (V k) = ncov (ms k);
  rz_ZW : forall k, (k < N)%N -> Cov (Z 0%N) (W k) = 0;
  rz_ZV : forall k, (k < N)%N -> Cov (Z 0%N) (V k) = 0;
  rz_WW : forall k l, (k < N)%N -> (l < N)%N -> k != l -> Cov (W k) (W l) = 0;
  rz_VV : forall k l, (k < N)%N -> (l < N)%N -> k != l -> Cov (V k) (V l) = 0;
  rz_WV : forall k l, (k < N)%N -> (l < N)%N -> Cov (W k) (V l) = 0;
  rz_Z : forall k, (k < N)%N ->
    Z k.+1 = if told M k < loc M k then tmat (tr k) *m Z k + W k else Z k;
  rz_Y : forall k, (k < N)%N -> Y k = tmat (ms k) *m Z k.+1 + V k }.

(** Transitions and measurement models do not depend on the time at which they
    are evaluated. *)
Definition time_invariant :=
  (forall t t' dt, trans M t dt = trans M t' dt)
  /\ (forall k t t', meas M k t = meas M k t').
End Spec.

(** ** One step *)
Section Step.
Variables (R : realFieldType) (K n p : nat).
Implicit Types (E : rvec R K n) (T : lingauss R n p).

Lemma gain_solves T d rv G :
  (cov rv)^T = cov rv -> (ncov T)^T = ncov T ->
  gain_classic T d rv = Some G -> G *m cov (fwd_classic T d rv) = fwd_crosscov T rv.
Proof.
move=> sP sR; rewrite /gain_classic; case: ifP => // U [<-].
rewrite -[LHS]trmxK trmx_mul trmxK mulmxA mulmxV // mul1mx trmxK //.
Qed.

Lemma fwd_cov_sym T d (rv : normal R n) :
  (cov rv)^T = cov rv -> (ncov T)^T = ncov T ->
  (cov (fwd_classic T d rv))^T = cov (fwd_classic T d rv).
Proof. by move=> sP sR; rewrite /= /fwd_crosscov trmxD trmxZ sR !trmx_mul trmxK sP mulmxA. Qed.

Lemma forward_law E (W : rvec R K p) T (rv : normal R n) :
  Mean E = 0 -> Cov E E = cov rv -> Mean W = shift T -> Cov W W = ncov T -> Cov E W = 0 ->
  let I := tmat T *m E + W - Cst K (shift T) in
  [/\ Mean I = 0, Cov I I = cov (fwd_classic T 1 rv) & Cov E I = fwd_crosscov T rv].
Proof.
move=> ME CE MW CW EW I; have WE := Cov0_sym EW; split.
- rewrite /I !MeanE.
  by rewrite ME MW mulmx0 add0r subrr.
- rewrite /I !CovE CE CW EW WE /= scale1r /fwd_crosscov ?oppr0 ?mulmx0; mx_ring.
- by rewrite /I !CovE CE EW; rewrite /fwd_crosscov oppr0 !addr0.
Qed.

Lemma condition_law E (W : rvec R K p) T (rv : normal R n) G :
  Mean E = 0 -> Cov E E = cov rv -> Mean W = shift T -> Cov W W = ncov T -> Cov E W = 0 ->
  gain_classic T 1 rv = Some G ->
  let I := tmat T *m E + W - Cst K (shift T) in
  let D := E - G *m I in
  [/\ Mean D = 0, Cov D I = 0 &
      Cov D D = cov rv - G *m cov (fwd_classic T 1 rv) *m G^T].
Proof.
move=> ME CE MW CW EW gE I D.
have [MI CI CEI] := forward_law ME CE MW CW EW.
have sP : (cov rv)^T = cov rv by rewrite -CE Cov_sym.
have sR : (ncov T)^T = ncov T by rewrite -CW Cov_sym.
have GS := gain_solves sP sR gE.
have DI : Cov D I = 0 by rewrite /D (CovBl E) (CovMl G) CI GS CEI subrr.
split=> //; first by rewrite /D (MeanB E) (MeanM G) MI ME mulmx0 subr0.
rewrite {2}/D (CovBr D E) (CovMr G D) DI mul0mx subr0 /D (CovBl E) (CovMl G) CE.
congr (_ - _); rewrite -CovT CEI -GS trmx_mul fwd_cov_sym //.
by rewrite mulmxA.
Qed.
End Step.

(** ** The filter *)
Section Filter.
Variables (R : realFieldType) (K n : nat) (m : nat -> nat).
Variable M : ssm R n m.
Variables (N : nat) (Z W : nat -> rvec R K n) (V Y : forall k, rvec R K (m k)).
Hypothesis HR : realises M N Z W V Y.

(** States and data are uncorrelated with future noise. *)
Lemma Z_future k : (k <= N)%N -> forall l, (k <= l < N)%N -> Cov (Z k) (W l) = 0 /\ Cov (Z k) (V l) = 0.
Proof.
elim: k => [|k IH] lt l /andP[le ltl].
  by split; [exact: (rz_ZW HR)|exact: (rz_ZV HR)].
have [ZW ZV] := IH (ltnW lt) l (introT andP (conj (ltnW le) ltl)).
rewrite (rz_Z HR lt); case: ifP => _ //.
rewrite !CovE ZW ZV !mulmx0 !add0r; split.
- by apply: (rz_WW HR) => //; rewrite neq_ltn le.
- exact: (rz_WV HR).
Qed.
Lemma ZS_V k : (k < N)%N -> Cov (Z k.+1) (V k) = 0.
Proof.
move=> lt; rewrite (rz_Z HR lt).
have [_ ZV] : Cov (Z k) (W k) = 0 /\ Cov (Z k) (V k) = 0.
  by apply: Z_future; rewrite ?leqnn ?(ltnW lt).
by case: ifP => // _; rewrite !CovE ZV mulmx0 add0r (rz_WV HR).
Qed.
Lemma Y_future k l : (k < l < N)%N -> Cov (Y k) (W l) = 0 /\ Cov (Y k) (V l) = 0.
Proof.
move=> /andP[lt ltN]; have ltk := ltn_trans lt ltN.
have [ZW ZV] : Cov (Z k.+1) (W l) = 0 /\ Cov (Z k.+1) (V l) = 0.
  by apply: Z_future; rewrite ?lt.
rewrite (rz_Y HR ltk) !CovE ZW ZV !mulmx0 !add0r; split.
- exact/Cov0_sym/(rz_WV HR).
- by apply: (rz_VV HR) => //; rewrite neq_ltn lt.
Qed.

Lemma predictor_future k k0 Kc l : (k <= l < N)%N ->
  Cov (predictor_rv k k0 Kc Y : rvec R K n) (W l) = 0
  /\ Cov (predictor_rv k k0 Kc Y : rvec R K n) (V l) = 0.
Proof.
move=> /andP[le ltN]; split; apply: Cov0_sym; apply: Cov_predictor0 => j ltj; apply: Cov0_sym.
- by have [] := @Y_future j l; rewrite ?(leq_trans ltj le).
- by have [] := @Y_future j l; rewrite ?(leq_trans ltj le).
Qed.
Lemma predictor_future_V k k0 Kc l : (k <= l < N)%N ->
  Cov (predictor_rv k k0 Kc Y : rvec R K n) (V l) = 0.
Proof. by move=> H; have [] := predictor_future k0 Kc H. Qed.

(** What holds of the state after [k] data. *)
Definition filter_inv k : Prop :=
  exists k0 Kc P,
    [/\ forall y, filtered M y k = Some (Normal (predictor k k0 Kc y) P),
        Mean (Z k - predictor_rv k k0 Kc Y) = 0,
        forall j, (j < k)%N -> Cov (Z k - predictor_rv k k0 Kc Y) (Y j) = 0
      & Cov (Z k - predictor_rv k k0 Kc Y) (Z k - predictor_rv k k0 Kc Y) = P].

(** The same for the predicted state at location [k]. *)
Definition predict_inv k : Prop :=
  exists k0 Kc P,
    [/\ forall y, omap (predict M k) (filtered M y k) = Some (Normal (predictor k k0 Kc y) P),
        Mean (Z k.+1 - predictor_rv k k0 Kc Y) = 0,
        forall j, (j < k)%N -> Cov (Z k.+1 - predictor_rv k k0 Kc Y) (Y j) = 0
      & Cov (Z k.+1 - predictor_rv k k0 Kc Y) (Z k.+1 - predictor_rv k k0 Kc Y) = P].

Hypothesis TI : time_invariant M.

Lemma predict_step k : (k < N)%N -> filter_inv k -> predict_inv k.
Proof.
move=> lt [k0 [Kc [P [F ME CE PE]]]]; rewrite /predict_inv.
have trE : trans M (loc M k) (loc M k - told M k) = tr M k by apply: (proj1 TI).
case: (boolP (told M k < loc M k)) => cond; last first.
  exists k0, Kc, P; rewrite (rz_Z HR lt) (negbTE cond); split=> // y.
  by rewrite F /= /predict subr_gt0 (negbTE cond).
move: ME CE PE; move DE: (Z k - predictor_rv k k0 Kc Y) => E ME CE PE.
set T := tr M k.
exists (tmat T *m k0 + shift T), (fun j => tmat T *m Kc j),
  (cov (fwd_classic T 1 (Normal (predictor k k0 Kc (fun=> 0)) P))).
have EE : Z k.+1 - predictor_rv k (tmat T *m k0 + shift T) (fun j => tmat T *m Kc j) Y
        = tmat T *m E + W k - Cst K (shift T).
  rewrite (rz_Z HR lt) cond -predictor_rv_aff -DE /T; move: (predictor_rv k k0 Kc Y) => Q; mx_ring.
have EW : Cov E (W k) = 0.
  have [ZW _] : Cov (Z k) (W k) = 0 /\ Cov (Z k) (V k) = 0.
    by apply: Z_future; rewrite ?leqnn ?(ltnW lt).
  have [PW _] : Cov (predictor_rv k k0 Kc Y) (W k) = 0 /\ Cov (predictor_rv k k0 Kc Y) (V k) = 0.
    by apply: predictor_future; rewrite leqnn.
  by rewrite -DE (CovBl (Z k)) ZW PW subr0.
have [MI CI _] := @forward_law _ _ _ _ E (W k) T (Normal (predictor k k0 Kc (fun=> 0)) P)
  ME PE (rz_meanW HR lt) (rz_covW HR lt) EW.
rewrite EE; split=> //.
- by move=> y; rewrite F /= /predict subr_gt0 cond trE /fwd_classic /= predictor_aff.
- move=> j ltj; rewrite !CovE (CE j ltj) mulmx0 add0r oppr0 addr0; apply: Cov0_sym.
  by have [] := @Y_future j k; rewrite ?ltj ?lt.
Qed.

Lemma update_step k y0 : (k < N)%N -> filtered M y0 k.+1 -> predict_inv k -> filter_inv k.+1.
Proof.
move=> lt ok [k0 [Kc [P [F ME CE PE]]]]; rewrite /filter_inv.
have msE : meas M k None = ms M k by apply: (proj2 TI).
move: ME CE PE; move DE: (Z k.+1 - predictor_rv k k0 Kc Y) => E ME CE PE.
set T := ms M k.
have step y : filtered M y k.+1
    = update M y k (Normal (predictor k k0 Kc y) P).
  by move: (F y) => /=; case: (filtered M y k) => //= a [->].
pose rv0 : normal R n := Normal 0 P.
have [G gE] : exists G, gain_classic T 1 rv0 = Some G.
  move: ok; rewrite step /update /bwd_classic msE -/T /=.
  have -> : gain_classic T 1 (Normal (predictor k k0 Kc y0) P) = gain_classic T 1 rv0 by [].
  by case: (gain_classic T 1 rv0) => // G _; exists G.
have EV : Cov E (V k) = 0.
  by rewrite -DE (CovBl (Z k.+1)) ZS_V // predictor_future_V ?subr0 // leqnn.
have [MD DI CD] := @condition_law _ _ _ _ E (V k) T rv0 G ME PE (rz_meanV HR lt) (rz_covV HR lt) EV gE.
move: MD DI CD; move DI0: (tmat T *m E + V k - Cst K (shift T)) => I; move DD0: (E - G *m I) => D MD DI CD.
pose A := 1%:M - G *m tmat T.
pose k0' := A *m k0 + - (G *m shift T).
exists k0', (upd G (fun j => A *m Kc j)), (P - G *m cov (fwd_classic T 1 rv0) *m G^T).
have YE : Y k = I + tmat T *m predictor_rv k k0 Kc Y + Cst K (shift T).
  rewrite (rz_Y HR lt) -DI0 -DE /T; move: (predictor_rv k k0 Kc Y) => Q; mx_ring.
have EE : Z k.+1 - predictor_rv k.+1 k0' (upd G (fun j => A *m Kc j)) Y = D.
  rewrite predictor_rv_upd /k0' -predictor_rv_aff /A -DD0 -DI0 (rz_Y HR lt) -DE /T.
  have -> : Cst K (- (G *m shift (ms M k))) = - (G *m Cst K (shift (ms M k))).
    by rewrite -CstM /Cst opp_row_mx oppr0.
  move: (predictor_rv k k0 Kc Y) => Q; mx_ring.
have DY j : (j < k)%N -> Cov D (Y j) = 0.
  move=> ltj; have [_ VY] := @Y_future j k (introT andP (conj ltj lt)).
  rewrite -DD0 -DI0 !CovE (CE j ltj) (Cov0_sym VY).
  by rewrite ?(oppr0, addr0, mulmx0).
rewrite EE; split=> //.
- move=> y; rewrite step /update /bwd_classic msE -/T /=.
  have -> : gain_classic T 1 (Normal (predictor k k0 Kc y) P) = gain_classic T 1 rv0 by [].
  rewrite gE /= /condition_state_on_rv /= predictor_upd /k0' -predictor_aff /A.
  congr (Some (Normal _ _)); first by move: (predictor k k0 Kc y) => Q; mx_ring.
  by rewrite sub0r mulmxN mulNmx.
- move=> j; rewrite ltnS leq_eqVlt => /predU1P[->|]; last exact: DY.
  rewrite YE (CovDr D) (CovDr D I) DI CovCr CovMr addr0 add0r.
  by rewrite Cov_predictor0 ?mul0mx.
Qed.

Lemma filtered_prefix y k : filtered M y k.+1 -> filtered M y k.
Proof. by move=> /=; case: (filtered M y k). Qed.

Lemma filter_correct y0 k : (k <= N)%N -> filtered M y0 k -> filter_inv k.
Proof.
elim: k => [|k IH] le ok.
  exists (mean (init M)), (fun j => 0), (cov (init M)).
  have E0 : predictor_rv 0 (mean (init M)) (fun j => 0) Y = Cst K (mean (init M)).
    by rewrite /predictor_rv big_ord0 addr0.
  rewrite E0; split=> //.
  - by move=> y; rewrite /= /predictor big_ord0 addr0; case: (init M).
  - by rewrite !MeanE (rz_mean0 HR) subrr.
  - by rewrite !CovE (rz_cov0 HR) ?(oppr0, addr0).
apply: (update_step _ ok) => //; apply: predict_step => //.
by apply: IH (ltnW le) _; apply: filtered_prefix ok.
Qed.
End Filter.
