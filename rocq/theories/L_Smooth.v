(** The Rauch-Tung-Striebel smoother computes conditional laws. *)
From mathcomp Require Import all_ssreflect all_algebra.
From Verif Require Import L_Zmod M_Gauss L_Kalman L_Filter.
Set Implicit Arguments.
Unset Strict Implicit.
Unset Printing Implicit Defensive.
Import Order.Theory GRing.Theory Num.Theory.
Local Open Scope ring_scope.

Section Ext.
Variables (R : realFieldType) (n : nat) (m : nat -> nat).
Definition ext k (Kc : forall j, 'M[R]_(n, m j)) : forall j, 'M[R]_(n, m j) :=
  fun j => if (j < k)%N then Kc j else 0.
Lemma predictor_ext k N k0 Kc (y : forall j, 'cV[R]_(m j)) : (k <= N)%N ->
  predictor N k0 (ext k Kc) y = predictor k k0 Kc y.
Proof.
move=> le; rewrite /predictor; congr (_ + _).
rewrite (big_ord_widen N (fun j => Kc j *m y j) le) [RHS]big_mkcond /=.
by apply: eq_bigr => j _; rewrite /ext; case: ifP => // _; rewrite mul0mx.
Qed.
Lemma predictor_rv_ext K k N k0 Kc (Y : forall j, rvec R K (m j)) : (k <= N)%N ->
  predictor_rv N k0 (ext k Kc) Y = predictor_rv k k0 Kc Y.
Proof.
move=> le; rewrite /predictor_rv; congr (_ + _).
rewrite (big_ord_widen N (fun j => Kc j *m Y j) le) [RHS]big_mkcond /=.
by apply: eq_bigr => j _; rewrite /ext; case: ifP => // _; rewrite mul0mx.
Qed.
(** Sums of predictors. *)
Lemma predictorD N k0 k1 (K0 K1 : forall j, 'M[R]_(n, m j)) (y : forall j, 'cV[R]_(m j)) :
  predictor N k0 K0 y + predictor N k1 K1 y
  = predictor N (k0 + k1) (fun j => K0 j + K1 j) y.
Proof.
rewrite /predictor addrACA -big_split /=; congr (_ + _).
by apply: eq_bigr => j _; rewrite mulmxDl.
Qed.
Lemma predictor_rvD K N k0 k1 (K0 K1 : forall j, 'M[R]_(n, m j)) (Y : forall j, rvec R K (m j)) :
  predictor_rv N k0 K0 Y + predictor_rv N k1 K1 Y
  = predictor_rv N (k0 + k1) (fun j => K0 j + K1 j) Y.
Proof.
rewrite /predictor_rv addrACA -big_split -CstD /=; congr (_ + _).
by apply: eq_bigr => j _; rewrite mulmxDl.
Qed.
End Ext.

Section Smooth.
Variables (R : realFieldType) (K n : nat) (m : nat -> nat).
Variable M : ssm R n m.
Variables (N : nat) (Z W : nat -> rvec R K n) (V Y : forall k, rvec R K (m k)).
Hypothesis HR : realises M N Z W V Y.
Hypothesis TI : time_invariant M.
Hypothesis sorted : sorted_locs M N.

Lemma locs_lt k : (0 < k < N)%N -> told M k < loc M k.
Proof.
case: k => // k /andP[_ lt]; have lt' := ltnW lt.
by have /forallP/(_ (Ordinal lt')) := sorted; rewrite /= lt.
Qed.

(** The part of the state at [k] that is not explained by data up to [k] and the
    next state. *)
Definition resid k k0 Kc (G : 'M[R]_n) : rvec R K n :=
  let E := Z k - predictor_rv k k0 Kc Y in
  E - G *m (tmat (tr M k) *m E + W k - Cst K (shift (tr M k))).

Section Resid.
Variables (k : nat) (k0 : 'cV[R]_n) (Kc : forall j, 'M[R]_(n, m j)) (P G : 'M[R]_n).
Hypothesis lt : (0 < k < N)%N.
Let ltN : (k < N)%N. Proof. by case/andP: lt. Qed.
Let E := Z k - predictor_rv k k0 Kc Y.
Hypothesis ME : Mean E = 0.
Hypothesis CE : forall j, (j < k)%N -> Cov E (Y j) = 0.
Hypothesis PE : Cov E E = P.
Hypothesis gE : gain_classic (tr M k) 1 (Normal k0 P) = Some G.
Let D := resid k k0 Kc G.
Let I := tmat (tr M k) *m E + W k - Cst K (shift (tr M k)).

Lemma resid_EW l : (k <= l < N)%N -> Cov E (W l) = 0 /\ Cov E (V l) = 0.
Proof.
move=> H.
have [ZW ZV] := Z_future HR (ltnW ltN) H.
have [PW PV] := predictor_future HR k0 Kc H.
by split; rewrite /E (CovBl (Z k)) ?ZW ?PW ?ZV ?PV subr0.
Qed.

Let law := @condition_law _ _ _ _ E (W k) (tr M k) (Normal k0 P) G ME PE
  (rz_meanW HR ltN) (rz_covW HR ltN) (proj1 (resid_EW (introT andP (conj (leqnn k) ltN)))) gE.

Lemma resid_mean : Mean D = 0. Proof. by case: law. Qed.
Lemma resid_cov : Cov D D = P - G *m cov (fwd_classic (tr M k) 1 (Normal k0 P)) *m G^T.
Proof. by case: law. Qed.

Lemma resid_past j : (j < k)%N -> Cov D (Y j) = 0.
Proof.
move=> ltj; have [WY _] := @Y_future _ _ _ _ _ _ _ _ _ _ HR j k (introT andP (conj ltj ltN)).
rewrite /D /resid -/E; move: (CE ltj); move: E => E0 CE0.
by rewrite !CovE CE0 (Cov0_sym WY) ?(oppr0, addr0, mulmx0).
Qed.
Lemma resid_noise l : (k < l < N)%N -> Cov D (W l) = 0 /\ Cov D (V l) = 0.
Proof.
case/andP=> ltl lN.
have [EW EV] := @resid_EW l (introT andP (conj (ltnW ltl) lN)).
have WW : Cov (W k) (W l) = 0 by apply: (rz_WW HR) => //; rewrite neq_ltn ltl.
have WV : Cov (W k) (V l) = 0 by apply: (rz_WV HR).
rewrite /D /resid -/E; move: EW EV; move: E => E0 EW EV.
by rewrite !CovE EW EV WW WV ?(oppr0, addr0, mulmx0).
Qed.
Lemma resid_V : Cov D (V k) = 0.
Proof.
have [_ EV] := @resid_EW k (introT andP (conj (leqnn k) ltN)).
have WV : Cov (W k) (V k) = 0 by apply: (rz_WV HR).
rewrite /D /resid -/E; move: EV; move: E => E0 EV.
by rewrite !CovE EV WV ?(oppr0, addr0, mulmx0).
Qed.
Lemma next_state : Z k.+1 = I + (tmat (tr M k) *m predictor_rv k k0 Kc Y + Cst K (shift (tr M k))).
Proof.
rewrite (rz_Z HR ltN) locs_lt // /I /E; move: (predictor_rv k k0 Kc Y) => Q; mx_ring.
Qed.
Lemma resid_next : Cov D (Z k.+1) = 0.
Proof.
rewrite next_state predictor_rv_aff (CovDr D I) (Cov_predictor0 _ _ resid_past).
by rewrite addr0; case: law.
Qed.
Lemma resid_states l : (k < l <= N)%N -> Cov D (Z l) = 0.
Proof.
elim: l => // l IH; rewrite ltnS leq_eqVlt => /andP[/predU1P[<- _|ltl lN]]; first exact: resid_next.
rewrite (rz_Z HR lN) locs_lt ?lN ?(leq_trans _ ltl) //.
have [DW _] := @resid_noise l (introT andP (conj ltl lN)).
by rewrite (CovDr D) (CovMr _ D) DW IH ?mul0mx ?addr0 // ltl ltnW.
Qed.
Lemma resid_data j : (j < N)%N -> Cov D (Y j) = 0.
Proof.
move=> ltj; case: (ltnP j k) => [|le]; first exact: resid_past.
rewrite (rz_Y HR ltj) (CovDr D) (CovMr _ D) resid_states ?mul0mx ?add0r ?ltnS ?le //.
move: le; rewrite leq_eqVlt => /predU1P[<-|lt']; first exact: resid_V.
by case: (@resid_noise j (introT andP (conj lt' ltj))).
Qed.
End Resid.

(** What holds of the smoothed state at location [k], i.e. of state [k.+1]. *)
Definition smooth_inv i (k0 : 'cV[R]_n) (Kc : forall j, 'M[R]_(n, m j)) (P : 'M[R]_n) : Prop :=
  let E := Z (N - i) - predictor_rv N k0 Kc Y in
  [/\ forall y, smoothed_back M y N i = Some (Normal (predictor N k0 Kc y) P),
      Mean E = 0, forall j, (j < N)%N -> Cov E (Y j) = 0 & Cov E E = P].

Lemma smooth_step y0 i k0s Kcs Ps : (i.+1 < N)%N -> smooth_inv i k0s Kcs Ps ->
  smoothed_back M y0 N i.+1 ->
  exists k0 Kc P, smooth_inv i.+1 k0 Kc P
    /\ exists a Ka G Pf,
       [/\ forall y, filtered M y (N - i.+1) = Some (Normal (predictor (N - i.+1) a Ka y) Pf),
           forall b, gain_classic (tr M (N - i.+1)) 1 (Normal b Pf) = Some G,
           let Es := Z (N - i) - predictor_rv N k0s Kcs Y in
           Z (N - i.+1) - predictor_rv N k0 Kc Y
           = resid (N - i.+1) a Ka G + G *m Es,
           Cov (resid (N - i.+1) a Ka G) (resid (N - i.+1) a Ka G)
           = Pf - G *m cov (fwd_classic (tr M (N - i.+1)) 1 (Normal 0 Pf)) *m G^T
         & (forall l, (N - i.+1 < l <= N)%N -> Cov (resid (N - i.+1) a Ka G) (Z l) = 0)
           /\ (forall j, (j < N)%N -> Cov (resid (N - i.+1) a Ka G) (Y j) = 0)].
Proof.
move=> lti [Fs MEs CEs PEs] ok.
set k := (N - i.+1)%N.
have kE : (N.-1 - i)%N = k by rewrite /k; case: (N) lti => // N' _; rewrite subSS.
have k1E : (N - i)%N = k.+1 by rewrite /k subnSK // ltnW.
have ltk : (0 < k < N)%N.
  by rewrite /k subn_gt0 lti /= -{2}[N]subn0 ltn_sub2l // (leq_ltn_trans _ lti).
have [lt0 ltN] := andP ltk.
have [fk okf] : exists rv, filtered M y0 k = Some rv.
  move: ok; rewrite /= kE; case: (smoothed_back _ _ _ _) => //= c.
  by case: (filtered M y0 k) => // rv _; exists rv.
have [k0 [Kc [P [F ME CE PE]]]] : filter_inv M Z Y k.
  by apply: (filter_correct HR TI (y0 := y0)); rewrite ?okf // ltnW.
have trE : trans M (loc M k.-1) (loc M k - loc M k.-1) = tr M k.
  by rewrite /tr; case: (k) lt0.
have [G gE] : exists G, gain_classic (tr M k) 1 (Normal k0 P) = Some G.
  move: ok; rewrite /= kE F Fs /= trE.
  rewrite /bwd_classic; have -> : gain_classic (tr M k) 1 (Normal (predictor k k0 Kc y0) P)
    = gain_classic (tr M k) 1 (Normal k0 P) by [].
  by case: (gain_classic _ _ _) => // G _; exists G.
set T := tr M k in gE trE *.
pose A : 'M[R]_n := 1%:M - G *m tmat T.
exists (A *m k0 + - (G *m shift T) + (G *m k0s + 0)),
  (fun j => A *m ext k Kc j + G *m Kcs j),
  (P + G *m (Ps - cov (fwd_classic T 1 (Normal k0 P))) *m G^T).
pose D := resid k k0 Kc G.
have leN := ltnW ltN.
have EE : Z k - predictor_rv N (A *m k0 + - (G *m shift T) + (G *m k0s + 0))
     (fun j => A *m ext k Kc j + G *m Kcs j) Y
   = D + G *m (Z (N - i) - predictor_rv N k0s Kcs Y).
  rewrite -predictor_rvD -!predictor_rv_aff predictor_rv_ext //.
  rewrite k1E (rz_Z HR ltN) locs_lt // /D /resid -/T /A.
  have -> : Cst K (- (G *m shift T)) = - (G *m Cst K (shift T)).
    by rewrite -CstM /Cst opp_row_mx oppr0.
  have -> : Cst K 0 = 0 :> rvec R K n by rewrite /Cst row_mx0.
  move: (predictor_rv k k0 Kc Y) (predictor_rv N k0s Kcs Y) => Q Qs; mx_ring.
have DY j : (j < N)%N -> Cov D (Y j) = 0 by apply: (resid_data ltk ME CE PE gE).
have DZ l : (k < l <= N)%N -> Cov D (Z l) = 0 by apply: (resid_states ltk ME CE PE gE).
have DD := resid_cov ltk ME PE gE.
have DEs : Cov D (Z (N - i) - predictor_rv N k0s Kcs Y) = 0.
  by rewrite (CovBr D) DZ ?k1E ?leqnn // (Cov_predictor0 _ _ DY) subr0.
split.
- rewrite /smooth_inv -/k EE; split.
  + move=> y; rewrite /= kE F Fs /= trE /bwd_classic.
    have -> : gain_classic T 1 (Normal (predictor k k0 Kc y) P)
      = gain_classic T 1 (Normal k0 P) by [].
    rewrite gE /= /condition_state_on_rv /= -predictorD -!predictor_aff predictor_ext //.
    congr (Some (Normal _ _)); rewrite /A.
    by move: (predictor k k0 Kc y) (predictor N k0s Kcs y) => Q Qs; mx_ring.
  + rewrite (MeanD D) (MeanM G) MEs mulmx0 addr0.
    exact: (resid_mean ltk ME PE gE).
  + by move=> j ltj; rewrite (CovDl D) (CovMl G) CEs // DY // mulmx0 addr0.
  + rewrite (CovDl D) !(CovDr _ D) !(CovMl G) !(CovMr G) PEs DEs (Cov0_sym DEs).
    rewrite DD mul0mx mulmx0 addr0 add0r.
    move: (cov _) => S; mx_ring.
- exists k0, Kc, G, P; split=> //.
Qed.
End Smooth.
