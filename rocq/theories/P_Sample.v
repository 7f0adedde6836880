(** C50, C69-C72: sampling and dense output. *)
From mathcomp Require Import all_ssreflect all_algebra.
From Verif Require Import L_Zmod M_Gauss L_Kalman L_Filter L_Smooth L_SSMExists L_Psd.
From mathcomp Require Import realalg.
From Verif Require Import M_Sample L_Sample P_Kalman L_Chol.
Set Implicit Arguments.
Unset Strict Implicit.
Unset Printing Implicit Defensive.
Import Order.Theory GRing.Theory Num.Theory.
Local Open Scope ring_scope.

(** Samples from the smoothing posterior, the [i]-th being [i] steps before the last
    location, have the joint conditional law of the states given all data: mean
    [mu i y], and covariances those of the errors [E i], which are uncorrelated with
    all data. *)
Theorem C50_posterior_samples_joint_law :
  forall (R : realFieldType) K n m (chol : 'M[R]_n -> 'M[R]_n) (M : ssm R n m) N
    (Z W : nat -> rvec R K n) (V Y : forall k, rvec R K (m k)) y0,
  chol_ok chol -> realises M N Z W V Y -> time_invariant M -> sorted_locs M N ->
  (0 < N)%N -> smooth_state M y0 N 0 ->
  exists (mu : nat -> (forall k, 'cV[R]_(m k)) -> 'cV[R]_n) (E : nat -> rvec R K n),
    (forall i, (i < N)%N -> exists k0 Kc,
       [/\ forall y, mu i y = predictor N k0 Kc y,
           E i = Z (N - i)%N - predictor_rv N k0 Kc Y, Mean (E i) = 0
         & forall j, (j < N)%N -> Cov (E i) (Y j) = 0])
    /\ (forall y, pushes_to N (bwd_sample chol M y N) (fun i => mu i y)
                    (fun i l => Cov (E i) (E l))).
Proof.
move=> R K n m chol M N Z W V Y y0 HC HR TI s N0; rewrite /smooth_state s subn0 => ok.
have [k0 [Kc [P [I J]]]] := backward_joint HC HR TI s N0 ok.
exists (fun i => predictor N (k0 i) (Kc i)), (err N Z Y k0 Kc); split=> // i lt.
by exists (k0 i), (Kc i); case: (I i lt) => F ME CE PE; split.
Qed.
Print Assumptions C50_posterior_samples_joint_law.

(** ** C69: forward samples *)
Theorem C69_forward_samples_partial :
  forall (R : realFieldType) K n (chol : 'M[R]_n -> 'M[R]_n) tr t init N
    (X W : nat -> rvec R K n),
  chol_ok chol -> chain N (fun k => tr (t k) (t k.+1 - t k)) init X W ->
  cov init = 0 ->
  pushes_to N (fun base k => Some (fwd_sample chol tr t init base k))
    (fun k => Mean (X k)) (fun k l => Cov (X k) (X l)).
Proof. move=> R K n chol tr t init N X W HC H i0; exact: (forward_joint HC H i0). Qed.
Print Assumptions C69_forward_samples_partial.

Section Walk.
Variable R : realFieldType.
Definition walk : R -> R -> lingauss R 1 1 := fun _ _ => LinGauss 1%:M 0 1%:M.
Definition e K i : rvec R K 1 := row_mx 0 (delta_mx 0 i).
Lemma Mean_e K (i : 'I_K) : Mean (e i) = 0.
Proof. exact: row_mxKl. Qed.
Lemma Cov_e K (i j : 'I_K) : Cov (e i) (e j) = if i == j then 1%:M else 0.
Proof.
rewrite /Cov !row_mxKr trmx_delta mul_delta_mx_cond.
by case: eqP => _; rewrite ?mulr1n ?mulr0n //; apply/matrixP => a b; rewrite !ord1 !mxE.
Qed.
Lemma walk_chain : chain 2 (fun k => walk (k%:R) (k.+1%:R - k%:R)) (Normal 0 1%:M)
  (fun k => if k is 0%N then e (0 : 'I_2) else e (0 : 'I_2) + e (1 : 'I_2))
  (fun _ => e (1 : 'I_2)).
Proof.
split.
- exact: Mean_e.
- by rewrite Cov_e.
- by move=> k _; rewrite Mean_e.
- by move=> k _; rewrite Cov_e.
- by move=> k _; rewrite Cov_e.
- by case=> [|k] [|l].
- by case=> [|k] // _; rewrite mul1mx.
Qed.
End Walk.

(** The random walk with two locations: the two samples are perfectly correlated,
    with covariance 2 instead of 1. *)
Theorem C69_forward_samples_refuted :
  forall (R : realFieldType) (chol : 'M[R]_1 -> 'M[R]_1),
  chol 1%:M *m (chol 1%:M)^T = 1%:M ->
  exists tr t init K (X W : nat -> rvec R K 1),
    chain 2 (fun k => tr (t k) (t k.+1 - t k)) init X W
    /\ ~ pushes_to 2 (fun base k => Some (fwd_sample chol tr t init base k))
           (fun k => Mean (X k)) (fun k l => Cov (X k) (X l)).
Proof.
move=> R chol LL; exists (@walk R), (fun k => k%:R), (Normal 0 1%:M), 2%N.
eexists; eexists; split; first exact: walk_chain.
case=> A [F C]; set L := chol 1%:M in LL.
have one (k : nat) (base : nat -> 'cV[R]_1) : (k < 2)%N ->
  (if k == 0%N then L else L + L) *m base 0%N = A k 0%N *m base 0%N + A k 1%N *m base 1%N.
  move=> lt; have := F base k lt; case: k lt => [|[|//]] _ [] /=; rewrite /draw /= -?/L.
    by rewrite Mean_e !add0r big_ord_recl big_ord1 /= => ->.
  rewrite /fwd_crosscov /= !(mul0mx, mulmx0, add0r, addr0) scale1r mul1mx -/L MeanD !Mean_e addr0 add0r.
  by rewrite big_ord_recl big_ord1 /= mulmxDl => ->.
have A0 k : (k < 2)%N -> A k 0%N = (if k == 0%N then L else L + L) /\ A k 1%N = 0.
  move=> lt; split.
  - have := one k (fun j => if j == 0%N then 1%:M else 0) lt.
    by rewrite /= !mulmx1 mulmx0 addr0.
  - have := one k (fun j => if j == 0%N then 0 else 1%:M) lt.
    by rewrite /= !mulmx0 mulmx1 add0r.
have := C 0%N 1%N isT isT; rewrite big_ord_recl big_ord1 /=.
have [-> ->] := A0 0%N isT; have [-> _] := A0 1%N isT.
rewrite /= mul0mx addr0 trmxD mulmxDr LL CovDr !Cov_e /= addr0 => /matrixP/(_ 0 0).
rewrite !mxE /= => /eqP; rewrite -subr_eq0 addrK.
by rewrite oner_eq0.
Qed.
Print Assumptions C69_forward_samples_refuted.

(** C70: a process started at [0], sampled at the single time [1]. *)
Theorem C70_first_argument_refuted :
  forall (R : realFieldType) (chol : 'M[R]_1 -> 'M[R]_1),
  chol 1%:M *m (chol 1%:M)^T = 1%:M ->
  exists tr (initarg t0 : R) init K (X W : nat -> rvec R K 1),
    initarg < t0 /\ chain 2 (fun _ => tr initarg (t0 - initarg)) init X W
    /\ ~ pushes_to 1 (fun base k => Some (prior_sample chol tr initarg init (fun _ => t0) base k))
           (fun _ => Mean (X 1%N)) (fun _ _ => Cov (X 1%N) (X 1%N)).
Proof.
move=> R chol LL; exists (@walk R), 0, 1, (Normal 0 1%:M), 2%N.
eexists; eexists; split; first exact: ltr01.
split; first exact: walk_chain.
case=> A [F C]; set L := chol 1%:M in LL.
have A0 : A 0%N 0%N = L.
  have := F (fun _ => 1%:M) 0%N isT; rewrite big_ord1 /= /prior_sample /= /draw /= -/L.
  by rewrite !mulmx1 MeanD !Mean_e addr0 !add0r => -[].
have := C 0%N 0%N isT isT; rewrite big_ord1 /= A0 LL !(CovDl, CovDr) !Cov_e /= addr0 add0r.
move=> /matrixP/(_ 0 0); rewrite !mxE /= => /eqP; rewrite -subr_eq0 opprD addrA subrr add0r.
by rewrite oppr_eq0 oner_eq0.
Qed.
Print Assumptions C70_first_argument_refuted.

(** ** Dense output *)
Lemma forward_cond_law (R : realFieldType) K n m (T : lingauss R n n) (X U : rvec R K n)
    (Y : forall k, rvec R K (m k)) k mu P :
  cond_law X Y k mu P ->
  Mean U = shift T -> Cov U U = ncov T -> Cov X U = 0 ->
  (forall j, (j < k)%N -> Cov (Y j) U = 0) ->
  cond_law (tmat T *m X + U) Y k (fun y => tmat T *m mu y + shift T)
    (cov (fwd_classic T 1 (Normal 0 P))).
Proof.
case=> k0 [Kc [F [ME [CE PE]]]] MU CU XU YU.
exists (tmat T *m k0 + shift T), (fun j => tmat T *m Kc j).
split; first by move=> y; rewrite F predictor_aff.
have -> : tmat T *m X + U - predictor_rv k (tmat T *m k0 + shift T) (fun j => tmat T *m Kc j) Y
   = tmat T *m (X - predictor_rv k k0 Kc Y) + U - Cst K (shift T).
  by rewrite -predictor_rv_aff; move: (predictor_rv k k0 Kc Y) => Q; mx_ring.
have EU : Cov (X - predictor_rv k k0 Kc Y) U = 0.
  rewrite (CovBl X) XU; have -> : Cov (predictor_rv k k0 Kc Y) U = 0; last by rewrite subr0.
  by apply: Cov0_sym; apply: Cov_predictor0 => j lt; apply: Cov0_sym; apply: YU.
move: ME CE PE EU; move: (X - _) => E ME CE PE EU.
have [MI CI _] := @forward_law _ _ _ _ E U T (Normal 0 P) ME PE MU CU EU.
rewrite /=; split; first exact: MI; split; last exact: CI.
by move=> j lt; rewrite !CovE CE // (Cov0_sym (YU j lt)) ?(mulmx0, addr0, oppr0).
Qed.

(** Dense filtering output at any time after location [k], and smoothing output after
    the last location. [X] is the state at that time. *)
Theorem C71_dense_filter_output :
  forall (R : realFieldType) K n m (M : ssm R n m) N (Z W : nat -> rvec R K n)
    (V Y : forall k, rvec R K (m k)) k t (U : rvec R K n) y0,
  realises M N Z W V Y -> time_invariant M -> (k < N)%N -> filter_state M y0 N k ->
  let T := trans M (loc M k) (t - loc M k) in
  Mean U = shift T -> Cov U U = ncov T -> Cov (Z k.+1) U = 0 ->
  (forall j, (j <= k)%N -> Cov (Y j) U = 0) ->
  exists mu P, (forall y, interpolate_filter M y N k t = Some (Normal (mu y) P))
    /\ cond_law (tmat T *m Z k.+1 + U) Y k.+1 mu P.
Proof.
move=> R K n m M N Z W V Y k t U y0 HR TI lt ok T MU CU ZU YU.
have [mu [P [F L]]] := C08_filter_is_conditional_law HR TI lt ok.
exists (fun y => tmat T *m mu y + shift T), (cov (fwd_classic T 1 (Normal 0 P))).
split; first by move=> y; rewrite /interpolate_filter F.
exact: forward_cond_law.
Qed.
Print Assumptions C71_dense_filter_output.

Theorem C71_extrapolation_right :
  forall (R : realFieldType) K n m (M : ssm R n m) N (Z W : nat -> rvec R K n)
    (V Y : forall k, rvec R K (m k)) t (U : rvec R K n) y0,
  realises M N Z W V Y -> time_invariant M -> (0 < N)%N -> smooth_state M y0 N N.-1 ->
  let T := trans M (loc M N.-1) (t - loc M N.-1) in
  Mean U = shift T -> Cov U U = ncov T -> Cov (Z N) U = 0 ->
  (forall j, (j < N)%N -> Cov (Y j) U = 0) ->
  exists mu P, (forall y, extrapolate_smooth M y N t = Some (Normal (mu y) P))
    /\ cond_law (tmat T *m Z N + U) Y N mu P.
Proof.
move=> R K n m M N Z W V Y t U y0 HR TI N0 ok T MU CU ZU YU.
have lt : (N.-1 < N)%N by rewrite prednK.
have [mu [P [F L]]] := C09_smoother_is_conditional_law HR TI lt ok.
exists (fun y => tmat T *m mu y + shift T), (cov (fwd_classic T 1 (Normal 0 P))).
split; first by move=> y; rewrite /extrapolate_smooth F.
by rewrite prednK // in L; apply: forward_cond_law.
Qed.
Print Assumptions C71_extrapolation_right.

(** ** C72: dense smoothing output *)
(** Brownian motion observed with unit noise at the times 0 and 2, read at time 1. *)
Section Scalar.
Variable R : realFieldType.
Lemma bwd_scalar (q p c : R) (x x' : 'cV[R]_1) : p + q != 0 ->
  bwd_classic (LinGauss 1%:M 0 q%:M) 1 (Normal x' c%:M) (Normal x p%:M) None
  = Some (Normal (x + (p / (p + q))%:M *m (x' - x))
                 (p + p / (p + q) * (c - (p + q)) * (p / (p + q)))%:M).
Proof.
move=> nz; rewrite /bwd_classic /gain_classic /= /fwd_crosscov /= trmx1 mulmx1 mul1mx scale1r.
rewrite -!raddfD /= !tr_scalar_mx.
have -> : (p + q)%:M \in @unitmx [fieldType of R] 1 by rewrite unitmxE det_scalar1 unitfE.
rewrite /= /condition_state_on_rv /= /fwd_crosscov /= trmx1 mulmx1 !mul1mx scale1r addr0.
rewrite invmx_scalar -scalar_mxM !tr_scalar_mx -raddfD /= -raddfN -raddfD /= -!scalar_mxM.
by rewrite -raddfD /= [_^-1 * p]mulrC.
Qed.
Lemma fwd_scalar (q p : R) (x : 'cV[R]_1) :
  fwd_classic (LinGauss 1%:M 0 q%:M) 1 (Normal x p%:M) = Normal x (p + q)%:M.
Proof.
by rewrite /fwd_classic /= /fwd_crosscov /= trmx1 mulmx1 !mul1mx scale1r addr0 -raddfD.
Qed.
End Scalar.

Notation Q := [realFieldType of rat].
Definition Mbm : ssm Q 1 m1 :=
  Ssm (fun t dt => LinGauss 1%:M 0 dt%:M) (fun k t => LinGauss 1%:M 0 1%:M)
      (fun k => (2 * k)%:R) 0 (Normal 0 1%:M).
Lemma bwd_scalar' (q p c v : Q) (x x' : 'cV[Q]_1) : p + q != 0 ->
  v = p + p / (p + q) * (c - (p + q)) * (p / (p + q)) ->
  exists x'', bwd_classic (LinGauss 1%:M 0 q%:M) 1 (Normal x' c%:M) (Normal x p%:M) None
  = Some (Normal x'' v%:M).
Proof. by move=> nz ->; eexists; apply: bwd_scalar. Qed.
Lemma const_scalar (x : 'cV[Q]_1) : constant x = Normal x 0%:M.
Proof. by rewrite /constant raddf0. Qed.

Lemma bm_filter1 y : exists x, filtered Mbm y 1 = Some (Normal x (1 / 2%:R)%:M).
Proof.
have [x E] := @bwd_scalar' 1 1 0 (1 / 2%:R) 0 (y 0%N) isT erefl.
by exists x; rewrite -E /= /update const_scalar.
Qed.
Lemma bm_filter2 y : exists x, filtered Mbm y 2 = Some (Normal x (5%:R / 7%:R)%:M).
Proof.
have [x1 E1] := bm_filter1 y.
have [x E] := @bwd_scalar' 1 (5%:R / 2%:R) 0 (5%:R / 7%:R) x1 (y 1%N) isT erefl.
exists x; move: E => <-; move: E1; rewrite -[filtered Mbm y 2]/(obind _ (filtered Mbm y 1)) => ->.
rewrite [LHS]/= /predict [told _ _]/= [loc _ _]/= [trans _ _ _]/=.
have -> : (0 < (2 * 1)%:R - (2 * 0)%:R :> rat) by [].
have -> : (2 * 1)%:R - (2 * 0)%:R = 2%:R :> rat by apply/eqP.
rewrite fwd_scalar /update const_scalar.
by have -> : 1 / 2%:R + 2%:R = 5%:R / 2%:R :> rat by apply/eqP.
Qed.
Lemma bm_sorted : sorted_locs Mbm 2.
Proof. by apply/forallP => -[[|[|//]] i]. Qed.
Lemma bm_smooth0 y : exists x, smooth_state Mbm y 2 0 = Some (Normal x (3%:R / 7%:R)%:M).
Proof.
rewrite /smooth_state bm_sorted.
have [x1 E1] := bm_filter1 y; have [x2 E2] := bm_filter2 y.
have [x E] := @bwd_scalar' 2%:R (1 / 2%:R) (5%:R / 7%:R) (3%:R / 7%:R) x1 x2 isT erefl.
exists x; move: E => <-.
have -> : smoothed_back Mbm y 2 (2.-1 - 0)
  = obind (fun c => obind (fun rv => bwd_classic (LinGauss 1%:M 0 2%:R%:M) 1 c rv None)
      (filtered Mbm y 1)) (filtered Mbm y 2).
  have d2 : (2 * 1)%:R - (2 * 0)%:R = 2%:R :> rat by apply/eqP.
  by rewrite -d2.
by rewrite E1 E2.
Qed.
Lemma bm_interp y : exists x, interpolate_smooth Mbm y 2 0 1
  = Some (Normal x (1690%:R / 2023%:R)%:M).
Proof.
have [x0 E0] := bm_smooth0 y; have [x2 E2] := bm_filter2 y.
have [x E] := @bwd_scalar' 1 (10%:R / 7%:R) (5%:R / 7%:R) (1690%:R / 2023%:R) x0 x2 isT erefl.
exists x; move: E => <-; rewrite /interpolate_smooth E0 /smooth_state bm_sorted.
rewrite -[smoothed_back _ _ _ _]/(filtered Mbm y 2) E2.
rewrite -[LHS]/(bwd_classic (trans Mbm 1 (loc Mbm 1 - 1)) 1 (Normal x2 _)
  (fwd_classic (trans Mbm (loc Mbm 0) (1 - loc Mbm 0)) 1 (Normal x0 _)) None).
have -> : trans Mbm (loc Mbm 0) (1 - loc Mbm 0) = LinGauss 1%:M 0 1%:M.
  by congr (LinGauss _ _ _%:M); apply/eqP.
have -> : trans Mbm 1 (loc Mbm 1 - 1) = LinGauss 1%:M 0 1%:M.
  by congr (LinGauss _ _ _%:M); apply/eqP.
rewrite fwd_scalar.
by have -> : 3%:R / 7%:R + 1 = 10%:R / 7%:R :> rat by apply/eqP.
Qed.

Definition rvl (l : seq rat) : rvec Q 5 1 := row_mx 0 (\row_j nth 0 l j).
Lemma Mean_l l : Mean (rvl l) = 0.
Proof. exact: row_mxKl. Qed.
Definition dotl (l l' : seq rat) : rat := \sum_(j < 5) nth 0 l j * nth 0 l' j.
Lemma Cov_l l l' : Cov (rvl l) (rvl l') = (dotl l l')%:M.
Proof.
rewrite /Cov !row_mxKr; apply/matrixP => a b; rewrite !ord1 !mxE mulr1n.
by apply: eq_bigr => j _; rewrite !mxE.
Qed.
Lemma dotl5 a b c d f a' b' c' d' f' : dotl [:: a; b; c; d; f] [:: a'; b'; c'; d'; f']
  = a * a' + (b * b' + (c * c' + (d * d' + f * f'))).
Proof. by rewrite /dotl !big_ord_recl big_ord0 addr0. Qed.
Lemma add_l a b c d f a' b' c' d' f' :
  rvl [:: a; b; c; d; f] + rvl [:: a'; b'; c'; d'; f']
  = rvl [:: a + a'; b + b'; c + c'; d + d'; f + f'].
Proof.
rewrite /rvl add_row_mx addr0; congr row_mx; apply/matrixP => i [[|[|[|[|[|//]]]]] h];
by rewrite !mxE.
Qed.
Lemma scale_l s a b c d f : s%:M *m rvl [:: a; b; c; d; f]
  = rvl [:: s * a; s * b; s * c; s * d; s * f].
Proof.
rewrite mul_scalar_mx /rvl scale_row_mx scaler0; congr row_mx.
by apply/matrixP => i [[|[|[|[|[|//]]]]] h]; rewrite !mxE.
Qed.
Lemma opp_l a b c d f : - rvl [:: a; b; c; d; f] = rvl [:: -a; -b; -c; -d; -f].
Proof.
rewrite /rvl opp_row_mx oppr0; congr row_mx.
by apply/matrixP => i [[|[|[|[|[|//]]]]] h]; rewrite !mxE.
Qed.
Definition listE := (add_l, scale_l, opp_l, Cov_l, dotl5).
Definition bmZ k := if (k <= 1)%N then rvl [:: 1; 0; 0; 0; 0] else rvl [:: 1; 1; 1; 0; 0].
Definition bmW k := if k == 1%N then rvl [:: 0; 1; 1; 0; 0] else rvl [:: 0; 0; 0; 0; 0].
Definition bmV k : rvec Q 5 (m1 k) :=
  if k == 0%N then rvl [:: 0; 0; 0; 1; 0] else rvl [:: 0; 0; 0; 0; 1].
Definition bmY k : rvec Q 5 (m1 k) := bmZ k.+1 + bmV k.
Lemma scalar_eq (a b : Q) : a == b -> a%:M = b%:M :> 'M[Q]_1.
Proof. by move=> /eqP ->. Qed.
Lemma scalar_eq0 (a : Q) : a == 0 -> a%:M = 0 :> 'M[Q]_1.
Proof. by move=> /eqP ->; rewrite raddf0. Qed.
Lemma bm_realises : realises Mbm 2 bmZ bmW bmV bmY.
Proof.
split.
- exact: Mean_l.
- by rewrite /bmZ /= !listE; apply: scalar_eq.
- by case=> [|[|//]] _; rewrite /bmW /= Mean_l.
- by case=> [|[|//]] _; rewrite /bmW /= !listE; apply: scalar_eq.
- by case=> [|[|//]] _; rewrite /bmV /= Mean_l.
- by case=> [|[|//]] _; rewrite /bmV /= !listE; apply: scalar_eq.
- by case=> [|[|//]] _; rewrite /bmW /bmZ /= !listE; apply: scalar_eq0.
- by case=> [|[|//]] _; rewrite /bmV /bmZ /= !listE; apply: scalar_eq0.
- by case=> [|[|//]] [|[|//]] _ _ //; rewrite /bmW /= !listE => _; apply: scalar_eq0.
- by case=> [|[|//]] [|[|//]] _ _ //; rewrite /bmV /= !listE => _; apply: scalar_eq0.
- by case=> [|[|//]] [|[|//]] _ _ //; rewrite /bmV /bmW /= !listE; apply: scalar_eq0.
- case=> [|[|//]] _; rewrite /bmW /bmZ //= mul1mx !listE.
  by congr (rvl [:: _; _; _; _; _]); apply/eqP.
- by case=> [|[|//]] _; rewrite /bmY /= mul1mx.
Qed.

(** The state at time 1, and its conditional law given both data. *)
Definition bmU := rvl [:: 0; 1; 0; 0; 0].
Definition bmX := bmZ 1 + bmU.
Definition bmK (j : nat) : 'M[Q]_(1, m1 j) :=
  if j == 0%N then (2%:R / 7%:R)%:M else (3%:R / 7%:R)%:M.
Lemma bm_err a b (K := fun j => if j == 0%N then a%:M else b%:M) :
  bmX - predictor_rv 2 0 K bmY = rvl [:: 1 - a - b; 1 - b; - b; - a; - b].
Proof.
rewrite /predictor_rv big_ord_recl big_ord1 [nat_of_ord _]/=.
have -> : Cst 5 0 = 0 :> rvec Q 5 1 by rewrite /Cst row_mx0.
rewrite /bmX /bmU /bmY /K /bmV /bmZ; rewrite /=.
rewrite add0r !listE.
by congr (rvl [:: _; _; _; _; _]); rewrite ?(mulr0, mulr1, addr0, add0r, opprD, addrA).
Qed.
Lemma bm_exact : cond_law bmX bmY 2 (predictor 2 0 bmK) (6%:R / 7%:R)%:M.
Proof.
exists 0, bmK; split; first by [].
have EE : bmX - predictor_rv 2 0 bmK bmY = rvl _ := bm_err (2%:R / 7%:R) (3%:R / 7%:R).
move=> E; rewrite {}/E EE Mean_l; split=> //; split.
- by case=> [|[|//]] _; rewrite /bmY /bmZ /bmV [_ == _]/= [(_ <= _)%N]/= !listE; apply: scalar_eq0.
- by rewrite !listE; apply: scalar_eq.
Qed.

Lemma scalar_neq (a b c d : nat) : (a * d.+1 != c * b.+1)%N ->
  (a%:R / b.+1%:R)%:M <> (c%:R / d.+1%:R)%:M :> 'M[Q]_1.
Proof.
move=> ne /matrixP/(_ 0 0); rewrite !mxE !mulr1n => /eqP.
by rewrite eqr_div ?pnatr_eq0 // -!natrM eqr_nat (negbTE ne).
Qed.

Theorem C72_dense_smoothing_refuted :
  exists (M : ssm Q 1 m1) K (Z W : nat -> rvec Q K 1) (V Y : forall k, rvec Q K (m1 k)) t (X U : rvec Q K 1) y0,
  [/\ realises M 2 Z W V Y /\ time_invariant M, loc M 0 < t < loc M 1,
      (let T := trans M (loc M 0) (t - loc M 0) in
       X = tmat T *m Z 1%N + U /\ Mean U = shift T /\ Cov U U = ncov T
       /\ Cov (Z 1%N) U = 0 /\ Cov (Y 0%N) U = 0)
      /\ (let T := trans M t (loc M 1 - t) in exists U',
          Z 2%N = tmat T *m X + U' /\ Mean U' = shift T /\ Cov U' U' = ncov T
          /\ Cov X U' = 0 /\ Cov (Y 0%N) U' = 0),
      interpolate_smooth M y0 2 0 t
    & ~ exists mu P, (forall y, interpolate_smooth M y 2 0 t = Some (Normal (mu y) P))
          /\ cond_law X Y 2 mu P].
Proof.
exists Mbm, 5%N, bmZ, bmW, bmV, bmY, 1, bmX, bmU, (fun _ => 0); split.
- by split; [exact: bm_realises|].
- by [].
- rewrite /bmX /bmU /bmY /bmV /bmZ /= mul1mx !listE; split.
    split=> //; split; first exact: Mean_l.
    by split; [apply: scalar_eq|split; apply: scalar_eq0].
  exists (rvl [:: 0; 0; 1; 0; 0]); rewrite ?mul1mx !listE; split.
    by congr (rvl [:: _; _; _; _; _]); apply/eqP.
  split; first exact: Mean_l.
  by split; [apply: scalar_eq|split; apply: scalar_eq0].
- by have [x E] := bm_interp (fun _ => 0); move: E => ->.
case=> mu [P [F L]]; have [x E] := bm_interp (fun _ => 0).
have [PE _] := C08_conditional_law_unique bm_exact L.
have EP : (1690%:R / 2023%:R)%:M = P.
  exact: (congr1 (fun o => if o is Some n then cov n else 0) (etrans (esym E) (F (fun=> 0)))).
by apply: (@scalar_neq 6 6 1690 2022 isT); rewrite EP; exact: PE.
Qed.
Print Assumptions C72_dense_smoothing_refuted.

(** Non-vacuity of C50 and C69: over real closed fields [chol] exists. *)
Example ex_chol : exists chol : 'M[[realFieldType of realalg]]_3 -> _, chol_ok chol.
Proof. by exists (@chol_of _ 3); apply: chol_of_ok. Qed.
Example ex_smooth : realises Mbm 2 bmZ bmW bmV bmY /\ time_invariant Mbm
  /\ sorted_locs Mbm 2 /\ forall y, smooth_state Mbm y 2 0.
Proof.
split; first exact: bm_realises.
by split=> //; split; [exact: bm_sorted|move=> y; have [x ->] := bm_smooth0 y].
Qed.
