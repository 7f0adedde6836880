(** Positive semidefiniteness along the filter and smoother; success. *)
From mathcomp Require Import all_ssreflect all_algebra.
From Verif Require Import L_Zmod M_Gauss L_Kalman L_Filter.
Set Implicit Arguments.
Unset Strict Implicit.
Unset Printing Implicit Defensive.
Import Order.Theory GRing.Theory Num.Theory.
Local Open Scope ring_scope.

Section Step.
Variables (R : realFieldType) (n p : nat).
Variables (T : lingauss R n p) (d : R).
Hypothesis d0 : 0 <= d.
Hypothesis sR : psd (ncov T).

Lemma psd_fwd (rv : normal R n) : psd (cov rv) -> psd (cov (fwd_classic T d rv)).
Proof.
move=> pP; rewrite /= /fwd_crosscov mulmxA.
by apply: psdD; [apply: psd_conj|apply: psdZ].
Qed.

(** Covariance after conditioning on an exactly known value, in Joseph form. *)
Lemma joseph_form (rv : normal R n) G : psd (cov rv) -> gain_classic T d rv = Some G ->
  cov rv - G *m cov (fwd_classic T d rv) *m G^T
  = (1%:M - G *m tmat T) *m cov rv *m (1%:M - G *m tmat T)^T + G *m (d *: ncov T) *m G^T.
Proof.
move=> [sP _] gE; have GS := gain_solves sP (proj1 sR) gE.
set S := cov _ in GS *.
have SG : S *m G^T = tmat T *m cov rv.
  have sS : S^T = S by apply: fwd_cov_sym => //; case: sR.
  by rewrite -[S]sS -trmx_mul GS /fwd_crosscov trmx_mul trmxK sP.
have E1 : G *m S *m G^T = cov rv *m (tmat T)^T *m G^T by rewrite GS.
have E2 : G *m S *m G^T = G *m tmat T *m cov rv by rewrite -mulmxA SG mulmxA.
have E3 : G *m S *m G^T
    = G *m tmat T *m cov rv *m (tmat T)^T *m G^T + G *m (d *: ncov T) *m G^T.
  by rewrite /S /= /fwd_crosscov mulmxDr mulmxDl !mulmxA.
have -> : cov rv - G *m S *m G^T
    = cov rv - G *m S *m G^T - G *m S *m G^T + G *m S *m G^T by rewrite subrK.
rewrite {1}E1 {1}E2 E3; mx_expand; zmod_eq.
Qed.

Lemma psd_condition (rv : normal R n) G : psd (cov rv) -> gain_classic T d rv = Some G ->
  psd (cov rv - G *m cov (fwd_classic T d rv) *m G^T).
Proof.
move=> pP gE; rewrite joseph_form //.
by apply: psdD; apply: psd_conj => //; apply: psdZ.
Qed.

Lemma psd_bwd obtained rv rv' : psd (cov rv) -> psd (cov obtained) ->
  bwd_classic T d obtained rv None = Some rv' -> psd (cov rv').
Proof.
move=> pP pO; rewrite /bwd_classic; case gE: gain_classic => [G|] //= [<-] /=.
have -> : cov rv + G *m (cov obtained - (tmat T *m fwd_crosscov T rv + d *: ncov T)) *m G^T
   = (cov rv - G *m cov (fwd_classic T d rv) *m G^T) + G *m cov obtained *m G^T.
  by rewrite /=; mx_ring.
by apply: psdD; [apply: psd_condition|apply: psd_conj].
Qed.

(** Conditioning on an exact value never increases the covariance. *)
Lemma loewner_bwd x rv rv' : psd (cov rv) ->
  bwd_classic T d (constant x) rv None = Some rv' -> loewner (cov rv') (cov rv).
Proof.
move=> pP; rewrite /bwd_classic; case gE: gain_classic => [G|] //= [<-] /=.
rewrite /loewner /=.
have -> : cov rv - (cov rv + G *m (0 - (tmat T *m fwd_crosscov T rv + d *: ncov T)) *m G^T)
   = G *m cov (fwd_classic T d rv) *m G^T by rewrite /=; mx_ring.
by apply: psd_conj; apply: psd_fwd.
Qed.

(** With positive definite noise the step does not fail. *)
Lemma bwd_total obtained rv : 0 < d -> pd (ncov T) -> psd (cov rv) ->
  exists rv', bwd_classic T d obtained rv None = Some rv'.
Proof.
move=> dp [sN pN] pP.
have pS : pd (cov (fwd_classic T d rv)).
  split; first by case: (psd_fwd pP).
  move=> x nz; rewrite /= /fwd_crosscov mulmxA qformD qformZ.
  by apply: ltr_paddl; [case: (psd_conj (tmat T) pP)|rewrite mulr_gt0 ?pN].
rewrite /bwd_classic /gain_classic (proj1 pS) (pd_unit pS) /=.
by eexists.
Qed.
End Step.

Section Run.
Variables (R : realFieldType) (n : nat) (m : nat -> nat).
Variable M : ssm R n m.
Variable y : forall k, 'cV[R]_(m k).
Hypothesis pI : psd (cov (init M)).
Hypothesis pT : forall t dt, psd (ncov (trans M t dt)).
Hypothesis pM : forall k t, psd (ncov (meas M k t)).

Lemma psd_predict k rv : psd (cov rv) -> psd (cov (predict M k rv)).
Proof. by move=> pP; rewrite /predict; case: ifP => // _; apply: (psd_fwd ler01). Qed.

Lemma psd_filtered k rv : filtered M y k = Some rv -> psd (cov rv).
Proof.
elim: k rv => [|k IH] rv /=; first by case=> <-.
case E: (filtered M y k) => [r|] //= U.
by apply: (psd_bwd ler01 (pM k None) _ _ U); [apply/psd_predict/IH|apply: psd0].
Qed.

Lemma psd_smoothed N i rv : smoothed_back M y N i = Some rv -> psd (cov rv).
Proof.
elim: i rv => [|i IH] rv /=; first exact: psd_filtered.
case E: (smoothed_back _ _ _ _) => [c|] //=; case F: (filtered _ _ _) => [f|] //= U.
by apply: (psd_bwd ler01 (pT _ _) _ _ U); [apply: psd_filtered F|apply: IH].
Qed.

Lemma update_decreases k rv rv' : psd (cov rv) -> update M y k rv = Some rv' ->
  loewner (cov rv') (cov rv).
Proof. by move=> pP; apply: loewner_bwd => //; apply: ler01. Qed.

Hypothesis qM : forall k, pd (ncov (meas M k None)).
Lemma filtered_total k : exists rv, filtered M y k = Some rv.
Proof.
elim: k => [|k [rv E]] /=; first by eexists.
rewrite E /=; apply: (bwd_total ler01 (pM k None) _ ltr01 (qM k)).
by apply: psd_predict; apply: psd_filtered E.
Qed.
Hypothesis qT : forall t dt, pd (ncov (trans M t dt)).
Lemma smoothed_total N i : exists rv, smoothed_back M y N i = Some rv.
Proof.
elim: i => [|i [rv E]] /=; first exact: filtered_total.
rewrite E /=; have [f F] := filtered_total (N.-1 - i); rewrite F /=.
by apply: (bwd_total ler01 (pT _ _) _ ltr01 (qT _ _)); apply: psd_filtered F.
Qed.
End Run.
