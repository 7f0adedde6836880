(** The conjugate gradient iteration behind [BayesCG]. *)
From mathcomp Require Import all_ssreflect all_algebra.
From Verif Require Import L_Zmod L_Kalman L_IWP M_PLS L_PLS M_Ortho M_LinSolve L_LinSolve.
Set Implicit Arguments.
Unset Strict Implicit.
Unset Printing Implicit Defensive.
Import Order.Theory GRing.Theory Num.Theory.
Local Open Scope ring_scope.

Section CG.
Variables (R : rcfType) (n : nat).
Local Notation vec := 'cV[R]_n.
Variables (A : 'M[R]_n) (b : vec) (p0 : sbel R n).
Hypotheses (Au : A \in unitmx) (Sp : pd (x_cov p0)).
Local Notation S0 := (x_cov p0).
Definition KK : 'M[R]_n := A *m S0 *m A^T.

Lemma KK_pd : pd KK.
Proof.
split; first by rewrite /KK !trmx_mul trmxK (proj1 Sp) mulmxA.
move=> x x0; have := proj2 Sp (A^T *m x); rewrite /qform trmx_mul trmxK !mulmxA; apply.
apply: contra x0 => /eqP E; have At : A^T \in unitmx by rewrite unitmx_tr.
by rewrite -[x](mulKmx At) E mulmx0.
Qed.
Lemma KK_sym u w : dt u (KK *m w) = dt w (KK *m u).
Proof. by rewrite dtC dtMl (proj1 KK_pd). Qed.
Lemma KK_gt0 u : u != 0 -> 0 < dt u (KK *m u).
Proof. by rewrite -qform_dt; exact: (proj2 KK_pd). Qed.

Definition resv (p : sbel R n) : vec := b - A *m x_mean p.
(** Beliefs and actions, while the residuals are not zero. *)
Fixpoint cgs k : sbel R n * vec :=
  if k is k'.+1 then
    let: (p, s) := cgs k' in
    let p' := update1 A b 0 p s in
    (p', resv p' + (dt (resv p') (resv p') / dt (resv p) (resv p)) *: s)
  else (p0, resv p0).
Definition bel k := fst (cgs k).
Definition act k := snd (cgs k).
Definition rsd k := resv (bel k).
Lemma belS k : bel k.+1 = update1 A b 0 (bel k) (act k).
Proof. by rewrite /bel /act /=; case: (cgs k). Qed.
Lemma actS k : act k.+1 = rsd k.+1 + (dt (rsd k.+1) (rsd k.+1) / dt (rsd k) (rsd k)) *: act k.
Proof. by rewrite /rsd /bel /act /=; case: (cgs k). Qed.

Definition alpha k := dt (rsd k) (rsd k) / dt (act k) (KK *m act k).
Definition cginv k :=
  [/\ forall i j, (i < j <= k)%N -> dt (rsd i) (rsd j) = 0,
      forall i j, (i < j <= k)%N -> dt (act i) (KK *m act j) = 0,
      forall i, (i < k)%N -> dt (act i) (rsd k) = 0,
      forall j, (j <= k)%N -> dt (act j) (rsd j) = dt (rsd j) (rsd j)
    & (forall w, (forall j, (j < k)%N -> dt (act j) (KK *m w) = 0) ->
         x_cov (bel k) *m (A^T *m w) = S0 *m (A^T *m w))]
  /\ forall j, (j < k)%N -> rsd j != 0 /\ rsd j.+1 = rsd j - alpha j *: (KK *m act j).

Lemma act_neq0 k : cginv k -> rsd k != 0 -> act k != 0.
Proof.
move=> [[_ _ _ H _] _]; apply: contra => /eqP a0; apply/eqP/dt_eq0.
by rewrite -(H k) // a0 dtC dt0r.
Qed.
(** The update along a conjugate action. *)
Lemma belS_conj k : cginv k -> rsd k != 0 ->
  rsd k.+1 = rsd k - alpha k *: (KK *m act k).
Proof.
move=> I r0; have a0 := act_neq0 I r0; have [[I1 I2 I3 I4 I5] _] := I.
have E : x_cov (bel k) *m (A^T *m act k) = S0 *m (A^T *m act k).
  by apply: I5 => j jk; apply: I2; rewrite jk leqnn.
rewrite /rsd belS /resv; have [-> _ _] := update1E A b 0 (bel k) (act k).
rewrite mulmxDr opprD addrA; congr (_ - _); rewrite -scalemxAr E /KK !mulmxA; congr (_ *: _).
have g : gramS A 0 (bel k) (act k) = dt (act k) (KK *m act k).
  by rewrite /gramS addr0 E dtMl trmxK /KK !mulmxA.
by rewrite g /pinv KK_gt0 // /alpha mulrC -/(resv _) -/(rsd k) I4.
Qed.

Lemma cginv0 : cginv 0.
Proof.
split=> //; split=> // [i j|i j|j].
- by rewrite leqn0 => /andP [lt /eqP E]; rewrite E in lt.
- by rewrite leqn0 => /andP [lt /eqP E]; rewrite E in lt.
- by rewrite leqn0 => /eqP ->.
Qed.

Lemma cginvS k : cginv k -> rsd k != 0 -> cginv k.+1.
Proof.
move=> I r0; have a0 := act_neq0 I r0; have rS := belS_conj I r0.
have [[I1 I2 I3 I4 I5] I6] := I.
have kk : dt (act k) (KK *m act k) != 0 by rewrite gt_eqF ?KK_gt0.
have rr : dt (rsd k) (rsd k) != 0 by rewrite gt_eqF ?dt_gt0.
have al0 : alpha k != 0 by rewrite mulf_neq0 // invr_neq0.
have J6 j : (j < k.+1)%N -> rsd j != 0 /\ rsd j.+1 = rsd j - alpha j *: (KK *m act j).
  by rewrite ltnS leq_eqVlt => /orP [/eqP -> //|]; exact: I6.
have J3 i : (i < k.+1)%N -> dt (act i) (rsd k.+1) = 0.
  rewrite ltnS leq_eqVlt rS dtBr dtZr => /orP [/eqP ->|ik].
    by rewrite I4 // /alpha divfK // subrr.
  by rewrite I3 // I2 ?ik ?leqnn // mulr0 subrr.
have J1 i : (i < k.+1)%N -> dt (rsd i) (rsd k.+1) = 0.
  case: i => [|i] ik; first exact: (J3 0%N).
  have -> : rsd i.+1 = act i.+1 - (dt (rsd i.+1) (rsd i.+1) / dt (rsd i) (rsd i)) *: act i.
    by rewrite actS addrK.
  by rewrite dtC dtBr dtZr !(dtC _ (act _)) !J3 ?mulr0 ?subrr // ltnW.
have J4 : dt (act k.+1) (rsd k.+1) = dt (rsd k.+1) (rsd k.+1).
  by rewrite actS dtDl dtZl J3 // mulr0 addr0.
(* conjugacy *)
have J2 i : (i < k.+1)%N -> dt (act i) (KK *m act k.+1) = 0.
  move=> ik; rewrite actS mulmxDr -scalemxAr dtDr dtZr KK_sym.
  have [ri rE] := J6 i ik.
  have ai : act i != 0.
    by apply: contra ri => /eqP E; apply/eqP/dt_eq0; rewrite -I4 // E dtC dt0r.
  have ali : alpha i != 0 by rewrite mulf_neq0 ?invr_neq0 ?gt_eqF ?KK_gt0 ?dt_gt0.
  have -> : KK *m act i = (alpha i)^-1 *: (rsd i - rsd i.+1).
    by rewrite rE opprB addrC subrK scalerA mulVf // scale1r.
  rewrite dtZr dtBr [dt _ (rsd i)]dtC J1 // sub0r.
  move: ik; rewrite ltnS leq_eqVlt => /orP [/eqP E|ik]; last first.
    by rewrite dtC J1 ?ltnS // oppr0 mulr0 add0r I2 ?mulr0 // ik leqnn.
  rewrite E /alpha invf_div mulrN -mulrA mulrAC [dt (act k) _ * _]mulrC -mulrA.
  by rewrite [_^-1 * dt (act k) _]mulrC mulrA addrC subrr.
split; last exact: J6.
split=> [i j|i j||j|w H].
- case/andP => ij; rewrite leq_eqVlt => /orP [/eqP jk|jk]; last by apply: I1; rewrite ij.
  by rewrite jk J1 // -jk.
- case/andP => ij; rewrite leq_eqVlt => /orP [/eqP jk|jk]; last by apply: I2; rewrite ij.
  by rewrite jk J2 // -jk.
- exact: J3.
- by rewrite leq_eqVlt => /orP [/eqP ->|]; [exact: J4|exact: I4].
have Sw := I5 w (fun j jk => H j (ltnW jk)).
have Sa : x_cov (bel k) *m (A^T *m act k) = S0 *m (A^T *m act k).
  by apply: I5 => j jk; apply: I2; rewrite jk leqnn.
rewrite belS; have [_ -> _] := update1E A b 0 (bel k) (act k).
rewrite mulmxBl -scalemxAl outerE Sw Sa.
have -> : dt (S0 *m (A^T *m act k)) (A^T *m w) = dt (act k) (KK *m w).
  by rewrite dtMl dtMl trmxK (proj1 Sp) /KK !mulmxA.
by rewrite H // scale0r scaler0 subr0.
Qed.

Lemma cginv_all k : (forall j, (j < k)%N -> rsd j != 0) -> cginv k.
Proof.
elim: k => [|k IH] H; first exact: cginv0.
by apply: cginvS; [apply: IH => j jk; apply: H; exact: ltnW|exact: H].
Qed.

(** At most [n] nonzero vectors of length [n] are mutually orthogonal. *)
Lemma orthogonal_bound (f : nat -> vec) k :
  (forall j, (j < k)%N -> f j != 0) -> (forall i j, (i < j < k)%N -> dt (f i) (f j) = 0) -> (k <= n)%N.
Proof.
move=> nz oth; pose F : 'M[R]_(n, k) := \matrix_(i, j) f j i 0.
have FF : F^T *m F = diag_mx (\row_j dt (f j) (f j)).
  apply/matrixP => i j; rewrite !mxE.
  have -> : \sum_l F^T i l * F l j = dt (f i) (f j) by rewrite /dt /num mxE; apply: eq_bigr => l _; rewrite !mxE.
  case: eqP => [->|/eqP ij]; rewrite ?mulr1n // mulr0n.
  case: (ltngtP i j) => [lt|gt|E]; first by rewrite oth // lt ltn_ord.
    by rewrite dtC oth // gt ltn_ord.
  by rewrite (val_inj E) eqxx in ij.
have U : F^T *m F \in unitmx.
  rewrite FF unitmxE det_diag unitfE; apply/prodf_neq0 => j _; rewrite mxE gt_eqF ?dt_gt0 ?nz //.
have := mxrank_unit U; rewrite -[in X in (X <= n)%N]/k => <-; apply: leq_trans (mxrankM_maxr _ _) _.
exact: rank_leq_row.
Qed.
Lemma cg_terminates : exists2 k, (k <= n)%N & rsd k = 0 /\ forall j, (j < k)%N -> rsd j != 0.
Proof.
pose c : pred nat := fun k => rsd k == 0.
have [k [kn r0 H]] : exists k, [/\ (k <= n)%N, rsd k == 0 & forall j, (j < k)%N -> rsd j != 0].
  case E: (has c (iota 0 n.+1)); last first.
    have H j : (j < n.+1)%N -> rsd j != 0.
      by move=> jn; apply: contraFN E => r0; apply/hasP; exists j; rewrite ?mem_iota.
    have [[I1 _ _ _ _] _] := cginv_all H.
    suff : (n.+1 <= n)%N by rewrite ltnn.
    by apply: (@orthogonal_bound rsd) => // i j /andP [ij jn]; apply: I1; rewrite ij ltnW.
  exists (find c (iota 0 n.+1)).
  have fb : (find c (iota 0 n.+1) < n.+1)%N by rewrite -[X in (_ < X)%N](size_iota 0) -has_find E.
  have := nth_find 0%N E; rewrite nth_iota // add0n => r0; split=> // j jf; rewrite -/(c j).
  by have := before_find 0%N jf; rewrite nth_iota ?add0n ?(ltn_trans jf) // => ->.
by exists k => //; split=> //; apply/eqP.
Qed.
(** The solution is then exact. *)
Lemma exact_solution k : rsd k = 0 -> x_mean (bel k) = invmx A *m b.
Proof. by rewrite /rsd /resv => /subr0_eq ->; rewrite mulKmx. Qed.
End CG.
