(** C176: mutual information as acquisition function. *)
From Coq Require Import Reals Lra.
From mathcomp Require Import all_ssreflect all_algebra.
From Verif Require Import L_Ring L_RStruct M_BQ L_BQ L_BQ2 P_BQ M_BQInfo.
Set Implicit Arguments.
Unset Strict Implicit.
Unset Printing Implicit Defensive.
Import Order.Theory GRing.Theory Num.Theory.
Delimit Scope R_scope with coqR.
Local Notation K := R_rcfType.

(** The entropy of a normal distribution with variance [v]. *)
Definition entropy (v : R) : R := (1 / 2 * ln (2 * PI * exp 1 * v))%coqR.

Section Claims.
Variable dim : nat.
Implicit Types (k : kernel K dim) (s : state K dim).
Local Open Scope R_scope.

(** The value is a number exactly if the reduction is, it is never negative, and it is
    infinite exactly if the reduction is one. *)
Theorem C176_range k jit e bs s x r : embedded k -> (0 <= jit)%R -> run k jit e bs s ->
  acq_reduction k s x = Some r ->
  if acq_information k s x is Some v then
    (if v is Some v then 0 <= v /\ r < 1 else r = 1)
  else False.
Proof.
move=> ek j0 ru E; have /andP[/leRP r0 /leRP r1] := C41_range ek j0 ru E.
rewrite /acq_information E /= /minus_half_log.
have {}r0 : 0 <= r by exact: r0.
have {}r1 : r <= 1 by exact: r1.
case: total_order_T => [[p|e0]|n0] /=; try lra.
split; last lra.
have : ln (1 - r) <= 0 by rewrite -ln_1; case: r0 => [r0|<-]; [left; apply: ln_increasing; lra|rewrite Rminus_0_r; apply: Rle_refl].
lra.
Qed.

Lemma info_aux (V V' r : R) : 0 < V -> r * V = V - V' -> 0 < 1 - r ->
  - (1 / 2) * ln (1 - r) = entropy V - entropy V'.
Proof.
move=> V0 Er p.
have Er' : 1 - r = V' / V by apply: (Rmult_eq_reg_r V); [rewrite Rmult_minus_distr_r Er; field; lra|lra].
have V'0 : 0 < V'.
  have -> : V' = (1 - r) * V by rewrite Er'; field; lra.
  exact: Rmult_lt_0_compat.
have c0 : 0 < 2 * PI * exp 1.
  by have := PI_RGT_0; have := exp_pos 1 => a b; apply: Rmult_lt_0_compat => //; lra.
rewrite /entropy Er' (ln_mult _ V) // (ln_mult _ V') // /Rdiv (ln_mult V') ?ln_Rinv //; last exact: Rinv_0_lt_compat.
lra.
Qed.
(** With zero jitter and without scale estimation it is the decrease of the entropy of the
    belief about the integral when the point is added, whatever the function value there. *)
Theorem C176_information k e bs s x y s' v : embedded k -> run k 0%R e bs s ->
  acq_information k s x = Some (Some v) -> update k 0%R Keep s [:: x] [:: y] = Some s' ->
  v = entropy (belief s).2 - entropy (belief s').2.
Proof.
move=> ek ru; rewrite /acq_information; case E: acq_reduction => [r|//] /= + U.
have V0 : 0 < (belief s).2.
  have /andP[/leRP p _] := C40_variance ek (lexx _) ru.
  by case: (Rle_lt_or_eq_dec _ _ p) => // /esym V0; move: E; rewrite /acq_reduction V0 mul0r eqxx.
have Er : r * (belief s).2 = (belief s).2 - (belief s').2.
  have n0 : (belief s).2 != 0%R by apply/eqP => H; apply: (Rlt_not_eq _ _ V0); rewrite H.
  by have := congr1 (fun z : K => (z * (belief s).2)%R) (C41_reduction ek ru E U); rewrite divfK.
rewrite /minus_half_log; case: total_order_T => [[p|//]|//] [<-].
exact: info_aux.
Qed.

(** Points are ranked as by the reduction of the variance. *)
Theorem C176_order k s x x' r r' v v' :
  acq_reduction k s x = Some r -> acq_reduction k s x' = Some r' ->
  acq_information k s x = Some (Some v) -> acq_information k s x' = Some (Some v') ->
  (v < v' <-> r < r').
Proof.
rewrite /acq_information => -> -> /=; rewrite /minus_half_log.
case: total_order_T => [[p|//]|//] [<-]; case: total_order_T => [[p'|//]|//] [<-].
split=> H; last by have := ln_increasing (1 - r') (1 - r) p' ltac:(lra); lra.
have : ln (1 - r') < ln (1 - r) by lra.
by move/(ln_lt_inv _ _ p' p); lra.
Qed.
End Claims.

(** At the start, for the kernel 1 + x y on the unit interval: half the logarithm of ten. *)
Example C176_instance : acq_information (lin K) (init (lin K)) (pt 1%R) = Some (Some (1 / 2 * ln 10)%coqR).
Proof.
have E : acq_reduction (lin K) (init (lin K)) (pt 1%R) = Some (9 / 10)%coqR.
  have n2 : (2%:R != 0 :> K)%R by rewrite pnatr_eq0.
  have n4 : (4%:R != 0 :> K)%R by rewrite pnatr_eq0.
  have n5 : (5%:R != 0 :> K)%R by rewrite pnatr_eq0.
  have n10 : (10%:R != 0 :> K)%R by rewrite pnatr_eq0.
  have d2 : (5%:R / 4%:R * (1 * (1 + 1 * 1)) = 5%:R / 2%:R :> K)%R.
    by have -> : (4%:R = 2%:R * 2%:R :> K)%R; [mring|mfield].
  rewrite /acq_reduction /= !ptE d2 mulf_eq0 invr_eq0 (negPf n5) (negPf n2) /=; congr Some.
  transitivity (9%:R / 10%:R : K)%R.
    by have -> : (10%:R = 2%:R * 5%:R :> K)%R; [mring|mfield].
  by apply: (mulIf n10); rewrite divfK // !natRE /= -[(_ * _)%R]/(_ * _)%coqR; lra.
rewrite /acq_information E /= /minus_half_log; case: total_order_T => [[p|e0]|n0] /=; try lra.
congr (Some (Some _)); have -> : (1 - 9 / 10 = / 10)%coqR by field.
rewrite ln_Rinv; lra.
Qed.
Print Assumptions C176_range.
Print Assumptions C176_information.
Print Assumptions C176_order.
