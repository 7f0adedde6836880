(** Chain rule for functions of several variables. *)
From Coq Require Import Reals Lra.
From Coquelicot Require Import Coquelicot.
From mathcomp Require Import all_ssreflect all_algebra.
From Verif Require Import L_RStruct M_OdeInit.
Set Implicit Arguments.
Unset Strict Implicit.
Unset Printing Implicit Defensive.
Import Order.Theory GRing.Theory Num.Theory.
Delimit Scope R_scope with coqR.
Local Open Scope ring_scope.
Local Notation K := R_rcfType.

(** Differentiability at [y] of a function of [d] variables with gradient [J]. *)
Definition dist1 d (z y : nat -> R) : R := \sum_(b < d) Rabs (z b - y b).
Definition has_gradient d (f : (nat -> R) -> R) (y J : nat -> R) : Prop :=
  forall eps, Rlt 0 eps -> exists2 del, Rlt 0 del & forall z, Rlt (dist1 d z y) del ->
    Rle (Rabs (f z - f y - \sum_(b < d) J b * (z b - y b))) (eps * dist1 d z y).

Lemma derive_lin d (J : nat -> R) (y : nat -> R -> R) (y' : nat -> R) t0 :
  (forall b, (b < d)%N -> is_derive (y b) t0 (y' b)) ->
  is_derive (fun s => \sum_(b < d) J b * (y b s - y b t0)) t0 (\sum_(b < d) J b * y' b).
Proof.
elim: d => [|d IH] H.
  rewrite big_ord0; apply: (is_derive_ext (K := R_AbsRing) (V := R_NormedModule) (fun _ : R => 0%coqR)).
    by move=> t; rewrite big_ord0.
  exact: (is_derive_const (K := R_AbsRing) (V := R_NormedModule)).
apply: (is_derive_ext (K := R_AbsRing) (V := R_NormedModule) (fun s => Rplus (\sum_(b < d) J b * (y b s - y b t0)) (J d * (y d s - y d t0))%coqR)).
  by move=> t; rewrite big_ord_recr.
rewrite big_ord_recr /=; apply: (is_derive_plus (V := R_NormedModule)); first by apply: IH => b bd; apply/H/ltnW.
have Hd := H d (ltnSn d).
have := is_derive_scal (y d) t0 (J d) (y' d) Hd.
have := is_derive_const (K := R_AbsRing) (V := R_NormedModule) (J d * y d t0)%coqR t0 => C S.
have := is_derive_minus (K := R_AbsRing) (V := R_NormedModule) _ _ t0 _ _ S C.
rewrite /minus /plus /opp /zero /= Ropp_0 Rplus_0_r.
have E s : (J d * y d s + - (J d * y d t0) = J d * (y d s - y d t0))%coqR by ring.
by move=> HH; apply: (is_derive_ext (K := R_AbsRing) (V := R_NormedModule) _ _ _ _ E HH).
Qed.

Lemma derive_bound (y : R -> R) t0 l : is_derive y t0 l ->
  locally t0 (fun s => Rle (Rabs (y s - y t0)) ((Rabs l + 1) * Rabs (s - t0)))%coqR.
Proof.
case=> _ /(_ t0 (fun P H => H)) H; have := H (mkposreal 1 Rlt_0_1).
apply: filter_imp => s; rewrite /norm /= /abs /= /minus /plus /opp /scal /= /mult /= => E.
have -> : (y s - y t0 = (y s + - y t0 + - ((s + - t0) * l)) + (s - t0) * l)%coqR by ring.
apply: Rle_trans (Rabs_triang _ _) _; rewrite Rabs_mult.
move: E; rewrite /Rminus; lra.
Qed.
Lemma dist_bound d (y : nat -> R -> R) (y' : nat -> R) t0 :
  (forall b, (b < d)%N -> is_derive (y b) t0 (y' b)) ->
  exists2 M, Rlt 0 M & locally t0 (fun s => Rle (dist1 d (y^~ s) (y^~ t0)) (M * Rabs (s - t0)))%coqR.
Proof.
elim: d => [|d IH] H.
  exists 1%coqR; first exact: Rlt_0_1.
  by apply: filter_forall => s; rewrite /dist1 big_ord0 Rmult_1_l; apply: Rabs_pos.
have [|M M0 HM] := IH; first by move=> b bd; apply/H/ltnW.
have Hd := derive_bound (H d (ltnSn d)).
exists (M + (Rabs (y' d) + 1))%coqR; first by have := Rabs_pos (y' d); lra.
apply: (filter_imp _ _ _ (filter_and _ _ HM Hd)) => s [a b].
rewrite /dist1 big_ord_recr /= Rmult_plus_distr_r; apply: Rplus_le_compat; [exact: a|exact: b].
Qed.

Lemma chain d (f : (nat -> R) -> R) (J : nat -> R) (y : nat -> R -> R) (y' : nat -> R) t0 :
  has_gradient d f (y^~ t0) J -> (forall b, (b < d)%N -> is_derive (y b) t0 (y' b)) ->
  is_derive (fun s => f (y^~ s)) t0 (\sum_(b < d) J b * y' b).
Proof.
move=> Hf Hy; have HL := derive_lin J Hy; have [M M0 HM] := dist_bound Hy.
set L := fun s => \sum_(b < d) J b * (y b s - y b t0) in HL.
have L0 : L t0 = 0 by rewrite /L big1 // => b _; rewrite subrr mulr0.
suff H0 : is_derive (fun s => f (y^~ s) - L s)%coqR t0 0%coqR.
  have := is_derive_plus (K := R_AbsRing) (V := R_NormedModule) _ _ _ _ _ H0 HL; rewrite /plus /= Rplus_0_l => HH.
  have E s : (f (y^~ s) - L s + L s = f (y^~ s))%coqR by ring.
  exact: (is_derive_ext (K := R_AbsRing) (V := R_NormedModule) _ _ _ _ E HH).
split; first exact: is_linear_scal_l.
move=> x /(is_filter_lim_locally_unique t0 x) <- eps.
have e1 : Rlt 0 (eps / M)%coqR by apply: Rdiv_lt_0_compat => //; apply: cond_pos.
have [del d0 Hd] := Hf _ e1.
have dm : Rlt 0 (del / M)%coqR by apply: Rdiv_lt_0_compat.
have near : locally t0 (fun s => Rlt (Rabs (s - t0)) (del / M))%coqR.
  by exists (mkposreal _ dm).
apply: (filter_imp _ _ _ (filter_and _ _ HM near)) => s [a b].
have c : Rlt (dist1 d (y^~ s) (y^~ t0)) del.
  apply: Rle_lt_trans a _; have := Rmult_lt_compat_l _ _ _ M0 b.
  by have -> : (M * (del / M) = del)%coqR by field; apply: Rgt_not_eq.
have e := Hd _ c.
rewrite /norm /= /abs /= /minus /plus /opp /scal /= /mult /= L0.
have -> : (f (y^~ s) - L s + - (f (y^~ t0) - 0%R) + - ((s + - t0) * 0) = f (y^~ s) - f (y^~ t0) - L s)%coqR.
  by rewrite /=; change (0%R : R) with 0%coqR; ring.
apply: Rle_trans e _.
apply: (Rle_trans _ (eps / M * (M * Rabs (s - t0)))%coqR).
  by apply: Rmult_le_compat_l => //; apply: Rlt_le.
by right; rewrite /Rminus; field; apply: Rgt_not_eq.
Qed.
