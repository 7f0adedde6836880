(** Matrix products of arrays, by their entries in C order. *)
From mathcomp Require Import all_ssreflect all_algebra.
From Verif Require Import L_Ring M_CovFunc L_CovFunc M_RandVar L_RandVar.
Set Implicit Arguments.
Unset Strict Implicit.
Unset Printing Implicit Defensive.
Import Order.Theory GRing.Theory Num.Theory.
Local Open Scope ring_scope.

Section Flat.
Variables (R : rcfType).
Notation arr := (arr R).
Notation get := (get (0 : R)).
Implicit Types x y z : arr.
(** The entry at position [i] in C order. *)
Definition fl x (i : nat) : R := nth 0 (dat x) i.
Lemma get_fl x a : get x a = fl x (ravel (shp x) a). Proof. by []. Qed.
Lemma fl_tab s (f : seq nat -> R) a : valid s a -> fl (tab s f) (ravel s a) = f a.
Proof. by move=> v; rewrite -[LHS](@get_fl (tab s f)) get_tab. Qed.
Lemma get1d x n i : shp x = [:: n] -> get x [:: i] = fl x i.
Proof. by move=> e; rewrite get_fl e /= muln1 addn0. Qed.
Lemma get2d x m n i j : shp x = [:: m; n] -> get x [:: i; j] = fl x (i * n + j).
Proof. by move=> e; rewrite get_fl e ravel2. Qed.

Lemma matmul_fl x y z : np_matmul x y = Some z ->
  exists u n w, [/\ shp x = rcons u n, shp y = n :: w, shp z = u ++ w, wf z & [/\ (size u <= 1)%N, (size w <= 1)%N &
    forall i j, (i < prodn u)%N -> (j < prodn w)%N ->
      fl z (i * prodn w + j) = \sum_(l < n) fl x (i * n + l) * fl y (l * prodn w + j)]].
Proof.
rewrite /np_matmul; case Ex : (shp x) => [//|a [|b [|? ?]]]; case Ey : (shp y) => [//|c [|d [|? ?]]] //; case: eqP => // e; subst c; case=> <-.
- exists [::], a, [::]; split=> //; split=> // -[|i] [|j] // _ _.
  rewrite -[LHS]/(fl _ (ravel [::] [::])) fl_tab //; apply: eq_bigr => l _.
  by rewrite (get1d _ Ex) (get1d _ Ey) muln1 addn0.
- exists [::], a, [:: d]; split=> //; first exact: wf_tab; split=> // -[|i] j // _; rewrite /= muln1 => jd.
  have -> : (0 * d + j)%N = ravel [:: d] [:: j] by rewrite /= muln1 addn0.
  rewrite fl_tab /= ?jd //; apply: eq_bigr => l _.
  by rewrite (get1d _ Ex) (get2d _ _ Ey) mul0n.
- exists [:: a], b, [::]; split=> //; first exact: wf_tab; split=> // i [|j] // + _; rewrite /= muln1 => ia.
  have -> : (i * 1 + 0)%N = ravel [:: a] [:: i] by [].
  rewrite fl_tab /= ?ia //; apply: eq_bigr => l _.
  by rewrite (get2d _ _ Ex) (get1d _ Ey) muln1 addn0.
- exists [:: a], b, [:: d]; split=> //; first exact: wf_tab; split=> // i j; rewrite /= !muln1 => ia jd.
  rewrite -(ravel2 a) fl_tab ?valid2 ?ia ?jd //; apply: eq_bigr => l _.
  by rewrite (get2d _ _ Ex) (get2d _ _ Ey).
Qed.
Lemma matmul_some x y u n w : shp x = rcons u n -> shp y = n :: w -> (size u <= 1)%N -> (size w <= 1)%N ->
  exists z, np_matmul x y = Some z.
Proof.
rewrite /np_matmul => -> ->; case: u => [|a [|? ?]] //; case: w => [|b [|? ?]] //= _ _; rewrite eqxx; eexists; reflexivity.
Qed.
Lemma T_fl x n w i j : wf x -> shp x = n :: w -> (size w <= 1)%N -> (i < n)%N -> (j < prodn w)%N ->
  fl (np_T x) (j * n + i) = fl x (i * prodn w + j).
Proof.
move=> wx e w1 iN; rewrite /np_T e; case: w e w1 => [|d [|? ?]] // e _.
  case: j => // _; rewrite (_ : (0 * n + i)%N = ravel [:: n] [:: i]); last by rewrite /= muln1 addn0.
  by rewrite fl_tab /= ?iN // (get1d _ e) muln1 addn0.
rewrite /= !muln1 => jd; rewrite -(ravel2 d) fl_tab ?valid2 ?iN ?jd //.
by rewrite (get2d _ _ e).
Qed.
Lemma shp_T x : shp (np_T x) = rev (shp x). Proof. by []. Qed.
Lemma wf_T x : wf (np_T x). Proof. exact: wf_tab. Qed.
Lemma kron_fl x y z a b c d : shp x = [:: a; b] -> shp y = [:: c; d] -> np_kron x y = Some z ->
  [/\ shp z = [:: (a * c)%N; (b * d)%N], wf z & forall i k i' l, (i < a)%N -> (k < c)%N -> (i' < b)%N -> (l < d)%N ->
    fl z ((i * c + k) * (b * d) + (i' * d + l)) = fl x (i * b + i') * fl y (k * d + l)].
Proof.
rewrite /np_kron => Ex Ey; rewrite Ex Ey => -[<-]; split=> // [|i k i' l ia kc ib ld]; first exact: wf_tab.
rewrite -(ravel2 (a * c)) fl_tab ?valid2 ?pair_lt //=.
have c0 := leq_ltn_trans (leq0n _) kc; have d0 := leq_ltn_trans (leq0n _) ld.
by rewrite !divnMDl // !divn_small // !addn0 !modnMDl !modn_small // (get2d _ _ Ex) (get2d _ _ Ey).
Qed.
Lemma eye_fl n i j : (i < n)%N -> (j < n)%N -> fl (np_eye R n) (i * n + j) = (i == j)%:R.
Proof. by move=> iN jN; rewrite -(ravel2 n) fl_tab ?valid2 ?iN ?jN. Qed.
(** Sums over pairs. *)
Lemma sum_pair m n (F : nat -> R) : \sum_(q < m * n) F q = \sum_(i < m) \sum_(l < n) F (i * n + l)%N.
Proof.
elim: m F => [|m IH] F; first by rewrite !big_ord0.
rewrite [RHS]big_ord_recl /= mulSn big_split_ord /=; congr (_ + _).
rewrite (IH (fun q => F (n + q)%N)); apply: eq_bigr => i _; apply: eq_bigr => l _.
by rewrite /bump /= add1n mulSn addnA.
Qed.
Lemma sum_delta n (i : nat) (F : nat -> R) : (i < n)%N -> \sum_(l < n) (i == l)%:R * F l = F i.
Proof.
move=> iN; rewrite (bigD1 (Ordinal iN)) //= eqxx mul1r big1 ?addr0 // => l /negP h.
case: eqP => [e|_]; last by rewrite mul0r.
by exfalso; apply: h; apply/eqP/val_inj.
Qed.
End Flat.
