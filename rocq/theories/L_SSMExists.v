(** Every state-space model whose covariances have square roots is realised by
    random vectors. *)
From mathcomp Require Import all_ssreflect all_algebra.
From Verif Require Import L_Zmod M_Gauss L_Kalman L_Filter.
Set Implicit Arguments.
Unset Strict Implicit.
Unset Printing Implicit Defensive.
Import Order.Theory GRing.Theory Num.Theory.
Local Open Scope ring_scope.

Section Family.
Variable R : realFieldType.
Lemma indep_family (d : nat -> nat) (L : forall b, 'M[R]_(d b)) B :
  exists K (X : forall b, 'M[R]_(d b, K)),
    (forall b, (b < B)%N -> X b *m (X b)^T = L b *m (L b)^T)
    /\ (forall b c, (b < B)%N -> (c < B)%N -> b != c -> X b *m (X c)^T = 0).
Proof.
elim: B => [|B [K [X [H1 H2]]]]; first by exists 0%N, (fun _ => 0).
have [last [lastB last0]] : exists last : forall b, 'M[R]_(d b, d B),
    last B = L B /\ forall b, (b < B)%N -> last b = 0.
  exists (fun b => if @eqP _ B b is ReflectT e then ecast z 'M[R]_(d z, d B) e (L B) else 0).
  split=> [|b lt]; first by case: eqP => // e; rewrite (eq_irrelevance e (erefl B)).
  by case: eqP => // e; move: lt; rewrite -{1}e ltnn.
exists (K + d B)%N, (fun b => row_mx (if (b < B)%N then X b else 0) (last b)); split.
- move=> b; rewrite ltnS leq_eqVlt => /predU1P[->|lt].
    by rewrite ltnn tr_row_mx mul_row_col mul0mx add0r lastB.
  by rewrite lt (last0 b lt) tr_row_mx mul_row_col mul0mx addr0 H1.
- move=> b c; rewrite !ltnS (leq_eqVlt b) (leq_eqVlt c) => /predU1P[->|ltb] /predU1P[->|ltc] ne.
  + by rewrite eqxx in ne.
  + by rewrite ltnn tr_row_mx mul_row_col mul0mx add0r (last0 c ltc) trmx0 mulmx0.
  + by rewrite ltnn tr_row_mx mul_row_col trmx0 mulmx0 add0r (last0 b ltb) mul0mx.
  + by rewrite ltb ltc tr_row_mx mul_row_col (last0 b ltb) mul0mx addr0 H2.
Qed.
End Family.

Section Exists.
Variables (R : realFieldType) (n : nat) (m : nat -> nat) (M : ssm R n m) (N : nat).
Variables (L0 : 'M[R]_n) (LW : nat -> 'M[R]_n) (LV : forall k, 'M[R]_(m k)).
Hypothesis H0 : cov (init M) = L0 *m L0^T.
Hypothesis HW : forall k, (k < N)%N -> ncov (tr M k) = LW k *m (LW k)^T.
Hypothesis HV : forall k, (k < N)%N -> ncov (ms M k) = LV k *m (LV k)^T.

Lemma realises_exists : exists K Z W V Y, @realises R K n m M N Z W V Y.
Proof.
have [KW [XW [W1 W2]]] := indep_family LW N.
have [KV [XV [V1 V2]]] := indep_family LV N.
pose K := (n + KW + KV)%N.
pose mk p (b : 'cV[R]_p) (A0 : 'M[R]_(p, n)) (A1 : 'M[R]_(p, KW)) (A2 : 'M[R]_(p, KV))
  : rvec R K p := row_mx b (row_mx (row_mx A0 A1) A2).
have mkM p b A0 A1 A2 : Mean (@mk p b A0 A1 A2) = b by rewrite /Mean row_mxKl.
have mkC p q b A0 A1 A2 b' A0' A1' A2' :
  Cov (@mk p b A0 A1 A2) (@mk q b' A0' A1' A2')
  = A0 *m A0'^T + A1 *m A1'^T + A2 *m A2'^T.
  by rewrite /Cov !row_mxKr !tr_row_mx !mul_row_col.
pose Z0 := mk _ (mean (init M)) L0 0 0.
pose W k := mk _ (shift (tr M k)) 0 (XW k) 0.
pose V k := mk _ (shift (ms M k)) 0 0 (XV k).
pose fix Z k := if k is k'.+1 then
    (if told M k' < loc M k' then tmat (tr M k') *m Z k' + W k' else Z k') else Z0.
pose Y k := tmat (ms M k) *m Z k.+1 + V k.
have sim := (mul0mx, mulmx0, trmx0, add0r, addr0).
exists K, Z, W, V, Y; split.
- by rewrite mkM.
- by rewrite mkC !sim H0.
- by move=> k _; rewrite mkM.
- by move=> k lt; rewrite mkC !sim W1 ?HW.
- by move=> k _; rewrite mkM.
- by move=> k lt; rewrite mkC !sim V1 ?HV.
- by move=> k lt; rewrite mkC !sim.
- by move=> k lt; rewrite mkC !sim.
- by move=> k l lk ll ne; rewrite mkC !sim W2.
- by move=> k l lk ll ne; rewrite mkC !sim V2.
- by move=> k l lk ll; rewrite mkC !sim.
- by [].
- by [].
Qed.
End Exists.
