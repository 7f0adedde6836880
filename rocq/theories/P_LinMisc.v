(** C177, C178: posterior contraction, random linear systems. *)
From mathcomp Require Import all_ssreflect all_algebra.
From mathcomp Require Import realalg.
From Verif Require Import L_Kalman L_Psd M_LinMisc.
Set Implicit Arguments.
Unset Strict Implicit.
Unset Printing Implicit Defensive.
Import Order.Theory GRing.Theory Num.Theory.
Local Open Scope ring_scope.

Section Claims.
Variable R : rcfType.

(** The documented condition. *)
Theorem C177_contraction : forall n m atol rtol (C : 'M[R]_n) (b : 'cV[R]_m),
  psd C -> 0 <= atol -> 0 <= rtol ->
  contracted atol rtol C b = (Num.sqrt (\tr C) <= Num.max atol (rtol * Num.sqrt (\sum_i b i 0 ^+ 2))).
Proof.
move=> n m atol rtol C b pC a0 r0.
have t0 : 0 <= \tr C.
  rewrite /mxtrace; apply: sumr_ge0 => i _.
  by have := pC.2 (delta_mx i 0); rewrite /qform trmx_delta -rowE -colE !mxE.
rewrite /contracted ger0_norm // -/(norm2 b) le_maxr.
have q x : 0 <= x -> (\tr C <= x ^+ 2) = (Num.sqrt (\tr C) <= x).
  move=> x0; rewrite -{1}(sqr_sqrtr t0) ler_pexpn2r //; first exact: sqrtr_ge0.
by rewrite !q // mulr_ge0 // sqrtr_ge0.
Qed.

(** The system has the returned solution; the sample of [solution_rv] is kept; an error is
    raised exactly if its length is not the number of columns. *)
Theorem C178_system : forall m n (A : 'M[R]_(m, n)) std sol,
  match random_linear_system A std sol with
  | Some (A', b, x) => [/\ A' = A, A *m x = b
      & if sol is Some s then existT (fun k => 'cV[R]_k) n x = s else x = std]
  | None => exists s, sol = Some s /\ projT1 s <> n
  end.
Proof.
move=> m n A std [[k x]|] //=; case: eqP => [e|ne] /=; last by exists (existT _ k x); split=> // /esym.
by split=> //; case: k / e x => x; rewrite castmx_id.
Qed.
End Claims.

Example C177_instance :
  contracted (R := [rcfType of realalg]) 2%:R 0 (4%:R *: 1%:M : 'M_1) (0 : 'cV_1)
  /\ ~~ contracted (R := [rcfType of realalg]) 1 1 (4%:R *: 1%:M : 'M_1) (const_mx 1 : 'cV_1).
Proof.
rewrite /contracted /norm2 mxtraceZ mxtrace1 mulr1 ger0_norm ?ler0n //; split.
  by rewrite -natrX ler_nat.
by rewrite big_ord1 mxE !expr1n sqrtr1 mulr1 expr1n orbb -ltNge ltr1n.
Qed.
Example C178_instance :
  random_linear_system (1%:M : 'M[realalg]_2) 0 (Some (existT _ 2%N (const_mx 1)))
    = Some (1%:M, const_mx 1, const_mx 1)
  /\ random_linear_system (1%:M : 'M[realalg]_2) 0 (Some (existT _ 3%N (const_mx 1))) = None.
Proof.
split; rewrite /random_linear_system; case: eqP => // e.
by rewrite (eq_irrelevance (esym e) erefl) castmx_id mul1mx.
Qed.
Print Assumptions C177_contraction.
Print Assumptions C178_system.
