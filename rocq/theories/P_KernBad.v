(** C116 to C120: claims about covariance functions that do not hold. *)
From mathcomp Require Import all_ssreflect all_algebra.
From Verif Require Import L_Ring M_CovFunc L_CovFunc P_CovFunc M_Kernels P_Kernels P_KernPSD.
Set Implicit Arguments.
Unset Strict Implicit.
Unset Printing Implicit Defensive.
Import Order.Theory GRing.Theory Num.Theory.
Local Open Scope ring_scope.

Section Bad.
Variable R : rcfType.
Definition lin1 : kern R := Base [::] [::] [::] [::] (linear [::] 0).
Definition one : arr R := Arr [:: 1%N] [:: 1].
(** C116: scaling with a negative number is accepted, although documented for positive numbers only;
    the covariance matrix is not positive semi-definite. *)
Theorem C116_negative_refuted : exists k M, [/\ build (EScale (-1) (Atom lin1)) = Some k, matrix k one None = Some M,
  shp M = [:: 1; 1]%N & ~ semi 1 (fun r s => get 0 M [:: r; s])].
Proof.
pose f : kfun R := fun u v _ _ => dotf [::] u v + 0.
have ok : All (fun k => user [::] [::] [::] [::] f k) (atoms (EScale (-1) (Atom lin1))).
  by split=> //; exists (linear [::] 0); split=> //; exact: C114_linear.
have [k [h1 _ _]] := C29_call ok.
have [M [h2 h3 h4]] := C29_matrix (x0 := one) (s0 := [:: 1%N]) (x1 := None) (s1 := [:: 1%N]) ok h1 isT isT erefl isT erefl.
exists k, M; split=> //; case=> _ /(_ (fun=> 1)); rewrite /quad !big_ord1.
have := h4 [::] [:: 0%N] [::] [:: 0%N] isT isT isT isT; rewrite /= => ->.
rewrite /f /dotf /= big_seq1 /ent /pt /= !(mul1r, mulr1, addr0).
by rewrite oppr_ge0 ler10.
Qed.

(** C117: the documented norm of the Matern kernel divides by [l_i], the code by its square. *)
Definition docs_sq (l d : R) : R := d ^+ 2 / l.
Lemma matern0 (ex : R -> R) d : matern_fn ex 0 d = ex (- d).
Proof. by rewrite /matern_fn big_ord1 /= !(expr0, mulr1, divr1). Qed.
Theorem C117_norm_refuted (ex : R -> R) : injective ex ->
  exists (ls x0 x1 : arr R) y, [/\ scales [::] ls, call (Base [::] [::] [::] [::] (matern ex [::] 0 ls)) x0 (Some x1) = Some y &
    get 0 y [::] <> matern_fn ex 0 (Num.sqrt (2%:R * (1 / 2%:R)) * Num.sqrt (docs_sq (len ls [::]) (get 0 x0 [::] - get 0 x1 [::])))].
Proof.
move=> ix; pose ls : arr R := Arr [::] [:: 2%:R].
have sl : scales [::] ls by split=> // -[|? ?] //= _; rewrite /len /get /= ltr0n.
have [h _] := call1 (C114_matern ex 0 sl).
have [y [h1 _ _ h2]] := h (Arr [::] [:: 1]) (Arr [::] [:: 0]) [::] [::] [::] isT isT erefl erefl erefl.
exists ls, (Arr [::] [:: 1]), (Arr [::] [:: 0]), y; split=> //.
have := h2 [::] [::] [::] isT isT isT; rewrite /= => ->; rewrite !matern0 => /ix /oppr_inj.
rewrite /sqf big_seq1 /docs_sq /len /ent /pt /get /= add0r !mul1r mulfV ?pnatr_eq0 // sqrtr1 !mul1r subr0 expr1n !mul1r.
move=> /(congr1 (fun z => z ^+ 2)); rewrite !sqr_sqrtr ?invr_ge0 ?exprn_ge0 ?ler0n // => /invr_inj /eqP.
by rewrite -natrX eqr_nat.
Qed.

(** C118: [Linear] and [WhiteNoise] accept input shapes with two axes, but cannot be evaluated. *)
Theorem C118_axes_refuted a b (c : R) x0 x1 : shp x0 = [:: a; b] -> shp x1 = [:: a; b] ->
  call (Base [:: a; b] [:: a; b] [::] [::] (linear [:: a; b] c)) x0 (Some x1) = None /\
  call (Base [:: a; b] [:: a; b] [::] [::] (white_noise [:: a; b] c)) x0 (Some x1) = None.
Proof.
move=> e0 e1; split; rewrite /= /checked /check_shapes /= e0 e1 /split_shape /= eqxx /=.
  by rewrite /linear /inner; case: (@np_op R _ _ _ _).
by rewrite /white_noise /= /np_op e0 e1 broadcast_refl.
Qed.

(** C119: [matrix] raises for all cross-covariance functions with different input shapes. *)
Theorem C119_cross_refuted (k : kern R) x0 x1 : in0 k <> in1 k ->
  [/\ matrix k x0 x1 = None, forall c, mk_scaled c k = None & forall k', add k k' = None /\ mul k k' = None].
Proof.
move=> /eqP/negPf ne; have I : input_shape k = None by rewrite /input_shape ne.
split=> [|c|k'].
- by rewrite /matrix /preprocess I; case: (split_shape _ _).
- by rewrite /mk_scaled I.
by rewrite /add /mul /same I.
Qed.

(** C120: integer inputs. *)
Theorem C120_white_noise_refuted (trunc : R -> R) : trunc (1 / 2%:R) = 0 ->
  exists y z, [/\ white_noise_dt trunc true [::] (1 / 2%:R) one None = Some y,
    white_noise_dt trunc true [::] (1 / 2%:R) one (Some one) = Some z & get 0 y [:: 0%N] != get 0 z [:: 0%N]].
Proof.
move=> t; do 2 eexists; split; [by []|by []|].
rewrite /get /= t /eqv eqxx mulr1 eq_sym; apply: lt0r_neq0; by rewrite divr_gt0 ?ltr01 ?ltr0n.
Qed.
Theorem C120_exp_quad_refuted (ex : R -> R) ls n x0 x1 : shp x0 = [:: n] -> shp x1 = [:: n] ->
  exp_quad_dt ex true [::] ls x0 (Some x1) = None.
Proof. by move=> e0 e1; rewrite /exp_quad_dt /np_op e0 e1 broadcast_refl. Qed.
(** Calls of such a covariance function succeed. *)
Example C119_example : let k := Base [::] [:: 2%N] [::] [::] (fun _ _ => Some (Arr [::] [:: 1 : R])) in
  in0 k <> in1 k /\ call k (Arr [::] [:: 1]) (Some (Arr [:: 2%N] [:: 1; 0])) = Some (Arr [::] [:: 1]).
Proof. by []. Qed.
End Bad.
Print Assumptions C116_negative_refuted.
Print Assumptions C117_norm_refuted.
Print Assumptions C118_axes_refuted.
Print Assumptions C119_cross_refuted.
Print Assumptions C120_white_noise_refuted.
Print Assumptions C120_exp_quad_refuted.
