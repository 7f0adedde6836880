(** C45, C138-C141: kernel means and kernel variances (quad/kernel_embeddings) are the integrals of the kernels. *)
From Coq Require Import Reals Lra.
From Coquelicot Require Import Coquelicot.
From mathcomp Require Import all_ssreflect all_algebra.
From Verif Require Import L_Ring M_DMx L_DMx L_Kalman L_Zmod M_Sqrt L_Sqrt M_BQ L_BQ L_BQ2 L_RStruct L_Expm L_Int1 L_GaussMx M_Embed L_Embed.
Set Implicit Arguments.
Unset Strict Implicit.
Unset Printing Implicit Defensive.
Import Order.Theory GRing.Theory Num.Theory.
Delimit Scope R_scope with coqR.
Local Open Scope ring_scope.

(** ** Matern kernels in one variable *)
Section Scalar.
Local Open Scope R_scope.
Lemma matern_pol p d : (p <= 3)%nat -> matern_at p d = pol p d * exp (- d).
Proof.
rewrite /matern_at; case: p => [|[|[|[|p]]]] // _; rewrite /= /pol; field.
Qed.
Lemma nu_sqrt p : sqrt (2 * (INR p + 1 / 2)) = sqrt (INR (2 * p + 1)).
Proof. congr sqrt; rewrite plus_INR mult_INR /=; field. Qed.
(** The scale [m] with [Rabs (x - y) / m] the argument of the polynomial. *)
Definition msc (p : nat) (l : R) : R := l / sqrt (INR (2 * p + 1)).
Lemma sq_pos p : 0 < sqrt (INR (2 * p + 1)).
Proof. by apply: sqrt_lt_R0; rewrite plus_INR /=; have := pos_INR (2 * p); rewrite /=; lra. Qed.
Lemma msc_pos p l : 0 < l -> 0 < msc p l.
Proof. by move=> l0; apply: Rdiv_lt_0_compat => //; exact: sq_pos. Qed.
Lemma matern_rad p l x y : 0 < l -> (p <= 3)%nat -> matern_1d p l x y = rad p (msc p l) (Rabs (x - y)).
Proof.
move=> l0 p3; rewrite /matern_1d matern_pol // nu_sqrt /rad /msc; have := sq_pos p => s0.
by have -> : sqrt (INR (2 * p + 1)) * (Rabs (x - y) / l) = Rabs (x - y) / (l / sqrt (INR (2 * p + 1))) by field; lra.
Qed.
Lemma Req_yes T (x y : R) (u v : T) : x = y -> (if Req_EM_T x y then u else v) = u.
Proof. by move=> ->; case: Req_EM_T. Qed.
Lemma Req_no T (x y : R) (u v : T) : x <> y -> (if Req_EM_T x y then u else v) = v.
Proof. by case: Req_EM_T. Qed.
Lemma scaled_sqrt (n l : R) : 0 < n -> 0 < l -> l = sqrt n * (l / sqrt n).
Proof. by move=> n0 l0; have := sqrt_lt_R0 _ n0 => h; field; lra. Qed.

Lemma mean_1dE p l a b x : 0 < l -> (p <= 3)%nat ->
  mean_1d l (INR p + 1 / 2) a b x =
  Some (msc p l * polG p ((x - a) / msc p l) + msc p l * polG p ((b - x) / msc p l)).
Proof.
move=> l0; have m0 := msc_pos p l0; have s0 := sq_pos p.
case: p m0 s0 => [|[|[|[|p]]]] // m0 s0 _; rewrite /mean_1d.
- rewrite Req_yes; last by rewrite /=; lra.
  congr Some; have -> : msc 0 l = l by rewrite /msc /= sqrt_1; field.
  rewrite /polG; have -> : - ((x - a) / l) = (a - x) / l by field; lra.
  have -> : - ((b - x) / l) = (x - b) / l by field; lra.
  by ring.
- rewrite Req_no; last by rewrite /=; lra.
  rewrite Req_yes; last by rewrite /=; lra.
  have e3 : INR (2 * 1 + 1) = 3 by rewrite /=; ring.
  rewrite /msc e3 in m0 s0 *; move: (l / sqrt 3) (scaled_sqrt (n := 3) (l := l) ltac:(lra) l0) m0 => m lE m0.
  have ss := sqrt_sqrt 3 ltac:(lra); move: (sqrt 3) s0 ss lE => s s0 ss lE.
  congr Some; rewrite /polG lE.
  have -> : s * (x - b) / (s * m) = - ((b - x) / m) by field; lra.
  have -> : s * (a - x) / (s * m) = - ((x - a) / m) by field; lra.
  move: (exp _) (exp _) => e1 e2; have -> : 4 * (s * m) / s = 4 * m by field; lra.
  have -> : 2 * s * (s * m) = 6 * m by have -> : 2 * s * (s * m) = 2 * (s * s) * m by [ring]; rewrite ss; ring.
  by field; lra.
- rewrite Req_no; last by rewrite /=; lra.
  rewrite Req_no; last by rewrite /=; lra.
  rewrite Req_yes; last by rewrite /=; lra.
  have e3 : INR (2 * 2 + 1) = 5 by rewrite /=; ring.
  rewrite /msc e3 in m0 s0 *; move: (l / sqrt 5) (scaled_sqrt (n := 5) (l := l) ltac:(lra) l0) m0 => m lE m0.
  have ss := sqrt_sqrt 5 ltac:(lra); move: (sqrt 5) s0 ss lE => s s0 ss lE.
  congr Some; rewrite /polG lE.
  have -> : s * (x - b) / (s * m) = - ((b - x) / m) by field; lra.
  have -> : s * (a - x) / (s * m) = - ((x - a) / m) by field; lra.
  move: (exp _) (exp _) => e1 e2; have -> : 16 * (s * m) / (3 * s) = 16 / 3 * m by field; lra.
  have sq : (s * m) ^ 2 = 5 * m ^ 2 by have -> : (s * m) ^ 2 = (s * s) * m ^ 2 by [ring]; rewrite ss.
  rewrite !sq.
  by field; lra.
- rewrite Req_no; last by rewrite /=; lra.
  rewrite Req_no; last by rewrite /=; lra.
  rewrite Req_no; last by rewrite /=; lra.
  rewrite Req_yes; last by rewrite /=; lra.
  have e3 : INR (2 * 3 + 1) = 7 by rewrite /=; ring.
  rewrite /msc e3 in m0 s0 *; move: (l / sqrt 7) (scaled_sqrt (n := 7) (l := l) ltac:(lra) l0) m0 => m lE m0.
  have ss := sqrt_sqrt 7 ltac:(lra); move: (sqrt 7) s0 ss lE => s s0 ss lE.
  congr Some; rewrite /polG lE.
  have -> : s * (x - b) / (s * m) = - ((b - x) / m) by field; lra.
  have -> : s * (a - x) / (s * m) = - ((x - a) / m) by field; lra.
  move: (exp _) (exp _) => e1 e2.
  have sq : (s * m) ^ 2 = 7 * m ^ 2 by have -> : (s * m) ^ 2 = (s * s) * m ^ 2 by [ring]; rewrite ss.
  have sc : s * (s * m) ^ 3 = 49 * m ^ 3 by have -> : s * (s * m) ^ 3 = (s * s) * (s * s) * m ^ 3 by [ring]; rewrite ss; ring.
  have s1 : s * (s * m) = 7 * m by rewrite -Rmult_assoc ss.
  have h96 k : k * s * (s * m) ^ 3 = k * (49 * m ^ 3) by rewrite Rmult_assoc sc.
  have h63 k : k * s * (s * m) = k * (7 * m) by rewrite Rmult_assoc s1.
  rewrite !h96 !h63 !sq.
  by field; lra.
Qed.
Lemma var_1dE p l a b : 0 < l -> (p <= 3)%nat ->
  var_1d l (INR p + 1 / 2) a b = Some (2 * msc p l ^ 2 * polH p ((b - a) / msc p l)).
Proof.
move=> l0; have m0 := msc_pos p l0; have s0 := sq_pos p.
case: p m0 s0 => [|[|[|[|p]]]] // m0 s0 _; rewrite /var_1d.
- rewrite Req_yes; last by rewrite /=; lra.
  congr Some; have -> : msc 0 l = l by rewrite /msc /= sqrt_1; field.
  rewrite /polH; have -> : - ((b - a) / l) = - (b - a) / l by field; lra.
  by field; lra.
- rewrite Req_no; last by rewrite /=; lra.
  rewrite Req_yes; last by rewrite /=; lra.
  have e3 : INR (2 * 1 + 1) = 3 by rewrite /=; ring.
  rewrite /msc e3 in m0 s0 *; move: (l / sqrt 3) (scaled_sqrt (n := 3) (l := l) ltac:(lra) l0) m0 => m lE m0.
  have ss := sqrt_sqrt 3 ltac:(lra); move: (sqrt 3) s0 ss lE => s s0 ss lE.
  congr Some; rewrite /polH lE.
  have -> : - (s * (b - a)) / (s * m) = - ((b - a) / m) by field; lra.
  move: (exp _) => e1.
  have -> : 2 * (s * m) / 3 * (2 * (s * (b - a)) - 3 * (s * m) + e1 * (s * (b - a) + 3 * (s * m))) =
    (s * s) * (2 * m / 3) * (2 * (b - a) - 3 * m + e1 * ((b - a) + 3 * m)) by field.
  by rewrite ss; field; lra.
- rewrite Req_no; last by rewrite /=; lra.
  rewrite Req_no; last by rewrite /=; lra.
  rewrite Req_yes; last by rewrite /=; lra.
  have e3 : INR (2 * 2 + 1) = 5 by rewrite /=; ring.
  rewrite /msc e3 in m0 s0 *; move: (l / sqrt 5) (scaled_sqrt (n := 5) (l := l) ltac:(lra) l0) m0 => m lE m0.
  have ss := sqrt_sqrt 5 ltac:(lra); move: (sqrt 5) s0 ss lE => s s0 ss lE.
  congr Some; rewrite /polH lE.
  have -> : - (s * (b - a)) / (s * m) = - ((b - a) / m) by field; lra.
  move: (exp _) => e1.
  have -> : 1 / 15 * (2 * (s * m) * (8 * (s * (b - a)) - 15 * (s * m)) +
     2 * e1 * (5 * a ^ 2 - 10 * a * b + 5 * b ^ 2 + 7 * (s * (b - a)) * (s * m) + 15 * (s * m) ^ 2)) =
    1 / 15 * ((s * s) * (2 * m * (8 * (b - a) - 15 * m)) +
     2 * e1 * (5 * (b - a) ^ 2 + (s * s) * (7 * (b - a) * m + 15 * m ^ 2))) by field.
  by rewrite ss; field; lra.
- rewrite Req_no; last by rewrite /=; lra.
  rewrite Req_no; last by rewrite /=; lra.
  rewrite Req_no; last by rewrite /=; lra.
  rewrite Req_yes; last by rewrite /=; lra.
  have e3 : INR (2 * 3 + 1) = 7 by rewrite /=; ring.
  rewrite /msc e3 in m0 s0 *; move: (l / sqrt 7) (scaled_sqrt (n := 7) (l := l) ltac:(lra) l0) m0 => m lE m0.
  have ss := sqrt_sqrt 7 ltac:(lra); move: (sqrt 7) s0 ss lE => s s0 ss lE.
  congr Some; rewrite /polH lE.
  have -> : - (s * (b - a)) / (s * m) = - ((b - a) / m) by field; lra.
  move: (exp _) => e1.
  have -> : 1 / (105 * (s * m)) * (2 * e1 *
      (7 * s * (b ^ 3 - a ^ 3) + 84 * b ^ 2 * (s * m) + 57 * s * b * (s * m) ^ 2 + 105 * (s * m) ^ 3 +
       21 * a ^ 2 * (s * b + 4 * (s * m)) - 3 * a * (7 * s * b ^ 2 + 56 * b * (s * m) + 19 * s * (s * m) ^ 2)) -
      6 * (s * m) ^ 2 * (35 * (s * m) - 16 * (s * (b - a)))) =
    1 / (105 * m) * (2 * e1 *
      (7 * (b - a) ^ 3 + 84 * (b - a) ^ 2 * m + (s * s) * (57 * (b - a) * m ^ 2) + (s * s) * (105 * m ^ 3)) -
      6 * (s * s) * m ^ 2 * (35 * m - 16 * (b - a))) by field; lra.
  by rewrite ss; field; lra.
Qed.
Lemma other_1d l nu a b x : (forall p, (p <= 3)%nat -> nu <> INR p + 1 / 2) -> mean_1d l nu a b x = None /\ var_1d l nu a b = None.
Proof.
move=> h; rewrite /mean_1d /var_1d.
have h0 := h 0%nat isT; have h1 := h 1%nat isT; have h2 := h 2%nat isT; have h3 := h 3%nat isT.
rewrite /= in h0 h1 h2 h3.
by rewrite !Req_no //; lra.
Qed.
End Scalar.

(** ** Products over the coordinates *)
Definition mean_val (p : nat) (l a b x : R) : R :=
  (msc p l * polG p ((x - a) / msc p l) + msc p l * polG p ((b - x) / msc p l))%coqR.
Definition var_val (p : nat) (l a b : R) : R := (2 * msc p l ^ 2 * polH p ((b - a) / msc p l))%coqR.
Section Multi.
Variable D : nat.
Notation point := 'rV[R]_D.
Implicit Types (a b x : point) (mu : measure D) (k : kernel D).

Lemma mul_allE (f : 'I_D -> option R) (v : 'I_D -> R) : (forall d, f d = Some (v d)) -> mul_all f = Some (\prod_(d < D) v d).
Proof.
move=> h; rewrite /mul_all -big_enum /=.
have : forall c s, foldl (fun acc d => if acc is Some w then omap (Rmult w) (f d) else None) (Some c) s =
  Some (c * \prod_(d <- s) v d).
  move=> c s; elim: s c => [|d s IH] c /=; first by rewrite big_nil mulr1.
  by rewrite h /= IH big_cons mulrA.
by move=> ->; rewrite mul1r; congr Some; apply: eq_bigl.
Qed.
Lemma mul_all_none (f : 'I_D -> option R) d : f d = None -> mul_all f = None.
Proof.
move=> h; rewrite /mul_all.
have N s : foldl (fun acc d => if acc is Some w then omap (Rmult w) (f d) else None) None s = None by elim: s.
have : d \in enum 'I_D by rewrite mem_enum.
elim: (enum 'I_D) (Some 1) => // e s IH acc; rewrite inE => /orP [/eqP <-|i] /=; last exact: IH.
by rewrite h; case: acc => //=; rewrite N.
Qed.
Lemma normE a b nz (f : R) : normalization a b nz * f = if nz then (f / volume a b)%coqR else f.
Proof.
rewrite /normalization -/(volume a b); case: nz; last by rewrite mul1r.
have e (u v : R) : (1 / u * v = v / u)%coqR by rewrite /Rdiv; ring.
exact: e.
Qed.
(** The integral of a product. *)
Lemma integral_prod a b nz (h : 'I_D -> R -> R) (v : 'I_D -> R) (f : point -> R) :
  (forall d, is_RInt (h d) (a 0 d) (b 0 d) (v d)) ->
  (forall t, in_domain (Lebesgue a b nz) t -> f t = \prod_(d < D) h d (t 0 d)) ->
  integral (Lebesgue a b nz) f (normalization a b nz * \prod_(d < D) v d).
Proof.
move=> hv fE; apply: (box_int_ext _ (box_prod (normalization a b nz) hv)) => t ht.
by rewrite normE fE.
Qed.
Lemma integral_prod2 a b nz (h : 'I_D -> R -> R) (v : 'I_D -> R) (f : point -> R) :
  (forall d, is_RInt (h d) (a 0 d) (b 0 d) (v d)) ->
  (forall t, in_domain (Lebesgue a b nz) t -> f t = normalization a b nz * \prod_(d < D) h d (t 0 d)) ->
  integral (Lebesgue a b nz) f ((normalization a b nz ^ 2)%coqR * \prod_(d < D) v d).
Proof.
move=> hv fE.
have -> : (normalization a b nz ^ 2)%coqR = normalization a b nz * normalization a b nz by rewrite /= Rmult_1_r.
apply: (box_int_ext _ (box_prod (normalization a b nz * normalization a b nz) hv)) => t ht.
by rewrite -mulrA normE fE.
Qed.

(** The smoothness is one of 1/2, 3/2, 5/2, 7/2. *)
Definition listed (nu : R) : Prop := exists2 p, (p <= 3)%nat & nu = (INR p + 1 / 2)%coqR.
Lemma listed_p (nus : point) : (forall d, listed (nus 0 d)) ->
  exists p : 'I_D -> nat, forall d, (p d <= 3)%nat /\ nus 0 d = (INR (p d) + 1 / 2)%coqR.
Proof.
move=> h; pose P d n := (if Req_EM_T (nus 0 d) (INR n + 1 / 2)%coqR then true else false).
have H d : exists n, (n <= 3)%nat && P d n.
  by have [p p3 e] := h d; exists p; rewrite p3 /P; case: Req_EM_T.
by exists (fun d => ex_minn (H d)) => d; case: ex_minnP => n /andP [n3]; rewrite /P; case: Req_EM_T.
Qed.
(** A Matern kernel in one variable, or a product of such kernels. *)
Definition matern_kernel k : Prop :=
  match k with
  | Matern (Scalar l) nu => [/\ D = 1%N, Rlt 0 l & listed nu]
  | ProductMatern ls nus => forall d, Rlt 0 (ls 0 d) /\ listed (nus 0 d)
  | _ => False
  end.
Lemma matern_product k : matern_kernel k -> exists ls nus, [/\ to_product k = Some (ls, nus),
  forall d, Rlt 0 (ls 0 d), forall d, listed (nus 0 d) & forall f, covariance (ProductMatern ls nus) f -> covariance k f].
Proof.
case: k => // [[l|//] nu [D1 l0 nl]|ls nus h]; last by exists ls, nus; split=> // d; have [] := h d.
exists (const_mx l), (const_mx nu); split=> [|d|d|f]; rewrite /= ?mxE //; first by rewrite D1.
case=> p [h1 h2]; have d0 : 'I_D by rewrite D1; exact: ord0.
have all0 d : d = d0 by apply: val_inj; case: d d0; rewrite D1 => -[|?] //= i [[|?]].
exists (p d0); have nE := h1 d0; rewrite mxE in nE; split=> // x y.
have big1 (F : 'I_D -> R) (idx : R) (op : Monoid.law idx) : \big[op/idx]_(d < D) F d = F d0.
  by rewrite (eq_bigl (pred1 d0)) ?big_pred1_eq // => d; rewrite /= (all0 d) eqxx.
rewrite h2 big1 mxE /scaled_sq big1 /matern_1d -nE; congr matern_at; congr Rmult.
set z := ((x ord0 d0 - y ord0 d0) / l)%coqR.
have -> : (z ^ 2)%coqR = Rsqr z by rewrite /Rsqr /=; ring.
by rewrite sqrt_Rsqr_abs /z /Rdiv Rabs_mult (Rabs_pos_eq (/ l)) //; apply: Rlt_le; exact: Rinv_0_lt_compat.
Qed.
Section Lebesgue.
Variables (a b : point) (nz : bool).
Hypothesis ab : forall d, Rlt (a 0 d) (b 0 d).
Let mu := Lebesgue a b nz.
Variable chol : 'M[R]_D -> option 'M[R]_D.
Let mm (ls : point) (p : 'I_D -> nat) (x : point) (d : 'I_D) : R := mean_val (p d) (ls 0 d) (a 0 d) (b 0 d) (x 0 d).
Lemma product_mean (ls nus x : point) p : (forall d, Rlt 0 (ls 0 d)) ->
  (forall d, (p d <= 3)%nat /\ nus 0 d = (INR (p d) + 1 / 2)%coqR) -> in_domain mu x ->
  integral mu (fun t => \prod_(d < D) matern_1d (p d) (ls 0 d) (t 0 d) (x 0 d)) (normalization a b nz * \prod_(d < D) mm ls p x d).
Proof.
move=> l0 hp dx; apply: (integral_prod (h := fun d t => matern_1d (p d) (ls 0 d) t (x 0 d))) => // d.
have [p3 _] := hp d.
apply: (is_RInt_ext (fun t => rad (p d) (msc (p d) (ls 0 d)) (Rabs (Rminus t (x 0 d))))) => [t _|].
  by rewrite matern_rad.
by apply: rad_mean; [exact: msc_pos|exact: dx].
Qed.
(** Kernel mean and variance of Matern kernels. *)
Theorem C45_mean k x : matern_kernel k -> in_domain mu x ->
  exists v, kernel_mean chol k mu x = Some v /\ is_mean k mu x v.
Proof.
move=> mk dx; have [ls [nus [tp l0 nl cv]]] := matern_product mk; have [p hp] := listed_p nl.
exists (normalization a b nz * \prod_(d < D) mm ls p x d); split.
  have -> : kernel_mean chol k mu x = mean_matern_lebesgue x k a b nz by case: k mk {tp cv}.
  rewrite /mean_matern_lebesgue tp (mul_allE (v := mm ls p x)) // => d.
  by have [p3 ->] := hp d; rewrite mean_1dE.
exists (fun t y => \prod_(d < D) matern_1d (p d) (ls 0 d) (t 0 d) (y 0 d)); split.
  by apply: cv; exists p; split=> // d; have [] := hp d.
by apply: product_mean hp dx.
Qed.
Theorem C45_variance k : matern_kernel k ->
  exists v, kernel_variance k mu = Some v /\ is_variance k mu v.
Proof.
move=> mk; have [ls [nus [tp l0 nl cv]]] := matern_product mk; have [p hp] := listed_p nl.
pose vv d : R := var_val (p d) (ls 0 d) (a 0 d) (b 0 d).
exists ((normalization a b nz ^ 2)%coqR * \prod_(d < D) vv d); split.
  have -> : kernel_variance k mu = var_matern_lebesgue k a b nz by case: k mk {tp cv}.
  rewrite /var_matern_lebesgue tp (mul_allE (v := vv)) // => d.
  by have [p3 ->] := hp d; rewrite var_1dE.
exists (fun t y => \prod_(d < D) matern_1d (p d) (ls 0 d) (t 0 d) (y 0 d)).
exists (fun x => normalization a b nz * \prod_(d < D) mm ls p x d); split.
- by apply: cv; exists p; split=> // d; have [] := hp d.
- by move=> x dx; apply: product_mean hp dx.
apply: (integral_prod2 (h := fun d t => mean_val (p d) (ls 0 d) (a 0 d) (b 0 d) t)) => // d.
by apply: rad_var; [exact: msc_pos|apply: Rlt_le; exact: ab].
Qed.
(** Other smoothness values, and Matern kernels on several variables, raise. *)
Theorem C45_unsupported k x :
  match k with
  | Matern _ nu => (1 < D)%N \/ (0 < D)%N /\ ~ listed nu
  | ProductMatern ls nus => exists d, ~ listed (nus 0 d)
  | _ => False
  end -> kernel_mean chol k mu x = None /\ kernel_variance k mu = None.
Proof.
have no nu l c e z : ~ listed nu -> mean_1d l nu c e z = None /\ var_1d l nu c e = None.
  by move=> h; apply: other_1d => p p3 e'; apply: h; exists p.
case: k => //= [s nu|ls nus]; rewrite /mean_matern_lebesgue /var_matern_lebesgue /=.
  case=> [->|[D0 nl]] //; case: ltnP => // _; case: s => //= l.
  have d : 'I_D := Ordinal D0.
  have [h1 h2] := no nu l (a 0 d) (b 0 d) (x 0 d) nl.
  by rewrite !(mul_all_none (d := d)) //= !mxE.
case=> d nl; have [h1 h2] := no (nus 0 d) (ls 0 d) (a 0 d) (b 0 d) (x 0 d) nl.
by rewrite !(mul_all_none (d := d)).
Qed.

(** ** The exponentiated quadratic kernel over a box *)
Lemma exp_sum (I : Type) (r : seq I) (F : I -> R) : exp (\sum_(i <- r) F i) = \prod_(i <- r) exp (F i).
Proof. by elim: r => [|i r IH]; rewrite ?big_nil ?exp_0 // !big_cons exp_plus IH. Qed.
Definition sq_1d (l t y : R) : R := exp (- (t - y) ^ 2 / (2 * l ^ 2))%coqR.
Lemma expquad_prod (l : R) (x y : point) : Rlt 0 l ->
  exp (- scaled_sq (Scalar D l) x y / 2)%coqR = \prod_(d < D) sq_1d l (x 0 d) (y 0 d).
Proof.
move=> l0; have -> : (- scaled_sq (Scalar D l) x y / 2)%coqR = \sum_(d < D) (- (x ord0 d - y ord0 d) ^ 2 / (2 * l ^ 2))%coqR.
  have e (u : R) : (- u / 2)%coqR = (- / 2)%coqR * u by have h : (- u / 2 = - / 2 * u)%coqR by [field]; exact: h.
  rewrite e /scaled_sq mulr_sumr; apply: eq_bigr => d _.
  have h (u v : R) : (- / 2 * ((u - v) / l) ^ 2 = - (u - v) ^ 2 / (2 * l ^ 2))%coqR by field; lra.
  exact: h.
by rewrite exp_sum.
Qed.
Lemma Rpower_half (z : R) n : Rlt 0 z -> Rpower z (INR n / 2)%coqR = sqrt z ^+ n.
Proof.
move=> z0; rewrite /Rdiv Rmult_comm -Rpower_mult Rpower_sqrt // Rpower_pow; last exact: sqrt_lt_R0.
by elim: n => //= n ->; rewrite exprS.
Qed.
Lemma prod_scal (c : R) (F : 'I_D -> R) : c ^+ D * \prod_(d < D) F d = \prod_(d < D) (c * F d).
Proof. by rewrite big_split /= prodr_const card_ord. Qed.
Definition sq_mean_val (l a b x : R) : R :=
  (sqrt (PI * l ^ 2 / 2) * (erf ((b - x) / (l * sqrt 2)) - erf ((a - x) / (l * sqrt 2))))%coqR.
Definition sq_var_val (l a b : R) : R :=
  (sqrt (2 * PI * l ^ 2) * (l * sqrt (2 / PI) * (exp (- (b - a) ^ 2 / (2 * l ^ 2)) - 1) + (b - a) * erf ((b - a) / (l * sqrt 2))))%coqR.
Lemma expquad_box_mean (l : R) x : Rlt 0 l ->
  integral mu (fun t => exp (- scaled_sq (Scalar D l) t x / 2)%coqR)
    (normalization a b nz * \prod_(d < D) sq_mean_val l (a 0 d) (b 0 d) (x 0 d)).
Proof.
move=> l0; apply: (integral_prod (h := fun d t => sq_1d l t (x 0 d))) => [d|t _]; first exact: sq_mean.
exact: expquad_prod.
Qed.
Theorem C138_mean (l : R) x : Rlt 0 l ->
  exists v, kernel_mean chol (ExpQuad (Scalar D l)) mu x = Some v /\ is_mean (ExpQuad (Scalar D l)) mu x v.
Proof.
move=> l0; exists (normalization a b nz * \prod_(d < D) sq_mean_val l (a 0 d) (b 0 d) (x 0 d)); split; last first.
  by exists (fun t y => exp (- scaled_sq (Scalar D l) t y / 2)%coqR); split=> //; exact: expquad_box_mean.
congr Some; rewrite Rpower_half; last first.
  by have := PI_RGT_0 => p0; have : (0 < l ^ 2)%coqR by [apply: pow_lt]; nra.
have e (u v w : R) : Rmult (Rmult u v) w = u * (v * w) by have h : (u * v * w = u * (v * w))%coqR by [ring]; exact: h.
by rewrite e prod_scal.
Qed.
Theorem C138_variance (l : R) : Rlt 0 l ->
  exists v, kernel_variance (ExpQuad (Scalar D l)) mu = Some v /\ is_variance (ExpQuad (Scalar D l)) mu v.
Proof.
move=> l0; exists ((normalization a b nz ^ 2)%coqR * \prod_(d < D) sq_var_val l (a 0 d) (b 0 d)); split; last first.
  exists (fun t y => exp (- scaled_sq (Scalar D l) t y / 2)%coqR).
  exists (fun x => normalization a b nz * \prod_(d < D) sq_mean_val l (a 0 d) (b 0 d) (x 0 d)); split=> // [x _|].
    exact: expquad_box_mean.
  by apply: (integral_prod2 (h := fun d t => sq_mean_val l (a 0 d) (b 0 d) t)) => // d; exact: sq_var.
congr Some; rewrite Rpower_half; last first.
  by have := PI_RGT_0 => p0; have : (0 < l ^ 2)%coqR by [apply: pow_lt]; nra.
have e (u v w : R) : Rmult (Rmult u v) w = u * (v * w) by have h : (u * v * w = u * (v * w))%coqR by [ring]; exact: h.
by rewrite e prod_scal.
Qed.
End Lebesgue.

(** ** The exponentiated quadratic kernel and a normal distribution *)
Section Gauss.
Variables (m : point) (V : 'M[R]_D) (l : R).
Hypotheses (l0 : Rlt 0 l) (pV : pd (V : 'M[R_rcfType]_D)).
(** SciPy's Cholesky factorisation. *)
Variable chol : 'M[R]_D -> option 'M[R]_D.
Hypothesis cholP : forall A : 'M[R]_D, pd (A : 'M[R_rcfType]_D) ->
  exists2 L, chol A = Some L & is_cholesky (L : 'M[R_rcfType]_D) A.
Let mu := Gaussian m V.
Let A : 'M[R]_D := (l ^+ 2)%:M + V.
Let l2 : pd ((l ^+ 2)%:M : 'M[R_rcfType]_D).
Proof. by apply: pd_scalar; apply: exprn_gt0; apply/ltRP. Qed.
Let pA : pd (A : 'M[R_rcfType]_D). Proof. exact: pd_add. Qed.
Lemma expquad_form (x y : point) :
  exp (- scaled_sq (Scalar D l) x y / 2)%coqR = exp (- qform (invmx (l ^+ 2)%:M) (x - y)^T / 2)%coqR.
Proof.
congr exp; congr Rdiv; congr Ropp.
rewrite invmx_scalar qform_num trmxK mul_mx_scalar -scalemxAl numZ /num mxE mulr_sumr; apply: eq_bigr => d _.
rewrite !mxE powE.
have ln : l <> 0 by apply: Rgt_not_eq.
have -> : (l ^ 2)%coqR^-1 = (/ (l ^ 2))%coqR by rewrite -[LHS]mul1r divRE; [rewrite /Rdiv Rmult_1_l|apply: pow_nonzero].
have h (u v : R) : (((u - v) / l) ^ 2 = / (l ^ 2) * ((u + - v) * (u + - v)))%coqR by field.
exact: h.
Qed.
Lemma det_l2 : \det ((l ^+ 2)%:M : 'M[R]_D) = ((l ^ D) ^ 2)%coqR.
Proof. by rewrite det_scalar -exprM mulnC exprM !powE. Qed.
Definition gmean (x : point) : R := (l ^ D / sqrt (\det A) * exp (- qform (invmx A) (x - m)^T / 2))%coqR.
Lemma gauss_mean x : integral mu (fun t => exp (- scaled_sq (Scalar D l) t x / 2)%coqR) (gmean x).
Proof.
have K := gauss_prod x m l2 pV.
have dA := det_posR pA.
have lD : (0 < l ^ D)%coqR by apply: pow_lt.
apply: (line_int_eq (line_int_ext _ K)) => [t|]; first by rewrite expquad_form.
rewrite /gmean -/A det_l2; congr Rmult.
by rewrite sqrt_div_alt // sqrt_pow2 //; exact: Rlt_le.
Qed.
Lemma gauss_var : integral mu gmean (l ^ D / sqrt (\det (A + V)))%coqR.
Proof.
have dA := det_posR pA; have dAV := det_posR (pd_add pA pV).
have K := line_int_scal (l ^ D / sqrt (\det A))%coqR (gauss_prod m m pA pV).
apply: (line_int_eq (line_int_ext _ K)) => [t|].
  by rewrite /gmean; have e (u v w : R) : u * (v * w)%coqR = (u * v * w)%coqR by have h : (u * (v * w) = u * v * w)%coqR by [ring]; exact: h.
have -> : qform (invmx (A + V)) (m - m)^T = 0 by rewrite subrr trmx0 qform_num mulmx0 /num mxE.
have -> : (- 0%R / 2)%coqR = 0%coqR by have h : (- 0 / 2 = 0)%coqR by [field]; exact: h.
rewrite exp_0 Rmult_1_r sqrt_div_alt //.
have s1 := sqrt_lt_R0 _ dA; have s2 := sqrt_lt_R0 _ dAV.
have h (p u v : R) : (0 < u -> 0 < v -> p / u * (u / v) = p / v)%coqR by move=> u0 v0; field; lra.
exact: h.
Qed.
(** What the code computes. *)
Lemma diag_case : diagonal_covariance V -> forall c : R,
  (l ^+ 2)%:M + c *: V = diag_mx (\row_d ((l ^ 2)%coqR + c * V d d)).
Proof.
move=> dV c; apply/matrixP => i j; rewrite !mxE -powE.
have [->|ij] := eqVneq i j; first by rewrite !mulr1n.
have -> : V i j = 0.
  case/orP: dV => [/eqP D1|/forallP/(_ i)/forallP/(_ j)]; last by rewrite ij => /eqP.
  by case/eqP: ij; apply: val_inj; move: i j; rewrite D1 => i j; rewrite !ord1.
by rewrite !mulr0n mulr0 addr0.
Qed.
Lemma diag_form (r : point) (z : 'cV[R]_D) : (forall d, Rlt 0 (r 0 d)) ->
  qform (invmx (diag_mx r)) z = \sum_(d < D) (z d ord0 ^ 2 / r ord0 d)%coqR.
Proof.
move=> r0; have u : diag_mx r \in unitmx.
  rewrite unitmxE det_diag unitfE; apply/prodf_neq0 => d _; apply/eqP; exact: Rgt_not_eq (r0 d).
pose w : 'cV[R]_D := \col_d (z d ord0 / r ord0 d)%coqR.
have e : diag_mx r *m w = z.
  apply/matrixP => i j; rewrite ord1 mul_diag_mx !mxE.
  have h (p q : R) : (0 < p -> p * (q / p) = q)%coqR by move=> p0; field; lra.
  exact: h (r0 i).
have -> : qform (invmx (diag_mx r)) z = num (z^T *m w) by rewrite qform_num -{2}e -mulmxA mulKmx.
rewrite /num mxE; apply: eq_bigr => d _; rewrite !mxE.
have h (p q : R) : (p * (p / q) = p ^ 2 / q)%coqR by rewrite /Rdiv; ring.
exact: h.
Qed.
Lemma diag_entry (d : 'I_D) : Rlt 0 (V d d).
Proof.
apply/ltRP; have := pV.2 (delta_mx d 0).
have -> : qform V (delta_mx d 0) = V d d.
  rewrite qform_num trmx_delta -rowE /num mxE (bigD1 d) //= big1 => [|i h]; first by rewrite !mxE !eqxx mulr1 addr0.
  by rewrite !mxE (negbTE h) mulr0.
apply; apply/eqP => /matrixP/(_ d 0); rewrite !mxE !eqxx => /eqP; by rewrite oner_eq0.
Qed.
Theorem C139_mean x : exists v,
  kernel_mean chol (ExpQuad (Scalar D l)) mu x = Some v /\ is_mean (ExpQuad (Scalar D l)) mu x v.
Proof.
exists (gmean x); split; last first.
  by exists (fun t y => exp (- scaled_sq (Scalar D l) t y / 2)%coqR); split=> //; exact: gauss_mean.
rewrite /= /mean_expquad_gauss /=; case: ifP => dV.
  have AE : A = diag_mx (\row_d ((l ^ 2)%coqR + V d d)).
    have := diag_case dV 1; rewrite scale1r => e; rewrite /A e; congr diag_mx; apply/matrixP => i d.
    by rewrite !mxE mul1r.
  have pos d : (0 < l ^ 2 + V d d)%coqR by have := diag_entry d; have : (0 < l ^ 2)%coqR by [apply: pow_lt]; lra.
  congr Some; rewrite /gmean; congr Rmult.
    congr Rdiv; congr sqrt; rewrite AE det_diag; apply: eq_bigr => d _; by rewrite mxE.
  congr exp; rewrite AE diag_form => [|d]; last by rewrite mxE; exact: pos.
  have h (u : R) : (- (1 / 2) * u = - u / 2)%coqR by field.
  rewrite h; congr Rdiv; congr Ropp; apply: eq_bigr => d _; rewrite !mxE.
  have k (p q r : R) : (0 < r -> ((p - q) / sqrt r) ^ 2 = (p + - q) ^ 2 / r)%coqR.
    move=> r0; have s0 := sqrt_lt_R0 _ r0; rewrite -{2}(sqrt_sqrt r); last exact: Rlt_le.
    by field; lra.
  exact: k (pos d).
have [L -> [tri nn LA]] := cholP pA; rewrite LA /gmean; congr Some; rewrite Rmult_comm; congr Rmult.
  congr Rdiv; have e : \det A = (\prod_(d < D) L d d) ^+ 2.
    rewrite -LA det_mulmx det_tr det_trig ?expr2 //; apply/is_trig_mxP => i j ij; exact: tri.
  rewrite e sqrRE sqrt_pow2 //; apply/leRP; apply: prodr_ge0 => d _; exact: nn.
congr exp; have h (u : R) : (- (1 / 2) * u = - u / 2)%coqR by field.
rewrite h; congr Rdiv; congr Ropp; rewrite qform_num trmxK /num [RHS]mxE; apply: eq_bigr => d _.
by rewrite mulrC [(x - m)^T d 0]mxE.
Qed.
Theorem C139_variance : exists v,
  kernel_variance (ExpQuad (Scalar D l)) mu = Some v /\ is_variance (ExpQuad (Scalar D l)) mu v.
Proof.
exists (l ^ D / sqrt (\det (A + V)))%coqR; split; last first.
  exists (fun t y => exp (- scaled_sq (Scalar D l) t y / 2)%coqR), gmean; split=> // [x _|]; first exact: gauss_mean.
  exact: gauss_var.
have AE : A + V = (l ^+ 2)%:M + 2%:R *: V by rewrite /A -addrA scaler_nat mulr2n.
rewrite /= /var_expquad_gauss /= AE; congr Some; congr Rdiv; congr sqrt; case: ifP => // dV.
rewrite (diag_case dV 2%:R) det_diag; apply: eq_bigr => d _; by rewrite mxE twoR.
Qed.
End Gauss.
End Multi.

(** ** Refuted claims *)
(** The kernel mean of a Matern kernel at points outside of the domain. *)
Definition ex_k : kernel 1 := Matern (Scalar 1 1) (1 / 2)%coqR.
Definition ex_mu : measure 1 := Lebesgue (const_mx 0) (const_mx 1) false.
Theorem C140_outside_refuted chol : matern_kernel ex_k /\ exists x v,
  [/\ kernel_mean chol ex_k ex_mu x = Some v, Rlt v 0 & ~ is_mean ex_k ex_mu x v].
Proof.
have lst : listed (1 / 2)%coqR by exists 0%nat => //=; lra.
split; first by split=> //; exact: Rlt_0_1.
pose v : R := (1 * (2 - exp ((0 - 2) / 1) - exp ((2 - 1) / 1)))%coqR.
have v0 : Rlt v 0.
  rewrite /v; have h1 := exp_pos ((0 - 2) / 1)%coqR.
  have h2 : (1 + (2 - 1) / 1 <= exp ((2 - 1) / 1))%coqR by exact: exp_ineq1_le.
  lra.
exists (const_mx 2%coqR), v; split=> //.
  rewrite /= /mean_matern_lebesgue /= (mul_allE (v := fun=> v)) => [|d].
    by rewrite big_ord1 /normalization /= Rmult_1_l.
  by rewrite !mxE /mean_1d Req_yes.
case=> f [[p [_ fE]] /= [g [h1 h2]]]; rewrite !mxE in h1 h2.
suff : Rle 0 v by lra.
have -> : v = RInt g 0 1 by rewrite (is_RInt_unique _ _ _ _ h2).
apply: RInt_ge_0 => [||t [t0 t1]]; [lra|by exists v|].
rewrite -(h1 t); [|exact: Rlt_le..].
rewrite fE /matern_at; apply: Rmult_le_pos; last first.
  apply: cond_pos_sum => i; apply: Rmult_le_pos.
    apply: Rlt_le; apply: Rdiv_lt_0_compat; first exact: INR_fact_lt_0.
    by apply: Rmult_lt_0_compat; exact: INR_fact_lt_0.
  apply: pow_le; apply: Rmult_le_pos; first lra.
  by apply: Rmult_le_pos; exact: sqrt_pos.
apply: Rmult_le_pos; first exact: Rlt_le (exp_pos _).
by apply: Rlt_le; apply: Rdiv_lt_0_compat; exact: INR_fact_lt_0.
Qed.
(** Length scales given as an array. *)
Theorem C141_lengthscales_refuted : exists (k : kernel 1) (mu : measure 1),
  [/\ supported k mu, exists v, is_mean k mu 0 v, forall chol x, kernel_mean chol k mu x = None & kernel_variance k mu = None].
Proof.
exists (ExpQuad (Array (const_mx 1))), ex_mu; split=> //.
have [v [_ [f [fE I]]]] := @C138_mean 1 (const_mx 0) (const_mx 1) false (fun=> None) 1%coqR 0 Rlt_0_1.
exists v, f; split=> // x y; rewrite fE; congr exp; congr Rdiv; congr Ropp; apply: eq_bigr => d _.
by rewrite mxE.
Qed.

(** ** Examples *)
Example ex_product : matern_kernel (ProductMatern (\row_(d < 2) (1 + INR d)%coqR) (\row_(d < 2) (INR (3 * d) + 1 / 2)%coqR)).
Proof.
move=> d; rewrite !mxE; split; first by have := pos_INR d; lra.
by exists (3 * d)%nat => //; case: d => -[|[|?]].
Qed.
Example ex_domain : forall d : 'I_2, Rlt ((0 : 'rV[R]_2) 0 d) ((const_mx 1 : 'rV[R]_2) 0 d).
Proof. by move=> d; rewrite !mxE; exact: Rlt_0_1. Qed.
Definition ex_V : 'M[R]_2 := 1%:M + (const_mx 1 : 'cV[R]_2) *m (const_mx 1)^T.
Example ex_V_pd : pd (ex_V : 'M[R_rcfType]_2) /\ diagonal_covariance ex_V = false.
Proof.
split; last first.
  apply/negP => /orP [//|/forallP/(_ 0)/forallP/(_ 1)/implyP/(_ isT)].
  rewrite /ex_V !mxE big_ord1 !mxE mulr0n add0r mulr1.
  by rewrite oner_eq0.
split; first by rewrite /ex_V linearD /= tr_scalar_mx trmx_mul trmxK.
move=> x x0; rewrite qformD; have [_ h1] := @pd_scalar R_rcfType 2 1 ltr01.
have [_ h2] := psd_gram (const_mx 1 : 'cV[R_rcfType]_2).
exact: ltr_paddr (h2 x) (h1 x x0).
Qed.
Example ex_chol n (A : 'M[R_rcfType]_n) : pd A -> exists2 L, Some (L_Chol.chol_of A) = Some L & is_cholesky L A.
Proof. by move=> pA; exists (L_Chol.chol_of A) => //; apply: L_Chol.chol_ofP; exact: pd_psd. Qed.
Print Assumptions C45_mean.
Print Assumptions C45_variance.
Print Assumptions C45_unsupported.
Print Assumptions C138_mean.
Print Assumptions C138_variance.
Print Assumptions C139_mean.
Print Assumptions C139_variance.
Print Assumptions C140_outside_refuted.
Print Assumptions C141_lengthscales_refuted.
