(** The test problems of the quadrature zoo: the stored solutions are the integrals. *)
From Coq Require Import Reals Lra.
From Coquelicot Require Import Coquelicot.
From mathcomp Require Import all_ssreflect all_algebra.
From Verif Require Import L_Ring L_Kalman L_RStruct L_Expm L_Int1 M_Embed L_Embed M_Zoo L_ZooInt L_Zoo.
Set Implicit Arguments.
Unset Strict Implicit.
Unset Printing Implicit Defensive.
Import Order.Theory GRing.Theory Num.Theory.
Delimit Scope R_scope with coqR.
Local Open Scope ring_scope.

(** ** Specification *)
Section Spec.
Variable n : nat.
Notation point := 'rV[R]_n.+1.
Definition in_unit (x : point) : Prop := forall d, Rle 0 (x ord0 d) /\ Rle (x ord0 d) 1.
(** The integrand of the problem is [f], on points of the domain. *)
Definition evaluates (p : problem n) (f : point -> R) : Prop :=
  (forall xs, (forall x, x \in xs -> in_domain (mu p) x) -> fn p xs = Some ([:: size xs; 1%N], map f xs)) /\
  (forall xs x, x \in xs -> ~ in_domain (mu p) x -> fn p xs = None).
(** The stored solution is the integral of [f]. *)
Definition solved (p : problem n) (f : point -> R) : Prop := exists v, solution p = Some v /\ integral (mu p) f v.
(** A problem on the unit box with the integrand [f]. *)
Definition unit_problem (p : problem n) (f : point -> R) : Prop :=
  [/\ forall g v, integral (mu p) g v <-> box_int (const_mx 0) (const_mx 1) g v,
      forall x, in_domain (mu p) x <-> in_unit x, evaluates p f & solved p f].
End Spec.

Section Props.
Variable n : nat.
Notation D := n.+1.
Notation point := 'rV[R]_D.
Implicit Types (a u x : point) (p : problem n).

Lemma unit_boxP x : reflect (in_unit x) (unit_box x).
Proof.
apply: (iffP forallP) => h d; have := h d; first by case/andP => /leRP ? /leRP.
by case=> ? ?; apply/andP; split; apply/leRP.
Qed.
Lemma unit_intro2 (f g : point -> R) (v : R) : (forall x, f x = g x) -> box_int (const_mx 0) (const_mx 1) g v ->
  unit_problem (Problem (on_box f) (unit_measure n) (Some v)) g.
Proof.
have dom x : in_domain (unit_measure n) x <-> in_unit x by split=> h d; have := h d; rewrite !mxE.
move=> E h; split=> //=; last by exists v.
split=> [xs hx|xs x xi hx] /=; rewrite /on_box.
  have -> : all (@unit_box n) xs by apply/allP => x /hx /dom /unit_boxP.
  by congr (Some (_, _)); apply: eq_map.
by case: allP => // /(_ _ xi) /unit_boxP /dom.
Qed.
Lemma unit_intro (f : point -> R) (v : R) : box_int (const_mx 0) (const_mx 1) f v ->
  unit_problem (Problem (on_box f) (unit_measure n) (Some v)) f.
Proof. exact: unit_intro2. Qed.
Lemma checkedE u p : in_unit u -> checked u p = Some p.
Proof. by rewrite /checked => /unit_boxP ->. Qed.
Lemma no_zero a : (forall d, a ord0 d <> 0) -> has_zero a = false.
Proof. by move=> a0; apply/existsP => -[d /eqP]; exact: a0. Qed.
Lemma box_prod1 (h : 'I_D -> R -> R) (v : 'I_D -> R) : (forall d, is_RInt (h d) 0 1 (v d)) ->
  box_int (const_mx 0) (const_mx 1) (fun x : point => \prod_(d < D) h d (x ord0 d)) (\prod_(d < D) v d).
Proof.
move=> H; have := @box_prod D (const_mx 0) (const_mx 1) h v 1; rewrite Rmult_1_l => K.
by apply: box_int_ext (K _) => [x _|d]; [rewrite mul1r|rewrite !mxE].
Qed.

(** ** C144: the Genz functions *)
Theorem C144_continuous a u : in_unit u -> (forall d, a ord0 d <> 0) ->
  exists p, genz_continuous a u = Some p /\
    unit_problem p (fun x => exp (- \sum_(d < D) a ord0 d * Rabs (x ord0 d - u ord0 d))%R).
Proof.
move=> hu a0; rewrite /genz_continuous checkedE // no_zero //; eexists; split; first by [].
have K := box_prod1 (fun d => int_continuous _ _ (a0 d) (hu d)).
  apply: unit_intro; apply: (box_int_ext _ K) => x _.
by rewrite -sumrN expS.
Qed.
Theorem C144_discontinuous a u : in_unit u -> (forall d, a ord0 d <> 0) ->
  exists p f, [/\ genz_discontinuous a u = Some p, unit_problem p f,
    forall x, (exists d, Rlt (u ord0 d) (x ord0 d)) -> f x = 0 &
    forall x, (forall d, Rle (x ord0 d) (u ord0 d)) -> f x = exp (\sum_(d < D) a ord0 d * x ord0 d)%R].
Proof.
move=> hu a0; pose f x : R := if [exists d, 0 < x ord0 d - u ord0 d] then 0 else exp (\sum_(d < D) (a ord0 d * x ord0 d))%R.
exists (Problem (on_box f) (unit_measure n) (Some (\prod_(d < D) ((exp (a ord0 d * u ord0 d) - 1) / a ord0 d)%coqR))), f; split.
- rewrite /genz_discontinuous checkedE // no_zero //; congr (Some (Problem _ _ (Some _))).
  have E : \prod_(d < D) ((exp (a ord0 d * Rmin (u ord0 d) 1) - 1) / a ord0 d)%coqR = \prod_(d < D) ((exp (a ord0 d * u ord0 d) - 1) / a ord0 d)%coqR.
    by apply: eq_bigr => d _; rewrite Rmin_left //; case: (hu d).
  case: eqP => [[n0]|_]; last exact: E.
  rewrite prodS big1 ?mulr1 // => d _; by exfalso; case: d => k; rewrite n0.
- have K := box_prod1 (fun d => int_discontinuous _ _ (a0 d) (hu d)).
  apply: unit_intro; apply: (box_int_ext _ K) => x _.
  rewrite /f; case: existsP => [[d /ltRP h]|h].
    rewrite (bigD1 d) //=; case: Rlt_dec => [_|[]]; [exact: mul0r|exact: h].
  rewrite expS; apply: eq_bigr => d _; case: Rlt_dec => // k; case: h; exists d; exact/ltRP.
- move=> x [d h]; rewrite /f; case: existsP => // -[]; exists d; apply/ltRP.
  have e (s t : R) : Rlt s t -> Rlt 0 (t + - s)%coqR by lra.
  exact: e.
move=> x h; rewrite /f; case: existsP => // -[d /ltRP k]; have := h d.
have e (s t : R) : Rlt 0 (t + - s)%coqR -> Rle t s -> False by lra.
by move/(e _ _ k).
Qed.
Theorem C144_gaussian a u : in_unit u -> (forall d, a ord0 d <> 0) ->
  exists p, genz_gaussian a u = Some p /\
    unit_problem p (fun x => exp (- \sum_(d < D) a ord0 d ^+ 2 * (x ord0 d - u ord0 d) ^+ 2)%R).
Proof.
move=> hu a0; rewrite /genz_gaussian checkedE // no_zero //; eexists; split; first by [].
set v : R := Rmult _ _.
have vE : v = \prod_(d < D) Rmult (sqrt PI) ((normal_cdf (sqrt 2 * a ord0 d * (1 - u ord0 d)) - normal_cdf (- sqrt 2 * a ord0 d * u ord0 d)) / a ord0 d)%coqR.
  rewrite big_split; congr (Rmult _ _).
  rewrite prodr_const card_ord powE -Rpower_pow; last by apply: sqrt_lt_R0; exact: PI_RGT_0.
  rewrite -Rpower_sqrt; last exact: PI_RGT_0.
  by rewrite Rpower_mult; congr Rpower; have e (x : R) : (x / 2 = / 2 * x)%coqR by [field]; exact: e.
rewrite vE.
apply: unit_intro2 => [x|].
  by congr (exp (- _)); apply: eq_bigr => d _; rewrite exprMn.
have K := box_prod1 (fun d => int_gaussian _ (u ord0 d) (a0 d)).
  apply: (box_int_ext _ K) => x _.
by rewrite -sumrN expS; apply: eq_bigr => d _; rewrite -exprMn sqrRE.
Qed.
Theorem C144_oscillatory a u : in_unit u -> (forall d, a ord0 d <> 0) ->
  exists p, genz_oscillatory a u = Some p /\
    unit_problem p (fun x => cos (2 * PI * u ord0 ord0 + (\sum_(d < D) a ord0 d * x ord0 d)%R)%coqR).
Proof.
move=> hu a0; rewrite /genz_oscillatory checkedE // no_zero //; eexists; split; first by [].
set c := (2 * PI * u ord0 ord0)%coqR.
have K := @box_alt cosn (fun=> True) D (fun k t _ _ => @cosn_derive k t) (fun k t _ _ => @cosn_cont k t) D (a ord0) 0 c (leqnn _) a0 (fun _ _ => I).
set v := Rdiv _ _; have -> : v = alt (a ord0) (enum 'I_D) (cosn D) c / \prod_(d < D) a ord0 d.
  rewrite divRE; last by move=> /eqP; apply/negP/prodf_neq0 => d _; apply/eqP.
  rewrite /v; congr (Rdiv _ _); rewrite -combinations_alt size_enum_ord /subset_sum.
  apply: eq_bigr => k _; apply: eq_bigr => s _; rewrite /total /part -powE cosn_hfunc.
  by rewrite -big_enum.
apply: unit_intro; apply: box_int_ext K => x _; rewrite /cosn; congr cos.
have e (y : R) : (y - 0 * (PI / 2) = y)%coqR by ring.
exact: e.
Qed.
Theorem C144_cornerpeak a u : in_unit u -> (forall d, a ord0 d <> 0) ->
  (forall x, in_unit x -> Rlt 0 (1 + \sum_(d < D) a ord0 d * x ord0 d)%R) ->
  exists p, genz_cornerpeak a u = Some p /\
    unit_problem p (fun x => / (1 + (\sum_(d < D) a ord0 d * x ord0 d)%R) ^ D.+1)%coqR.
Proof.
move=> hu a0 pos; pose Q (t : R) := Rlt 0 t.
have C : corner Q (a ord0) 1.
  move=> e he; have := pos (\row_d e d) (fun d => _); under eq_bigr do rewrite mxE; apply=> d; rewrite mxE; exact: he.
have K := @box_alt (negp D) Q D (fun k t kd t0 => @negp_derive D k t kd t0) (fun k t _ t0 => @negp_cont D k t t0) D (a ord0) 0 1 (leqnn _) a0 C.
have z : has (fun k => has (fun s => 1 + total a - part a s == 0) (combinations k (enum 'I_D))) (iota 0 D.+1) = false.
  apply/hasP => -[k _ /hasP[s /(part_vertex a) sE /eqP]]; rewrite -addrA sE.
  have h : Q (1 + \sum_(d < D) a ord0 d * (if d \in s then 0 else 1))%R.
    by apply: C => d; case: ifP => _; split; (exact: Rle_refl || exact: Rle_0_1).
  by move=> k0; move: h; rewrite /Q k0 => /Rlt_irrefl.
rewrite /genz_cornerpeak checkedE // no_zero // z; eexists; split; first by [].
set v := Rdiv _ _; have -> : v = alt (a ord0) (enum 'I_D) (negp D D) 1 / \prod_(d < D) a ord0 d.
  have p0 : \prod_(d < D) a ord0 d <> 0 by move=> /eqP; apply/negP/prodf_neq0 => d _; apply/eqP.
  have F0 : INR (fact D) <> 0 by exact: INR_fact_neq_0.
  have -> : alt (a ord0) (enum 'I_D) (negp D D) 1 = (((-1) ^ D / INR (fact D))%coqR * alt (a ord0) (enum 'I_D) Rinv 1)%R.
    rewrite -alt_scal; elim: (enum _) 1%coqR => [|d l IH] c; last by rewrite !alt_cons !IH.
    rewrite /= /negp subnn subSnn.
    have e (x y w : R) : (x * 1 / y / (w * 1) = x / y * / w)%coqR by rewrite /Rdiv !Rmult_1_r.
    exact: e.
  rewrite divRE // -combinations_alt size_enum_ord /v /subset_sum.
  have -> : \sum_(k <- iota 0 D.+1) \sum_(s <- combinations k (enum 'I_D)) ((-1) ^ (k + D) * / (1 + total a - part a s)%R)%coqR =
    ((-1) ^ D)%coqR * \sum_(k <- iota 0 D.+1) \sum_(s <- combinations k (enum 'I_D)) (-1) ^+ k * Rinv (1 + \sum_(d <- enum 'I_D) a ord0 d - \sum_(d <- s) a ord0 d)%R.
    rewrite mulr_sumr; apply: eq_bigr => k _; rewrite mulr_sumr; apply: eq_bigr => s _.
    by rewrite -!powE exprD mulrCA mulrA /total /part big_enum.
  move: (\sum_(k <- _) _) (\prod_(d < D) _) (INR _) p0 F0 ((-1) ^ D)%coqR => S P F p0 F0 m.
  have e (s p f w : R) : (p <> 0 -> f <> 0 -> w * s / (p * f) = w / f * s / p)%coqR by move=> p1 f1; field.
  exact: e.
apply: unit_intro; apply: (box_int_ext _ K) => x _; rewrite /negp !subn0 /=.
have F0 := INR_fact_neq_0 D.
have e (f y : R) : (f <> 0 -> 1 * f / f / y = / y)%coqR by move=> f0; rewrite Rmult_1_l /Rdiv Rinv_r // Rmult_1_l.
exact: e.
Qed.
Theorem C144_productpeak a u : in_unit u ->
  exists p f, [/\ genz_productpeak a u = Some p, unit_problem p f &
    (forall d, a ord0 d <> 0) -> forall x, f x = \prod_(d < D) (/ (/ a ord0 d ^ 2 + (x ord0 d - u ord0 d) ^ 2))%coqR].
Proof.
move=> hu; rewrite /genz_productpeak checkedE //; eexists; eexists; split; first by [].
  apply: unit_intro; apply: (@box_prod1 (fun d t => if a ord0 d == 0 then 0 else (1 / (1 / a ord0 d ^ 2 + (t - u ord0 d) ^ 2))%coqR)
    (fun d => (a ord0 d * (atan (a ord0 d * (1 - u ord0 d)) - atan (-1 * a ord0 d * u ord0 d)))%coqR)) => d; case: eqP => [->|a0]; last exact: int_peak.
  have -> : (0 * (atan (0 * (1 - u ord0 d)) - atan (-1 * 0 * u ord0 d)) = 0)%coqR by rewrite Rmult_0_l.
  exact: int_zero.
move=> a0 x; have e (y z : R) : (1 / (1 / y + z) = / (/ y + z))%coqR by rewrite /Rdiv !Rmult_1_l.
by apply: eq_bigr => d _; case: eqP => [/a0 //|_]; exact: e.
Qed.

(** ** C145: the other problems on the unit box *)
Lemma half_sum m : \sum_(i < m) (-1) ^+ i.+1 * (/ 2)%coqR ^+ i.+1 = (- (1 / 3) * (1 - (- (1 / 2)) ^ m))%coqR.
Proof.
elim: m => [|m IH].
  by rewrite big_ord0 /=; have e : (0 = - (1 / 3) * (1 - 1))%coqR by [ring]; exact: e.
rewrite big_ord_recr /= IH -exprMn exprS powE.
have -> : -1 * (/ 2)%coqR = (- (1 / 2))%coqR by have e : (- 1 * / 2 = - (1 / 2))%coqR by [field]; exact: e.
have e (t : R) : (- (1 / 3) * (1 - t) + - (1 / 2) * t = - (1 / 3) * (1 - - (1 / 2) * t))%coqR by field.
exact: e.
Qed.
Theorem C145_bratley : unit_problem (bratley1992 n) (fun x => \sum_(i < D) (-1) ^+ i.+1 * \prod_(j < D | (j <= i)%N) x ord0 j).
Proof.
apply: unit_intro; rewrite -half_sum; apply: box_sum => i.
pose h (d : 'I_D) (t : R) : R := if (d <= i)%N then t else 1.
have H d : is_RInt (h d) 0 1 (if (d <= i)%N then (1 / 2)%coqR else 1).
  by rewrite /h; case: ifP => _; [exact: int_id|exact: int_one].
have := @box_prod D (const_mx 0) (const_mx 1) h (fun d => if (d <= i)%N then (1 / 2)%coqR else 1) ((-1) ^+ i.+1)%R.
have -> : (\prod_(d < D) (if (d <= i)%N then (1 / 2)%coqR else 1))%R = (/ 2)%coqR ^+ i.+1.
  rewrite -big_mkcond /=; have -> : (1 / 2)%coqR = (/ 2)%coqR by rewrite /Rdiv Rmult_1_l.
  transitivity (\prod_(j < i.+1) (/ 2)%coqR); last by rewrite prodr_const card_ord.
  by rewrite (big_ord_widen D (fun=> (/ 2)%coqR) (ltn_ord i)).
move=> K; apply: (box_int_ext _ (K _)) => [x _|d]; last by rewrite !mxE.
by congr (_ * _); rewrite [RHS]big_mkcond.
Qed.
Theorem C145_roos_arnold : unit_problem (roos_arnold n) (fun x => \prod_(d < D) Rabs (4 * x ord0 d - 2)%coqR).
Proof.
apply: unit_intro; have := @box_prod1 (fun _ t => Rabs (4 * t - 2)%coqR) (fun=> 1).
rewrite big1 //; apply=> d; apply: (@RInt_at _ _ _ ((1 + 0) / 1)%coqR); last by have e : ((1 + 0) / 1 = 1)%coqR by [field]; exact: e.
apply: (is_RInt_ext (V := R_NormedModule) _ _ _ _ _ _ (int_abs 0 1)) => t _.
have e (y : R) : ((y + 0) / 1 = y)%coqR by field.
exact: e.
Qed.
Theorem C145_gfunction : unit_problem (gfunction n)
  (fun x => \prod_(d < D) (let c := (INR d.+1 - 2) / 2 in (Rabs (4 * x ord0 d - 2) + c) / (1 + c))%coqR).
Proof.
have E (d : nat) : ((INR d + 1 - 2) / 2 = (INR d.+1 - 2) / 2)%coqR by rewrite S_INR.
apply: unit_intro2 => [x|]; first by apply: eq_bigr => d _; rewrite /= E.
have := @box_prod1 (fun d t => (let c := (INR d.+1 - 2) / 2 in (Rabs (4 * t - 2) + c) / (1 + c))%coqR) (fun=> 1).
rewrite big1 //; apply=> d; apply: (RInt_at _ _ _ _ _ (int_abs _ _)) => /=.
have h : (0 <= INR d)%coqR by exact: pos_INR.
have -> : (1 + (INR d.+1 - 2) / 2 = (INR d + 1) / 2)%coqR by rewrite S_INR; field.
by apply: Rinv_r; lra.
Qed.
Theorem C145_morokoff_caflisch_1 : unit_problem (morokoff_caflisch_1 n)
  (fun x => ((1 + 1 / INR D) ^ D)%coqR * \prod_(d < D) npow (x ord0 d) (1 / INR D)%coqR).
Proof.
apply: unit_intro.
have := @box_prod D (const_mx 0) (const_mx 1) (fun _ t => npow t (1 / INR D)%coqR) (fun=> (INR D / (INR D + 1))%coqR) ((1 + 1 / INR D) ^ D)%coqR.
have p : Rlt 0 (INR D) by rewrite S_INR; have := pos_INR n; lra.
have -> : Rmult ((1 + 1 / INR D) ^ D)%coqR (\prod_(d < D) (INR D / (INR D + 1))%coqR)%R = 1%coqR.
  rewrite prodr_const card_ord powE -Rpow_mult_distr.
  have -> : ((1 + 1 / INR D) * (INR D / (INR D + 1)) = 1)%coqR by field; lra.
  by rewrite pow1.
by apply=> d; rewrite !mxE; exact: int_npow.
Qed.
Theorem C145_morokoff_caflisch_2 : unit_problem (morokoff_caflisch_2 n)
  (fun x => (1 / (INR D - 1 / 2) ^ D)%coqR * \prod_(d < D) (INR D - x ord0 d)%coqR).
Proof.
apply: unit_intro.
have := @box_prod D (const_mx 0) (const_mx 1) (fun _ t => (INR D - t)%coqR) (fun=> (INR D - 1 / 2)%coqR) (1 / (INR D - 1 / 2) ^ D)%coqR.
have p : Rlt 0 (INR D - 1 / 2)%coqR by have := pos_INR n; rewrite S_INR; lra.
have -> : Rmult (1 / (INR D - 1 / 2) ^ D)%coqR (\prod_(d < D) (INR D - 1 / 2)%coqR)%R = 1%coqR.
  rewrite prodr_const card_ord powE /Rdiv Rmult_1_l; apply: Rinv_l; apply: pow_nonzero; exact: Rgt_not_eq.
by apply=> d; rewrite !mxE; exact: int_lin.
Qed.

(** ** C146: problems for normal distributions *)
(** The measure is the normal distribution with independent components. *)
Definition normal_measure (q : measure D) (m v : 'I_D -> R) : Prop :=
  forall g w, integral q g w <->
    line_int (fun t : point => g t * \prod_(d < D) (exp (- (t ord0 d - m d) ^ 2 / (2 * v d)) / sqrt (2 * PI * v d))%coqR) w.
Lemma line_int_iff (f g : point -> R) w : (forall t, f t = g t) -> line_int f w <-> line_int g w.
Proof. by move=> e; split; apply: line_int_ext. Qed.
Lemma normal_diag (m v : point) : (forall d, Rlt 0 (v ord0 d)) ->
  normal_measure (Gaussian m (diag_mx v)) (m ord0) (v ord0).
Proof. by move=> v0 g w; apply: line_int_iff => t; rewrite density_diag. Qed.
Lemma scalar_diag (c : R) : c%:M = diag_mx (const_mx c) :> 'M[R]_D.
Proof. by rewrite diag_const_mx. Qed.
Theorem C146_transform p (nz : bool) (f : point -> R) (v : R) (mean std : par n) :
  mu p = Lebesgue (const_mx 0) (const_mx 1) nz -> evaluates p f -> solution p = Some v -> cbox_int f v ->
  (forall d, Rlt 0 (entry std d)) ->
  match mean, std with Float _, Float _ => True | Arr _, Arr _ => True | _, _ => False end ->
  exists q, [/\ uniform_to_gaussian p mean std = Some q,
    normal_measure (mu q) (entry mean) (fun d => entry std d ^ 2)%coqR,
    evaluates q (fun x => f (\row_d normal_cdf ((x ord0 d - entry mean d) / entry std d)%coqR)) & 
    solution q = Some v /\ integral (mu q) (fun x => f (\row_d normal_cdf ((x ord0 d - entry mean d) / entry std d)%coqR)) v].
Proof.
move=> mp [ev _] sp cf s0 sh.
pose q := Problem (fun xs => fn p (map (to_unit mean std) xs)) (Gaussian (\row_d entry mean d) (diag_mx (\row_d entry std d ^+ 2))) (Some v).
have dv d : Rlt 0 ((\row_d entry std d ^+ 2) ord0 d).
  by rewrite mxE sqrRE; apply: pow_lt; exact: s0.
have nq : normal_measure (mu q) (entry mean) (fun d => entry std d ^ 2)%coqR.
  move=> g w; rewrite (normal_diag _ dv); apply: line_int_iff => t; congr (_ * _).
  by apply: eq_bigr => d _; rewrite !mxE sqrRE.
exists q; split=> //.
- rewrite /uniform_to_gaussian mp !eqxx /=.
  have -> : [forall d, 0 < entry std d] by apply/forallP => d; apply/ltRP.
  have mE (c : R) : (\row_(d < D) c) = const_mx c by apply/rowP => d; rewrite !mxE.
  move: sh; rewrite /q /gaussian_measure; case: (mean) (std) => [m|m] [t|t] //= _.
    by rewrite scalar_diag sp !mE.
  have dE : (\matrix_(i, j) if i == j then t ord0 j ^+ 2 else 0) = diag_mx (\row_d t ord0 d ^+ 2) :> 'M[R]_D.
    by apply/matrixP => i j; rewrite !mxE; case: eqP => [->|]; rewrite ?mulr1n ?mulr0n.
  rewrite dE sp.
  case: eqP => [[n0]|_] /=; last by congr (Some (Problem _ (Gaussian _ _) _)); apply/rowP => d; rewrite mxE.
  have u0 (d : 'I_D) : d = 0 by apply: val_inj; case: d => k /=; rewrite ltnS n0 leqn0 => /eqP.
  congr (Some (Problem _ (Gaussian _ _) _)) => //; first by apply/rowP => d; rewrite !mxE [d]u0.
  by apply/matrixP => i j; rewrite !mxE [i]u0 [j]u0 !eqxx.
- split=> [xs _|xs x _ /= []] //=; rewrite ev ?size_map -?map_comp // => x /mapP[y _ ->].
  by rewrite mp => d; rewrite !mxE; have [h1 h2] := cdf_range ((y ord0 d - entry mean d) / entry std d)%coqR; split; apply: Rlt_le.
split=> //; apply/nq; have := line_cdf (entry mean) s0 cf; apply: line_int_ext => t; congr (_ * _).
apply: eq_bigr => d _; rewrite -gs_phi ?sqrRE //.
Qed.
(** A float and an array cannot be combined. *)
Theorem C147_mixed_refuted (p : problem n) (m : point) (s : R) : (0 < n)%N ->
  uniform_to_gaussian p (Arr m) (Float n s) = None /\ uniform_to_gaussian p (Float n s) (Arr m) = None.
Proof.
rewrite /uniform_to_gaussian /gaussian_measure; move=> n0; case: (mu p) => [lo up nz|m' V'|] //; case: ifP => //= _.
by rewrite eqSS -leqn0 leqNgt n0.
Qed.
(** ** C148: sums of polynomials *)
Definition polys k (a : 'M[R]_(k, D)) (b : 'I_k -> 'I_D -> nat) (x : point) : R :=
  \sum_(j < k) \prod_(i < D) (a j i * x ord0 i ^+ b j i).
Lemma poly_int k (a : 'M[R]_(k, D)) (b : 'I_k -> 'I_D -> nat) (v : R) q : Rlt 0 v -> normal_measure q (fun=> 0) (fun=> v) ->
  integral q (polys a b) (\sum_(j < k) \prod_(i < D) (a j i * (if Nat.even (b j i) then (v ^ Nat.div2 (b j i) * INR (factorial2_pred (b j i)))%coqR else 0))).
Proof.
move=> v0 nq; apply/nq.
have K : line_int (fun t : point => \sum_(j < k) 1 * \prod_(i < D) (a j i * Rmult (t ord0 i ^ b j i)%coqR (gs v (t ord0 i))))
  (\sum_(j < k) 1 * \prod_(i < D) (a j i * (if Nat.even (b j i) then (v ^ Nat.div2 (b j i) * INR (factorial2_pred (b j i)))%coqR else 0)))%R.
  apply: line_sum => j; apply: (line_prod (h := fun i t => a j i * Rmult (t ^ b j i)%coqR (gs v t))) => i.
  by apply: (is_RInt_gen_scal (V := R_NormedModule)); apply: moment.
have E : \sum_(j < k) 1 * \prod_(i < D) (a j i * (if Nat.even (b j i) then (v ^ Nat.div2 (b j i) * INR (factorial2_pred (b j i)))%coqR else 0)) =
  \sum_(j < k) \prod_(i < D) (a j i * (if Nat.even (b j i) then (v ^ Nat.div2 (b j i) * INR (factorial2_pred (b j i)))%coqR else 0)).
  by apply: eq_bigr => j _; rewrite mul1r.
rewrite -E; apply: line_int_ext K => t; rewrite /polys mulr_suml; apply: eq_bigr => j _.
rewrite mul1r -big_split; apply: eq_bigr => i _; rewrite powE -[RHS]mulrA; congr (_ * Rmult _ (Rdiv (exp (Rdiv (Ropp (pow _ _)) _)) _)).
by have e (y : R) : (y = y - 0)%coqR by [ring]; exact: e.
Qed.
Lemma even_mod (b : nat) : Nat.even b = (b %% 2 == 0)%N.
Proof.
rewrite modn2 eqb0.
have [h _] : Nat.even b = ~~ odd b /\ Nat.even b.+1 = ~~ odd b.+1; last exact: h.
by elim: b => [|b [h1 h2]] //; split=> //; rewrite /= h1 !negbK.
Qed.
Theorem C148_unit_variance k (a : 'M[R]_(k, D)) (b : 'I_k -> 'I_D -> nat) :
  exists q, [/\ sum_polynomials a b 1 true = Some q, normal_measure (mu q) (fun=> 0) (fun=> 1),
    evaluates q (polys a b) & solved q (polys a b)].
Proof.
rewrite /sum_polynomials /gaussian_measure /=; eexists; split; first by [].
- have := @normal_diag (\row__ 0) (const_mx 1) => N; rewrite /= scalar_diag => g w; rewrite N => [|d]; last by rewrite mxE; exact: Rlt_0_1.
  by apply: line_int_iff => t; congr (_ * _); apply: eq_bigr => d _; rewrite !mxE.
- by split=> // xs x _ /= [].
have N : normal_measure (Gaussian (\row__ 0) 1%:M) (fun=> 0) (fun=> 1).
  have := @normal_diag (\row__ 0) (const_mx 1) => N; rewrite /= scalar_diag => g w; rewrite N => [|d]; last by rewrite mxE; exact: Rlt_0_1.
  by apply: line_int_iff => t; congr (_ * _); apply: eq_bigr => d _; rewrite !mxE.
eexists; split; first by [].
have := @poly_int k a b 1 _ Rlt_0_1 N; congr (integral _ _ _).
apply: eq_bigr => j _; apply: eq_bigr => i _; rewrite -!mulrA; congr (_ * _).
rewrite even_mod modn2 expr1n mul1r pow1 Rmult_1_l -natRE; case: (odd _).
  by rewrite subrr !mul0r.
by rewrite sub0r !mulN1r opprK.
Qed.
(** An integer variance is rejected in several dimensions. *)
Theorem C149_integer_refuted k (a : 'M[R]_(k, D)) (b : 'I_k -> 'I_D -> nat) (v : R) : (0 < n)%N ->
  sum_polynomials a b v false = None.
Proof. by move=> n0; rewrite /sum_polynomials /gaussian_measure /= eqSS -leqn0 leqNgt n0. Qed.
(** ** C150: the shape of the values *)
Theorem C150_shape_refuted a u : in_unit u -> exists p sh, [/\ genz_continuous a u = Some p,
  omap fst (fn p [:: u; u]) = Some sh & sh <> [:: 2%N]].
Proof.
move=> hu; rewrite /genz_continuous checkedE //; eexists; exists [:: 2; 1]%N; split=> //=.
by rewrite /on_box /= (introT (unit_boxP u) hu).
Qed.
End Props.

(** ** C151: zero parameters *)
(** With [a = 0] the integrand is one and so is its integral, but the solution is nan. *)
Theorem C151_zero_refuted : let u : 'rV[R]_1 := const_mx (/ 2)%coqR in
  exists p, [/\ genz_continuous (const_mx 0) u = Some p, evaluates p (fun=> 1),
    integral (mu p) (fun=> 1) 1 & solution p = None].
Proof.
move=> u; have hu : in_unit u by move=> d; rewrite mxE; lra.
have I : box_int (const_mx 0) (const_mx 1) (fun _ : 'rV[R]_1 => 1 : R) 1.
  by exists (fun=> 1); split=> //; rewrite !mxE; exact: int_one.
have z : has_zero (const_mx 0 : 'rV[R]_1) by apply/existsP; exists ord0; rewrite mxE.
rewrite /genz_continuous checkedE // z; eexists; split; first by [].
- case: (@unit_intro2 0 (fun x => exp (- \sum_(d < 1) ((const_mx 0 : 'rV[R]_1) ord0 d * Rabs (x ord0 d - u ord0 d)))%R) (fun=> 1) 1 _ I) => // x.
  by rewrite big1 ?oppr0 ?exp_0 // => d _; rewrite mxE mul0r.
- exact: I.
by [].
Qed.
(** ** C152: other variances *)
Lemma line_unique (f : 'rV[R]_1 -> R) v w : line_int f v -> line_int f w -> v = w.
Proof.
case=> g [g1 g2] [h [h1 h2]].
have E x : g x = h x by rewrite -[g x](g1 x) (h1 x).
have {}h2 : is_int_line g w by apply: (line_fext _ _ _ _ h2) => x; rewrite E.
by rewrite -(is_RInt_gen_unique _ _ g2) -(is_RInt_gen_unique _ _ h2).
Qed.
(** The second moment of N(0, 4) is 4; the solution is 16. *)
Theorem C152_variance_refuted : exists q, [/\ sum_polynomials (const_mx 1 : 'M[R]_(1, 1)) (fun _ _ => 2%N) 4%coqR true = Some q,
  normal_measure (mu q) (fun=> 0) (fun=> 4%coqR), solution q = Some 16%coqR,
  integral (mu q) (fun x => x ord0 ord0 ^+ 2) 4%coqR & ~ integral (mu q) (fun x => x ord0 ord0 ^+ 2) 16%coqR].
Proof.
have p4 : Rlt 0 4%coqR by lra.
rewrite /sum_polynomials /gaussian_measure /=.
have N : normal_measure (Gaussian (\row__ 0) (4%coqR%:M) : measure 1) (fun=> 0) (fun=> 4%coqR).
  have := @normal_diag 0 (\row__ 0) (const_mx 4%coqR) => N; rewrite scalar_diag => g w; rewrite N => [|d]; last by rewrite mxE.
  by apply: line_int_iff => t; congr (_ * _); apply: eq_bigr => d _; rewrite !mxE.
have I4 : integral (Gaussian (\row__ 0) (4%coqR%:M) : measure 1) (fun x => x ord0 ord0 ^+ 2) 4%coqR.
  have := proj1 (N _ _) (@poly_int 0 1 (const_mx 1) (fun _ _ => 2%N) 4%coqR _ p4 N).
  set w : R := (\sum_(j < 1) _)%R; have -> : w = 4%coqR.
    by rewrite /w !big_ord1 mxE mul1r /=; ring.
  move=> h; apply: (proj2 (N _ _)); apply: line_int_ext h => t; congr (_ * _).
  by rewrite /polys !big_ord1 mxE mul1r.
eexists; split; first by []. 
- exact: N.
- rewrite /= !big_ord1 mxE mul1r modnn muln1 mulr1; congr Some.
  by have e : ((0 - 1) * (0 - 1) * (4 * 4) = 16)%coqR by [ring]; exact: e.
- exact: I4.
by move=> h; have e := line_unique (proj1 (N _ _) I4) (proj1 (N _ _) h); lra.
Qed.
(** ** C153: the documented corner peak *)
(** The documentation has the exponent [-d + 1]: zero in one dimension. *)
Theorem C153_exponent_refuted : let one : 'rV[R]_1 := const_mx 1 in
  exists p y, [/\ genz_cornerpeak one one = Some p, fn p [:: one] = Some ([:: 1; 1]%N, [:: y]) & y <> 1].
Proof.
move=> one; have hu : in_unit one by move=> d; rewrite mxE; split; [exact: Rle_0_1|exact: Rle_refl].
rewrite /genz_cornerpeak checkedE //; eexists; eexists; split; first by [].
  by rewrite /= /on_box /= (introT (unit_boxP one) hu).
rewrite big_ord1 mxE mulr1 => h; have e : (/ (1 + 1) ^ 2 = 1)%coqR by []; move: e => /=; lra.
Qed.

(** ** Concrete cases *)
Example C144_case : let u : 'rV[R]_2 := const_mx (/ 2)%coqR in let a : 'rV[R]_2 := const_mx 5%coqR in
  in_unit u /\ (forall d, a ord0 d <> 0) /\ forall x, in_unit x -> Rlt 0 (1 + \sum_(d < 2) a ord0 d * x ord0 d)%R.
Proof.
split=> [d|]; first by rewrite mxE; lra.
split=> [d|x hx]; rewrite ?mxE; first by move=> e; have : (5 = 0)%coqR by []; lra.
rewrite big_ord_recl big_ord1 !mxE; have [h1 _] := hx ord0; have [h2 _] := hx (lift ord0 ord0).
have e (s t : R) : Rle 0 s -> Rle 0 t -> Rlt 0 (1 + (5 * s + 5 * t))%coqR by lra.
exact: e.
Qed.
(** The function of Roos and Arnold, transformed to a normal distribution. *)
Example C146_case n (m s : R) : Rlt 0 s ->
  exists q, [/\ uniform_to_gaussian (roos_arnold n) (Float n m) (Float n s) = Some q,
    normal_measure (mu q) (fun=> m) (fun=> (s ^ 2)%coqR) & solution q = Some 1 /\
    integral (mu q) (fun x => \prod_(d < n.+1) Rabs (4 * normal_cdf ((x ord0 d - m) / s) - 2)%coqR) 1].
Proof.
move=> s0; have [_ _ ev _] := C145_roos_arnold n.
have K : cbox_int (fun x : 'rV[R]_n.+1 => \prod_(d < n.+1) Rabs (4 * x ord0 d - 2)%coqR) 1.
  have := @cbox_prod n.+1 (fun _ t => Rabs (4 * t - 2)%coqR) (fun=> 1) 1; rewrite mul1r big1 // => K.
  apply: (cbox_int_ext _ (K _ _)) => [x _|d|d t _]; first by rewrite mul1r.
    apply: (@RInt_at _ _ _ ((1 + 0) / 1)%coqR); last by have e : ((1 + 0) / 1 = 1)%coqR by [field]; exact: e.
    apply: (is_RInt_ext (V := R_NormedModule) _ _ _ _ _ _ (int_abs 0 1)) => t _.
    by have e (y : R) : ((y + 0) / 1 = y)%coqR by [field]; exact: e.
  apply: (continuous_comp (fun t => 4 * t - 2)%coqR Rabs); last exact: continuous_Rabs.
  by apply: (@ex_derive_continuous _ R_NormedModule); auto_derive.
have [q [h1 h2 h3 [h4 h5]]] := @C146_transform n (roos_arnold n) false _ 1 (Float n m) (Float n s) erefl ev erefl K (fun=> s0) I.
exists q; split=> //; split=> //.
apply: (proj2 (h2 _ _)); apply: line_int_ext (proj1 (h2 _ _) h5) => t; congr (_ * _).
by apply: eq_bigr => d _; rewrite mxE.
Qed.
(** The product of the fourth powers in two dimensions: its integral is 9. *)
Example C148_case : exists q, sum_polynomials (const_mx 1 : 'M[R]_(1, 2)) (fun _ _ => 4%N) 1 true = Some q /\ solution q = Some 9%coqR.
Proof.
rewrite /sum_polynomials /gaussian_measure; eexists; split; first by [].
rewrite /solution; congr Some.
rewrite big_ord1 !prodS big_ord0 !mxE expr1n mulr1 /= !muln1.
have n3 : (3%:R : R) = 3%coqR by rewrite natRE /=; ring.
have m2 : (((4 %% 2)%N%:R - 1) ^+ 2 : R) = 1 by rewrite sub0r sqrrN expr1n.
rewrite m2 n3 !mul1r mulr1.
have e : (3 * 3 = 9)%coqR by ring.
exact: e.
Qed.

Print Assumptions C144_continuous.
Print Assumptions C144_discontinuous.
Print Assumptions C144_gaussian.
Print Assumptions C144_oscillatory.
Print Assumptions C144_cornerpeak.
Print Assumptions C144_productpeak.
Print Assumptions C145_bratley.
Print Assumptions C145_roos_arnold.
Print Assumptions C145_gfunction.
Print Assumptions C145_morokoff_caflisch_1.
Print Assumptions C145_morokoff_caflisch_2.
Print Assumptions C146_transform.
Print Assumptions C147_mixed_refuted.
Print Assumptions C148_unit_variance.
Print Assumptions C149_integer_refuted.
Print Assumptions C150_shape_refuted.
Print Assumptions C151_zero_refuted.
Print Assumptions C152_variance_refuted.
Print Assumptions C153_exponent_refuted.
