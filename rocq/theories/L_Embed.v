(** Iterated integrals over boxes and over the whole space, and what the kernels of M_Embed.v are. *)
From Coq Require Import Reals Lra.
From Coquelicot Require Import Coquelicot.
From mathcomp Require Import all_ssreflect all_algebra.
From Verif Require Import L_Ring M_DMx L_DMx L_Kalman L_Zmod M_BQ L_BQ L_BQ2 L_RStruct L_Int1 L_GaussMx M_Embed.
Set Implicit Arguments.
Unset Strict Implicit.
Unset Printing Implicit Defensive.
Import Order.Theory GRing.Theory Num.Theory.
Delimit Scope R_scope with coqR.
Local Open Scope ring_scope.

(** ** Specification *)
(** The iterated integral of [f] over the box with corners [a] and [b]. *)
Fixpoint box_int n : 'rV[R]_n -> 'rV[R]_n -> ('rV[R]_n -> R) -> R -> Prop :=
  if n is n'.+1 then fun (a b : 'rV[R]_(1 + n')) (f : 'rV[R]_(1 + n') -> R) v =>
    exists g : R -> R,
      (forall x : R, Rle (a 0 0) x -> Rle x (b 0 0) ->
         box_int (rsubmx a) (rsubmx b) (fun y => f (row_mx x%:M y)) (g x)) /\
      is_RInt g (a 0 0) (b 0 0) v
  else fun _ _ f v => f 0 = v.
(** The iterated integral over the whole space. *)
Fixpoint line_int n : ('rV[R]_n -> R) -> R -> Prop :=
  if n is n'.+1 then fun (f : 'rV[R]_(1 + n') -> R) v =>
    exists g : R -> R,
      (forall x : R, line_int (fun y => f (row_mx x%:M y)) (g x)) /\
      is_RInt_gen g (Rbar_locally m_infty) (Rbar_locally p_infty) v
  else fun f v => f 0 = v.

Section Spec.
Variable D : nat.
Notation point := 'rV[R]_D.
(** The density of the normal distribution. *)
Definition density (m : point) (V : 'M[R]_D) (x : point) : R :=
  (exp (- qform (invmx V) (x - m)^T / 2) / sqrt ((2 * PI) ^ D * \det V))%coqR.
Definition volume (a b : point) : R := \prod_(d < D) (b 0 d - a 0 d).
(** [v] is the integral of [f] with respect to the measure. *)
Definition integral (mu : measure D) (f : point -> R) (v : R) : Prop :=
  match mu with
  | Lebesgue a b nz => box_int a b (fun t => if nz then (f t / volume a b)%coqR else f t) v
  | Gaussian m V => line_int (fun t => (f t * density m V t)%coqR) v
  | OtherMeasure => False
  end.
Definition in_domain (mu : measure D) (x : point) : Prop :=
  if mu is Lebesgue a b _ then forall d, Rle (a 0 d) (x 0 d) /\ Rle (x 0 d) (b 0 d) else True.

(** The Matern covariance function with smoothness [p + 1/2] at the scaled distance [d]. *)
Definition matern_at (p : nat) (d : R) : R :=
  (exp (- d) * (INR (fact p) / INR (fact (2 * p))) *
   sum_f_R0 (fun i => INR (fact (p + i)) / (INR (fact i) * INR (fact (p - i))) * (2 * d) ^ (p - i)) p)%coqR.
Definition matern_1d (p : nat) (l x y : R) : R := matern_at p (sqrt (2 * (INR p + 1 / 2)) * (Rabs (x - y) / l))%coqR.
(** The scaled squared distance. *)
Definition scaled_sq (s : scales D) (x y : point) : R :=
  \sum_(d < D) (((x ord0 d - y ord0 d) / (if s is Array v then v ord0 d else if s is Scalar l then l else 1)) ^ 2)%coqR.
(** [f] is the covariance function of the object (half-integer smoothness only). *)
Definition covariance (k : kernel D) (f : point -> point -> R) : Prop :=
  match k with
  | ExpQuad s => forall x y, f x y = exp (- scaled_sq s x y / 2)%coqR
  | Matern s nu => exists p : nat, nu = (INR p + 1 / 2)%coqR /\
      forall x y, f x y = matern_at p (sqrt (2 * nu) * sqrt (scaled_sq s x y))%coqR
  | ProductMatern ls nus => exists p : 'I_D -> nat, (forall d, nus 0 d = (INR (p d) + 1 / 2)%coqR) /\
      forall x y, f x y = \prod_(d < D) matern_1d (p d) (ls 0 d) (x 0 d) (y 0 d)
  | Other => False
  end.
(** [v] is the integral over the first argument, and over both. *)
Definition is_mean (k : kernel D) (mu : measure D) (x : point) (v : R) : Prop :=
  exists f, covariance k f /\ integral mu (fun t => f t x) v.
Definition is_variance (k : kernel D) (mu : measure D) (v : R) : Prop :=
  exists f g, [/\ covariance k f, forall x, in_domain mu x -> integral mu (fun t => f t x) (g x) & integral mu g v].
End Spec.

(** ** Iterated integrals *)
Lemma row_cases n (P : 'I_(1 + n) -> Prop) : P 0 -> (forall d : 'I_n, P (rshift 1 d)) -> forall d, P d.
Proof.
move=> h0 h1 d; rewrite -[d]splitK; case: (split d) => k //=.
by rewrite ord1; have -> : lshift n 0 = 0 :> 'I_(1 + n) by apply: val_inj.
Qed.
Lemma row_mx0 n (x : R) (y : 'rV[R]_n) : (row_mx x%:M y : 'rV[R]_(1 + n)) 0 0 = x.
Proof.
by have -> : (0 : 'I_(1 + n)) = lshift n 0 by [apply: val_inj]; rewrite row_mxEl mxE eqxx mulr1n.
Qed.
Lemma row_mxS n (x : R) (y : 'rV[R]_n) d : (row_mx x%:M y : 'rV[R]_(1 + n)) 0 (rshift 1 d) = y 0 d.
Proof. by rewrite row_mxEr. Qed.
Lemma box_int_ext n (a b : 'rV[R]_n) (f f' : 'rV[R]_n -> R) v :
  (forall x : 'rV[R]_n, (forall d, Rle (a 0 d) (x 0 d) /\ Rle (x 0 d) (b 0 d)) -> f x = f' x) ->
  box_int a b f v -> box_int a b f' v.
Proof.
elim: n a b f f' v => [|n IH] a b f f' v H /=; first by move=> <-; rewrite H // => -[].
case=> g [h1 h2]; exists g; split=> // x x1 x2; apply: (IH _ _ (fun y => f (row_mx x%:M y))); last exact: h1.
move=> y hy; apply: (H (row_mx x%:M y : 'rV[R]_(1 + n))); apply: row_cases => [|d]; first by rewrite row_mx0.
by rewrite row_mxS; have := hy d; rewrite !mxE.
Qed.
Lemma box_prod n (a b : 'rV[R]_n) (h : 'I_n -> R -> R) (v : 'I_n -> R) (c : R) :
  (forall d, is_RInt (h d) (a 0 d) (b 0 d) (v d)) ->
  box_int a b (fun x => c * \prod_(d < n) h d (x 0 d)) (c * \prod_(d < n) v d).
Proof.
elim: n a b h v c => [|n IH] a b h v c H /=; first by rewrite !big_ord0.
exists (fun x => (c * h 0 x) * \prod_(d < n) v (rshift 1 d)); split=> [x x1 x2|].
  apply: (@box_int_ext n _ _ (fun y => (c * h 0 x) * \prod_(d < n) h (rshift 1 d) (y 0 d))) => [y _|]; last first.
    by apply: (IH _ _ (fun d => h (rshift 1 d)) (fun d => v (rshift 1 d))) => d; rewrite !mxE; exact: H.
  rewrite (big_ord_recl n) mulrA row_mx0; congr (_ * _); apply: eq_bigr => d _.
  have -> : lift ord0 d = rshift 1 d :> 'I_(1 + n) by apply: val_inj.
  by rewrite row_mxS.
rewrite big_ord_recl; set w := \prod_(d < n) _.
have -> : \prod_(i < n) v (lift ord0 i) = w.
  by apply: eq_bigr => d _; congr (v _); apply: val_inj.
apply: (is_RInt_ext (V := R_NormedModule) (fun x => Rmult (c * w) (h 0 x))) => [x _|].
  by rewrite [c * h 0 x * w]mulrAC.
have e (x y z : R) : Rmult x (Rmult y z) = Rmult (Rmult x z) y by ring.
rewrite e.
exact: (is_RInt_scal (V := R_NormedModule)).
Qed.

Lemma line_int_ext n (f f' : 'rV[R]_n -> R) v : (forall x, f x = f' x) -> line_int f v -> line_int f' v.
Proof.
elim: n f f' v => [|n IH] f f' v H /=; first by rewrite H.
by case=> g [h1 h2]; exists g; split=> // x; apply: (IH (fun y => f (row_mx x%:M y))).
Qed.
Lemma line_int_eq n (f : 'rV[R]_n -> R) v v' : line_int f v -> v = v' -> line_int f v'.
Proof. by move=> h <-. Qed.
Lemma line_int_scal n (f : 'rV[R]_n -> R) v c : line_int f v -> line_int (fun x => c * f x) (c * v).
Proof.
elim: n f v => [|n IH] f v /=; first by move=> ->.
case=> g [h1 h2]; exists (fun x => c * g x); split=> [x|]; first exact: (IH (fun y => f (row_mx x%:M y))).
exact: (is_RInt_gen_scal (V := R_NormedModule)).
Qed.

(** ** Gaussian integrals in several variables *)
Lemma row_split n (x : R) (y : 'rV[R]_n) : (row_mx x%:M y)^T = col_mx x%:M y^T.
Proof. by rewrite tr_row_mx tr_scalar_mx. Qed.
Lemma num_row n (y : 'rV[R]_n) (c : 'cV[R]_n) : num (c^T *m y^T) = num (y *m c).
Proof. by rewrite -trmx_mul numT. Qed.
Lemma det_posR n (A : 'M[R]_n) : pd (A : 'M[R_rcfType]_n) -> Rlt 0 (\det A).
Proof. by move/pd_det_gt0/ltRP. Qed.
Lemma divRE (x y : R) : y <> 0 -> x / y = (x / y)%coqR.
Proof. by move=> y0; rewrite /Rdiv; congr (_ * _); rewrite /GRing.inv /= /Rinvx; case: eqP. Qed.
Lemma sqrRE (x : R) : x ^+ 2 = (x ^ 2)%coqR.
Proof. by rewrite expr2 /= Rmult_1_r. Qed.
Lemma gauss_nd n (A : 'M[R]_n) (b : 'cV[R]_n) (c : R) : pd (A : 'M[R_rcfType]_n) ->
  line_int (fun x => exp (- qform A x^T / 2 + num (x *m b) + c)%coqR)
    (sqrt ((2 * PI) ^ n / \det A) * exp (qinv (A : 'M[R_rcfType]_n) b b / 2 + c))%coqR.
Proof.
elim: n A b c => [|n IH] A b c pA.
  rewrite /= det_mx00 /qform /qinv /num !mxE !big_ord0.
  have -> : (1 / 1)%coqR = 1%coqR by field.
  rewrite sqrt_1 Rmult_1_l; congr exp.
  have e (u : R) : (- 0 / 2 + 0 + u = 0 / 2 + u)%coqR by field.
  exact: e.
have pA1 := pA; rewrite (pd_split (n := n) pA) in pA1.
pose al : R := (A : 'M[R]_(1 + n)) 0 0; pose w : 'cV[R]_n := dlsubmx (A : 'M[R]_(1 + n)).
pose A' : 'M[R]_n := drsubmx (A : 'M[R]_(1 + n)).
pose b0 : R := (b : 'cV[R]_(1 + n)) 0 0; pose b' : 'cV[R]_n := dsubmx (b : 'cV[R]_(1 + n)).
have bE : (b : 'cV[R]_(1 + n)) = col_mx b0%:M b'.
  transitivity (col_mx (usubmx (b : 'cV[R]_(1 + n))) b'); first by rewrite vsubmxK.
  congr col_mx; apply/matrixP => i j; rewrite !ord1 !mxE /= mulr1n.
  by congr ((b : 'cV[R]_(1 + n)) _ _); apply: val_inj.
have pA' : pd (A' : 'M[R_rcfType]_n) := pd_block1 pA1.
have s0 := block1_schur_pos pA1; rewrite -/al -/w -/A' in s0 pA1.
have dE := det_block1 pA1.
have AE : (A : 'M[R]_(1 + n)) = block_mx al%:M w^T w A' := pd_split (n := n) pA.
have qE := qinv_append1 b' b0 pA1.
rewrite -AE in dE qE; rewrite -bE in qE.
rewrite dE qE.
pose s : R := al - qinv A' w w; rewrite -/s in s0 *.
have {}s0 : Rlt 0 s by apply/ltRP.
have d0 := det_posR pA'.
pose q1 : R := qinv A' b' b'; pose q2 : R := qinv A' b' w; pose q3 : R := qinv A' w w.
rewrite -/q1 -/q2 divRE; last exact: Rgt_not_eq s0.
rewrite sqrRE.
pose K : R := sqrt ((2 * PI) ^ n / \det A')%coqR.
exists (fun x : R => K * exp (- (s * x ^ 2) / 2 + (b0 - q2) * x + (q1 / 2 + c)))%coqR; split=> [x|].
  have := IH A' (b' - x *: w) (c + b0 * x - al * x ^ 2 / 2)%coqR pA'.
  rewrite (qinv_sub b' w x pA') -/q1 -/q2 -/q3 natRE sqrRE.
  have -> : (sqrt ((2 * PI) ^ n / \det A') * exp ((q1 - 2%coqR * x * q2 + (x ^ 2)%coqR * q3)%R / 2 + (c + b0 * x - al * x ^ 2 / 2)) =
      K * exp (- (s * x ^ 2) / 2 + (b0 - q2) * x + (q1 / 2 + c)))%coqR.
    congr (Rmult _ (exp _)).
    have e (q q' q'' a t u z : R) : (((q + - (2 * z * q')) + z ^ 2 * q'') / 2 + (u + t * z - a * z ^ 2 / 2) =
      - ((a + - q'') * z ^ 2) / 2 + (t - q') * z + (q / 2 + u))%coqR by field.
    exact: e.
  apply: line_int_ext => y; congr exp.
  have -> : qform A (row_mx x%:M y)^T = (al * x ^ 2 + 2 * x * num (y *m w) + qform A' y^T)%coqR.
    rewrite row_split AE (qform_block1 _ _ _ x y^T) num_row natRE sqrRE.
    by have -> : INR 2 = 2%coqR by rewrite /=; ring.
  have -> : num (row_mx x%:M y *m b) = (b0 * x + num (y *m b'))%coqR.
    by rewrite bE mul_row_col numD -scalar_mxM num_scal mulrC.
  have -> : num (y *m (b' - x *: w)) = (num (y *m b') - x * num (y *m w))%coqR.
    by rewrite mulmxBr numB -scalemxAr numZ.
  by field.
have -> : (sqrt ((2 * PI) ^ n.+1 / (s * \det A')%R) * exp ((q1 + ((b0 - q2)%R ^ 2 / s)%coqR)%R / 2 + c) =
  K * (sqrt (2 * PI / s) * exp ((b0 - q2) ^ 2 / (2 * s) + (q1 / 2 + c))))%coqR.
  have p0 := PI_RGT_0.
  have h1 : (0 <= (2 * PI) ^ n / \det A')%coqR by apply: Rlt_le; apply: Rdiv_lt_0_compat => //; apply: pow_lt; lra.
  rewrite -Rmult_assoc /K -sqrt_mult_alt //.
  congr (Rmult (sqrt _) (exp _)).
    have e (u v p q : R) : (0 < u -> 0 < v -> (p * q) / (u * v) = q / v * (p / u))%coqR by move=> u0 v0; field; lra.
    exact: e.
  have e (x y z u : R) : (0 < z -> (x + (y ^ 2 / z)) / 2 + u = y ^ 2 / (2 * z) + (x / 2 + u))%coqR by move=> z0; field; lra.
  exact: e.
apply: (is_RInt_gen_scal (V := R_NormedModule)).
exact: gauss_int.
Qed.

Lemma twoR : 2%:R = 2%coqR :> R.
Proof. by rewrite natRE /=; ring. Qed.
(** The integral of a bell curve with respect to a normal distribution. *)
Lemma gauss_prod n (M V : 'M[R]_n) (p m : 'rV[R]_n) : pd (M : 'M[R_rcfType]_n) -> pd (V : 'M[R_rcfType]_n) ->
  line_int (fun x => exp (- qform (invmx M) (x - p)^T / 2) * density m V x)%coqR
    (sqrt (\det M / \det (M + V)) * exp (- qform (invmx (M + V)) (p - m)^T / 2))%coqR.
Proof.
move=> pM pV.
have pA := prod_pd pM pV; set A := invmx M + invmx V in pA.
have sM : (invmx M)^T = invmx M by rewrite trmx_inv pM.1.
have sV : (invmx V)^T = invmx V by rewrite trmx_inv pV.1.
pose b := invmx M *m p^T + invmx V *m m^T.
pose c : R := (- (qform (invmx M) p^T + qform (invmx V) m^T)%R / 2)%coqR.
have dM := det_posR pM; have dV := det_posR pV; have dMV := det_posR (pd_add pM pV).
have p0 := PI_RGT_0.
have g0 : (0 < (2 * PI) ^ n)%coqR by apply: pow_lt; lra.
have K := line_int_scal (/ sqrt ((2 * PI) ^ n * \det V))%coqR (gauss_nd b c pA).
have KE : (/ sqrt ((2 * PI) ^ n * \det V))%coqR *
    (sqrt ((2 * PI) ^ n / \det A) * exp (qinv (A : 'M[R_rcfType]_n) b b / 2 + c))%coqR =
    (sqrt (\det M / \det (M + V)) * exp (- qform (invmx (M + V)) (p - m)^T / 2))%coqR.
  rewrite (prod_det pM pV) divRE; last by apply: Rgt_not_eq; exact: Rmult_lt_0_compat.
  have -> : (qinv (A : 'M[R_rcfType]_n) b b / 2 + c = - qform (invmx (M + V)) (p - m)^T / 2)%coqR.
    have := prod_form p^T m^T pM pV; rewrite -/A -/b -linearB /= => e.
    have h (x y z : R) : x - y = - z -> (x / 2 + - y / 2 = - z / 2)%coqR.
      move=> k; have {}k : (x + - y = - z)%coqR := k; lra.
    exact: (h _ _ _ e).
  have -> (u v w : R) : u * Rmult v w = Rmult (Rmult u v) w by have e : Rmult u (Rmult v w) = Rmult (Rmult u v) w by [ring]; exact: e.
  congr (Rmult _ _).
  have h (g t x y : R) : (0 < g -> 0 < t -> 0 < x -> 0 < y -> / sqrt (g * y) * sqrt (g / (t / (x * y))) = sqrt (x / t))%coqR.
    move=> hg ht hx hy; have k : (0 < g * y)%coqR by exact: Rmult_lt_0_compat.
    have -> : (g / (t / (x * y)) = (g * y) * (x / t))%coqR by field; lra.
    rewrite (sqrt_mult_alt (g * y)); last exact: Rlt_le.
    have hz := sqrt_lt_R0 _ k.
    by rewrite -Rmult_assoc Rinv_l ?Rmult_1_l //; exact: Rgt_not_eq hz.
  exact: h.
apply: (line_int_ext _ (line_int_eq K KE)) => x; rewrite /density.
have -> : (- qform A x^T / 2 + num (x *m b) + c)%coqR =
  (- qform (invmx M) (x - p)^T / 2 + - qform (invmx V) (x - m)^T / 2)%coqR.
  have sub N (u v : 'rV[R]_n) : N^T = N -> qform N (u - v)^T = (qform N u^T - 2 * num (u *m N *m v^T) + qform N v^T)%coqR.
    move=> sN; rewrite linearB /= (@qform_add R_rcfType n N u^T (- v^T) sN) trmxK mulmxN numN natRE.
    rewrite [qform N (- v^T)]qform_num; have -> : (- v^T)^T = - v by rewrite linearN /= trmxK.
    rewrite mulmxN !mulNmx opprK [qform N v^T]qform_num trmxK.
    have e (s t w : R) : (s + (1 + 1) * - t + w = s - 2 * t + w)%coqR by ring.
    exact: e.
  rewrite !sub // /b mulmxDr numD !mulmxA /c /A qformD.
  have e (x1 x2 x3 x4 y1 y2 : R) : (- (x1 + x2) / 2 + (y1 + y2) + - (x3 + x4) / 2 =
    - (x1 - 2 * y1 + x3) / 2 + - (x2 - 2 * y2 + x4) / 2)%coqR by field.
  exact: e.
rewrite exp_plus; have e (u v w : R) : (u * (v * w) = v * (w * u))%coqR by ring.
exact: e.
Qed.
