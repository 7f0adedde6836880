(** C142: the kernels [ExpQuad], [RatQuad], [Matern] (half-integer smoothness) and [ProductMatern] are positive
    semi-definite, for the real exponential function and real powers; hence covariance matrices of all
    expressions made of the kernels of the library are. *)
From Coq Require Import Reals Lra Lia.
From Coquelicot Require Import Coquelicot.
From mathcomp Require Import all_ssreflect all_algebra.
From Verif Require Import L_RStruct L_Ring L_Expm M_CovFunc L_CovFunc P_CovFunc M_Kernels P_Kernels P_KernPSD L_Mix.
Set Implicit Arguments.
Unset Strict Implicit.
Unset Printing Implicit Defensive.
Import Order.Theory GRing.Theory Num.Theory.
Delimit Scope R_scope with coqR.
Local Open Scope ring_scope.

(** ** Limits and integrals *)
Lemma lim_sum T (l : seq T) (f : nat -> T -> R) (g : T -> R) : (forall t, is_lim_seq (fun m => f m t) (g t)) ->
  is_lim_seq (fun m => \sum_(t <- l) f m t) (\sum_(t <- l) g t : R).
Proof.
move=> h; elim: l => [|t l IH].
  rewrite big_nil; apply: (is_lim_seq_ext (fun=> 0)) => [m|]; first by rewrite big_nil.
  exact: is_lim_seq_const.
rewrite big_cons; apply: (is_lim_seq_ext (fun m => f m t + \sum_(t <- l) f m t)) => [m|]; first by rewrite big_cons.
exact: is_lim_seq_plus'.
Qed.
Lemma int_sum T (l : seq T) (f : R -> T -> R) (g : T -> R) a b : (forall t, is_RInt (fun x => f x t) a b (g t)) ->
  is_RInt (fun x => \sum_(t <- l) f x t) a b (\sum_(t <- l) g t : R).
Proof.
move=> h; elim: l => [|t l IH].
  rewrite big_nil; apply: (is_RInt_ext (V := R_NormedModule) (fun=> 0)) => [m _|]; first by rewrite big_nil.
  have := is_RInt_const (V := R_NormedModule) a b 0; by rewrite scal_zero_r.
rewrite big_cons; apply: (is_RInt_ext (V := R_NormedModule) (fun m => f m t + \sum_(t <- l) f m t)) => [m _|]; first by rewrite big_cons.
exact: (is_RInt_plus (V := R_NormedModule)).
Qed.
Lemma semi_lim n (A : nat -> nat -> nat -> R) (B : nat -> nat -> R) : (forall m, semi n (A m)) ->
  (forall r s, is_lim_seq (fun m => A m r s) (B r s)) -> semi n B.
Proof.
move=> h l; split=> [r s rn sn|c].
  have [e] : Finite (B r s) = Finite (B s r); last by [].
  rewrite -(is_lim_seq_unique _ _ (l r s)) -(is_lim_seq_unique _ _ (l s r)); apply: Lim_seq_ext => m.
  by apply: (h m).1.
have h1 : is_lim_seq (fun m => quad n (A m) c) (quad n B c).
  apply: lim_sum => r; apply: lim_sum => s; exact: (is_lim_seq_scal_l _ (c r * c s) (B r s)).
apply/leRP; have : Rbar_le (Finite 0) (Finite (quad n B c)); last by [].
refine (is_lim_seq_le (fun=> 0%coqR) _ _ _ _ (is_lim_seq_const _) h1) => m; apply/leRP; exact: (h m).2.
Qed.
Lemma semi_int n (A : R -> nat -> nat -> R) (B : nat -> nat -> R) a b : Rle a b -> (forall x, Rlt a x -> semi n (A x)) ->
  (forall r s, is_RInt (fun x => A x r s) a b (B r s)) -> semi n B.
Proof.
move=> ab h l; split=> [r s rn sn|c].
  rewrite -(is_RInt_unique _ _ _ _ (l r s)) -(is_RInt_unique _ _ _ _ (l s r)); apply: RInt_ext => x [hx _].
  by apply: (h x _).1 => //; rewrite Rmin_left in hx.
have L : is_RInt (fun x => quad n (A x) c) a b (quad n B c).
  apply: int_sum => r; apply: int_sum => s; exact: (is_RInt_scal (V := R_NormedModule)).
rewrite -(is_RInt_unique _ _ _ _ L); apply/leRP; apply: RInt_ge_0 => //; first by eexists; exact: L.
by move=> x [ax _]; apply/leRP; exact: (h x ax).2.
Qed.

Lemma semiD n (A B : nat -> nat -> R) : semi n A -> semi n B -> semi n (fun r s => A r s + B r s).
Proof. by move=> [h1 h2] [h3 h4]; split=> [r s rn sn|c]; [rewrite h1 // h3|rewrite quadD addr_ge0]. Qed.
Lemma factE k : k`! = fact k.
Proof. by elim: k => // k IH; rewrite factS IH /= multE mulSn. Qed.
Lemma invRE (y : R) : y <> 0 -> y^-1 = (/ y)%coqR.
Proof. by move=> y0; rewrite /GRing.inv /= /Rinvx; case: eqP. Qed.
Section Psdk.
Variables i o : seq nat.
Implicit Types f g : kfun [rcfType of R].
Lemma psdk_lim (f : nat -> kfun [rcfType of R]) g : (forall m, psdk i o (f m)) ->
  (forall u v p q, is_lim_seq (fun m => f m u v p q) (g u v p q)) -> psdk i o g.
Proof. by move=> h l n u p sz; apply: (semi_lim (fun m => h m n u p sz)) => r s; exact: l. Qed.
Lemma psdk_int (f : R -> kfun [rcfType of R]) g a b : Rle a b -> (forall x, Rlt a x -> psdk i o (f x)) ->
  (forall u v p q, is_RInt (fun x => f x u v p q) a b (g u v p q)) -> psdk i o g.
Proof. by move=> ab h l n u p sz; apply: (semi_int ab (fun x hx => h x hx n u p sz)) => r s; exact: l. Qed.
Lemma psdk_sum (f : nat -> kfun [rcfType of R]) m : (forall k, psdk i o (f k)) -> psdk i o (fun u v p q => \sum_(k < m) f k u v p q).
Proof.
move=> h; elim: m => [|m IH]; first by refine (psdk_ext _ (@psdkC _ i o _ (lexx 0))) => *; rewrite big_ord0.
by refine (psdk_ext _ (psdkD IH (h m))) => *; rewrite big_ord_recr.
Qed.
Lemma psdk_exp f : psdk i o f -> psdk i o (fun u v p q => exp (f u v p q)).
Proof.
move=> h; apply: (@psdk_lim (fun m u v p q => \sum_(k < m.+1) (k`!%:R^-1 * f u v p q ^+ k))) => [m|u v p q].
  apply: (@psdk_sum (fun k u v p q => k`!%:R^-1 * f u v p q ^+ k)) => k.
  by apply: psdkZ; [rewrite invr_ge0 ler0n|exact: psdkX].
have := is_exp_Reals (f u v p q); rewrite /is_pseries /is_series => e.
refine (is_lim_seq_ext _ _ _ _ (e : is_lim_seq _ (Finite _))) => m.
have E k : scal (pow_n (K := R_Ring) (f u v p q) k) (/ INR (fact k))%coqR = k`!%:R^-1 * f u v p q ^+ k.
  rewrite pow_n_pow -powE natRE factE; change (f u v p q ^+ k * (/ INR (fact k))%coqR = (INR (fact k))^-1 * f u v p q ^+ k).
  by rewrite mulrC invRE //; exact: INR_fact_neq_0.
elim: m => [|m IH]; first by rewrite sum_O E big_ord1.
by rewrite sum_Sn IH E [RHS]big_ord_recr.
Qed.
End Psdk.

(** ** Mixtures of Gaussians *)
Lemma mix_RInt g l : mix g l -> (forall m, is_RInt g (/ INR (S m)) (INR (S m)) (RInt g (/ INR (S m)) (INR (S m)))%coqR) /\
  is_lim_seq (fun m => RInt g (/ INR (S m)) (INR (S m)))%coqR l.
Proof.
move=> [v [h1 h2]]; split=> [m|]; first by rewrite (is_RInt_unique _ _ _ _ (h1 m)).
by apply: is_lim_seq_ext h2 => m; rewrite (is_RInt_unique _ _ _ _ (h1 m)).
Qed.
Section Mixtures.
Variable i : seq nat.
Local Notation RR := [rcfType of R].
(** A Gaussian, for features [a u j] of the points. *)
Definition feat (a : seq R -> seq nat -> R) (u v : seq R) : R := \sum_(j <- indices i) (a u j - a v j) ^+ 2.
Variable a : seq R -> seq nat -> R.
Local Notation D := (feat a).
Lemma feat_ge0 u v : 0 <= D u v.
Proof. by apply: sumr_ge0 => j _; exact: sqr_ge0. Qed.
Lemma psdk_gauss (t : R) : 0 <= t -> psdk i [::] ((fun u v _ _ => exp (- (t * D u v))) : kfun RR).
Proof.
move=> t0; pose n2 u := \sum_(j <- indices i) a u j ^+ 2.
have h1 := @psdk_feature RR i [::] _ [:: tt] (fun=> 1) (fun _ u _ => exp (- (t * n2 u))) (fun=> ler01).
have h2 := psdk_exp (@psdk_feature RR i [::] _ (indices i) (fun=> 2%:R * t) (fun j u _ => a u j) (fun=> mulr_ge0 (ler0n _ 2) t0)).
refine (psdk_ext _ (psdkM h1 h2)) => u v p q; rewrite big_seq1 mul1r.
rewrite -[LHS]/(exp (- (t * n2 u)) * exp (- (t * n2 v)) * exp (\sum_(j <- indices i) 2%:R * t * (a u j * a v j)))%coqR -!exp_plus.
congr exp; rewrite -[LHS]/(- (t * n2 u) + - (t * n2 v) + \sum_(j <- indices i) 2%:R * t * (a u j * a v j)).
rewrite -mulr_sumr /n2 /feat.
have -> : \sum_(j <- indices i) (a u j - a v j) ^+ 2 = \sum_(j <- indices i) a u j ^+ 2 + \sum_(j <- indices i) a v j ^+ 2
    - 2%:R * \sum_(j <- indices i) a u j * a v j.
  rewrite mulr_sumr -big_split -sumrB /=; apply: eq_bigr => j _; have E (x y : RR) : (x - y) ^+ 2 = x ^+ 2 + y ^+ 2 - 2%:R * (x * y) by mring.
  exact: E.
have E (x y z : RR) : - (t * x) + - (t * y) + 2%:R * t * z = - (t * (x + y - 2%:R * z)) by mring.
exact: E.
Qed.
(** [Matern]: for [d] with [d^2 = b D], [b >= 0]. *)
Lemma psdk_theta p (b : R) (d : seq R -> seq R -> R) : 0 <= b -> (forall u v, 0 <= d u v) -> (forall u v, d u v ^+ 2 = b * D u v) ->
  psdk i [::] ((fun u v _ _ => theta p (d u v) * exp (- d u v)) : kfun RR).
Proof.
move=> b0 d0 dE; pose g u v x := (x ^ (2 * p) * gm (d u v ^ 2) x)%coqR.
pose K : R := (/ (sqrt PI * 2 ^ p))%coqR.
have k0 : (0 < sqrt PI * 2 ^ p)%coqR by apply: Rmult_lt_0_compat; [apply: sqrt_lt_R0; exact: PI_RGT_0|apply: pow_lt; exact: Rlt_0_2].
have K0 : 0 <= K by apply/leRP; apply: Rlt_le; exact: Rinv_0_lt_compat.
have h u v := mix_RInt (@mix_theta p (d u v) (elimT (leRP _ _) (d0 u v))).
have P : psdk i [::] ((fun u v _ _ => sqrt PI * 2 ^ p * theta p (d u v) * exp (- d u v))%coqR : kfun RR).
  apply: (@psdk_lim i [::] (fun m u v _ _ => RInt (g u v) (/ INR (S m)) (INR (S m)))) => [m|u v _ _]; last exact: (h u v).2.
  have [bm0 bm1] := bounds m.
  apply: (@psdk_int i [::] (fun x u v _ _ => g u v x) _ _ _ bm1) => [x hx|u v _ _]; last exact: (h u v).1.
  have x0 : (0 < x)%coqR by exact: Rlt_trans hx.
  pose w : R := (x ^ (2 * p) * exp (- (x ^ 2 / 4)))%coqR.
  have w0 : 0 <= w by apply/leRP; apply: Rmult_le_pos; [apply: pow_le; exact: Rlt_le|apply: Rlt_le; exact: exp_pos].
  have t0 : 0 <= (b / x ^ 2)%coqR.
    apply/leRP; apply: Rmult_le_pos; first exact/leRP.
    by apply: Rlt_le; apply: Rinv_0_lt_compat; exact: pow_lt.
  refine (psdk_ext _ (psdkZ w0 (psdk_gauss t0))) => u v _ _.
  rewrite -[LHS]/(x ^ (2 * p) * exp (- (x ^ 2 / 4)) * exp (- (b / x ^ 2 * D u v)))%coqR /g /gm Rmult_assoc -exp_plus; congr (_ * exp _)%coqR.
  have e : (d u v ^ 2 = b * D u v)%coqR by rewrite -[RHS]dE powE.
  by rewrite e; field; exact: Rgt_not_eq.
refine (psdk_ext _ (psdkZ K0 P)) => u v _ _.
rewrite -[LHS]/(K * (sqrt PI * 2 ^ p * theta p (d u v) * exp (- d u v)))%coqR /K.
rewrite -[RHS]/(theta p (d u v) * exp (- d u v))%coqR.
have E (k x y : R) : (k <> 0 -> / k * (k * x * y) = x * y)%coqR by move=> ?; field.
by apply: E; exact: Rgt_not_eq.
Qed.
(** [RatQuad]. *)
Lemma psdk_power (b al : R) : 0 <= b -> 0 < al -> psdk i [::] ((fun u v _ _ => Rpower (1 + b * D u v) (- al)) : kfun RR).
Proof.
move=> b0 /ltRP a0; have [G [G0 h]] := mix_power al a0.
have c0 u v : (0 < 1 + b * D u v)%coqR.
  have /leRP : 0 <= b * D u v by rewrite mulr_ge0 ?feat_ge0.
  by move=> q; apply: Rlt_le_trans (Rlt_0_1) _; rewrite -{1}[1%coqR]Rplus_0_r; exact: Rplus_le_compat_l.
pose g u v x := (exp (al * x - exp x * (1 + b * D u v)))%coqR.
have q u v : (forall m, is_RInt (g u v) (- INR m) (INR m) (RInt (g u v) (- INR m) (INR m))) /\
    is_lim_seq (fun m => RInt (g u v) (- INR m) (INR m)) (G * Rpower (1 + b * D u v) (- al))%coqR.
  have [w [h1 h2]] := h _ (c0 u v); split=> [m|]; first by rewrite (is_RInt_unique _ _ _ _ (h1 m)).
  by apply: is_lim_seq_ext h2 => m; rewrite (is_RInt_unique _ _ _ _ (h1 m)).
have K0 : 0 <= (/ G)%coqR by apply/leRP; apply: Rlt_le; exact: Rinv_0_lt_compat.
have P : psdk i [::] ((fun u v _ _ => G * Rpower (1 + b * D u v) (- al))%coqR : kfun RR).
  apply: (@psdk_lim i [::] (fun m u v _ _ => RInt (g u v) (- INR m) (INR m))) => [m|u v _ _]; last exact: (q u v).2.
  have bm : (- INR m <= INR m)%coqR by have := pos_INR m; lra.
  apply: (@psdk_int i [::] (fun x u v _ _ => g u v x) _ _ _ bm) => [x hx|u v _ _]; last exact: (q u v).1.
  pose w : R := exp (al * x - exp x).
  have w0 : 0 <= w by apply/leRP; apply: Rlt_le; exact: exp_pos.
  have t0 : 0 <= (exp x * b)%coqR by apply/leRP; apply: Rmult_le_pos; [apply: Rlt_le; exact: exp_pos|exact/leRP].
  refine (psdk_ext _ (psdkZ w0 (psdk_gauss t0))) => u v _ _.
  rewrite -[LHS]/(exp (al * x - exp x) * exp (- (exp x * b * D u v)))%coqR /g -exp_plus; congr exp.
  by rewrite -[RHS]/(al * x - exp x * (1 + b * D u v))%coqR; ring.
refine (psdk_ext _ (psdkZ K0 P)) => u v _ _.
rewrite -[LHS]/(/ G * (G * Rpower (1 + b * D u v) (- al)))%coqR -Rmult_assoc Rinv_l; last exact: Rgt_not_eq.
exact: Rmult_1_l.
Qed.
End Mixtures.

Ltac natl := rewrite -?plusE -?minusE -?multE; lia.
(** ** The Matern polynomials are the reverse Bessel polynomials *)
Section Bessel.
Variable F : numFieldType.
Definition tt (p k : nat) : F := if (k <= p)%N then (p + k)`!%:R / (k`!%:R * (p - k)`!%:R) else 0.
Lemma tt0 p : tt p 0 = 1.
Proof. by rewrite /tt /= addn0 subn0 fact0 mul1r divff // fact_neq0. Qed.
Lemma ttS p k : tt p.+2 k.+1 = 2%:R * (2 * p + 3)%:R * tt p.+1 k + tt p k.+1.
Proof.
rewrite /tt; have Sne m : m.+1%:R != 0 :> F by rewrite pnatr_eq0.
have n0 := fact_neq0 F; have fS n : n.+1`!%:R = n.+1%:R * n`!%:R :> F by rewrite factS natrM.
have [kp|] := ltnP k p.
  have [m ->] : exists m, p = (k.+1 + m)%N by exists (p - k.+1)%N; rewrite subnKC.
  rewrite !ifT; try by rewrite ?ltnS -?addSn ?leq_addr // ltnW // ltnW // ltnS leq_addr.
  have -> : ((k.+1 + m).+2 - k.+1 = m.+2)%N by natl.
  have -> : ((k.+1 + m).+1 - k = m.+2)%N by natl.
  have -> : (k.+1 + m - k.+1 = m)%N by natl.
  have -> : ((k.+1 + m).+2 + k.+1 = (k + k + m).+4)%N by natl.
  have -> : ((k.+1 + m).+1 + k = (k + k + m).+2)%N by natl.
  have -> : (k.+1 + m + k.+1 = (k + k + m).+2)%N by natl.
  rewrite (fS (k + k + m).+3) (fS (k + k + m).+2) (fS m.+1) (fS m) (fS k).
  have := Sne k; have := Sne m; have := Sne m.+1; have := n0 k; have := n0 m; have := n0 (k + k + m).+2.
  have -> : (2 * (k.+1 + m) + 3)%:R = 2%:R * (k%:R + 1 + m%:R) + 3%:R :> F by rewrite natrD natrM natrD -(addn1 k) natrD.
  have -> : (k + k + m).+4%:R = k%:R + k%:R + m%:R + 4%:R :> F by rewrite -addn4 !natrD.
  have -> : (k + k + m).+3%:R = k%:R + k%:R + m%:R + 3%:R :> F by rewrite -addn3 !natrD.
  have -> : m.+2%:R = m%:R + 2%:R :> F by rewrite -addn2 natrD.
  have -> : m.+1%:R = m%:R + 1 :> F by rewrite -addn1 natrD.
  have -> : k.+1%:R = k%:R + 1 :> F by rewrite -addn1 natrD.
  move: (k%:R) (m%:R) ((k + k + m).+2`!%:R) (k`!%:R) (m`!%:R) => x y f g h f0 h0 g0 y2 y1 x1. mfield.
rewrite leq_eqVlt => /orP[/eqP <-|].
  have e1 : (p.+1 <= p.+2)%N = true by exact: leqnSn.
  have e2 : (p <= p.+1)%N = true by exact: leqnSn.
  rewrite e1 e2 addr0.
  have -> : (p.+2 - p.+1 = 1)%N by natl.
  have -> : (p.+1 - p = 1)%N by natl.
  have -> : (p.+2 + p.+1 = (2 * p + 3))%N by natl.
  have -> : (p.+1 + p = (2 * p).+1)%N by natl.
  rewrite addn3 (fS (2 * p).+2) (fS (2 * p).+1) (fS p).
  have -> : (2 * p).+2%:R = 2%:R * p.+1%:R :> F by rewrite -natrM; congr (_%:R); natl.
  have := Sne p; have := n0 p; have -> : 1`!%:R = 1 :> F by [].
  move: (p.+1%:R) (p`!%:R) ((2 * p).+1`!%:R) ((2 * p).+3%:R) => x f g y f0 x0; mfield.
rewrite leq_eqVlt => /orP[/eqP <-|pk].
  have e1 : (p.+2 <= p.+2)%N = true by exact: leqnn.
  have e2 : (p.+1 <= p.+1)%N = true by exact: leqnn.
  rewrite e1 e2 addr0.
  rewrite !subnn.
  have -> : (p.+2 + p.+2 = (2 * p).+4)%N by natl.
  have -> : (p.+1 + p.+1 = (2 * p).+2)%N by natl.
  rewrite addn3 (fS (2 * p).+3) (fS (2 * p).+2) (fS p.+1).
  have -> : (2 * p).+4%:R = 2%:R * p.+2%:R :> F by rewrite -natrM; congr (_%:R); natl.
  have := Sne p.+1; have := n0 p.+1; have -> : 0`!%:R = 1 :> F by [].
  move: (p.+2%:R) (p.+1`!%:R) ((2 * p).+2`!%:R) ((2 * p).+3%:R) => x f g y f0 x0; mfield.
have e1 : (k < p.+2)%N = false by apply/negbTE; rewrite -leqNgt.
have e2 : (k <= p.+1)%N = false by apply/negbTE; rewrite -ltnNge.
by rewrite e1 e2 mulr0 addr0.
Qed.
Definition bessel p (d : F) : F := \sum_(k < p.+1) tt p k * 2%:R ^+ (p - k) * d ^+ (p - k).
Lemma bessel_more p n d : bessel p d = \sum_(k < p.+1 + n) tt p k * 2%:R ^+ (p - k) * d ^+ (p - k).
Proof.
rewrite big_split_ord /= [X in _ + X]big1 ?addr0 // => k _.
by rewrite /tt ifF ?mul0r // leqNgt addSn ltnS leq_addr.
Qed.
Lemma bessel_rec p d : bessel p.+2 d = 2%:R * (2 * p + 3)%:R * bessel p.+1 d + 4%:R * d ^+ 2 * bessel p d.
Proof.
rewrite (bessel_more p 2) addn2 /bessel mulr_sumr mulr_sumr.
rewrite big_ord_recl [X in _ = _ + X]big_ord_recl /= !tt0 !subn0 addrCA; congr (_ + _).
  rewrite !exprS; move: (2%:R ^+ p) (d ^+ p) => a b; mring.
rewrite -big_split; apply: eq_bigr => k _; rewrite /bump /= ttS.
have [kp|kp] := ltnP k p.
  have -> : (p.+2 - (1 + k) = (p - (1 + k)).+2)%N by rewrite -!subSn // ltnW.
  have -> : (p.+1 - k = (p - (1 + k)).+2)%N by rewrite add1n -!subSn // ltnW.
  rewrite !exprS; move: (tt _ _) (tt _ _) (_ ^+ _) (d ^+ _) ((2 * p + 3)%:R) => a b x y z; mring.
have -> : tt p (1 + k) = 0 by rewrite /tt ifF // leqNgt ltnS kp.
by rewrite add1n subSS !(mul0r, mulr0, addr0) !mulrA.
Qed.
End Bessel.

Section Kernels.
Local Notation RR := [rcfType of R].
Implicit Types (i : seq nat) (ls : arr R).
Lemma bessel_theta p (d : R) : bessel p (d : RR) = 2%:R ^+ p * theta p d.
Proof.
have E0 : bessel 0 (d : RR) = 2%:R ^+ 0 * theta 0 d by rewrite /bessel big_ord1 tt0 !expr0 /theta /= !mul1r.
have E1 : bessel 1 (d : RR) = 2%:R ^+ 1 * theta 1 d.
  rewrite /bessel !big_ord_recl big_ord0 tt0; have -> : tt RR 1 (lift ord0 (ord0 : 'I_1)) = 2%:R by rewrite -[LHS]/(2%:R / (1%:R * 1%:R)) mulr1 divr1.
  rewrite -[(1 - @ord0 1)%N]/1%N -[(1 - _)%N in X in _ + X]/0%N !expr1 expr0.
  have -> : theta 1 d = 1 + d by [].
  have E (x : RR) : 1 * 2%:R * x + (2%:R * 1 * 1 + 0) = 2%:R * (1 + x) by mring.
  exact: E.
suff : bessel p (d : RR) = 2%:R ^+ p * theta p d /\ bessel p.+1 (d : RR) = 2%:R ^+ p.+1 * theta p.+1 d by case.
elim: p => [|p [h1 h2]]; split=> //; rewrite bessel_rec h1 h2.
have -> : theta p.+2 d = (2 * p + 3)%:R * theta p.+1 d + d ^+ 2 * theta p d.
  have e : (2 * INR p + 3)%coqR = (2 * p + 3)%:R by rewrite natRE -plusE -multE plus_INR mult_INR; simpl INR; ring.
  by rewrite theta_rec e powE.
rewrite !exprS; move: (theta p.+1 d) (theta p d) ((2 * p + 3)%:R) (2%:R ^+ p).
have E (x y z w : RR) : 2%:R * z * (2%:R * w * x) + 4%:R * (d * (d * 1)) * (w * y) = 2%:R * (2%:R * w) * (z * x + d * (d * 1) * y) by mring.
by move=> x y z w; exact: E.
Qed.
Lemma matern_theta p (d : R) : matern_fn (R := RR) exp p d = (p`!%:R / (2 * p)`!%:R * 2%:R ^+ p) * (theta p d * exp (- d)).
Proof.
have -> : matern_fn (R := RR) exp p d = exp (- d) * (p`!%:R / (2 * p)`!%:R) * bessel p (d : RR).
  rewrite /matern_fn /bessel; congr (_ * _); apply: eq_bigr => k _; by rewrite /tt -ltnS ltn_ord.
rewrite bessel_theta -!mulrA mulrC -!mulrA; congr (_ * (_ * _)); rewrite mulrA mulrC; congr (_ * _); exact: mulrC.
Qed.
Lemma psdk_matern i p a (b : R) (d : seq R -> seq R -> R) : 0 <= b -> (forall u v, 0 <= d u v) ->
  (forall u v, d u v ^+ 2 = b * feat i a u v) -> psdk i [::] ((fun u v _ _ => matern_fn (R := RR) exp p (d u v)) : kfun RR).
Proof.
move=> b0 d0 dE; have c0 : 0 <= p`!%:R / (2 * p)`!%:R * 2%:R ^+ p :> RR by rewrite mulr_ge0 ?divr_ge0 ?exprn_ge0 ?ler0n.
by refine (psdk_ext _ (psdkZ c0 (psdk_theta p b0 d0 dE))) => u v _ _; rewrite matern_theta.
Qed.
(** The distances. *)
Lemma sqf_feat i ls (u v : seq R) : sqf (R := RR) i ls u v = feat i (fun u j => ent (R := RR) i u j / len (R := RR) ls j) u v.
Proof. by apply: eq_bigr => j _; rewrite -expr_div_n mulrBl. Qed.

(** *** The theorems *)
Theorem C142_exp_quad i ls : psdk i [::] ((fun u v _ _ => exp (- (sqf (R := RR) i ls u v / 2%:R))%R) : kfun RR).
Proof.
have t0 : 0 <= 2%:R^-1 :> RR by rewrite invr_ge0 ler0n.
refine (psdk_ext _ (@psdk_gauss i (fun u j => ent (R := RR) i u j / len (R := RR) ls j) _ t0)) => u v _ _.
by rewrite sqf_feat; congr exp; rewrite -[LHS]/(- (2%:R^-1 * feat i (fun u j => ent (R := RR) i u j / len (R := RR) ls j) u v)) mulrC.
Qed.
Theorem C142_rat_quad i (l al : R) : 0 < l -> 0 < al ->
  psdk i [::] ((fun u v _ _ => Rpower (1 + (\sum_(j <- indices i) (ent (R := RR) i u j - ent i v j) ^+ 2) / (2%:R * al * l ^+ 2))%R (- al)%R) : kfun RR).
Proof.
move=> l0 al0; have b0 : 0 <= (2%:R * al * l ^+ 2)^-1 :> RR by rewrite invr_ge0 !mulr_ge0 ?ler0n ?exprn_ge0 // ltW.
refine (psdk_ext _ (@psdk_power i (fun u j => ent (R := RR) i u j) _ _ b0 al0)) => u v _ _.
congr (Rpower _ _); rewrite -[LHS]/(1 + (2%:R * al * l ^+ 2)^-1 * feat i (fun u j => ent (R := RR) i u j) u v) mulrC; reflexivity.
Qed.
Theorem C142_matern i p ls : psdk i [::]
  ((fun u v _ _ => matern_fn (R := RR) exp p (Num.sqrt (2%:R * (p%:R + 1 / 2%:R)) * Num.sqrt (sqf (R := RR) i ls u v))) : kfun RR).
Proof.
apply: (@psdk_matern i p (fun u j => ent (R := RR) i u j / len (R := RR) ls j) (2%:R * (p%:R + 1 / 2%:R))%R) => [|u v|u v].
- exact: (@nu_ge0 RR p).
- by rewrite mulr_ge0 ?sqrtr_ge0.
by rewrite exprMn !sqr_sqrtr ?sqf_feat //; [rewrite -sqf_feat; exact: sqf_ge0|exact: (@nu_ge0 RR p)].
Qed.
Lemma psdk_points i i' (f : kfun RR) h : (forall u, size u = prodn i -> size (h u) = prodn i') -> psdk i' [::] f ->
  psdk i [::] (fun u v p q => f (h u) (h v) p q).
Proof. by move=> hh hf n u p sz; apply: (hf n (fun r => h (u r)) p) => r rn; have [h1 h2] := sz r rn; split=> //; exact: hh. Qed.
Lemma psdk_prod i o n (f : nat -> kfun RR) : (forall k, (k < n)%N -> psdk i o (f k)) -> psdk i o (fun u v p q => \prod_(k < n) f k u v p q).
Proof.
elim: n => [|n IH] h; first by refine (psdk_ext _ (@psdkC _ i o _ ler01)) => *; rewrite big_ord0.
refine (psdk_ext _ (psdkM (IH _) (h n (ltnSn n)))) => [*|k kn]; first by rewrite big_ord_recr.
by apply: h; rewrite ltnW.
Qed.
Lemma psdk_unif p (l : R) : 0 < l -> psdk [::] [::] ((fun u v _ _ => unif (R := RR) exp p l (nth 0 u 0 - nth 0 v 0)) : kfun RR).
Proof.
move=> l0; rewrite /unif; apply: (@psdk_matern [::] p (fun u _ => nth 0 u 0) (2%:R * (p%:R + 1 / 2%:R) / l ^+ 2)%R) => [|u v|u v].
- by rewrite divr_ge0 ?exprn_ge0 ?(ltW l0) //; exact: (@nu_ge0 RR p).
- by rewrite mulr_ge0 ?sqrtr_ge0 // divr_ge0 // ltW.
rewrite /feat big_seq1 exprMn sqr_sqrtr; last exact: (@nu_ge0 RR p).
by rewrite expr_div_n real_normK ?num_real // mulrA mulrAC.
Qed.
Theorem C142_product_matern n ps (lens : seq R) : (forall d, (d < n.+1)%N -> 0 < nth 0 lens d) -> psdk [:: n.+1] [::]
  ((fun u v _ _ => \prod_(d < n.+1) unif (R := RR) exp (nth 0%N ps d) (nth 0 lens d) (nth 0 u d - nth 0 v d)) : kfun RR).
Proof.
move=> l0; apply: (psdk_prod (f := fun d u v _ _ => unif (R := RR) exp (nth 0%N ps d) (nth 0 lens d) (nth 0 u d - nth 0 v d))) => d dn.
exact: (@psdk_points [:: n.+1] [::] _ (fun u => [:: nth 0 u d]) _ (psdk_unif (nth 0%N ps d) (l0 d dn))).
Qed.

(** The kernels of the library, with the parameters their documentation asks for. *)
Inductive library i : kern RR -> Prop :=
| LLinear c : (size i <= 1)%N -> 0 <= c -> library i (Base i i [::] [::] (linear i c))
| LPolynomial c n : (size i <= 1)%N -> 0 <= c -> library i (Base i i [::] [::] (polynomial i c n))
| LWhiteNoise c : (size i <= 1)%N -> 0 <= c -> library i (Base i i [::] [::] (white_noise i c))
| LExpQuad ls : scales (R := RR) i ls -> library i (Base i i [::] [::] (exp_quad exp i ls))
| LRatQuad (l al : RR) : 0 < l -> 0 < al -> library i (Base i i [::] [::] (rat_quad Rpower i l al))
| LMatern p ls : scales (R := RR) i ls -> library i (Base i i [::] [::] (matern exp i p ls))
| LProductMatern n ps lens : i = [:: n.+1] -> (forall d, (d < n.+1)%N -> 0 < nth 0 lens d) ->
    library i (Base i i [::] [::] (product_matern exp i ps lens)).
Lemma library_psd i k : library i k -> exists ev f, [/\ k = Base i i [::] [::] ev, pointwise i i [::] [::] ev f & psdk i [::] f].
Proof.
case=> [c s1 c0|c n s1 c0|c s1 c0|ls sl|l al l0 al0|p ls sl|n ps lens -> l0].
- by exists (linear i c), (fun u v _ _ => dotf i u v + c); split=> //; [exact: C114_linear|exact: C115_linear].
- by exists (polynomial i c n), (fun u v _ _ => (dotf i u v + c) ^+ n); split=> //; [exact: C114_polynomial|exact: C115_polynomial].
- by exists (white_noise i c), (fun u v _ _ => if u == v then c else 0); split=> //; [exact: C114_white_noise|exact: C115_white_noise].
- eexists; eexists; split=> //; [apply: C114_exp_quad sl; exact: exp_0|exact: C142_exp_quad].
- eexists; eexists; split=> //; last exact: C142_rat_quad l0 al0.
  apply: C114_rat_quad => a; rewrite /Rpower -[ln 1]/(ln R1) ln_1 Rmult_0_r; exact: exp_0.
- by eexists; eexists; split=> //; [exact: C114_matern sl|exact: C142_matern].
by eexists; eexists; split=> //; [exact: C114_product_matern l0|exact: C142_product_matern l0].
Qed.
Lemma All_imp (P Q : kern RR -> Prop) l : (forall t, P t -> Q t) -> All P l -> All Q l.
Proof. by move=> h; elim: l => //= t l IH [h1 h2]; split; [exact: h|exact: IH]. Qed.
(** Covariance matrices of sums, products and non-negative multiples of these kernels are positive semi-definite. *)
Theorem C142_matrix i (e : expr RR) k x s : All (library i) (atoms e) -> all (>= 0) (scalars e) ->
  build e = Some k -> prodn i != 0%N -> wf x -> shp x = s ++ i ->
  exists M, [/\ matrix k x None = Some M, shp M = [:: prodn s; prodn s] & semi (prodn s) (fun r t => get 0 M [:: r; t])].
Proof.
move=> h1 h2 h3 i0 wx ex; pose den (k : kern RR) : kfun RR := if k is Base _ _ _ _ ev then single i i ev else fun _ _ _ _ => 0.
have U : All (fun k => user i i [::] [::] (den k) k) (atoms e).
  by apply: All_imp h1 => k' /library_psd [ev [f [-> pw _]]]; exact: user1 pw.
have P : All (fun k => psdk i [::] (den k)) (atoms e).
  apply: All_imp h1 => k' /library_psd [ev [f [-> pw pf]]] n u p sz.
  have [s1 q1] := pf n u p sz; have E r t : (r < n)%N -> (t < n)%N -> single i i ev (u r) (u t) (p r) (p t) = f (u r) (u t) (p r) (p t).
    by move=> /sz [su vp] /sz [sv vq]; rewrite (singleE pw).
  split=> [r t rn tn|c] /=; first by rewrite !E // s1.
  by rewrite (quad_eq (c' := c) (A' := fun r t => f (u r) (u t) (p r) (p t))) // => r t rn tn; rewrite E.
exact: (C115_matrix U P h2 h3 i0 wx ex).
Qed.
(** An example: [2 * ExpQuad((2,), 1/2) + Matern((2,), [1, 2], nu=3/2) * RatQuad((2,), 1, 3)]. *)
Example C142_example : let i := [:: 2%N] in
  let k1 : kern RR := Base i i [::] [::] (exp_quad exp i (Arr [::] [:: 1 / 2%:R])) in
  let k2 : kern RR := Base i i [::] [::] (matern exp i 1 (Arr [:: 2%N] [:: 1; 2%:R])) in
  let k3 : kern RR := Base i i [::] [::] (rat_quad Rpower i 1 3%:R) in
  exists k M, [/\ build (EAdd (EScale 2%:R (Atom k1)) (EMul (Atom k2) (Atom k3))) = Some k,
    matrix k (pts RR) None = Some M, shp M = [:: 2; 2]%N & semi 2 (fun r s => get 0 M [:: r; s])].
Proof.
move=> i k1 k2 k3; pose e := EAdd (EScale 2%:R (Atom k1)) (EMul (Atom k2) (Atom k3)).
have [x1 x2] := C114_example RR.
have L : All (library i) (atoms e).
  by split; [exact: LExpQuad x1|split; [exact: LMatern x2|split=> //; apply: LRatQuad; rewrite ?ltr01 ?ltr0n]].
have S : all (>= 0) (scalars e) by rewrite /= ler0n.
have U : All (fun k => user i i [::] [::] (if k is Base _ _ _ _ ev then single i i ev else fun _ _ _ _ => 0) k) (atoms e).
  by apply: All_imp L => k' /library_psd [ev [f [-> pw _]]]; exact: user1 pw.
have [k [h4 _ _]] := C29_call U.
have [M [h5 h6 h7]] := C142_matrix (x := pts RR) (s := [:: 2%N]) L S h4 isT isT erefl.
by exists k, M.
Qed.
End Kernels.
Print Assumptions C142_exp_quad.
Print Assumptions C142_rat_quad.
Print Assumptions C142_matern.
Print Assumptions C142_product_matern.
Print Assumptions C142_matrix.
