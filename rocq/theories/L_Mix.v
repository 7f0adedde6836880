(** Mixtures of Gaussians: the functions [theta p (sqrt z) * exp (- sqrt z)] with the reverse Bessel polynomials and
    powers [c ^ (- al)] as limits of integrals of exponential functions.  Real numbers of the standard library. *)
From Coq Require Import Reals Lra Lia Psatz.
From Coquelicot Require Import Coquelicot.
From Verif Require Import L_Int1.
Local Open Scope R_scope.

(** ** Integrals over the positive half line *)
Definition mix (g : R -> R) (l : R) : Prop :=
  exists v : nat -> R, (forall m, is_RInt g (/ INR (S m)) (INR (S m)) (v m)) /\ is_lim_seq v l.
Lemma bounds m : 0 < / INR (S m) <= INR (S m).
Proof.
assert (h : 1 <= INR (S m)) by (rewrite S_INR; pose proof (pos_INR m); lra).
split. apply Rinv_0_lt_compat; lra.
apply Rle_trans with 1; auto. rewrite <- Rinv_1. apply Rinv_le_contravar; lra.
Qed.
Lemma mix_anti (G g : R -> R) (l0 l1 : R) : (forall x, 0 < x -> is_derive G x (g x)) -> (forall x, 0 < x -> continuous g x) ->
  is_lim_seq (fun m => G (INR (S m))) l1 -> is_lim_seq (fun m => G (/ INR (S m))) l0 -> mix g (l1 - l0).
Proof.
intros dG cg h1 h0. exists (fun m => G (INR (S m)) - G (/ INR (S m))). split.
- intros m. pose proof (bounds m). apply (is_RInt_derive G g); intros x [hx _]; rewrite Rmin_left in hx by lra; [apply dG|apply cg]; lra.
- apply (is_lim_seq_minus' _ _ l1 l0); auto.
Qed.
Lemma mix_ext (f g : R -> R) (l : R) : (forall x, 0 < x -> f x = g x) -> mix f l -> mix g l.
Proof.
intros e [v [h1 h2]]; exists v; split; auto. intros m; pose proof (bounds m).
apply (is_RInt_ext (V := R_NormedModule) f); auto. intros x [hx _]; rewrite Rmin_left in hx by lra. apply e; lra.
Qed.
Lemma mix_plus f g l k : mix f l -> mix g k -> mix (fun x => f x + g x) (l + k).
Proof.
intros [v [h1 h2]] [w [h3 h4]]. exists (fun m => v m + w m). split.
- intros m; apply (is_RInt_plus (V := R_NormedModule)); auto.
- apply (is_lim_seq_plus' _ _ l k); auto.
Qed.
Lemma mix_scal c f l : mix f l -> mix (fun x => c * f x) (c * l).
Proof.
intros [v [h1 h2]]. exists (fun m => c * v m). split.
- intros m; apply (is_RInt_scal (V := R_NormedModule)); auto.
- apply (is_lim_seq_scal_l v c l); auto.
Qed.

Definition gm (z x : R) : R := exp (- (x ^ 2 / 4) - z / x ^ 2).
Lemma gm_cont z x : 0 < x -> continuous (gm z) x.
Proof. intros x0; apply (ex_derive_continuous (V := R_NormedModule)); unfold gm; auto_derive. assert (0 < x * (x * 1)) by nra; lra. Qed.
Lemma inv_lim : is_lim_seq (fun m => / INR (S m)) 0.
Proof.
apply (is_lim_seq_incr_1 (fun m => / INR m)). 
replace (Finite 0) with (Rbar_inv p_infty) by easy.
apply is_lim_seq_inv. apply is_lim_seq_INR. easy.
Qed.
Lemma nat_lim : is_lim_seq (fun m => INR (S m)) p_infty.
Proof. apply (is_lim_seq_incr_1 INR). apply is_lim_seq_INR. Qed.
Lemma bellI_p (u : nat -> R) : is_lim_seq u p_infty -> is_lim_seq (fun m => bellI (u m)) (sqrt PI / 2).
Proof. intros h. apply (filterlim_comp _ _ _ u bellI _ _ _ h). apply E_lim. Qed.
Lemma bellI_m (u : nat -> R) : is_lim_seq u m_infty -> is_lim_seq (fun m => bellI (u m)) (- (sqrt PI / 2)).
Proof. intros h. apply (filterlim_comp _ _ _ u bellI _ _ _ h). apply E_lim_m. Qed.
Lemma bellI_0 (u : nat -> R) : is_lim_seq u 0 -> is_lim_seq (fun m => bellI (u m)) 0.
Proof.
intros h. rewrite <- E_0. apply (is_lim_seq_continuous bellI u 0); auto.
apply continuity_pt_filterlim. apply (ex_derive_continuous (V := R_NormedModule)). eexists; apply E_derive.
Qed.

Lemma comp_derive (F u : R -> R) x f d : is_derive F (u x) f -> is_derive u x d -> is_derive (fun x => F (u x)) x (d * f).
Proof. intros h1 h2. apply (is_derive_comp F u x f d h1 h2). Qed.
(** The antiderivatives of [exp (- x^2 / 4 - r^2 / x^2)] and [r / x^2 * exp (- x^2 / 4 - r^2 / x^2)]. *)
Definition anti (r a b x : R) : R := a * exp r * bellI (x / 2 + r / x) + b * exp (- r) * bellI (x / 2 - r / x).
Lemma anti_derive r a b x : 0 < x ->
  is_derive (anti r a b) x ((a * (1 / 2 - r / x ^ 2) + b * (1 / 2 + r / x ^ 2)) * gm (r ^ 2) x).
Proof.
intros x0. unfold anti.
assert (D1 : is_derive (fun x => bellI (x / 2 + r / x)) x ((1 / 2 - r / x ^ 2) * bell (x / 2 + r / x))).
{ apply (comp_derive bellI (fun x => x / 2 + r / x)). apply E_derive. auto_derive. lra. field; lra. }
assert (D2 : is_derive (fun x => bellI (x / 2 - r / x)) x ((1 / 2 + r / x ^ 2) * bell (x / 2 - r / x))).
{ apply (comp_derive bellI (fun x => x / 2 - r / x)). apply E_derive. auto_derive. lra. field; lra. }
evar_last. apply (is_derive_plus (V := R_NormedModule)).
apply (is_derive_scal (fun x => bellI (x / 2 + r / x)) x (a * exp r) _ D1).
apply (is_derive_scal (fun x => bellI (x / 2 - r / x)) x (b * exp (- r)) _ D2).
assert (e1 : exp r * bell (x / 2 + r / x) = gm (r ^ 2) x) by (unfold bell, gm; rewrite <- exp_plus; f_equal; field; lra).
assert (e2 : exp (- r) * bell (x / 2 - r / x) = gm (r ^ 2) x) by (unfold bell, gm; rewrite <- exp_plus; f_equal; field; lra).
eqr. unfold plus; simpl.
transitivity (a * (1 / 2 - r / x ^ 2) * (exp r * bell (x / 2 + r / x)) + b * (1 / 2 + r / x ^ 2) * (exp (- r) * bell (x / 2 - r / x))).
simpl; ring. rewrite e1, e2. simpl; ring.
Qed.
Lemma lin_p s : is_lim_seq (fun m => INR (S m) / 2 + s / INR (S m)) p_infty.
Proof.
apply (is_lim_seq_plus (fun m => INR (S m) / 2) (fun m => s / INR (S m)) p_infty 0).
- apply is_lim_seq_p_infty_Reals. intros M. destruct (proj1 (is_lim_seq_p_infty_Reals _) nat_lim (2 * M)) as [N h].
  exists N; intros n hn. specialize (h n hn). lra.
- replace (Finite 0) with (Rbar_mult s 0) by (simpl; f_equal; ring). apply is_lim_seq_scal_l, inv_lim.
- easy.
Qed.
Lemma inv_p r s : 0 < r -> is_lim_seq (fun m => s * / INR (S m) + r * INR (S m)) p_infty.
Proof.
intros r0. apply (is_lim_seq_plus (fun m => s * / INR (S m)) (fun m => r * INR (S m)) 0 p_infty).
- replace (Finite 0) with (Rbar_mult s 0) by (simpl; f_equal; ring). apply is_lim_seq_scal_l, inv_lim.
- apply is_lim_seq_p_infty_Reals. intros M. destruct (proj1 (is_lim_seq_p_infty_Reals _) nat_lim (M / r)) as [N h].
  exists N; intros n hn. specialize (h n hn). apply (Rmult_lt_compat_l r) in h; auto. replace (r * (M / r)) with M in h by (field; lra). lra.
- easy.
Qed.
Lemma anti_lim1 r a b : is_lim_seq (fun m => anti r a b (INR (S m))) (sqrt PI / 2 * (a * exp r + b * exp (- r))).
Proof.
replace (sqrt PI / 2 * (a * exp r + b * exp (- r))) with (a * exp r * (sqrt PI / 2) + b * exp (- r) * (sqrt PI / 2)) by ring.
apply is_lim_seq_plus'.
- apply (is_lim_seq_scal_l (fun m => bellI (INR (S m) / 2 + r / INR (S m))) (a * exp r) (sqrt PI / 2)). apply bellI_p, lin_p.
- apply (is_lim_seq_scal_l (fun m => bellI (INR (S m) / 2 - r / INR (S m))) (b * exp (- r)) (sqrt PI / 2)). apply bellI_p.
  apply (is_lim_seq_ext (fun m => INR (S m) / 2 + (- r) / INR (S m))). 2: apply lin_p.
  intros m; pose proof (bounds m). field. lra.
Qed.
Lemma anti_lim0 r a b : 0 < r -> is_lim_seq (fun m => anti r a b (/ INR (S m))) (sqrt PI / 2 * (a * exp r - b * exp (- r))).
Proof.
intros r0.
replace (sqrt PI / 2 * (a * exp r - b * exp (- r))) with (a * exp r * (sqrt PI / 2) + b * exp (- r) * (- (sqrt PI / 2))) by ring.
apply is_lim_seq_plus'.
- apply (is_lim_seq_scal_l (fun m => bellI (/ INR (S m) / 2 + r / / INR (S m))) (a * exp r) (sqrt PI / 2)). apply bellI_p.
  apply (is_lim_seq_ext (fun m => / 2 * / INR (S m) + r * INR (S m))). 2: now apply inv_p.
  intros m; pose proof (bounds m). field. lra.
- apply (is_lim_seq_scal_l (fun m => bellI (/ INR (S m) / 2 - r / / INR (S m))) (b * exp (- r)) (- (sqrt PI / 2))).
  apply bellI_m.
  apply (is_lim_seq_ext (fun m => - (- / 2 * / INR (S m) + r * INR (S m)))).
  intros m; pose proof (bounds m). field. lra.
  apply (is_lim_seq_opp _ p_infty). now apply inv_p.
Qed.
Lemma anti_lim00 a b : is_lim_seq (fun m => anti 0 a b (/ INR (S m))) 0.
Proof.
replace (Finite 0) with (Finite (a * exp 0 * 0 + b * exp (- 0) * 0)) by (f_equal; ring).
assert (h : is_lim_seq (fun m => / INR (S m) / 2) 0).
{ replace (Finite 0) with (Rbar_mult 0 (/ 2)) by (simpl; f_equal; ring). apply (is_lim_seq_scal_r (fun m => / INR (S m)) (/ 2)), inv_lim. }
apply is_lim_seq_plus'.
- apply (is_lim_seq_scal_l (fun m => bellI (/ INR (S m) / 2 + 0 / / INR (S m))) (a * exp 0) 0). apply bellI_0.
  refine (is_lim_seq_ext _ _ _ _ h). intros m; pose proof (bounds m). field. lra.
- apply (is_lim_seq_scal_l (fun m => bellI (/ INR (S m) / 2 - 0 / / INR (S m))) (b * exp (- 0)) 0). apply bellI_0.
  refine (is_lim_seq_ext _ _ _ _ h). intros m; pose proof (bounds m). field. lra.
Qed.
Lemma mix_0 r : 0 <= r -> mix (gm (r ^ 2)) (sqrt PI * exp (- r)).
Proof.
intros r0.
assert (D : forall x, 0 < x -> is_derive (anti r 1 1) x (gm (r ^ 2) x)).
{ intros x x0. evar_last. apply anti_derive; auto. eqr. field. lra. }
assert (C : forall x, 0 < x -> continuous (gm (r ^ 2)) x) by (intros; now apply gm_cont).
destruct (Rle_lt_or_eq_dec _ _ r0) as [r1|<-].
- replace (sqrt PI * exp (- r)) with (sqrt PI / 2 * (1 * exp r + 1 * exp (- r)) - sqrt PI / 2 * (1 * exp r - 1 * exp (- r))) by field.
  apply (mix_anti (anti r 1 1)); auto. apply anti_lim1. now apply anti_lim0.
- replace (sqrt PI * exp (- 0)) with (sqrt PI / 2 * (1 * exp 0 + 1 * exp (- 0)) - 0) by (rewrite Ropp_0, exp_0; field).
  apply (mix_anti (anti 0 1 1)); auto. apply anti_lim1. now apply anti_lim00.
Qed.
Lemma mix_inv r : 0 <= r -> mix (fun x => r ^ 2 / x ^ 2 * gm (r ^ 2) x) (r * (sqrt PI / 2 * exp (- r))).
Proof.
intros r0.
assert (D : forall x, 0 < x -> is_derive (anti r (- (1 / 2)) (1 / 2)) x (r / x ^ 2 * gm (r ^ 2) x)).
{ intros x x0. evar_last. apply anti_derive; auto. eqr. field. lra. }
assert (C : forall x, 0 < x -> continuous (fun x => r / x ^ 2 * gm (r ^ 2) x) x).
{ intros x x0; apply (ex_derive_continuous (V := R_NormedModule)); unfold gm; auto_derive. simpl. assert (0 < x * (x * 1)) by nra; repeat split; lra. }
apply (mix_ext (fun x => r * (r / x ^ 2 * gm (r ^ 2) x))). intros x x0; field; lra.
destruct (Rle_lt_or_eq_dec _ _ r0) as [r1|<-].
- apply mix_scal.
  replace (sqrt PI / 2 * exp (- r)) with (sqrt PI / 2 * (- (1 / 2) * exp r + 1 / 2 * exp (- r)) - sqrt PI / 2 * (- (1 / 2) * exp r - 1 / 2 * exp (- r))) by field.
  apply (mix_anti (anti r (- (1 / 2)) (1 / 2))); auto. apply anti_lim1. now apply anti_lim0.
- exists (fun _ => 0); split. 2: rewrite Rmult_0_l; apply is_lim_seq_const.
  intros m. apply (is_RInt_ext (V := R_NormedModule) (fun _ => 0)). intros; eqr; ring.
  evar_last. apply (is_RInt_const (V := R_NormedModule)). eqr. unfold scal; simpl; unfold mult; simpl; ring.
Qed.

(** Integration by parts. *)
Lemma pow_gm_lim p z : 0 <= z -> is_lim_seq (fun m => INR (S m) ^ S p * gm z (INR (S m))) 0.
Proof.
intros z0. set (k := 4 * INR (S p)). assert (k0 : 0 < k) by (unfold k; rewrite S_INR; pose proof (pos_INR p); lra).
assert (B : forall x, 0 < x -> 0 <= x ^ S p * gm z x <= (k * / x) ^ S p).
{ intros x x0. split. apply Rmult_le_pos. apply pow_le; lra. left; apply exp_pos.
  apply Rle_trans with ((x * exp (- (x ^ 2 / k))) ^ S p).
  - rewrite Rpow_mult_distr. apply Rmult_le_compat_l. apply pow_le; lra.
    unfold gm. assert (e : forall y n, exp y ^ n = exp (INR n * y)).
    { intros y n; induction n. simpl; now rewrite Rmult_0_l, exp_0. rewrite S_INR, Rmult_plus_distr_r, exp_plus, <- IHn, Rmult_1_l. simpl; ring. }
    rewrite e. assert (h : - (x ^ 2 / 4) - z / x ^ 2 <= INR (S p) * - (x ^ 2 / k)).
    { replace (INR (S p) * - (x ^ 2 / k)) with (- (x ^ 2 / 4)) by (unfold k; field; rewrite S_INR; pose proof (pos_INR p); lra).
      assert (0 <= z / x ^ 2). apply Rmult_le_pos; auto. left; apply Rinv_0_lt_compat, pow_lt; auto. lra. }
    destruct (Rle_lt_or_eq_dec _ _ h) as [h1|h1]. left; now apply exp_increasing. rewrite h1; lra.
  - apply pow_incr. split. apply Rmult_le_pos. lra. left; apply exp_pos.
    rewrite exp_Ropp. pose proof (exp_ineq1_le (x ^ 2 / k)).
    assert (q : 0 < x ^ 2 / k) by (apply Rdiv_lt_0_compat; auto; apply pow_lt; auto).
    apply Rle_trans with (x * / (x ^ 2 / k)).
    apply Rmult_le_compat_l. lra. apply Rinv_le_contravar; lra.
    right; field; split; lra. }
apply (is_lim_seq_le_le (fun _ => 0) _ (fun m => (k * / INR (S m)) ^ S p)).
- intros m; pose proof (bounds m). apply B. apply Rlt_le_trans with (/ INR (S m)); tauto.
- apply is_lim_seq_const.
- assert (h : is_lim_seq (fun m => k * / INR (S m)) 0).
  { replace (Finite 0) with (Rbar_mult k 0) by (simpl; f_equal; ring). apply is_lim_seq_scal_l, inv_lim. }
  assert (q : forall n, is_lim_seq (fun m => (k * / INR (S m)) ^ S n) 0).
  { induction n. refine (is_lim_seq_ext _ _ _ _ h). intros; now rewrite pow_1.
    replace (Finite 0) with (Finite (0 * 0)) by (f_equal; ring). apply (is_lim_seq_mult' _ _ 0 0 h IHn). }
  apply q.
Qed.
Lemma pow_gm_lim0 p z : 0 <= z -> is_lim_seq (fun m => (/ INR (S m)) ^ S p * gm z (/ INR (S m))) 0.
Proof.
intros z0. apply (is_lim_seq_le_le (fun _ => 0) _ (fun m => / INR (S m))).
- intros m; pose proof (bounds m) as [b1 b2]. assert (b3 : / INR (S m) <= 1).
  { rewrite <- Rinv_1. apply Rinv_le_contravar. lra. rewrite S_INR; pose proof (pos_INR m); lra. }
  set (x := / INR (S m)) in *. split. apply Rmult_le_pos. apply pow_le; lra. left; apply exp_pos.
  assert (g1 : gm z x <= 1).
  { unfold gm. rewrite <- exp_0. assert (0 <= z / x ^ 2). apply Rmult_le_pos; auto. left; apply Rinv_0_lt_compat, pow_lt; auto.
    assert (0 < x ^ 2) by (apply pow_lt; auto). left. apply exp_increasing. lra. }
  assert (g2 : 0 < gm z x) by apply exp_pos.
  assert (x ^ p <= 1) by (rewrite <- (pow1 p); apply pow_incr; lra). assert (0 <= x ^ p) by (apply pow_le; lra).
  simpl. rewrite Rmult_assoc. assert (x ^ p * gm z x <= 1) by nra. nra.
- apply is_lim_seq_const.
- apply inv_lim.
Qed.
Lemma mix_parts p z : 0 <= z ->
  mix (fun x => x ^ (2 * p) * ((2 * INR p + 1) - x ^ 2 / 2 + 2 * z / x ^ 2) * gm z x) 0.
Proof.
intros z0. replace 0 with (0 - 0) by ring. assert (qE : INR (2 * p) = 2 * INR p) by (rewrite mult_INR; simpl; ring).
revert qE; generalize (2 * p)%nat; intros q qE. rewrite <- qE.
apply (mix_anti (fun x => x ^ (S q) * gm z x)).
- intros x x0. unfold gm. auto_derive. assert (0 < x * (x * 1)) by nra; lra.
  change (match q with 0%nat => 1 | S _ => INR q + 1 end) with (INR (S q)). rewrite S_INR.
  replace (- (x * (x * 1) * / 4) + - (z * / (x * (x * 1)))) with (- (x ^ 2 / 4) - z / x ^ 2) by (field; lra). field. lra.
- intros x x0; apply (ex_derive_continuous (V := R_NormedModule)); unfold gm; auto_derive. simpl. assert (0 < x * (x * 1)) by nra; repeat split; lra.
- now apply pow_gm_lim.
- now apply pow_gm_lim0.
Qed.

(** The reverse Bessel polynomials. *)
Fixpoint theta2 (p : nat) (r : R) : R * R :=
  match p with O => (1, 1 + r) | S q => let t := theta2 q r in (snd t, (2 * INR q + 3) * snd t + r ^ 2 * fst t) end.
Definition theta p r := fst (theta2 p r).
Lemma theta_rec p r : theta (S (S p)) r = (2 * INR p + 3) * theta (S p) r + r ^ 2 * theta p r.
Proof. reflexivity. Qed.
Theorem mix_theta p r : 0 <= r -> mix (fun x => x ^ (2 * p) * gm (r ^ 2) x) (sqrt PI * 2 ^ p * theta p r * exp (- r)).
Proof.
intros r0. assert (z0 : 0 <= r ^ 2) by nra.
cut (mix (fun x => x ^ (2 * p) * gm (r ^ 2) x) (sqrt PI * 2 ^ p * theta p r * exp (- r)) /\
     mix (fun x => x ^ (2 * S p) * gm (r ^ 2) x) (sqrt PI * 2 ^ S p * theta (S p) r * exp (- r))). tauto.
induction p as [|p [IH1 IH2]].
- split.
  + apply (mix_ext (gm (r ^ 2))). intros; simpl; ring. replace (sqrt PI * 2 ^ 0 * theta 0 r * exp (- r)) with (sqrt PI * exp (- r)) by (unfold theta; simpl; ring).
    now apply mix_0.
  + pose proof (mix_plus _ _ _ _ (mix_scal 2 _ _ (mix_0 r r0)) (mix_plus _ _ _ _ (mix_scal 4 _ _ (mix_inv r r0)) (mix_scal (- 2) _ _ (mix_parts 0 _ z0)))) as h.
    refine (mix_ext _ _ _ _ (eq_rect _ (mix _) h _ _)).
    * intros x x0. simpl. field. lra.
    * unfold theta; simpl. field.
- split; auto.
  pose proof (mix_plus _ _ _ _ (mix_scal (2 * (2 * INR (S p) + 1)) _ _ IH2) (mix_plus _ _ _ _ (mix_scal (4 * r ^ 2) _ _ IH1) (mix_scal (- 2) _ _ (mix_parts (S p) _ z0)))) as h.
  refine (mix_ext _ _ _ _ (eq_rect _ (mix _) h _ _)).
  * intros x x0. replace (2 * S (S p))%nat with (2 + (2 + 2 * p))%nat by lia. replace (2 * S p)%nat with (2 + 2 * p)%nat by lia.
    rewrite !pow_add. field. lra.
  * rewrite theta_rec, S_INR. simpl pow. ring.
Qed.

(** ** Powers with negative exponents *)
Section Power.
Variable al : R.
Hypothesis al0 : 0 < al.
Definition gam (x : R) : R := exp (al * x - exp x).
Definition gamI (x : R) : R := RInt gam 0 x.
Lemma gam_cont x : continuous gam x.
Proof. apply (ex_derive_continuous (V := R_NormedModule)); unfold gam; auto_derive; exact I. Qed.
Lemma gam_int a b : ex_RInt gam a b.
Proof. apply (ex_RInt_continuous (V := R_CompleteNormedModule)); intros; apply gam_cont. Qed.
Lemma gamI_derive x : is_derive gamI x (gam x).
Proof.
apply (is_derive_RInt (V := R_NormedModule) gam gamI 0 x). 2: apply gam_cont.
exists (mkposreal 1 Rlt_0_1); intros y _. apply (RInt_correct (V := R_CompleteNormedModule)), gam_int.
Qed.
Lemma gamI_incr x y : x < y -> gamI x < gamI y.
Proof.
intros xy. apply (incr_function_le gamI x y (fun t => gam t)); simpl; try lra.
- intros; apply gamI_derive.
- intros; apply exp_pos.
Qed.
Lemma gamI_le x y : x <= y -> gamI x <= gamI y.
Proof. intros [h|<-]. left; now apply gamI_incr. lra. Qed.
Lemma gamI_diff x y : gamI y - gamI x = RInt gam x y.
Proof.
symmetry; apply is_RInt_unique. apply (is_RInt_derive gamI gam); intros. apply gamI_derive. apply gam_cont.
Qed.
Lemma gamI_0 : gamI 0 = 0. Proof. unfold gamI; now rewrite RInt_point. Qed.
Lemma gamI_up x : 0 <= x -> gamI x <= exp ((al + 1) ^ 2).
Proof.
intros x0. set (C := (al + 1) ^ 2). unfold gamI.
assert (D : is_RInt (fun t => exp (C - t)) 0 x (- exp (C - x) - - exp (C - 0))).
{ apply (is_RInt_derive (fun t => - exp (C - t))); intros t _. auto_derive; auto. eqr; unfold Rminus; ring.
  apply (ex_derive_continuous (V := R_NormedModule)); auto_derive; exact I. }
apply Rle_trans with (- exp (C - x) - - exp (C - 0)). 2: rewrite Rminus_0_r; pose proof (exp_pos (C - x)); lra.
rewrite <- (is_RInt_unique _ _ _ _ D). apply RInt_le; auto. apply gam_int. eexists; apply D.
intros t [t0 _]. unfold gam. assert (h : al * t - exp t <= C - t).
{ assert (t ^ 2 / 4 <= exp t).
  { assert (E : exp t = exp (t / 2) * exp (t / 2)) by (rewrite <- exp_plus; f_equal; field).
    pose proof (exp_ineq1_le (t / 2)). rewrite E. nra. }
  unfold C. pose proof (pow2_ge_0 (t / 2 - (al + 1))). nra. }
destruct h as [h|h]. left; now apply exp_increasing. rewrite h; lra.
Qed.
Lemma gamI_low x : x <= 0 -> - / al <= gamI x.
Proof.
intros x0.
assert (D : is_RInt (fun t => exp (al * t)) x 0 (exp (al * 0) / al - exp (al * x) / al)).
{ apply (is_RInt_derive (fun t => exp (al * t) / al)); intros t _. auto_derive; auto. eqr; field; lra.
  apply (ex_derive_continuous (V := R_NormedModule)); auto_derive; exact I. }
assert (h : RInt gam x 0 <= RInt (fun t => exp (al * t)) x 0).
{ apply RInt_le; auto. apply gam_int. eexists; apply D. intros t _. left; apply exp_increasing. pose proof (exp_pos t). lra. }
rewrite (is_RInt_unique _ _ _ _ D), <- gamI_diff, gamI_0, Rmult_0_r, exp_0 in h.
assert (0 < exp (al * x) / al) by (apply Rdiv_lt_0_compat; auto; apply exp_pos). unfold Rdiv in *. lra.
Qed.
(** A bounded increasing function has limits. *)
Lemma incr_lim (H : R -> R) C : (forall x y, x <= y -> H x <= H y) -> (forall x, 0 <= x -> H x <= C) ->
  exists l, filterlim H (Rbar_locally p_infty) (locally l) /\ forall x, H x <= l.
Proof.
intros inc bd.
assert (h : ex_finite_lim_seq (fun m => H (INR m))).
{ apply (ex_finite_lim_seq_incr _ C). intros; apply inc. rewrite S_INR; lra. intros; apply bd, pos_INR. }
destruct h as [l hl]. exists l.
assert (up : forall x, H x <= l).
{ intros x. destruct (proj1 (is_lim_seq_p_infty_Reals _) is_lim_seq_INR x) as [N hN]. specialize (hN N (Nat.le_refl N)). apply Rle_trans with (H (INR N)). apply inc; lra.
  apply (is_lim_seq_incr_compare _ l hl). intros; apply inc. rewrite S_INR; lra. }
split; auto. apply filterlim_locally; intros e.
destruct (proj2 (is_lim_seq_spec _ _) hl e) as [N hN]. exists (INR N). intros x hx.
specialize (hN N (Nat.le_refl N)). apply Rabs_lt_between in hN. simpl in hN.
apply Rabs_lt_between. change (minus (H x) l) with (H x - l). pose proof (up x). pose proof (inc _ _ (Rlt_le _ _ hx)). lra.
Qed.
Lemma gamI_lims : exists lp lm, 0 < lp - lm /\ filterlim gamI (Rbar_locally p_infty) (locally lp) /\
  filterlim gamI (Rbar_locally m_infty) (locally lm).
Proof.
destruct (incr_lim gamI _ gamI_le gamI_up) as [lp [h1 h2]].
destruct (incr_lim (fun x => - gamI (- x)) (/ al)) as [lm [h3 h4]].
{ intros x y xy. apply Ropp_le_contravar, gamI_le. lra. }
{ intros x x0. pose proof (gamI_low (- x)). lra. }
exists lp, (- lm). split; [|split]; auto.
- pose proof (h2 1). pose proof (h4 0). pose proof (gamI_incr 0 1). rewrite Ropp_0 in *. lra.
- apply (filterlim_ext (fun x => opp (- gamI (- (- x))))).
  { intros x. change (- - gamI (- - x) = gamI x). now rewrite !Ropp_involutive. }
  apply (filterlim_comp _ _ _ (fun x => - gamI (- (- x))) opp _ (locally lm)).
  + apply (filterlim_comp _ _ _ Ropp (fun x => - gamI (- x)) _ (Rbar_locally p_infty)); auto. apply (filterlim_Rbar_opp m_infty).
  + apply (filterlim_opp (K := R_AbsRing) (V := R_NormedModule) lm).
Qed.
Theorem mix_power : exists G, 0 < G /\ forall c, 0 < c ->
  exists v : nat -> R, (forall m, is_RInt (fun x => exp (al * x - exp x * c)) (- INR m) (INR m) (v m)) /\ is_lim_seq v (G * Rpower c (- al)).
Proof.
destruct gamI_lims as [lp [lm [h0 [h1 h2]]]]. exists (lp - lm); split; auto. intros c c0.
set (d := ln c). set (K := Rpower c (- al)).
exists (fun m => (gamI (INR m + d) - gamI (- INR m + d)) * K). split.
- intros m.
  assert (D : forall x, is_derive (fun x => gamI (x + d) * K) x (exp (al * x - exp x * c))).
  { intros x. evar_last. apply (is_derive_scal_l (V := R_NormedModule) (fun x => gamI (x + d))).
    apply (comp_derive gamI (fun x => x + d)). apply gamI_derive. auto_derive; auto.
    eqr. change (1 * gam (x + d) * K = exp (al * x - exp x * c)). rewrite Rmult_1_l. unfold gam, K, Rpower.
    rewrite <- exp_plus. f_equal. unfold d. rewrite exp_plus, exp_ln by auto. ring. }
  replace ((gamI (INR m + d) - gamI (- INR m + d)) * K) with (gamI (INR m + d) * K - gamI (- INR m + d) * K) by ring.
  apply (is_RInt_derive (fun x => gamI (x + d) * K)); intros x _; auto.
  apply (ex_derive_continuous (V := R_NormedModule)); auto_derive; exact I.
- apply (is_lim_seq_scal_r _ K (lp - lm)). apply is_lim_seq_minus'.
  + apply (filterlim_comp _ _ _ (fun m => INR m + d) gamI _ (Rbar_locally p_infty)); auto.
    apply (is_lim_seq_plus _ _ p_infty d). apply is_lim_seq_INR. apply is_lim_seq_const. easy.
  + apply (filterlim_comp _ _ _ (fun m => - INR m + d) gamI _ (Rbar_locally m_infty)); auto.
    apply (is_lim_seq_plus _ _ m_infty d). apply (is_lim_seq_opp _ p_infty), is_lim_seq_INR. apply is_lim_seq_const. easy.
Qed.
End Power.
