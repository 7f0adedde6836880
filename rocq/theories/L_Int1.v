(** One-dimensional integrals: the Matern polynomials, the error function and the integral of the bell curve. *)
From Coq Require Import Reals Lra Psatz.
From Coquelicot Require Import Coquelicot.
Local Open Scope R_scope.
Ltac eqr := match goal with |- ?a = ?b => change (@eq R a b) end.

(** Antiderivatives give integrals. *)
Lemma is_RInt_anti (F f : R -> R) a b : (forall x, is_derive F x (f x)) -> (forall x, continuous f x) ->
  is_RInt f a b (F b - F a).
Proof. intros dF cf; apply (is_RInt_derive F f); intros; auto. Qed.

Definition pol (p : nat) (u : R) : R :=
  match p with 0%nat => 1 | 1%nat => 1 + u | 2%nat => 1 + u + u ^ 2 / 3 | _ => 1 + u + 2 * u ^ 2 / 5 + u ^ 3 / 15 end.
(** The first and the second antiderivative of [pol p u * exp (- u)]. *)
Definition polG (p : nat) (u : R) : R :=
  match p with
  | 0%nat => 1 - exp (- u)
  | 1%nat => 2 - (2 + u) * exp (- u)
  | 2%nat => 8 / 3 - (8 / 3 + 5 * u / 3 + u ^ 2 / 3) * exp (- u)
  | _ => 16 / 5 - (16 / 5 + 11 * u / 5 + 3 * u ^ 2 / 5 + u ^ 3 / 15) * exp (- u)
  end.
Definition polH (p : nat) (u : R) : R :=
  match p with
  | 0%nat => u - 1 + exp (- u)
  | 1%nat => 2 * u - 3 + (3 + u) * exp (- u)
  | 2%nat => 8 * u / 3 - 5 + (5 + 7 * u / 3 + u ^ 2 / 3) * exp (- u)
  | _ => 16 * u / 5 - 7 + (7 + 19 * u / 5 + 4 * u ^ 2 / 5 + u ^ 3 / 15) * exp (- u)
  end.
Lemma G_derive p u : is_derive (polG p) u (pol p u * exp (- u)).
Proof. unfold polG, pol; destruct p as [|[|[|p]]]; (auto_derive; [tauto|field]). Qed.
Lemma H_derive p u : is_derive (polH p) u (polG p u).
Proof. unfold polG, polH; destruct p as [|[|[|p]]]; (auto_derive; [tauto|field]). Qed.
Lemma pol_cont p u : continuous (fun u => pol p u * exp (- u)) u.
Proof.
apply (ex_derive_continuous (V := R_NormedModule)).
unfold pol; destruct p as [|[|[|p]]]; auto_derive; tauto.
Qed.
Lemma G_cont p u : continuous (polG p) u.
Proof. apply (ex_derive_continuous (V := R_NormedModule)); eexists; apply G_derive. Qed.
Lemma G0 p : polG p 0 = 0.
Proof. unfold polG; destruct p as [|[|[|p]]]; rewrite Ropp_0, exp_0; field. Qed.
Lemma H0 p : polH p 0 = 0.
Proof. unfold polH; destruct p as [|[|[|p]]]; rewrite Ropp_0, exp_0; field. Qed.

(** The radial function of the Matern kernel with scale [m] and its integrals over an interval. *)
Definition rad (p : nat) (m d : R) : R := pol p (d / m) * exp (- (d / m)).
Lemma comp_lin_derive (F f : R -> R) (c d : R) : (forall x, is_derive F x (f x)) ->
  forall x, is_derive (fun t => F (c * t + d)) x (c * f (c * x + d)).
Proof.
intros dF x. evar_last. apply (is_derive_comp F (fun t => c * t + d)). apply dF.
instantiate (1 := c). auto_derive; [exact I|ring]. unfold scal; simpl; unfold mult; simpl; ring.
Qed.
Lemma comp_lin_cont (f : R -> R) (c d : R) : (forall x, continuous f x) -> forall x, continuous (fun t => f (c * t + d)) x.
Proof.
intros cf x. apply (continuous_comp (fun t => c * t + d) f). 2: apply cf.
apply (ex_derive_continuous (V := R_NormedModule)); auto_derive; exact I.
Qed.
Lemma scale_cont (f : R -> R) c x : continuous f x -> continuous (fun t => c * f t) x.
Proof. intros cf; apply (continuous_scal_r (V := R_NormedModule) c f x cf). Qed.

Lemma rad_right p m x b : 0 < m -> x <= b -> is_RInt (fun t => rad p m (Rabs (t - x))) x b (m * polG p ((b - x) / m)).
Proof.
intros m0 xb. apply (is_RInt_ext (fun t => pol p (/ m * t + - x / m) * exp (- (/ m * t + - x / m)))).
{ intros t [t1 t2]. rewrite Rmin_left in t1 by easy. rewrite Rmax_right in t2 by easy. unfold rad.
  rewrite Rabs_pos_eq by lra. replace ((t - x) / m) with (/ m * t + - x / m) by (field; lra). reflexivity. }
replace (m * polG p ((b - x) / m)) with (m * polG p (/ m * b + - x / m) - m * polG p (/ m * x + - x / m)).
{ apply (is_RInt_anti (fun t => m * polG p (/ m * t + - x / m))).
  - intros t. replace (pol p (/ m * t + - x / m) * exp (- (/ m * t + - x / m))) with
      (m * (/ m * (pol p (/ m * t + - x / m) * exp (- (/ m * t + - x / m))))) by (field; lra).
    apply (is_derive_scal (fun t => polG p (/ m * t + - x / m))). apply (comp_lin_derive (polG p) (fun u => pol p u * exp (- u))). apply G_derive.
  - apply (comp_lin_cont (fun u => pol p u * exp (- u))), pol_cont. }
replace (/ m * x + - x / m) with 0 by (field; lra). rewrite G0.
replace (/ m * b + - x / m) with ((b - x) / m) by (field; lra). ring.
Qed.
Lemma rad_left p m a x : 0 < m -> a <= x -> is_RInt (fun t => rad p m (Rabs (t - x))) a x (m * polG p ((x - a) / m)).
Proof.
intros m0 ax.
rewrite <- (opp_opp (m * polG p ((x - a) / m))).
apply is_RInt_ext with (f := fun t => opp (opp (rad p m (Rabs (- t - - x))))).
{ intros t _. rewrite opp_opp. f_equal. rewrite <- (Rabs_Ropp (t - x)). f_equal. ring. }
apply (is_RInt_opp (V := R_NormedModule) (fun t => opp (rad p m (Rabs (- t - - x))))).
apply (is_RInt_comp_opp (V := R_NormedModule) (fun s => rad p m (Rabs (s - - x)))).
apply (is_RInt_swap (V := R_NormedModule)). replace (x - a) with (- a - - x) by ring. apply rad_right; lra.
Qed.
Lemma rad_mean p m a b x : 0 < m -> a <= x <= b ->
  is_RInt (fun t => rad p m (Rabs (t - x))) a b (m * polG p ((x - a) / m) + m * polG p ((b - x) / m)).
Proof. intros m0 [ax xb]. apply (is_RInt_Chasles (V := R_NormedModule) _ _ x). now apply rad_left. now apply rad_right. Qed.
Lemma rad_var p m a b : 0 < m -> a <= b ->
  is_RInt (fun x => m * polG p ((x - a) / m) + m * polG p ((b - x) / m)) a b (2 * m ^ 2 * polH p ((b - a) / m)).
Proof.
intros m0 ab.
apply (is_RInt_ext (fun x => m * polG p (/ m * x + - a / m) + m * polG p (- / m * x + b / m))).
{ intros t _. f_equal; f_equal; f_equal; field; lra. }
replace (2 * m ^ 2 * polH p ((b - a) / m)) with
  ((m ^ 2 * polH p (/ m * b + - a / m) - m ^ 2 * polH p (- / m * b + b / m)) -
   (m ^ 2 * polH p (/ m * a + - a / m) - m ^ 2 * polH p (- / m * a + b / m))).
{ apply (is_RInt_anti (fun t => m ^ 2 * polH p (/ m * t + - a / m) - m ^ 2 * polH p (- / m * t + b / m))).
  - intros t.
    replace (m * polG p (/ m * t + - a / m) + m * polG p (- / m * t + b / m)) with
      (m ^ 2 * (/ m * polG p (/ m * t + - a / m)) - m ^ 2 * (- / m * polG p (- / m * t + b / m))) by (field; lra).
    apply (is_derive_minus (V := R_NormedModule) (fun t => m ^ 2 * polH p (/ m * t + - a / m))).
    + apply (is_derive_scal (fun t => polH p (/ m * t + - a / m))), (comp_lin_derive (polH p) (polG p)), H_derive.
    + apply (is_derive_scal (fun t => polH p (- / m * t + b / m))), (comp_lin_derive (polH p) (polG p)), H_derive.
  - intros t. apply (continuous_plus (V := R_NormedModule)); apply scale_cont, (comp_lin_cont (polG p)), G_cont. }
replace (/ m * a + - a / m) with 0 by (field; lra). replace (- / m * b + b / m) with 0 by (field; lra). rewrite H0.
replace (/ m * b + - a / m) with ((b - a) / m) by (field; lra).
replace (- / m * a + b / m) with ((b - a) / m) by (field; lra). ring.
Qed.

(** ** The bell curve *)
Definition bell (t : R) : R := exp (- t ^ 2).
Definition bellI (x : R) : R := RInt bell 0 x.
Lemma bell_cont t : continuous bell t.
Proof. apply (ex_derive_continuous (V := R_NormedModule)); unfold bell; auto_derive; exact I. Qed.
Lemma bell_int a b : ex_RInt bell a b.
Proof. apply (ex_RInt_continuous (V := R_CompleteNormedModule)); intros; apply bell_cont. Qed.
Lemma E_derive x : is_derive bellI x (bell x).
Proof.
apply (is_derive_RInt (V := R_NormedModule) bell bellI 0 x). 2: apply bell_cont.
exists (mkposreal 1 Rlt_0_1); intros y _. apply (RInt_correct (V := R_CompleteNormedModule)), bell_int.
Qed.
Lemma E_0 : bellI 0 = 0. Proof. unfold bellI; now rewrite RInt_point. Qed.
Lemma E_opp x : bellI (- x) = - bellI x.
Proof.
apply is_RInt_unique.
apply (is_RInt_ext (V := R_NormedModule) (fun y => opp (opp (bell (- y))))).
{ intros t _; rewrite opp_opp; unfold bell; f_equal; ring. }
apply (is_RInt_opp (V := R_NormedModule) (fun y => opp (bell (- y)))).
apply (is_RInt_comp_opp (V := R_NormedModule) bell). rewrite Ropp_involutive, Ropp_0.
apply (RInt_correct (V := R_CompleteNormedModule)), bell_int.
Qed.
Lemma E_pos x : 0 <= x -> 0 <= bellI x.
Proof. intros x0; apply RInt_ge_0; auto. apply bell_int. intros; left; apply exp_pos. Qed.

Definition aux (x t : R) : R := exp (- (x ^ 2 * (1 + t ^ 2))) / (1 + t ^ 2).
Lemma sq1 t : 0 < 1 + t ^ 2. Proof. nra. Qed.
Lemma aux_derive x t : is_derive (fun x => aux x t) x (- 2 * x * exp (- (x ^ 2 * (1 + t ^ 2)))).
Proof. pose proof (sq1 t). unfold aux; auto_derive. lra. simpl; field; simpl in *; lra. Qed.
Lemma aux_int x : ex_RInt (aux x) 0 1.
Proof.
apply (ex_RInt_continuous (V := R_CompleteNormedModule)); intros t _; pose proof (sq1 t).
apply (ex_derive_continuous (V := R_NormedModule)); unfold aux; auto_derive. lra.
Qed.
Lemma auxI_derive x : is_derive (fun x => RInt (aux x) 0 1) x (- 2 * bell x * bellI x).
Proof.
evar_last. apply (is_derive_RInt_param aux 0 1 x).
- exists (mkposreal 1 Rlt_0_1); intros y _ t _; eexists; apply aux_derive.
- intros t _. apply (continuity_2d_pt_ext (fun u v => (- 2 * u) * exp (- (u ^ 2 * (1 + v ^ 2))))).
  { intros u v; symmetry; apply is_derive_unique, aux_derive. }
  apply continuity_2d_pt_mult.
  { apply continuity_2d_pt_mult; [apply continuity_2d_pt_const|apply continuity_2d_pt_id1]. }
  apply (continuity_1d_2d_pt_comp exp). apply derivable_continuous_pt, derivable_exp.
  apply continuity_2d_pt_opp. simpl.
  repeat (apply continuity_2d_pt_mult || apply continuity_2d_pt_plus || apply continuity_2d_pt_const ||
          apply continuity_2d_pt_id1 || apply continuity_2d_pt_id2).
- exists (mkposreal 1 Rlt_0_1); intros y _; apply aux_int.
- rewrite (RInt_ext _ (fun t => (- 2 * bell x) * (x * bell (x * t + 0)))).
  2:{ intros t _. transitivity (- 2 * x * exp (- (x ^ 2 * (1 + t ^ 2)))). apply is_derive_unique, aux_derive. unfold bell.
      replace (- (x ^ 2 * (1 + t ^ 2))) with (- x ^ 2 + - (x * t + 0) ^ 2) by ring. rewrite exp_plus. eqr; ring. }
  apply is_RInt_unique. apply (is_RInt_scal (V := R_NormedModule) (fun t => x * bell (x * t + 0))).
  apply (is_RInt_comp_lin (V := R_NormedModule) bell x 0 0 1).
  rewrite Rmult_0_r, Rplus_0_r, Rmult_1_r, Rplus_0_r. apply (RInt_correct (V := R_CompleteNormedModule)), bell_int.
Qed.
Lemma aux0 : RInt (aux 0) 0 1 = PI / 4.
Proof.
apply is_RInt_unique. rewrite <- atan_1. replace (atan 1) with (atan 1 - atan 0) by (rewrite atan_0; ring).
apply (is_RInt_ext (V := R_NormedModule) (fun t => / (1 + t ^ 2))).
{ intros t _. unfold aux. replace (- (0 ^ 2 * (1 + t ^ 2))) with 0 by ring. rewrite exp_0. eqr; unfold Rdiv; ring. }
apply is_RInt_anti.
- intros t. apply is_derive_Reals. apply derivable_pt_lim_atan.
- intros t. pose proof (sq1 t). apply (ex_derive_continuous (V := R_NormedModule)); auto_derive; lra.
Qed.
Lemma E_sq x : bellI x ^ 2 = PI / 4 - RInt (aux x) 0 1.
Proof.
set (f := fun x => bellI x ^ 2 + RInt (aux x) 0 1).
assert (D : forall x, is_derive f x 0).
{ intros y. unfold f. evar_last. apply (is_derive_plus (V := R_NormedModule) (fun x => bellI x ^ 2)).
  apply (is_derive_pow bellI 2), E_derive. apply auxI_derive. unfold plus; simpl. ring. }
assert (H1 : f x = f 0).
{ destruct (MVT_gen f 0 x (fun _ => 0)) as [c [_ e]].
  - intros; apply D.
  - intros y _. apply continuity_pt_filterlim. apply (ex_derive_continuous (V := R_NormedModule)); eexists; apply D.
  - lra. }
unfold f in H1. rewrite E_0, aux0 in H1. lra.
Qed.
Lemma aux_bound x : 0 <= RInt (aux x) 0 1 <= exp (- x ^ 2).
Proof.
split.
- apply RInt_ge_0; [lra|apply aux_int|]. intros t _. unfold aux; pose proof (sq1 t). apply Rlt_le, Rdiv_lt_0_compat; auto. apply exp_pos.
- replace (exp (- x ^ 2)) with (RInt (fun _ => exp (- x ^ 2)) 0 1).
  2:{ rewrite RInt_const. unfold scal; simpl; unfold mult; simpl. ring. }
  apply RInt_le; [lra|apply aux_int|apply ex_RInt_const|]. intros t [t0 t1]. unfold aux; pose proof (sq1 t).
  apply Rle_trans with (exp (- (x ^ 2 * (1 + t ^ 2))) / 1).
  + unfold Rdiv; apply Rmult_le_compat_l. left; apply exp_pos. apply Rinv_le_contravar; nra.
  + unfold Rdiv. rewrite Rinv_1, Rmult_1_r. destruct (Req_dec (x * t) 0) as [h|h]; [right; f_equal; nra|left; apply exp_increasing; nra].
Qed.

Lemma exp_bound x : 1 <= x -> exp (- x ^ 2) <= / x.
Proof.
intros x1. rewrite exp_Ropp. apply Rinv_le_contravar; [lra|].
pose proof (exp_ineq1_le (x ^ 2)). nra.
Qed.
Lemma E_lim : filterlim bellI (Rbar_locally p_infty) (locally (sqrt PI / 2)).
Proof.
pose proof PI_RGT_0 as P0. pose proof (sqrt_lt_R0 _ P0) as S0. pose proof (sqrt_sqrt PI (Rlt_le _ _ P0)) as SS.
apply filterlim_locally; intros [e e0]. simpl.
exists (Rmax 1 (4 / (e * sqrt PI))). intros x hx.
assert (x1 : 1 < x) by (eapply Rle_lt_trans; [apply Rmax_l|exact hx]).
assert (x2 : 4 / (e * sqrt PI) < x) by (eapply Rle_lt_trans; [apply Rmax_r|exact hx]).
assert (ep : 0 < e * sqrt PI) by (apply Rmult_lt_0_compat; auto).
assert (x3 : / x < e * sqrt PI / 4).
{ apply Rmult_lt_reg_l with x; [lra|]. rewrite Rinv_r by lra.
  replace (x * (e * sqrt PI / 4)) with (x * (e * sqrt PI) / 4) by field.
  apply (Rmult_lt_compat_r _ _ _ ep) in x2. unfold Rdiv in x2. rewrite Rmult_assoc, Rinv_l in x2 by lra. lra. }
pose proof (aux_bound x) as [b0 b1]. pose proof (exp_bound x (Rlt_le _ _ x1)) as b2.
pose proof (E_sq x) as q. pose proof (E_pos x ltac:(lra)) as p.
unfold ball; simpl; unfold AbsRing_ball, abs, minus, plus, opp; simpl.
assert (d : (sqrt PI / 2 - bellI x) * (sqrt PI / 2 + bellI x) = RInt (aux x) 0 1) by nra.
assert (d0 : 0 <= sqrt PI / 2 - bellI x) by nra.
rewrite Rabs_left1 by lra.
nra.
Qed.
Lemma E_lim_m : filterlim bellI (Rbar_locally m_infty) (locally (- (sqrt PI / 2))).
Proof.
apply (filterlim_ext (fun x => opp (bellI (- x)))).
{ intros x; rewrite E_opp. apply (opp_opp (G := R_AbelianGroup)). }
apply (filterlim_comp _ _ _ (fun x => bellI (- x)) opp _ (locally (sqrt PI / 2))).
2: apply (filterlim_opp (V := R_NormedModule)).
apply (filterlim_comp _ _ _ Ropp bellI _ (Rbar_locally p_infty)). 2: apply E_lim.
apply (filterlim_Rbar_opp m_infty).
Qed.

(** [erf] of SciPy. *)
Definition erf (x : R) : R := 2 / sqrt PI * bellI x.

(** Integrals over the whole line. *)
Definition is_int_line (f : R -> R) (v : R) : Prop := is_RInt_gen f (Rbar_locally m_infty) (Rbar_locally p_infty) v.
Lemma line_anti (F f : R -> R) l1 l2 : (forall x, is_derive F x (f x)) -> (forall x, continuous f x) ->
  filterlim F (Rbar_locally m_infty) (locally l1) -> filterlim F (Rbar_locally p_infty) (locally l2) ->
  is_int_line f (l2 - l1).
Proof.
intros dF cf h1 h2. unfold is_int_line.
apply (is_RInt_gen_ext (Derive F)).
{ exists (fun _ => True) (fun _ => True); try now exists 0. intros; now apply is_derive_unique. }
apply is_RInt_gen_Derive; auto.
- exists (fun _ => True) (fun _ => True); try now exists 0. intros; eexists; apply dF.
- exists (fun _ => True) (fun _ => True); try now exists 0. intros.
  apply (continuous_ext f). intros; symmetry; now apply is_derive_unique. apply cf.
Qed.
Lemma lin_lim_p c d : 0 < c -> filterlim (fun t => c * t + d) (Rbar_locally p_infty) (Rbar_locally p_infty).
Proof.
intros c0 P [M HM]. exists ((M - d) / c). intros x hx. apply HM.
apply (Rmult_lt_compat_l c) in hx; auto. replace (c * ((M - d) / c)) with (M - d) in hx by (field; lra). lra.
Qed.
Lemma lin_lim_m c d : 0 < c -> filterlim (fun t => c * t + d) (Rbar_locally m_infty) (Rbar_locally m_infty).
Proof.
intros c0 P [M HM]. exists ((M - d) / c). intros x hx. apply HM.
apply (Rmult_lt_compat_l c) in hx; auto. replace (c * ((M - d) / c)) with (M - d) in hx by (field; lra). lra.
Qed.
Lemma gauss_int al be ga : 0 < al ->
  is_int_line (fun t => exp (- (al * t ^ 2) / 2 + be * t + ga)) (sqrt (2 * PI / al) * exp (be ^ 2 / (2 * al) + ga)).
Proof.
intros a0. pose proof PI_RGT_0 as P0.
set (c := sqrt (al / 2)). assert (c0 : 0 < c) by (apply sqrt_lt_R0; lra).
assert (cc : c * c = al / 2) by (apply sqrt_sqrt; lra).
set (k := exp (be ^ 2 / (2 * al) + ga)). set (d := - c * be / al).
assert (e : sqrt (2 * PI / al) * k = k / c * (sqrt PI / 2) - k / c * - (sqrt PI / 2)).
{ replace (2 * PI / al) with (PI / (c * c)) by (rewrite cc; field; lra).
  rewrite sqrt_div_alt, sqrt_square by nra. field; lra. }
rewrite e. apply (line_anti (fun t => k / c * bellI (c * t + d))).
- intros t. replace (exp (- (al * t ^ 2) / 2 + be * t + ga)) with (k / c * (c * bell (c * t + d))).
  { apply (is_derive_scal (fun t => bellI (c * t + d))), (comp_lin_derive bellI bell), E_derive. }
  replace (k / c * (c * bell (c * t + d))) with (k * bell (c * t + d)) by (field; lra).
  unfold k, bell. rewrite <- exp_plus. f_equal. unfold d.
  replace ((c * t + - c * be / al) ^ 2) with (c * c * (t - be / al) ^ 2) by (field; lra). rewrite cc. field; lra.
- intros t. apply (ex_derive_continuous (V := R_NormedModule)); auto_derive; exact I.
- apply (filterlim_comp _ _ _ (fun t => bellI (c * t + d)) (fun y => k / c * y) _ (locally (- (sqrt PI / 2)))).
  2: apply (filterlim_scal_r (V := R_NormedModule)).
  apply (filterlim_comp _ _ _ (fun t => c * t + d) bellI _ (Rbar_locally m_infty)). now apply lin_lim_m. apply E_lim_m.
- apply (filterlim_comp _ _ _ (fun t => bellI (c * t + d)) (fun y => k / c * y) _ (locally (sqrt PI / 2))).
  2: apply (filterlim_scal_r (V := R_NormedModule)).
  apply (filterlim_comp _ _ _ (fun t => c * t + d) bellI _ (Rbar_locally p_infty)). now apply lin_lim_p. apply E_lim.
Qed.

(** ** The integrals of the exponentiated quadratic kernel over an interval *)
Lemma sq_mean l a b x : 0 < l ->
  is_RInt (fun t => exp (- (t - x) ^ 2 / (2 * l ^ 2))) a b
    (sqrt (PI * l ^ 2 / 2) * (erf ((b - x) / (l * sqrt 2)) - erf ((a - x) / (l * sqrt 2)))).
Proof.
intros l0. pose proof PI_RGT_0 as P0. pose proof (sqrt_lt_R0 _ P0) as S0.
assert (s2 : 0 < sqrt 2) by (apply sqrt_lt_R0; lra). pose proof (sqrt_sqrt 2 ltac:(lra)) as ss.
set (c := / (l * sqrt 2)). assert (c0 : 0 < c) by (apply Rinv_0_lt_compat; nra).
assert (k : sqrt (PI * l ^ 2 / 2) = l * sqrt 2 * (sqrt PI / 2)).
{ replace (PI * l ^ 2 / 2) with (PI * (l * l) / 2) by field.
  rewrite sqrt_div_alt, sqrt_mult_alt, sqrt_square by lra.
  replace 2 with (sqrt 2 * sqrt 2) at 3 by lra. field; lra. }
assert (cl : l * sqrt 2 * c = 1) by (unfold c; field; lra).
replace (sqrt (PI * l ^ 2 / 2) * (erf ((b - x) / (l * sqrt 2)) - erf ((a - x) / (l * sqrt 2)))) with
  (l * sqrt 2 * bellI (c * b + - c * x) - l * sqrt 2 * bellI (c * a + - c * x)).
2:{ rewrite k. unfold erf. replace ((b - x) / (l * sqrt 2)) with (c * b + - c * x) by (unfold c; field; lra).
    replace ((a - x) / (l * sqrt 2)) with (c * a + - c * x) by (unfold c; field; lra). field; lra. }
apply (is_RInt_anti (fun t => l * sqrt 2 * bellI (c * t + - c * x))).
- intros t. replace (exp (- (t - x) ^ 2 / (2 * l ^ 2))) with (l * sqrt 2 * (c * bell (c * t + - c * x))).
  { apply (is_derive_scal (fun t => bellI (c * t + - c * x))), (comp_lin_derive bellI bell), E_derive. }
  rewrite <- Rmult_assoc, cl, Rmult_1_l. unfold bell. f_equal.
  unfold c. replace (2 * l ^ 2) with ((l * sqrt 2) ^ 2) by (simpl; nra). field; lra.
- intros t. apply (ex_derive_continuous (V := R_NormedModule)); auto_derive. nra.
Qed.
Lemma sq_var l a b : 0 < l ->
  is_RInt (fun x => sqrt (PI * l ^ 2 / 2) * (erf ((b - x) / (l * sqrt 2)) - erf ((a - x) / (l * sqrt 2)))) a b
    (sqrt (2 * PI * l ^ 2) * (l * sqrt (2 / PI) * (exp (- (b - a) ^ 2 / (2 * l ^ 2)) - 1) + (b - a) * erf ((b - a) / (l * sqrt 2)))).
Proof.
intros l0. pose proof PI_RGT_0 as P0. pose proof (sqrt_lt_R0 _ P0) as S0.
assert (s2 : 0 < sqrt 2) by (apply sqrt_lt_R0; lra). pose proof (sqrt_sqrt 2 ltac:(lra)) as ss.
pose proof (sqrt_sqrt PI ltac:(lra)) as sp.
set (c := / (l * sqrt 2)). assert (c0 : 0 < c) by (apply Rinv_0_lt_compat; nra).
assert (k : sqrt (PI * l ^ 2 / 2) = sqrt PI / (2 * c)).
{ replace (PI * l ^ 2 / 2) with (PI * (l * l) / 2) by field.
  rewrite sqrt_div_alt, sqrt_mult_alt, sqrt_square by lra. unfold c.
  replace 2 with (sqrt 2 * sqrt 2) at 2 by lra. field; lra. }
assert (k2 : sqrt (2 * PI * l ^ 2) = sqrt PI / c).
{ replace (2 * PI * l ^ 2) with (PI * 2 * (l * l)) by ring. rewrite (sqrt_mult_alt (PI * 2)), (sqrt_mult_alt PI), sqrt_square by lra. unfold c. field; lra. }
assert (k3 : l * sqrt (2 / PI) = 1 / (c * sqrt PI)).
{ rewrite sqrt_div_alt by lra. unfold c; field; lra. }
assert (ex2 : forall y, - y ^ 2 / (2 * l ^ 2) = - (c * y) ^ 2).
{ intros y. unfold c. replace (2 * l ^ 2) with ((l * sqrt 2) ^ 2) by (simpl; nra). field; lra. }
rewrite k, k2, k3, ex2.
apply (is_RInt_ext (fun x => / c * (bellI (c * (b - x)) - bellI (c * (a - x))))).
{ intros t _. unfold erf. replace ((b - t) / (l * sqrt 2)) with (c * (b - t)) by (unfold c; field; lra).
  replace ((a - t) / (l * sqrt 2)) with (c * (a - t)) by (unfold c; field; lra). eqr; field; lra. }
unfold erf. replace ((b - a) / (l * sqrt 2)) with (c * (b - a)) by (unfold c; field; lra).
set (W := fun u => u * bellI u + / 2 * bell u).
assert (dW : forall u, is_derive W u (bellI u)).
{ intros u. unfold W. evar_last. apply (is_derive_plus (V := R_NormedModule) (fun u => u * bellI u)).
  apply (is_derive_mult (fun u => u) bellI). apply is_derive_id. apply E_derive. intros; apply Rmult_comm.
  unfold bell. auto_derive; [exact I|reflexivity].
  unfold plus, mult, one; simpl. unfold bell. simpl. field. }
assert (cE : forall u, continuous bellI u) by (intros u; apply (ex_derive_continuous (V := R_NormedModule)); eexists; apply E_derive).
replace (sqrt PI / c * _) with ((- / c ^ 2 * W (- c * b + c * b) + / c ^ 2 * W (- c * b + c * a)) - (- / c ^ 2 * W (- c * a + c * b) + / c ^ 2 * W (- c * a + c * a))).
{ apply (is_RInt_anti (fun t => - / c ^ 2 * W (- c * t + c * b) + / c ^ 2 * W (- c * t + c * a))).
  - intros t. replace (/ c * (bellI (c * (b - t)) - bellI (c * (a - t)))) with
      (- / c ^ 2 * (- c * bellI (- c * t + c * b)) + / c ^ 2 * (- c * bellI (- c * t + c * a))).
    { apply (is_derive_plus (V := R_NormedModule) (fun t => - / c ^ 2 * W (- c * t + c * b))).
      + apply (is_derive_scal (fun t => W (- c * t + c * b))), (comp_lin_derive W bellI), dW.
      + apply (is_derive_scal (fun t => W (- c * t + c * a))), (comp_lin_derive W bellI), dW. }
    replace (- c * t + c * b) with (c * (b - t)) by ring. replace (- c * t + c * a) with (c * (a - t)) by ring. field; lra.
  - intros t. apply scale_cont. apply (continuous_minus (V := R_NormedModule)).
    + apply (continuous_ext (fun t => bellI (- c * t + c * b))). intros; f_equal; ring. now apply comp_lin_cont.
    + apply (continuous_ext (fun t => bellI (- c * t + c * a))). intros; f_equal; ring. now apply comp_lin_cont. }
unfold W. replace (- c * b + c * b) with 0 by ring. replace (- c * a + c * a) with 0 by ring.
replace (- c * b + c * a) with (- (c * (b - a))) by ring. replace (- c * a + c * b) with (c * (b - a)) by ring.
rewrite E_0, E_opp. unfold bell. replace (- 0 ^ 2) with 0 by ring. rewrite exp_0.
replace ((- (c * (b - a))) ^ 2) with ((c * (b - a)) ^ 2) by ring. field; lra.
Qed.
