(** Integrals in one variable for the test problems of M_Zoo.v. *)
From Coq Require Import Reals Lra Lia.
From Coquelicot Require Import Coquelicot.
From Verif Require Import L_Int1 M_Zoo.
Local Open Scope R_scope.

Ltac cont := apply (ex_derive_continuous (V := R_NormedModule)); auto_derive.
Lemma RInt_at f a b (v w : R) : is_RInt f a b v -> v = w -> is_RInt f a b w.
Proof. now intros h <-. Qed.
Lemma int_anti (F f : R -> R) a b v : a <= b -> (forall x, a <= x <= b -> is_derive F x (f x)) ->
  (forall x, a <= x <= b -> continuous f x) -> F b - F a = v -> is_RInt f a b v.
Proof.
intros ab dF cf <-. apply (is_RInt_derive F f); rewrite Rmin_left, Rmax_right by easy; auto.
Qed.
Lemma int_on f g a b (v : R) : a <= b -> (forall x, a < x < b -> f x = g x) -> is_RInt f a b v -> is_RInt g a b v.
Proof. intros ab h. apply is_RInt_ext. rewrite Rmin_left, Rmax_right by easy. exact h. Qed.

Lemma lim_at (f : R -> R) F (l k : R) : filterlim f F (locally l) -> l = k -> filterlim f F (locally k).
Proof. now intros h <-. Qed.

(** ** The Genz functions *)
Lemma int_continuous a u : a <> 0 -> 0 <= u <= 1 ->
  is_RInt (fun x => exp (- (a * Rabs (x - u)))) 0 1 ((2 - exp (-1 * a * u) - exp (a * (u - 1))) / a).
Proof.
intros a0 [u0 u1].
apply (RInt_at _ _ _ (plus ((1 - exp (-1 * a * u)) / a) ((1 - exp (a * (u - 1))) / a))). 2: unfold plus; simpl; field; easy.
apply (is_RInt_Chasles (V := R_NormedModule) _ _ u).
- apply (int_on (fun x => exp (- (a * (u - x))))). easy.
  { intros x hx. rewrite Rabs_left by lra. do 3 f_equal; ring. }
  apply (int_anti (fun x => exp (- (a * (u - x))) / a)). easy.
  + intros x _. auto_derive. easy. unfold Rminus; field; easy.
  + intros x _. cont. easy.
  + replace (- (a * (u - u))) with 0 by ring. rewrite exp_0. replace (- (a * (u - 0))) with (-1 * a * u) by ring. field; easy.
- apply (int_on (fun x => exp (- (a * (x - u))))). easy.
  { intros x hx. rewrite Rabs_pos_eq by lra. reflexivity. }
  apply (int_anti (fun x => - exp (- (a * (x - u))) / a)). easy.
  + intros x _. auto_derive. easy. unfold Rminus; field; easy.
  + intros x _. cont. easy.
  + replace (- (a * (u - u))) with 0 by ring. rewrite exp_0. replace (- (a * (1 - u))) with (a * (u - 1)) by ring. field; easy.
Qed.
Lemma int_discontinuous a u : a <> 0 -> 0 <= u <= 1 ->
  is_RInt (fun x => if Rlt_dec 0 (x - u) then 0 else exp (a * x)) 0 1 ((exp (a * u) - 1) / a).
Proof.
intros a0 [u0 u1]. apply (RInt_at _ _ _ (plus ((exp (a * u) - 1) / a) 0)). 2: unfold plus; simpl; ring.
apply (is_RInt_Chasles (V := R_NormedModule) _ _ u).
- apply (int_on (fun x => exp (a * x))). easy. { intros x hx. destruct (Rlt_dec 0 (x - u)); lra || reflexivity. }
  apply (int_anti (fun x => exp (a * x) / a)). easy.
  + intros x _. auto_derive. easy. unfold Rminus; field; easy.
  + intros x _. cont. easy.
  + rewrite Rmult_0_r, exp_0. field; easy.
- apply (int_on (fun _ => 0)). easy. { intros x hx. destruct (Rlt_dec 0 (x - u)); lra || reflexivity. }
  apply (int_anti (fun _ => 0)). easy. intros; auto_derive; easy. intros; cont; easy. ring.
Qed.
Lemma int_peak a u : a <> 0 ->
  is_RInt (fun x => 1 / (1 / a ^ 2 + (x - u) ^ 2)) 0 1 (a * (atan (a * (1 - u)) - atan (-1 * a * u))).
Proof.
intros a0. assert (a2 : 0 < a ^ 2) by nra. assert (i2 : 0 < 1 / a ^ 2) by (apply Rdiv_lt_0_compat; lra).
apply (int_anti (fun x => a * atan (a * (x - u)))). lra.
- intros x _. evar_last. apply (is_derive_scal (fun x => atan (a * (x - u)))).
  apply (is_derive_comp atan (fun x => a * (x - u))). apply is_derive_Reals, derivable_pt_lim_atan.
  instantiate (1 := a). auto_derive; [easy|ring].
  unfold scal; simpl; unfold mult; simpl. unfold Rsqr. field. repeat split; try easy; apply Rgt_not_eq; try (pose proof (pow2_ge_0 (a * (x - u))); nra).
- intros x _. cont. repeat split; try (intro; nra); pose proof (pow2_ge_0 (x - u)); change (a * (a * 1)) with (a ^ 2); change ((x + - u) * ((x + - u) * 1)) with ((x - u) ^ 2); intro; lra.
- replace (a * (0 - u)) with (-1 * a * u) by ring. ring.
Qed.

(** The normal distribution function. *)
Definition phi (t : R) : R := exp (- t ^ 2 / 2) / sqrt (2 * PI).
Lemma s2pi : 0 < sqrt (2 * PI). Proof. pose proof PI_RGT_0. apply sqrt_lt_R0; lra. Qed.
Lemma phi_cont t : continuous phi t.
Proof. unfold phi. cont. pose proof s2pi; lra. Qed.
Lemma phi_int a b : ex_RInt phi a b.
Proof. apply (ex_RInt_continuous (V := R_CompleteNormedModule)). intros; apply phi_cont. Qed.
Lemma cdf_derive z : is_derive normal_cdf z (phi z).
Proof.
unfold normal_cdf. evar_last. apply (is_derive_plus (V := R_NormedModule) (fun _ => 1 / 2)). apply is_derive_const.
apply (is_derive_RInt (V := R_NormedModule) phi (fun x => RInt phi 0 x) 0). 2: apply phi_cont.
exists (mkposreal 1 Rlt_0_1). intros x _. apply (RInt_correct (V := R_CompleteNormedModule)), phi_int.
apply Rplus_0_l.
Qed.
Lemma cdf_bell z : normal_cdf z = 1 / 2 + / sqrt PI * bellI (/ sqrt 2 * z).
Proof.
pose proof PI_RGT_0 as P0. pose proof (sqrt_lt_R0 _ P0) as S0. assert (S2 : 0 < sqrt 2) by (apply sqrt_lt_R0; lra).
unfold normal_cdf. f_equal. apply is_RInt_unique.
apply (RInt_at _ _ _ (/ sqrt PI * bellI (/ sqrt 2 * z + 0) - / sqrt PI * bellI (/ sqrt 2 * 0 + 0))).
2:{ replace (/ sqrt 2 * 0 + 0) with 0 by ring. rewrite E_0, Rplus_0_r. ring. }
apply (is_RInt_anti (fun t => / sqrt PI * bellI (/ sqrt 2 * t + 0))). 2: apply phi_cont.
intros t. evar_last. apply (is_derive_scal (fun t => bellI (/ sqrt 2 * t + 0))), (comp_lin_derive bellI bell), E_derive.
unfold bell, phi. rewrite sqrt_mult_alt by lra. replace (- (/ sqrt 2 * t + 0) ^ 2) with (- t ^ 2 / 2). field; lra.
pose proof (sqrt_sqrt 2 ltac:(lra)) as ss. rewrite Rplus_0_r, Rpow_mult_distr, pow_inv. simpl (sqrt 2 ^ 2). rewrite Rmult_1_r, ss. field.
Qed.
Lemma cdf_lim_p : filterlim normal_cdf (Rbar_locally p_infty) (locally 1).
Proof.
pose proof PI_RGT_0 as P0. pose proof (sqrt_lt_R0 _ P0) as S0. assert (S2 : 0 < sqrt 2) by (apply sqrt_lt_R0; lra).
apply (filterlim_ext (fun z => 1 / 2 + / sqrt PI * bellI (/ sqrt 2 * z + 0))).
{ intros z. rewrite cdf_bell. do 3 f_equal. ring. }
apply (lim_at _ _ (1 / 2 + / sqrt PI * (sqrt PI / 2))). 2: field; lra.
apply (filterlim_comp _ _ _ (fun z => bellI (/ sqrt 2 * z + 0)) (fun y => 1 / 2 + / sqrt PI * y) _ (locally (sqrt PI / 2))).
apply (filterlim_comp _ _ _ (fun t => / sqrt 2 * t + 0) bellI _ (Rbar_locally p_infty)). apply lin_lim_p. now apply Rinv_0_lt_compat. apply E_lim.
assert (c : continuous (fun y => 1 / 2 + / sqrt PI * y) (sqrt PI / 2)) by (cont; easy). exact c.
Qed.
Lemma cdf_lim_m : filterlim normal_cdf (Rbar_locally m_infty) (locally 0).
Proof.
pose proof PI_RGT_0 as P0. pose proof (sqrt_lt_R0 _ P0) as S0. assert (S2 : 0 < sqrt 2) by (apply sqrt_lt_R0; lra).
apply (filterlim_ext (fun z => 1 / 2 + / sqrt PI * bellI (/ sqrt 2 * z + 0))).
{ intros z. rewrite cdf_bell. do 3 f_equal. ring. }
apply (lim_at _ _ (1 / 2 + / sqrt PI * - (sqrt PI / 2))). 2: field; lra.
apply (filterlim_comp _ _ _ (fun z => bellI (/ sqrt 2 * z + 0)) (fun y => 1 / 2 + / sqrt PI * y) _ (locally (- (sqrt PI / 2)))).
apply (filterlim_comp _ _ _ (fun t => / sqrt 2 * t + 0) bellI _ (Rbar_locally m_infty)). apply lin_lim_m. now apply Rinv_0_lt_compat. apply E_lim_m.
assert (c : continuous (fun y => 1 / 2 + / sqrt PI * y) (- (sqrt PI / 2))) by (cont; easy). exact c.
Qed.
(** It is the integral of the density up to [z]. *)
Lemma cdf_spec z : is_RInt_gen phi (Rbar_locally m_infty) (at_point z) (normal_cdf z).
Proof.
apply (is_RInt_gen_ext (Derive normal_cdf)).
{ exists (fun _ => True) (fun _ => True); [now exists 0|easy|]. intros; apply is_derive_unique, cdf_derive. }
replace (normal_cdf z) with (normal_cdf z - 0) by ring. apply is_RInt_gen_Derive.
- exists (fun _ => True) (fun _ => True); [now exists 0|easy|]. intros; eexists; apply cdf_derive.
- exists (fun _ => True) (fun _ => True); [now exists 0|easy|]. intros.
  apply (continuous_ext phi). intros; symmetry; apply is_derive_unique, cdf_derive. apply phi_cont.
- apply cdf_lim_m.
- intros P HP. exact (locally_singleton _ _ HP).
Qed.
Lemma phi_pos t : 0 < phi t.
Proof. unfold phi. apply Rdiv_lt_0_compat. apply exp_pos. apply s2pi. Qed.
Lemma cdf_incr x y : x < y -> normal_cdf x < normal_cdf y.
Proof.
intros xy. destruct (MVT_gen normal_cdf x y phi) as [c [_ e]].
- intros; apply cdf_derive.
- intros. apply derivable_continuous_pt. exists (phi x0). apply is_derive_Reals, cdf_derive.
- pose proof (phi_pos c). nra.
Qed.
Lemma cdf_range z : 0 < normal_cdf z < 1.
Proof.
split.
- assert (h : 0 <= normal_cdf (z - 1)).
  { apply (filterlim_le (F := Rbar_locally m_infty) (fun y => normal_cdf y) (fun _ => normal_cdf (z - 1)) 0 (normal_cdf (z - 1))).
    exists (z - 1). intros y hy. apply Rlt_le, cdf_incr; lra. apply cdf_lim_m. apply filterlim_const. }
  pose proof (cdf_incr (z - 1) z ltac:(lra)); lra.
- assert (h : normal_cdf (z + 1) <= 1).
  { apply (filterlim_le (F := Rbar_locally p_infty) (fun _ => normal_cdf (z + 1)) (fun y => normal_cdf y) (normal_cdf (z + 1)) 1).
    exists (z + 1). intros y hy. apply Rlt_le, cdf_incr; lra. apply filterlim_const. apply cdf_lim_p. }
  pose proof (cdf_incr z (z + 1) ltac:(lra)); lra.
Qed.
Lemma int_gaussian a u : a <> 0 ->
  is_RInt (fun x => exp (- (a * (x - u)) ^ 2)) 0 1
    (sqrt PI * ((normal_cdf (sqrt 2 * a * (1 - u)) - normal_cdf (- sqrt 2 * a * u)) / a)).
Proof.
intros a0. pose proof PI_RGT_0 as P0. pose proof (sqrt_lt_R0 _ P0) as S0. assert (S2 : 0 < sqrt 2) by (apply sqrt_lt_R0; lra).
pose proof (sqrt_sqrt 2 ltac:(lra)) as ss.
apply (int_anti (fun x => sqrt PI / a * normal_cdf (sqrt 2 * a * x + - sqrt 2 * a * u))). lra.
- intros x _. evar_last. apply (is_derive_scal (fun x => normal_cdf (sqrt 2 * a * x + - sqrt 2 * a * u))), (comp_lin_derive normal_cdf phi), cdf_derive.
  unfold phi. rewrite sqrt_mult_alt by lra.
  replace (- (sqrt 2 * a * x + - sqrt 2 * a * u) ^ 2 / 2) with (- (a * (x - u)) ^ 2). field; lra.
  replace ((sqrt 2 * a * x + - sqrt 2 * a * u) ^ 2) with (sqrt 2 * sqrt 2 * (a * (x - u)) ^ 2) by ring. rewrite ss. field.
- intros x _. cont. easy.
- replace (sqrt 2 * a * 1 + - sqrt 2 * a * u) with (sqrt 2 * a * (1 - u)) by ring.
  replace (sqrt 2 * a * 0 + - sqrt 2 * a * u) with (- sqrt 2 * a * u) by ring. field; easy.
Qed.

(** ** The other functions *)
Lemma int_id : is_RInt (fun x => x) 0 1 (1 / 2).
Proof.
apply (int_anti (fun x => x ^ 2 / 2)). lra. intros; auto_derive; [easy|field]. intros; cont; easy. field.
Qed.
Lemma int_lin c : is_RInt (fun x => c - x) 0 1 (c - 1 / 2).
Proof.
apply (int_anti (fun x => c * x - x ^ 2 / 2)). lra. intros; auto_derive; [easy|field]. intros; cont; easy. field.
Qed.
Lemma int_one : is_RInt (fun x => 1) 0 1 1.
Proof.
apply (int_anti (fun x => x)). lra. intros; auto_derive; easy. intros; cont; easy. ring.
Qed.
Lemma int_abs c k : is_RInt (fun x => (Rabs (4 * x - 2) + c) / k) 0 1 ((1 + c) / k).
Proof.
apply (RInt_at _ _ _ (plus ((1 / 2 + c / 2) / k) ((1 / 2 + c / 2) / k))). 2: unfold plus; simpl; lra.
apply (is_RInt_Chasles (V := R_NormedModule) _ _ (1 / 2)).
- apply (int_on (fun x => (2 - 4 * x + c) / k)). lra. { intros x hx. rewrite Rabs_left by lra. f_equal; ring. }
  apply (int_anti (fun x => (2 * x - 2 * x ^ 2 + c * x) / k)). lra.
  intros; auto_derive; [easy|unfold Rdiv; ring]. intros; cont; easy. unfold Rdiv. generalize (/ k); intros i. field.
- apply (int_on (fun x => (4 * x - 2 + c) / k)). lra. { intros x hx. rewrite Rabs_pos_eq by lra. reflexivity. }
  apply (int_anti (fun x => (2 * x ^ 2 - 2 * x + c * x) / k)). lra.
  intros; auto_derive; [easy|unfold Rdiv; ring]. intros; cont; easy. unfold Rdiv. generalize (/ k); intros i. field.
Qed.
Lemma npowE x y : npow x y = if Rle_dec x 0 then 0 else Rpower x y.
Proof. unfold npow. now destruct (Rle_dec x 0). Qed.
Lemma npow_cont y x : 0 < y -> continuous (fun x => npow x y) x.
Proof.
intros y0. destruct (Rtotal_order x 0) as [h|[h|h]].
- apply (continuous_ext_loc _ (fun _ => 0) x). 2: apply continuous_const.
  assert (e : 0 < - x) by lra. exists (mkposreal _ e). intros t ht. apply Rabs_def2 in ht; unfold minus, plus, opp in ht; simpl in ht.
  rewrite ?npowE. destruct (Rle_dec t 0); lra || easy.
- subst x. apply continuity_pt_filterlim. intros e he. exists (Rpower e (/ y)). split. apply exp_pos.
  intros t [_ ht]. simpl in ht |- *. unfold R_dist in *. replace (npow 0 y) with 0. 2: rewrite ?npowE; destruct (Rle_dec 0 0); lra || easy.
  rewrite Rminus_0_r in ht. rewrite Rminus_0_r. rewrite ?npowE. destruct (Rle_dec t 0). now rewrite Rabs_R0.
  rewrite Rabs_pos_eq in ht |- * by (try apply Rlt_le, exp_pos; lra).
  replace e with (Rpower (Rpower e (/ y)) y). 2: rewrite Rpower_mult, Rinv_l, Rpower_1; lra.
  apply Rlt_Rpower_l; lra.
- apply (continuous_ext_loc _ (fun t => Rpower t y) x).
  exists (mkposreal _ h). intros t ht. apply Rabs_def2 in ht; unfold minus, plus, opp in ht; simpl in ht.
  rewrite ?npowE. destruct (Rle_dec t 0); lra || easy.
  unfold Rpower. cont. easy.
Qed.
Lemma int_npow n : is_RInt (fun x => npow x (1 / INR (S n))) 0 1 (INR (S n) / (INR (S n) + 1)).
Proof.
assert (p : 0 < INR (S n)) by (apply lt_0_INR; lia). assert (y0 : 0 < 1 / INR (S n)) by (apply Rdiv_lt_0_compat; lra).
set (f := fun x => npow x (1 / INR (S n))).
assert (h : is_RInt (fun y => scal (INR (S n) * y ^ n) (f (y ^ S n))) 0 1 (RInt f (0 ^ S n) (1 ^ S n))).
{ apply (is_RInt_comp f (fun y => y ^ S n) (fun y => INR (S n) * y ^ n)).
  - intros; now apply npow_cont.
  - intros x _. split. auto_derive. easy. change (1 * (INR (S n) * x ^ n) = INR (S n) * x ^ n). ring. cont. easy. }
rewrite pow1, pow_i in h by lia.
assert (g : is_RInt (fun y => scal (INR (S n) * y ^ n) (f (y ^ S n))) 0 1 (INR (S n) / (INR (S n) + 1))).
{ apply (int_on (fun y => INR (S n) * y ^ S n)). lra.
  { intros y hy. unfold scal; simpl; unfold mult; simpl. change (y * y ^ n) with (y ^ S n). unfold f; rewrite npowE.
    pose proof (pow_lt y (S n) ltac:(lra)) as q. destruct (Rle_dec (y ^ S n) 0). lra.
    rewrite <- Rpower_pow, Rpower_mult by lra. replace (INR (S n) * (1 / INR (S n))) with 1 by (field; lra). rewrite Rpower_1 by lra.
    change (match n with 0%nat => 1 | S _ => INR n + 1 end) with (INR (S n)). rewrite Rpower_pow by lra. change (y ^ S n) with (y * y ^ n). ring. }
  apply (int_anti (fun y => INR (S n) / (INR (S n) + 1) * y ^ S (S n))). lra.
  - intros x _. auto_derive. easy. change (INR (S n) / (INR (S n) + 1) * (1 * ((INR (S n) + 1) * x ^ S n)) = INR (S n) * x ^ S n). field. lra.
  - intros x _. cont. easy.
  - rewrite pow1, pow_i by lia. field. lra. }
pose proof (is_RInt_unique _ _ _ _ h) as e1. pose proof (is_RInt_unique _ _ _ _ g) as e2. rewrite e1 in e2. rewrite <- e2.
apply (RInt_correct (V := R_CompleteNormedModule)), (ex_RInt_continuous (V := R_CompleteNormedModule)). intros; now apply npow_cont.
Qed.

(** ** Substitution of the normal distribution function *)
Lemma int_cdf (f : R -> R) m s (v : R) : 0 < s -> (forall x, 0 < x < 1 -> continuous f x) -> is_RInt f 0 1 v ->
  is_int_line (fun t => f (normal_cdf ((t - m) / s)) * (phi ((t - m) / s) / s)) v.
Proof.
intros s0 cf hf.
set (g := fun t => normal_cdf (/ s * t + - m / s)).
assert (gE : forall t, g t = normal_cdf ((t - m) / s)) by (intros; unfold g; f_equal; field; lra).
assert (gd : forall t, is_derive g t (phi ((t - m) / s) / s)).
{ intros t. evar_last. apply (comp_lin_derive normal_cdf phi), cdf_derive. replace (/ s * t + - m / s) with ((t - m) / s) by (field; lra). unfold Rdiv; ring. }
assert (gc : forall t, continuous (fun t => phi ((t - m) / s) / s) t).
{ intros t. unfold phi. cont. pose proof s2pi. repeat split; lra. }
set (k := fun x => if Rle_dec 0 x then if Rle_dec x 1 then f x else 0 else 0).
assert (k1 : is_RInt k 0 1 v).
{ apply (int_on f); try lra; [|easy]. intros x hx. unfold k. destruct (Rle_dec 0 x), (Rle_dec x 1); lra || easy. }
assert (k0 : forall a b, (b <= 0 \/ 1 <= a) -> a <= b -> is_RInt k a b 0).
{ intros a b o ab. apply (int_on (fun _ => 0)); try lra.
  - intros x hx. unfold k. destruct (Rle_dec 0 x), (Rle_dec x 1); lra || easy.
  - apply (RInt_at _ _ _ (scal (b - a) 0)). apply (is_RInt_const (V := R_NormedModule)). unfold scal; simpl; unfold mult; simpl; ring. }
assert (ke : forall z, ex_RInt k 0 z).
{ intros z. destruct (Rle_dec z 0) as [h|h]. { apply ex_RInt_swap. exists 0. apply k0; lra. }
  destruct (Rle_dec z 1) as [h1|h1]. { apply (ex_RInt_Chasles_1 k 0 z 1). lra. now exists v. }
  apply (ex_RInt_Chasles (V := R_NormedModule) k 0 1 z). now exists v. exists 0. apply k0; lra. }
set (F := fun z => RInt k 0 z).
assert (F1 : F 1 = v) by (now apply is_RInt_unique).
assert (F0 : F 0 = 0) by (apply (RInt_point (V := R_CompleteNormedModule))).
assert (Fc : forall z, continuous F z).
{ intros z. apply (continuous_RInt_1 k 0 z F). exists (mkposreal _ Rlt_0_1). intros t _. apply (RInt_correct (V := R_CompleteNormedModule)), ke. }
assert (kc : forall x, 0 < x < 1 -> continuous k x).
{ intros x hx. apply (continuous_ext_loc _ f x). 2: now apply cf.
  assert (e : 0 < Rmin x (1 - x)) by (apply Rmin_glb_lt; lra). exists (mkposreal _ e). intros t ht. apply Rabs_def2 in ht; unfold minus, plus, opp in ht; simpl in ht.
  pose proof (Rmin_l x (1 - x)). pose proof (Rmin_r x (1 - x)).
  unfold k. destruct (Rle_dec 0 t), (Rle_dec t 1); lra || easy. }
assert (Fd : forall x, 0 < x < 1 -> is_derive F x (f x)).
{ intros x hx. replace (f x) with (k x). 2: unfold k; destruct (Rle_dec 0 x), (Rle_dec x 1); lra || easy.
  apply (is_derive_RInt k F 0 x). 2: now apply kc. exists (mkposreal _ Rlt_0_1). intros t _. apply (RInt_correct (V := R_CompleteNormedModule)), ke. }
replace v with (v - 0) by ring.
apply (line_anti (fun t => F (g t))).
- intros t. evar_last. apply (is_derive_comp F g). rewrite gE. apply Fd, cdf_range. apply gd. rewrite <- gE. unfold scal; simpl; unfold mult; simpl. ring.
- intros t. apply (continuous_mult (K := R_AbsRing)). 2: apply gc.
  apply (continuous_ext (fun t => f (g t))). intros; now rewrite gE.
  apply (continuous_comp g f). apply (ex_derive_continuous (V := R_NormedModule)). eexists; apply gd. rewrite gE. apply cf, cdf_range.
- rewrite <- F0. apply (filterlim_comp _ _ _ g F _ (locally 0)). 2: apply Fc.
  unfold g. apply (filterlim_comp _ _ _ _ normal_cdf _ (Rbar_locally m_infty)). 2: apply cdf_lim_m. apply lin_lim_m. now apply Rinv_0_lt_compat.
- rewrite <- F1. apply (filterlim_comp _ _ _ g F _ (locally 1)). 2: apply Fc.
  unfold g. apply (filterlim_comp _ _ _ _ normal_cdf _ (Rbar_locally p_infty)). 2: apply cdf_lim_p. apply lin_lim_p. now apply Rinv_0_lt_compat.
Qed.

(** ** Moments of the normal distribution *)
Definition gs (v x : R) : R := exp (- x ^ 2 / (2 * v)) / sqrt (2 * PI * v).
Lemma sqrt_gs v : 0 < v -> 0 < sqrt (2 * PI * v).
Proof. intros. pose proof PI_RGT_0. apply sqrt_lt_R0. apply Rmult_lt_0_compat; lra. Qed.
Lemma gs_bound k v : 0 < v -> exists c, 0 < c /\ forall x, 1 <= Rabs x -> Rabs (x ^ k * exp (- x ^ 2 / (2 * v))) <= c / Rabs x.
Proof.
intros v0. set (n := S k). assert (n0 : 0 < INR n) by (apply lt_0_INR; unfold n; lia).
assert (c0 : 0 < 2 * v * INR n) by (apply Rmult_lt_0_compat; lra).
exists ((2 * v * INR n) ^ n). split. now apply pow_lt.
intros x hx. assert (x0 : 0 < Rabs x) by lra.
rewrite Rabs_mult, (Rabs_pos_eq (exp _)) by apply Rlt_le, exp_pos.
assert (e : exp (x ^ 2 / (2 * v)) = exp (x ^ 2 / (2 * v * INR n)) ^ n).
{ rewrite <- (Rpower_pow n (exp _)) by apply exp_pos. unfold Rpower. rewrite ln_exp. f_equal. field; lra. }
assert (b : Rabs x ^ n <= (2 * v * INR n) ^ n * exp (x ^ 2 / (2 * v))).
{ rewrite e, <- Rpow_mult_distr. apply pow_incr. split. lra.
  apply Rle_trans with (x ^ 2). { rewrite <- (pow2_abs x). nra. }
  pose proof (exp_ineq1_le (x ^ 2 / (2 * v * INR n))) as i.
  apply Rle_trans with (2 * v * INR n * (x ^ 2 / (2 * v * INR n))). right; field; lra. apply Rmult_le_compat_l; lra. }
replace (- x ^ 2 / (2 * v)) with (- (x ^ 2 / (2 * v))) by (field; lra). rewrite exp_Ropp, <- RPow_abs.
pose proof (exp_pos (x ^ 2 / (2 * v))) as E0.
apply Rmult_le_reg_r with (Rabs x * exp (x ^ 2 / (2 * v))). now apply Rmult_lt_0_compat.
replace (Rabs x ^ k * / exp (x ^ 2 / (2 * v)) * (Rabs x * exp (x ^ 2 / (2 * v)))) with (Rabs x ^ n) by (change (Rabs x ^ n) with (Rabs x * Rabs x ^ k); field; lra).
replace ((2 * v * INR n) ^ n / Rabs x * (Rabs x * exp (x ^ 2 / (2 * v)))) with ((2 * v * INR n) ^ n * exp (x ^ 2 / (2 * v))) by (field; lra).
exact b.
Qed.
Lemma gs_lims k v (s : R) : 0 < v ->
  filterlim (fun x => s * (x ^ k * exp (- x ^ 2 / (2 * v)))) (Rbar_locally m_infty) (locally 0) /\
  filterlim (fun x => s * (x ^ k * exp (- x ^ 2 / (2 * v)))) (Rbar_locally p_infty) (locally 0).
Proof.
intros v0. destruct (gs_bound k v v0) as [c [c0 hc]].
assert (b : forall P : R -> Prop, locally 0 P -> exists M, 0 <= M /\ forall x, M < Rabs x -> P (s * (x ^ k * exp (- x ^ 2 / (2 * v))))).
{ intros P [e he]. pose proof (cond_pos e) as e0. exists (Rmax 1 ((Rabs s + 1) * c / e)). split. { eapply Rle_trans. 2: apply Rmax_l. lra. }
  intros x hx. apply he. unfold ball; simpl; unfold AbsRing_ball, abs, minus, plus, opp; simpl. rewrite Ropp_0, Rplus_0_r.
  pose proof (Rmax_l 1 ((Rabs s + 1) * c / e)). pose proof (Rmax_r 1 ((Rabs s + 1) * c / e)).
  rewrite Rabs_mult. pose proof (Rabs_pos s) as s0.
  apply Rle_lt_trans with ((Rabs s + 1) * (c / Rabs x)).
  - apply Rmult_le_compat; try apply Rabs_pos; try lra. apply hc. lra.
  - assert (q : (Rabs s + 1) * c / e < Rabs x) by lra.
    apply Rmult_lt_reg_r with (Rabs x). lra. replace ((Rabs s + 1) * (c / Rabs x) * Rabs x) with ((Rabs s + 1) * c) by (field; lra).
    apply Rmult_lt_compat_r with (r := e) in q. 2: easy. unfold Rdiv in q. rewrite Rmult_assoc, Rinv_l, Rmult_1_r in q by lra. lra. }
split; intros P hP; destruct (b P hP) as [M [M0 hM]].
- exists (- M). intros x hx. apply hM. rewrite Rabs_left; lra.
- exists M. intros x hx. apply hM. rewrite Rabs_pos_eq; lra.
Qed.
Lemma gs_derive v x : 0 < v -> is_derive (fun x => exp (- x ^ 2 / (2 * v))) x (- x / v * exp (- x ^ 2 / (2 * v))).
Proof. intros v0. auto_derive. easy. unfold Rdiv. simpl. field. lra. Qed.
Lemma moment_0 v : 0 < v -> is_int_line (gs v) 1.
Proof.
intros v0. pose proof (sqrt_gs v v0) as q. pose proof PI_RGT_0 as P0.
pose proof (gauss_int (/ v) 0 (ln (/ sqrt (2 * PI * v))) (Rinv_0_lt_compat _ v0)) as h.
assert (e : sqrt (2 * PI / / v) * exp (0 ^ 2 / (2 * / v) + ln (/ sqrt (2 * PI * v))) = 1).
{ replace (0 ^ 2 / (2 * / v)) with 0 by (field; lra). rewrite Rplus_0_l, exp_ln by (now apply Rinv_0_lt_compat).
  unfold Rdiv. rewrite Rinv_inv. apply Rinv_r. lra. }
rewrite e in h. revert h. apply is_RInt_gen_ext.
exists (fun _ => True) (fun _ => True); try now exists 0. intros a b _ _ x _.
rewrite exp_plus, exp_ln by (now apply Rinv_0_lt_compat). unfold gs. unfold Rdiv at 2. f_equal. f_equal. field. lra.
Qed.
Lemma moment_1 v : 0 < v -> is_int_line (fun x => x ^ 1 * gs v x) 0.
Proof.
intros v0. pose proof (sqrt_gs v v0) as q. replace 0 with (0 - 0) by ring.
destruct (gs_lims 0 v (- v / sqrt (2 * PI * v)) v0) as [l1 l2].
apply (line_anti (fun x => - v / sqrt (2 * PI * v) * (x ^ 0 * exp (- x ^ 2 / (2 * v))))); try easy.
- intros x. evar_last. apply is_derive_scal. apply (is_derive_ext (fun x => exp (- x ^ 2 / (2 * v)))). intros; simpl; ring. now apply gs_derive.
  unfold gs. simpl. field. lra.
- intros x. unfold gs. cont. lra.
Qed.
Lemma moment_SS k v (m : R) : 0 < v -> is_int_line (fun x => x ^ k * gs v x) m ->
  is_int_line (fun x => x ^ S (S k) * gs v x) (INR (S k) * v * m).
Proof.
intros v0 h. pose proof (sqrt_gs v v0) as q.
destruct (gs_lims (S k) v (- v / sqrt (2 * PI * v)) v0) as [l1 l2].
assert (d : is_int_line (fun x => x ^ S (S k) * gs v x - INR (S k) * v * (x ^ k * gs v x)) (0 - 0)).
{ apply (line_anti (fun x => - v / sqrt (2 * PI * v) * (x ^ S k * exp (- x ^ 2 / (2 * v))))); try easy.
  - intros x. evar_last. apply is_derive_scal. apply (is_derive_mult (fun x => x ^ S k)). 
    apply (is_derive_pow (fun x => x)). apply (is_derive_id (K := R_AbsRing)). now apply gs_derive. intros; apply Rmult_comm.
    unfold gs. set (E := exp (- x ^ 2 / (2 * v))). set (Q := sqrt (2 * PI * v)).
    change (- v / Q * ((INR (S k) * 1 * x ^ k) * E + (x * x ^ k) * (- x / v * E)) = x * (x * x ^ k) * (E / Q) - INR (S k) * v * (x ^ k * (E / Q))).
    field. split; [apply Rgt_not_eq, q|lra].
  - intros x. unfold gs. cont. repeat split; lra. }
pose proof (is_RInt_gen_plus (V := R_NormedModule) _ _ _ _ d (is_RInt_gen_scal (V := R_NormedModule) _ (INR (S k) * v) _ h)) as s.
unfold is_int_line. replace (INR (S k) * v * m) with (plus (0 - 0) (scal (INR (S k) * v) m)). 2: unfold plus, scal; simpl; unfold mult; simpl; ring.
revert s. apply is_RInt_gen_ext. exists (fun _ => True) (fun _ => True); try now exists 0. intros a b _ _ x _.
unfold plus, scal; simpl; unfold mult; simpl. ring.
Qed.
Lemma moment b v : 0 < v -> is_int_line (fun x => x ^ b * gs v x) (if Nat.even b then v ^ Nat.div2 b * INR (factorial2_pred b) else 0).
Proof.
intros v0. assert (H : forall k, (is_int_line (fun x => x ^ k * gs v x) (if Nat.even k then v ^ Nat.div2 k * INR (factorial2_pred k) else 0)) /\
  (is_int_line (fun x => x ^ S k * gs v x) (if Nat.even (S k) then v ^ Nat.div2 (S k) * INR (factorial2_pred (S k)) else 0))).
{ induction k as [|k [h1 h2]].
  - split. 2: now apply moment_1.
    simpl. rewrite Rmult_1_r. generalize (moment_0 v v0). apply is_RInt_gen_ext. exists (fun _ => True) (fun _ => True); try now exists 0. intros; symmetry; apply Rmult_1_l.
  - split. exact h2. pose proof (moment_SS k v _ v0 h1) as h. change (Nat.even (S (S k))) with (Nat.even k).
    destruct (Nat.even k).
    + replace (v ^ Nat.div2 (S (S k)) * INR (factorial2_pred (S (S k)))) with (INR (S k) * v * (v ^ Nat.div2 k * INR (factorial2_pred k))). exact h.
      change (factorial2_pred (S (S k))) with (S k * factorial2_pred k)%nat. rewrite mult_INR. change (v ^ Nat.div2 (S (S k))) with (v * v ^ Nat.div2 k). ring.
    + rewrite Rmult_0_r in h. exact h. }
exact (proj1 (H b)).
Qed.
Lemma int_zero a b : is_RInt (fun _ => 0) a b 0.
Proof.
apply (RInt_at _ _ _ (scal (b - a) 0)). apply (is_RInt_const (V := R_NormedModule)). unfold scal; simpl; unfold mult; simpl; ring.
Qed.
Lemma line_zero : is_int_line (fun _ => 0) 0.
Proof.
assert (h : is_int_line (fun _ => 0) (0 - 0)).
{ apply (line_anti (fun _ => 0)).
  - intros x. apply (is_derive_const (K := R_AbsRing) (V := R_NormedModule) 0).
  - intros x. apply (continuous_const (U := R_UniformSpace) (V := R_UniformSpace) 0).
  - apply (filterlim_const (U := R_UniformSpace) 0).
  - apply (filterlim_const (U := R_UniformSpace) 0). }
rewrite Rminus_0_r in h. exact h.
Qed.
Lemma line_fext (f g : R -> R) v : (forall x, f x = g x) -> is_int_line f v -> is_int_line g v.
Proof.
intros e. apply is_RInt_gen_ext. exists (fun _ => True) (fun _ => True); try now exists 0. intros; apply e.
Qed.
