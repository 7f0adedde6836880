(** C169-C175: initial value problems as regression problems, initialisation by stacking,
    states of the solution. *)
From Coq Require Import Reals Lra.
From Coquelicot Require Import Coquelicot.
From mathcomp Require Import all_ssreflect all_algebra.
From mathcomp Require Import realalg.
From Verif Require Import L_RStruct M_Gauss M_Sqrt M_IWP L_Sqrt L_QR P_IWP M_OdeInit L_OdeInit.
Set Implicit Arguments.
Unset Strict Implicit.
Unset Printing Implicit Defensive.
Import Order.Theory GRing.Theory Num.Theory.
Delimit Scope R_scope with coqR.
Local Open Scope ring_scope.
Local Notation K := R_rcfType.

Section Generic.
Variable R : rcfType.

(** ** C169: [transition_matrix] reads off the solution, and the list of models *)
Lemma init_matrix_read d e nu (y : nat -> nat -> R) : e = d ->
  init_matrix R e (d * nu.+1) *m coordwise nu d y = \col_a y (a : nat) 0%N.
Proof.
move=> ->; apply/matrixP => i j; rewrite !mxE ?ord1 {j}.
have k0 : (i * nu.+1 + 0 < d * nu.+1)%N by rewrite idx_lt.
rewrite (eq_bigr (fun k : 'I_(d * nu.+1) =>
  (k == Ordinal k0)%:R * y (k %/ nu.+1)%N (k %% nu.+1)%N)) => [|k _].
  rewrite (@sum_pick _ _ (Ordinal k0)) //= addn0 modnMl mulnK //.
rewrite !mxE /fillF /ravelC /eye -val_eqE /= addn0; congr ((nat_of_bool _)%:R * _).
set D := (d * nu.+1)%N; have D0 : (0 < D)%N by apply: leq_ltn_trans (ltn_ord k).
have id := ltn_ord i; have d0 : (0 < d)%N by apply: leq_trans id.
apply/eqP/eqP => [E|E].
  have := divn_eq (i + k * d) D; rewrite E.
  move: E; set r := ((i + k * d) %% D)%N => E F.
  have rd : (r < d)%N.
    rewrite -E ltn_divLR //.
    apply: (@leq_trans (k.+1 * d)); first by rewrite mulSn ltn_add2r.
    by rewrite mulnC leq_mul2l ltn_ord orbT.
  have ri : r = i.
    have := congr1 (modn^~ d) F; rewrite addnC modnMDl (modn_small id) /D.
    by rewrite mulnCA [(d * _)%N]mulnC modnMDl (modn_small rd).
  move: F; rewrite ri addnC => /addIn; rewrite /D mulnCA => /eqP.
  by rewrite [(k * d)%N]mulnC eqn_mul2l eqn0Ngt d0 /= => /eqP.
have -> : (i + k * d = i * D + i)%N by rewrite E /D addnC -mulnA [(nu.+1 * d)%N]mulnC.
have iD : (i < D)%N by apply: leq_trans id _; rewrite /D leq_pmulr.
by rewrite divnMDl // modnMDl (divn_small iD) addn0 (modn_small iD).
Qed.

Theorem C169_matrix : forall d nu (y : nat -> nat -> R),
  init_matrix R d (d * nu.+1) *m coordwise nu d y = \col_a y (a : nat) 0%N.
Proof. by move=> d nu y; apply: init_matrix_read. Qed.

Theorem C169_lists : forall d D (g : R -> 'cV[R]_D -> 'cV[R]_d) y0 N var ex m0, (0 < N)%N ->
  let (obs, ms) := regression g y0 N var ex in
  [/\ obs = nseq N 0, size ms = N
    & forall k, (k < N)%N -> nth m0 ms k =
        if (k == 0%N) && ~~ ex then (measurement_models g y0 var).1 else (measurement_models g y0 var).2].
Proof.
move=> d D g y0 [//|N] var ex m0 _; rewrite /regression.
case: (measurement_models g y0 var) => mi mo /=; case: ex => /=.
  by split; rewrite ?size_nseq // => k lk; rewrite (nth_nseq _ N.+1) lk andbF.
split; rewrite ?size_nseq // => -[|k] //= lk; rewrite nth_nseq.
by rewrite -ltnS lk.
Qed.

(** ** C170, C171: what is measured. [y a q] is the [q]-th derivative of component [a]. *)
Definition value d (y : nat -> nat -> R) q : 'cV[R]_(d * 1) := \col_a y (a : nat) q.

Lemma residual_at nu d f t (y : nat -> nat -> R) :
  ode_residual f t (coordwise nu.+1 d y) = value d y 1 - f t (value d y 0).
Proof.
have [_ _ H] := C90_orderings nu.+1 d y.
by rewrite /ode_residual !H inordK.
Qed.

Theorem C170_dirac : forall nu d f (y0 : 'cV[R]_(d * 1)) var t (y : nat -> nat -> R), var <= 0 ->
  let M := measurement_models (@ode_residual R nu d f) y0 var in
  let x := coordwise nu.+1 d y in
  M.1 t x = Normal (value d y 0 - y0) 0
  /\ M.2 t x = Normal (value d y 1 - f t (value d y 0)) 0.
Proof.
move=> nu d f y0 var t y v0; rewrite /measurement_models ltNge v0 /=.
rewrite /lti /nonlinear /= addr0 residual_at; split=> //.
by rewrite (init_matrix_read _ _ (muln1 d)).
Qed.
Theorem C170_gaussian : forall nu d f (y0 : 'cV[R]_(d * 1)) var t (y : nat -> nat -> R), 0 < var ->
  let M := measurement_models (@ode_residual R nu d f) y0 var in
  let x := coordwise nu.+1 d y in
  M.1 t x = Normal (value d y 0 - y0) (var *: 1%:M) /\ cov (M.2 t x) = var *: 1%:M.
Proof.
move=> nu d f y0 var t y v0; rewrite /measurement_models v0 /=; split=> //.
by rewrite /lti /= (init_matrix_read _ _ (muln1 d)).
Qed.

Theorem C171_shift : forall nu d f (y0 : 'cV[R]_(d * 1)) var t (y : nat -> nat -> R), 0 < var ->
  mean ((measurement_models (@ode_residual R nu d f) y0 var).2 t (coordwise nu.+1 d y))
  = value d y 1 - f t (value d y 0) - y0.
Proof.
by move=> nu d f y0 var t y v0; rewrite /measurement_models v0 /= residual_at.
Qed.
(** Whenever [y0] is not zero, states that satisfy the equation have a non-zero mean. *)
Theorem C171_bias_refuted : forall nu d f (y0 : 'cV[R]_(d * 1)) var t (y : nat -> nat -> R),
  0 < var -> y0 != 0 -> value d y 1 = f t (value d y 0) ->
  mean ((measurement_models (@ode_residual R nu d f) y0 var).2 t (coordwise nu.+1 d y)) != 0.
Proof. by move=> nu d f y0 var t y v0 n0 E; rewrite C171_shift // E subrr sub0r oppr_eq0. Qed.
Theorem C171_witness :
  let f (_ : R) (v : 'cV[R]_(1 * 1)) := v in
  let y (a q : nat) : R := 1 in
  value 1 y 1 = f 0 (value 1 y 0)
  /\ mean ((measurement_models (@ode_residual R 0 1 f) (const_mx 1) 1).2 0 (coordwise 1 1 y)) = - const_mx 1.
Proof.
split; first by apply/matrixP=> i j; rewrite !mxE.
by rewrite C171_shift ?ltr01 // (_ : value 1 _ 1 = value 1 (fun _ _ => 1) 0) ?subrr ?sub0r //;
   apply/matrixP=> i j; rewrite !mxE.
Qed.

(** ** C172, C173: stacking *)
Local Arguments stack_mean : simpl never.
Local Arguments stack_std : simpl never.
Local Arguments stackj_mean : simpl never.
Local Arguments stackj_std : simpl never.
(** The state with the [q]-th derivative [y q] for [q < k] and standard deviation
    [scale] from there. *)
Definition stacked d nu k (scale : R) (y : nat -> nat -> R) n (rv : snormal R n) : Prop :=
  [/\ n = (d * nu.+1)%N,
      s_chol rv *m (s_chol rv)^T = s_cov rv,
      forall i : 'I_n, s_mean rv i 0 = (if (i %% nu.+1 < k)%N then y (i %% nu.+1)%N (i %/ nu.+1)%N else 0),
      forall i : 'I_n, s_chol rv i i = (if (i %% nu.+1 < k)%N then 0 else scale)
    & forall i j : 'I_n, i != j -> s_chol rv i j = 0].

Lemma stack_rv_chol d ms ss : let rv := @stack_rv R d ms ss in
  s_chol rv *m (s_chol rv)^T = s_cov rv.
Proof.
apply/matrixP => i j; rewrite !mxE (bigD1 i) //= !mxE eqxx big1 ?addr0 => [|k ki].
  rewrite [j == i]eq_sym; case: eqP => [->|_]; by rewrite ?mulr0 ?expr2.
by rewrite !mxE eq_sym (negPf ki) mul0r.
Qed.

Theorem C172_stack : forall d nu scale (y0 fy : nat -> R), (0 < nu)%N ->
  stacked d nu 2 scale (fun q => if q == 0%N then y0 else fy) (stack d nu scale y0 fy).
Proof.
move=> d [//|nu] scale y0 fy _.
have s1 : size (stack_mean nu.+1 y0 fy) = nu.+2 by rewrite size_cat size_nseq /= subn2.
have s2 : size (stack_std nu.+1 scale y0 fy) = nu.+2 by rewrite size_cat size_nseq /= subn2.
split; [by rewrite s1|exact: stack_rv_chol| | |] => i.
- rewrite mxE /ravelF; move: (nat_of_ord i) => k; rewrite s1 /rows_fun /stack_mean.
  have := ltn_pmod k (ltn0Sn nu.+1); case: (_ %% _)%N => [|[|q]] //= lq.
  by rewrite nth_nseq if_same.
- rewrite mxE eqxx /ravelF; move: (nat_of_ord i) => k; rewrite s2 /rows_fun /stack_std.
  have := ltn_pmod k (ltn0Sn nu.+1); case: (_ %% _)%N => [|[|q]] //= lq; rewrite ?mul0r //.
  by rewrite nth_nseq subn2 /= -(ltn_add2r 2) addn2 addn2 lq mulr1.
by move=> j ij; rewrite /= mxE (negPf ij).
Qed.
Theorem C172_jacobian : forall d nu scale (y0 fy : nat -> R) (J : nat -> nat -> R), (1 < nu)%N ->
  stacked d nu 3 scale
    (fun q => if q == 0%N then y0 else if q == 1%N then fy else fun a => \sum_(b < d) J a b * fy b)
    (stackj d nu scale y0 fy J).
Proof.
move=> d [|[|nu]] // scale y0 fy J _.
have s1 : size (stackj_mean d nu.+2 y0 fy J) = nu.+3 by rewrite size_cat size_nseq /= !subSS subn0.
have s2 : size (stackj_std d nu.+2 scale y0 fy J) = nu.+3 by rewrite size_cat size_nseq /= !subSS subn0.
split; [by rewrite s1|exact: stack_rv_chol| | |] => i.
- rewrite mxE /ravelF; move: (nat_of_ord i) => k; rewrite s1 /rows_fun /stackj_mean.
  have := ltn_pmod k (ltn0Sn nu.+2); case: (_ %% _)%N => [|[|[|q]]] //= lq.
  by rewrite nth_nseq if_same.
- rewrite mxE eqxx /ravelF; move: (nat_of_ord i) => k; rewrite s2 /rows_fun /stackj_std.
  have := ltn_pmod k (ltn0Sn nu.+2); case: (_ %% _)%N => [|[|[|q]]] //= lq; rewrite ?mul0r //.
  by rewrite nth_nseq !subSS subn0 -(ltn_add2r 3) !addn3 lq mulr1.
by move=> j ij; rewrite /= mxE (negPf ij).
Qed.
(** With fewer derivatives the state has too many entries. *)
Theorem C173_size_refuted : forall d (y0 fy : nat -> R) (J : nat -> nat -> R), (0 < d)%N ->
  (d * size (stack_mean 0 y0 fy) != d * 1)%N
  /\ (d * size (stackj_mean d 1 y0 fy J) != d * 2)%N.
Proof. by move=> d y0 fy J d0; rewrite /stack_mean /stackj_mean /= !eqn_mul2l !eqn0Ngt d0. Qed.

(** ** C174: states and derivatives of the solution *)
Definition marginal nu d q (rv : snormal R (d * nu.+2)) (rv' : snormal R (d * 1)) : Prop :=
  [/\ forall (y : nat -> nat -> R), s_mean rv = coordwise nu.+1 d y -> s_mean rv' = value d y q,
      forall i j : 'I_(d * 1), forall k l : 'I_(d * nu.+2),
        k = (i * nu.+2 + q)%N :> nat -> l = (j * nu.+2 + q)%N :> nat -> s_cov rv' i j = s_cov rv k l
    & is_cholesky (s_chol rv') (s_cov rv')].

Lemma proj_entry nu d (q : 'I_nu.+1) (i : 'I_(d * 1)) (k : 'I_(d * nu.+1)) :
  proj2coord R d q i k = (k == (i * nu.+1 + q)%N :> nat)%:R.
Proof.
have id : (i < d)%N by apply: leq_trans (ltn_ord i) _; rewrite muln1.
rewrite !mxE divn1; case: ((i : nat) =P _) => [E|/eqP N]; rewrite ?mxE.
  by rewrite -(val_eqE (inord _)) /= inordK ?ltn_mod // E {2}(divn_eq k nu.+1) eqn_add2l.
case: eqP => // E; case/eqP: N; rewrite E divnMDl // (divn_small (ltn_ord q)).
by rewrite addn0.
Qed.

Lemma proj_cov nu d (q : 'I_nu.+1) (C : 'M[R]_(d * nu.+1)) (i j : 'I_(d * 1)) (k l : 'I_(d * nu.+1)) :
  k = (i * nu.+1 + q)%N :> nat -> l = (j * nu.+1 + q)%N :> nat ->
  (proj2coord R d q *m C *m (proj2coord R d q)^T) i j = C k l.
Proof.
move=> Ek El; rewrite mxE (bigD1 l) //= [(_^T) _ _]mxE proj_entry -El eqxx mulr1.
rewrite [X in _ + X]big1 ?addr0 => [|l' nl]; last first.
  by rewrite [(_^T) _ _]mxE proj_entry -El val_eqE (negPf nl) mulr0.
rewrite mxE (bigD1 k) //= proj_entry -Ek eqxx mul1r big1 ?addr0 // => k' nk.
by rewrite proj_entry -Ek val_eqE (negPf nk) mul0r.
Qed.

Theorem C174_states : forall (qr : forall p q, 'M[R]_(p, q) -> 'M[R]_(minn p q, q)) nu d (rv : snormal R (d * nu.+2)),
  (forall p q (B : 'M[R]_(p, q)), is_qr_r B (@qr _ _ B)) ->
  s_chol rv *m (s_chol rv)^T = s_cov rv ->
  (exists2 s, sol_state qr rv = Some s & marginal 0 rv s)
  /\ (exists2 s, sol_deriv qr rv = Some s & marginal 1 rv s).
Proof.
move=> qr nu d rv HQ HL.
have W (q : 'I_nu.+2) : exists2 s, project_rv qr (proj2coord R d q) rv = Some s & marginal q rv s.
  rewrite /project_rv /=; eexists; first by [].
  split=> /=.
  - by move=> y ->; have [_ _ ->] := C90_orderings nu.+1 d y.
  - exact: proj_cov.
  rewrite -HL (_ : _ *m _ *m _ = proj2coord R d q *m s_chol rv *m (proj2coord R d q *m s_chol rv)^T); last first.
    by rewrite trmx_mul !mulmxA.
  by have := chol_from_qr (HQ _ _ (proj2coord R d q *m s_chol rv)^T); rewrite trmxK.
split; first exact: (W ord0).
by have := W (inord 1); rewrite inordK.
Qed.
End Generic.

Print Assumptions C169_matrix.
Print Assumptions C169_lists.
Print Assumptions C170_dirac.
Print Assumptions C170_gaussian.
Print Assumptions C171_shift.
Print Assumptions C171_bias_refuted.
Print Assumptions C171_witness.
Print Assumptions C172_stack.
Print Assumptions C172_jacobian.
Print Assumptions C173_size_refuted.
Print Assumptions C174_states.

(** ** C175: the third entry of [StackWithJacobian] and the second derivative of the
    solution. [y0 a], [fy a] and [J a b] are the initial value, [f] and [df] there. *)
Definition third d nu (y0 fy : nat -> R) (J : nat -> nat -> R) : nat -> R :=
  nth (fun _ => 0) (stackj_mean (R := K) d nu y0 fy J) 2.

(** It is the second derivative of every solution near [t0] if the equation is autonomous.
    [has_gradient]: differentiability at a point (L_OdeInit.v). *)
Theorem C175_autonomous : forall d nu (t0 : R) (f : (nat -> R) -> nat -> R) (J : nat -> nat -> R) (y : nat -> R -> R),
  (forall a, (a < d)%N -> has_gradient d (f^~ a) (y^~ t0) (J a)) ->
  locally t0 (fun t => forall a, (a < d)%N -> is_derive (y a) t (f (y^~ t) a)) ->
  forall a, (a < d)%N -> is_derive (Derive (y a)) t0 (third d nu (y^~ t0) (f (y^~ t0)) J a).
Proof.
move=> d nu t0 f J y Hf Hy a ad; rewrite /third /= /matvec.
apply: (is_derive_ext_loc (K := R_AbsRing) (V := R_NormedModule) (fun t => f (y^~ t) a)).
  by apply: filter_imp Hy => t Ht; rewrite (is_derive_unique _ _ _ (Ht a ad)).
exact: (chain (Hf a ad) (locally_singleton _ _ Hy)).
Qed.
(** A rotation: the second derivatives of (cos t, sin t) at 0. *)
Example C175_instance :
  let y (a : nat) := if a == 0%N then cos else sin in
  let f (v : nat -> R) (a : nat) := if a == 0%N then (- v 1%N)%coqR else v 0%N in
  let J (a b : nat) := if a == b then 0%coqR else if a == 0%N then (-1)%coqR else 1%coqR in
  [/\ forall a, (a < 2)%N -> has_gradient 2 (f^~ a) (y^~ 0%coqR) (J a),
      forall t a, (a < 2)%N -> is_derive (y a) t (f (y^~ t) a)
    & third 2 2 (y^~ 0%coqR) (f (y^~ 0%coqR)) J 0%N = (-1)%coqR
      /\ third 2 2 (y^~ 0%coqR) (f (y^~ 0%coqR)) J 1%N = 0%coqR].
Proof.
move=> y f J.
have S (c v : nat -> R) : \sum_(b < 2) c b * v b = (c 0%N * v 0%N + c 1%N * v 1%N)%coqR.
  by rewrite !big_ord_recl big_ord0 addr0.
have D0 z w : Rle 0 (dist1 2 z w).
  rewrite /dist1 !big_ord_recl big_ord0 addr0.
  exact: Rplus_le_le_0_compat (Rabs_pos _) (Rabs_pos _).
split.
- move=> a a2 eps e0; exists 1%coqR => [|z _]; first exact: Rlt_0_1.
  rewrite (S (J a) (fun b => z b - y b 0%coqR)); set X := (X in Rabs X).
  suff -> : X = 0%coqR by rewrite Rabs_R0; apply: Rmult_le_pos => //; apply: Rlt_le.
  rewrite /X /f /J; case: a {X} a2 => [|[|//]] _ /=.
    by rewrite -[LHS]/(- z 1%N - - sin 0 - (0 * (z 0%N - cos 0) + -1 * (z 1%N - sin 0)))%coqR; ring.
  by rewrite -[LHS]/(z 0%N - cos 0 - (1 * (z 0%N - cos 0) + 0 * (z 1%N - sin 0)))%coqR; ring.
- by move=> t [|[|//]] _; rewrite /y /f /=; auto_derive => //; ring.
by rewrite /third /= /matvec !S /J /f /y /= cos_0 sin_0; split; ring.
Qed.
(** Otherwise it need not be: [y' = t] from [0] at time [0]. *)
Theorem C175_time_refuted : exists (f df : R -> R -> R) (y : R -> R),
  [/\ forall t x, is_derive (f t) x (df t x), forall t, is_derive y t (f t (y t)), y 0%coqR = 0%coqR
    & is_derive (Derive y) 0%coqR 1%coqR
      /\ third 1 2 (fun _ => y 0%coqR) (fun _ => f 0%coqR (y 0%coqR)) (fun _ _ => df 0%coqR (y 0%coqR)) 0 = 0%coqR].
Proof.
exists (fun t _ => t), (fun _ _ => 0%coqR), (fun t => (t * t / 2)%coqR).
have D t : is_derive (fun t => (t * t / 2)%coqR) t t by auto_derive => //; field.
split=> //; first by move=> t x; apply: is_derive_const.
  by rewrite /=; lra.
split; last by rewrite /third /= /matvec big_ord1 mulr0.
by apply: (is_derive_ext id) => [t|]; [rewrite (is_derive_unique _ _ _ (D t))|apply: is_derive_id].
Qed.
Print Assumptions C175_autonomous.
Print Assumptions C175_time_refuted.

(** ** Instances *)
Example C169_instance :
  (init_matrix [rcfType of realalg] 2 6) *m (\col_i (i : nat)%:R) = \col_(a < 2) (3 * a)%:R.
Proof.
have := @C169_matrix [rcfType of realalg] 2 2 (fun a q => (3 * a + q)%:R); rewrite /coordwise => H.
rewrite (_ : (\col_i _) = \col_(i < 2 * 3) (3 * (i %/ 3) + i %% 3)%:R); last first.
  by apply/matrixP=> i j; rewrite !mxE mulnC -divn_eq.
by rewrite H; apply/matrixP=> i j; rewrite !mxE addn0.
Qed.
Example C172_instance :
  s_mean (stack (R := [rcfType of realalg]) 2 2 1000%:R (fun a => a.+1%:R) (fun a => - a.+1%:R))
  = \col_i nth 0 [:: 1; -1; 0; 2%:R; -2%:R; 0] i.
Proof. by apply/matrixP=> -[[|[|[|[|[|[|//]]]]]] i] j; rewrite !mxE. Qed.
Example C174_instance : exists s, sol_state (R := [rcfType of realalg]) (nu := 0) (d := 1) (@qr_of _)
  (SNormal (\col_i (i : nat).+1%:R) 1%:M 1%:M) = Some s /\ s_mean s = const_mx 1.
Proof.
case: (@C174_states [rcfType of realalg] (@qr_of _) 0 1 (SNormal (\col_i (i : nat).+1%:R) 1%:M 1%:M)) => [p q B||].
- exact: qr_ofP.
- by rewrite /= trmx1 mulmx1.
case=> s E [M _ _] _; exists s; split=> //.
rewrite (M (fun a q => q.+1%:R)); first by apply/matrixP=> i j; rewrite !mxE.
by apply/matrixP=> i j; rewrite !mxE modn_small.
Qed.
