(** Lemmas for the solution-based linear solvers. *)
From mathcomp Require Import all_ssreflect all_algebra.
From Verif Require Import L_Zmod L_Kalman M_PLS L_PLS M_Ortho M_LinSolve.
Set Implicit Arguments.
Unset Strict Implicit.
Unset Printing Implicit Defensive.
Import Order.Theory GRing.Theory Num.Theory.
Local Open Scope ring_scope.

Lemma iota_last k : iota 0 k.+1 = rcons (iota 0 k) k.
Proof. by rewrite -addn1 iotaD add0n cats1. Qed.
(** ** Invariants of the solver loop *)
Section Loop.
Context {B Y Act Obs K : Type}.
Variable resid : B -> Y.
Local Notation spec := (@spec B Act Obs K).
Local Notation prog := (prog B Y Act Obs K).

(** What a component program may change. *)
Definition same_trace (t t' : spec) :=
  [/\ sp_prior t' = sp_prior t, sp_past t' = sp_past t, sp_cur t' = sp_cur t,
      sp_a t' = sp_a t & sp_o t' = sp_o t] /\ (sp_read t -> sp_read t').
Lemma srun_trace T (p : prog T) t : same_trace t (snd (srun resid p t)).
Proof.
elim: p t => [x|k IH|k IH|c k IH] t //=.
- have [[E1 E2 E3 E4 E5] E6] := IH (resid (sp_cur t))
    (mk_spec (sp_prior t) (sp_past t) (sp_cur t) true (sp_a t) (sp_o t) (sp_cache t)).
  by split=> // _; apply: E6.
- exact: (IH (mk_spec (sp_prior t) (sp_past t) (sp_cur t) (sp_read t) (sp_a t) (sp_o t) c)).
Qed.

Lemma s_iterate_head fuel (sv : pls B Y Act Obs K) consumer t l e z :
  s_iterate resid fuel.+1 sv consumer t = (l, e, z) -> exists l', l = t :: l'.
Proof.
rewrite /=; case: (srun resid (p_stop sv) _) => st t1; case: st => [[<- _ _]|]; first by exists nil.
case: (srun resid (p_policy sv _) _) => a t2; case: (srun resid (p_info sv) _) => o t4.
case: (srun resid (p_update sv) _) => b t6; case: (s_iterate _ _ _ _ _) => [[l3 ?] ?] [<- _ _].
by exists l3.
Qed.

Section Inv.
Variables (sv : pls B Y Act Obs K) (consumer : nat -> prog unit) (P : spec -> Prop).
Definition after_step (t : spec) : spec :=
  let t1 := snd (srun resid (p_stop sv) (snd (srun resid (consumer (size (sp_past t))) t))) in
  let: (a, t2) := srun resid (p_policy sv (size (sp_past t))) t1 in
  let: (o, t4) := srun resid (p_info sv) (s_action a t2) in
  let: (b, t6) := srun resid (p_update sv) (s_obs o t4) in
  s_next b a o t6.
Hypothesis step : forall t, P t -> sp_a t = None -> sp_o t = None -> P (after_step t).
Lemma s_iterate_inv fuel t : P t -> sp_a t = None -> sp_o t = None ->
  forall x, List.In x (fst (fst (s_iterate resid fuel sv consumer t))) -> P x.
Proof.
elim: fuel t => [|fuel IH] t Pt ta to //= x.
have := step Pt ta to; rewrite /after_step.
change (length (sp_past t)) with (size (sp_past t)).
case: (srun resid (p_stop sv) _) => stop t1 /=.
case: stop => /=; first by move=> _ [<-|[]].
case: (srun resid (p_policy sv _) _) => a t2; case: (srun resid (p_info sv) _) => o t4.
case: (srun resid (p_update sv) _) => b t6 Pn.
have := IH _ Pn erefl erefl x.
by case: (s_iterate _ _ _ _ _) => [[l e] z] /= H [<-|/H].
Qed.
Lemma iterate_inv fuel k0 prior l e z : P (s_init k0 prior) ->
  iterate resid fuel sv consumer (init_state resid k0 prior) = (l, e, z) ->
  forall x, List.In x l -> exists t, rel resid x t /\ P t.
Proof.
move=> P0 E x xl; have := refines resid sv consumer fuel k0 prior; rewrite E.
have := @s_iterate_inv fuel (s_init k0 prior) P0 erefl erefl.
case: (s_iterate _ _ _ _ _) => [[l' e'] z'] /= H [F _].
elim: l l' F H xl {E} => [|y l IH] l' F H //= xl.
inversion F as [|y' t l1 l2 yt F2]; subst; case: xl => [<-|xl].
  by exists t; split=> //; apply: H; left.
by apply: (IH l2 F2 _ xl) => u ul; apply: H; right.
Qed.
End Inv.
End Loop.

(** ** Updates along a sequence of actions *)
Section Updates.
Variables (R : rcfType) (n : nat).
Local Notation vec := 'cV[R]_n.
Variables (A : 'M[R]_n) (b : vec).
Implicit Types (p : sbel R n) (s : vec) (ss : seq vec).

Definition update1 lam p s : sbel R n := proj_update A lam p s (num (s^T *m (b - A *m x_mean p))).
Definition updates lam p ss : sbel R n := foldl (update1 lam) p ss.

Definition ostep lam (p : option (sbel R n)) (a : option vec) :=
  proj_step A lam p a (proj_obs (sresid A b p) a).
Lemma ostep_all lam p ss : foldl (ostep lam) (Some p) (map Some ss) = Some (updates lam p ss).
Proof. by rewrite /updates; elim: ss p => //= s ss IH p; rewrite IH. Qed.

Local Notation spec := (@spec (option (sbel R n)) (option vec) (option R) (seq (option vec))).
Lemma nth_last_cat T (x0 : T) l x : nth x0 (l ++ [:: x]) (size l) = x.
Proof. by rewrite nth_cat ltnn subnn. Qed.
Lemma size_cons_map T U (f : T -> U) l : length l = size (map f l).
Proof. by rewrite size_map. Qed.
Lemma cur_action_spec (t : spec) a : sp_a t = Some a -> cur_action (spec_view (sresid A b) t) = a.
Proof.
move=> E; rewrite /cur_action /= E; set f := fun x => _; set l := List.map _ _.
have -> : length (sp_past t) = size l by rewrite [l]/(map _ _) size_map.
by rewrite nth_last_cat.
Qed.
Lemma cur_obs_spec (t : spec) o : sp_o t = Some o -> cur_obs (spec_view (sresid A b) t) = Some o.
Proof.
move=> E; rewrite /cur_obs /= E; set f := fun x => _; set l := List.map _ _.
have -> : length (sp_past t) = size l by rewrite [l]/(map _ _) size_map.
by rewrite nth_last_cat.
Qed.

Definition past_actions (t : spec) : seq (option vec) := [seq x.1.1.2 | x <- sp_past t].

(** One pass through the loop: action of the policy, projection, update. *)
Lemma after_stepE lam stop policy consumer t : sp_a t = None -> sp_o t = None ->
  let sv := solution_solver A lam stop policy in
  let t1 := snd (srun (sresid A b) stop (snd (srun (sresid A b) (consumer (size (sp_past t))) t))) in
  let a := fst (srun (sresid A b) (policy (size (sp_past t))) t1) in
  let t2 := snd (srun (sresid A b) (policy (size (sp_past t))) t1) in
  after_step (sresid A b) sv consumer t
  = mk_spec (sp_prior t)
     (rcons (sp_past t) (sp_cur t, a, proj_obs (sresid A b (sp_cur t)) a, true))
     (ostep lam (sp_cur t) a) false None None (sp_cache t2).
Proof.
move=> ta to /=; rewrite /after_step /=.
have [[E1 E2 E3 E4 E5] _] := srun_trace (sresid A b) (consumer (size (sp_past t))) t.
set t0 := snd (srun _ (consumer _) t) in E1 E2 E3 E4 E5 *.
have [[F1 F2 F3 F4 F5] _] := srun_trace (sresid A b) stop t0.
set t1 := snd (srun _ stop t0) in F1 F2 F3 F4 F5 *.
have [[G1 G2 G3 G4 G5] _] := srun_trace (sresid A b) (policy (size (sp_past t))) t1.
move: G1 G2 G3 G4 G5; case: (srun _ _ t1) => a t2 /= G1 G2 G3 G4 G5.
set t3 := mk_spec _ _ _ true (Some a) _ _.
have -> : cur_action (spec_view (sresid A b) t3) = a by apply: cur_action_spec.
rewrite /=; set o := proj_obs _ a; set t5 := s_obs o t3.
have -> : cur_action (spec_view (sresid A b) t5) = a by apply: cur_action_spec.
have -> : cur_obs (spec_view (sresid A b) t5) = Some o by apply: cur_obs_spec.
rewrite /s_next /= /o.
rewrite G1 F1 E1 G2 F2 E2 G3 F3 E3; congr (mk_spec _ _ _ _ _ _ _).
by rewrite -cats1.
Qed.

Lemma iterate_beliefs lam stop policy consumer fuel k0 prior l e z :
  iterate (sresid A b) fuel (solution_solver A lam stop policy) consumer
    (init_state (sresid A b) k0 prior) = (l, e, z) ->
  forall x, List.In x l -> exists acts,
    ls_actions x = rcons (map Some acts) None /\ ls_belief x = foldl (ostep lam) prior acts.
Proof.
pose P (t : spec) := sp_cur t = foldl (ostep lam) prior (past_actions t).
move=> E x xl; have [] := @iterate_inv _ _ _ _ _ (sresid A b) (solution_solver A lam stop policy) consumer
  (fun t => P t /\ sp_a t = None) _ fuel k0 prior l e z _ E x xl => //.
  move=> t [Pt ta] _ to; rewrite after_stepE //; split=> //; rewrite /P /past_actions /=.
  by rewrite map_rcons -cats1 foldl_cat /= Pt.
move=> t [rt [Pt ta]]; exists (past_actions t).
have [_ [-> [-> _]]] := rel_inv _ _ _ rt; split=> //.
rewrite ta -cats1 /past_actions -map_comp; congr (_ ++ _).
by elim: (sp_past t) => //= [[[[? ?] ?] ?] q ->].
Qed.
End Updates.

(** ** Algebra of one update *)
Section Algebra.
Variables (R : rcfType) (n : nat).
Local Notation vec := 'cV[R]_n.

Definition dt (u w : vec) : R := num (u^T *m w).
Lemma dtC u w : dt u w = dt w u.
Proof. by rewrite /dt /num -[in LHS](trmxK w) -trmx_mul mxE. Qed.
Lemma dtDr u v w : dt u (v + w) = dt u v + dt u w.
Proof. by rewrite /dt /num mulmxDr mxE. Qed.
Lemma dtBr u v w : dt u (v - w) = dt u v - dt u w.
Proof. by rewrite /dt /num mulmxBr !mxE. Qed.
Lemma dtZr u a w : dt u (a *: w) = a * dt u w.
Proof. by rewrite /dt /num -scalemxAr mxE. Qed.
Lemma dt0r u : dt u 0 = 0.
Proof. by rewrite /dt /num mulmx0 mxE. Qed.
Lemma dtDl u v w : dt (u + v) w = dt u w + dt v w.
Proof. by rewrite dtC dtDr !(dtC w). Qed.
Lemma dtZl u a w : dt (a *: u) w = a * dt u w.
Proof. by rewrite dtC dtZr dtC. Qed.
Lemma dtMl (M : 'M[R]_n) u w : dt (M *m u) w = dt u (M^T *m w).
Proof. by rewrite /dt trmx_mul mulmxA. Qed.
Lemma outerE (u w x : vec) : u *m w^T *m x = dt w x *: u.
Proof. by rewrite -mulmxA [w^T *m x]mx11_scalar mul_mx_scalar. Qed.
Lemma qform_dt (S : 'M[R]_n) x : qform S x = dt x (S *m x).
Proof. by rewrite /qform /dt /num mulmxA. Qed.
Lemma dt_ge0 u : 0 <= dt u u.
Proof. exact: dot_ge0. Qed.
Lemma dt_eq0 u : dt u u = 0 -> u = 0.
Proof. exact: dot_eq0. Qed.
Lemma dt_gt0 u : u != 0 -> 0 < dt u u.
Proof. by move=> u0; rewrite lt_def dt_ge0 andbT; apply: contra u0 => /eqP/dt_eq0 ->. Qed.

Lemma psd_ker (S : 'M[R]_n) v : psd S -> qform S v = 0 -> S *m v = 0.
Proof.
move=> [sy po] v0; apply: dt_eq0; set w := S *m v; apply/eqP.
have Sw : dt v (S *m w) = dt w w by rewrite -{1}sy -dtMl.
have q t : 0 <= dt w (S *m w) * t ^+ 2 + dt w w * t *+ 2.
  have := po (v + t *: w); rewrite !qform_dt !mulmxDr -scalemxAr !(dtDl, dtDr) !(dtZr, dtZl) -/w.
  have -> : dt v w = 0 by rewrite /w -qform_dt.
  rewrite add0r Sw.
  have -> : t * dt w w + (t * dt w w + t * (t * dt w (S *m w))) = dt w (S *m w) * t ^+ 2 + dt w w * t *+ 2.
    by rewrite addrA -mulr2n addrC mulrA mulrC expr2 [t * dt w w]mulrC.
  by [].
case: (ltrgtP (dt w w) 0) => // [|w0]; first by rewrite ltNge dt_ge0.
have d0 : 0 <= dt w (S *m w) by rewrite -qform_dt.
set d := dt w (S *m w) in q d0; set g := dt w w in q w0 *.
have t0 : 0 < (d + 1) by apply: (le_lt_trans d0); rewrite ltr_addl ltr01.
have := q (- g / (d + 1)); rewrite leNgt => /negP []; rewrite mulNr mulrN sqrrN.
have -> : d * (g / (d + 1)) ^+ 2 + - (g * (g / (d + 1))) *+ 2
   = (g / (d + 1)) ^+ 2 * (d - (d + 1) *+ 2).
  rewrite mulrBr [_ * d]mulrC; congr (_ + _); rewrite mulNrn -mulrnAr; congr (- _).
  by rewrite mulrnAr mulrnAr expr2 -!mulrA; congr ((_ * _) *+ 2); rewrite mulVf ?gt_eqF // mulr1 mulrC.
rewrite pmulr_rlt0 ?exprn_gt0 ?divr_gt0 // mulr2n subr_lt0.
by apply: (lt_le_trans (y := d + 1)); rewrite ?ltr_addl ?ltr01 // ler_addl ltW.
Qed.
End Algebra.

Section OneUpdate.
Variables (R : rcfType) (n : nat).
Local Notation vec := 'cV[R]_n.
Variables (A : 'M[R]_n) (b : vec).
Implicit Types (p : sbel R n) (s : vec) (ss : seq vec).

Definition gramS lam p s : R := dt (A^T *m s) (x_cov p *m (A^T *m s)) + lam.
Definition pinv (g : R) : R := if 0 < g then g^-1 else 0.
Lemma pinv_ge0 g : 0 <= pinv g.
Proof. by rewrite /pinv; case: ltP => // g0; rewrite invr_ge0 ltW. Qed.
Lemma pinv_refl g : pinv g * g * pinv g = pinv g.
Proof. by rewrite /pinv; case: ltP => g0; rewrite ?mulr0 // mulVf ?mul1r ?gt_eqF. Qed.

Lemma update1E lam p s :
  let v := A^T *m s in let q := pinv (gramS lam p s) in
  [/\ x_mean (update1 A b lam p s) = x_mean p + (q * dt s (b - A *m x_mean p)) *: (x_cov p *m v),
      x_cov (update1 A b lam p s) = x_cov p - q *: ((x_cov p *m v) *m (x_cov p *m v)^T)
    & ainv (update1 A b lam p s)
      = Some (odflt 0 (ainv p) + q *: ((x_cov p *m v) *m (x_cov p *m v)^T))].
Proof.
rewrite /update1 /proj_update /=.
have -> : (s^T *m A)^T = A^T *m s by rewrite trmx_mul trmxK.
have -> : num (s^T *m A *m (x_cov p *m (A^T *m s))) + lam = gramS lam p s.
  by rewrite /gramS /dt trmx_mul trmxK.
rewrite div1r -/(pinv _) -!scalemxAl; split=> //.
  by rewrite scalerA [_ * pinv _]mulrC.
by case: (ainv p) => //=; rewrite add0r.
Qed.

Lemma cov_joseph lam p s : (x_cov p)^T = x_cov p ->
  let v := A^T *m s in let q := pinv (gramS lam p s) in
  let M := 1%:M - q *: ((x_cov p *m v) *m v^T) in
  x_cov (update1 A b lam p s)
  = M *m x_cov p *m M^T + (lam * q ^+ 2) *: ((x_cov p *m v) *m (x_cov p *m v)^T).
Proof.
move=> sy v q; have [_ -> _] := update1E lam p s; rewrite -/v -/q; set S := x_cov p in sy *.
set w := S *m v; move=> M; rewrite /M {M}.
have wS : v^T *m S = w^T by rewrite [w^T]trmx_mul sy.
have gE : dt v w = gramS lam p s - lam by rewrite /gramS addrK.
have qE : q * gramS lam p s * q = q by exact: pinv_refl.
have wE : S *m v = w by [].
move: v q w wS gE qE wE => v q w wS gE qE wE.
rewrite trmxB trmx1 trmxZ trmx_mul trmxK mulmxBl mul1mx -scalemxAl -mulmxA wS.
rewrite mulmxBr mulmx1 -scalemxAr mulmxBl -scalemxAl mulmxA -/w.
rewrite -[w *m w^T *m _]mulmxA [w^T *m _]mulmxA.
have -> : w^T *m v = (dt v w)%:M by rewrite [LHS]mx11_scalar -/(num _) -/(dt w v) dtC.
rewrite mul_scalar_mx -scalemxAr.
rewrite wE; set W := w *m w^T.
have -> : S - q *: W - q *: (W - q *: (dt v w *: W)) + lam * q ^+ 2 *: W
    = S - (q + q - q * (dt v w) * q - lam * q ^+ 2) *: W.
  by rewrite scalerBr !scalerA !(scalerBl, scalerDl) [q * dt v w * q]mulrAC; zmod_eq.
congr (_ - _ *: _); rewrite gE mulrBr mulrBl qE.
have -> : q * lam * q = lam * q ^+ 2 by rewrite [q * lam]mulrC expr2 mulrA.
zmod_eq.
Qed.

Lemma psd_update lam p s : 0 <= lam -> psd (x_cov p) -> psd (x_cov (update1 A b lam p s)).
Proof.
move=> l0 ps; rewrite cov_joseph; last by have [] := ps.
apply: psdD; first exact: psd_conj.
by apply: psdZ; [rewrite mulr_ge0 ?sqr_ge0|exact: psd_gram].
Qed.
Lemma loewner_update lam p s : loewner (x_cov (update1 A b lam p s)) (x_cov p).
Proof.
have [_ -> _] := update1E lam p s; rewrite /loewner opprB addrC subrK.
by apply: psdZ; [exact: pinv_ge0|exact: psd_gram].
Qed.

(** Without noise: the new covariance annihilates [A^T s], and keeps annihilating what the
    old one annihilated. *)
Lemma kills_new p s : psd (x_cov p) -> x_cov (update1 A b 0 p s) *m (A^T *m s) = 0.
Proof.
move=> ps; have [_ -> _] := update1E 0 p s; rewrite mulmxBl -scalemxAl outerE dtC scalerA.
have -> : dt (A^T *m s) (x_cov p *m (A^T *m s)) = gramS 0 p s by rewrite /gramS addr0.
rewrite /pinv; case: ltP => g0; first by rewrite mulVf ?gt_eqF // scale1r subrr.
rewrite mul0r scale0r subr0; apply: psd_ker => //; apply/eqP; rewrite eq_le (proj2 ps) andbT qform_dt.
by rewrite /gramS addr0 in g0.
Qed.
Lemma kills_old lam p s (u : vec) : (x_cov p)^T = x_cov p -> x_cov p *m u = 0 ->
  x_cov (update1 A b lam p s) *m u = 0.
Proof.
move=> sy u0; have [_ -> _] := update1E lam p s; rewrite mulmxBl -scalemxAl outerE u0.
by rewrite dtMl sy u0 dt0r scale0r scaler0 subr0.
Qed.

(** The error stays the covariance applied to one fixed vector. *)
Lemma error_update p s (xs z : vec) : (x_cov p)^T = x_cov p -> A *m xs = b ->
  xs - x_mean p = x_cov p *m z ->
  xs - x_mean (update1 A b 0 p s) = x_cov (update1 A b 0 p s) *m z.
Proof.
move=> sy Ax e; have [-> -> _] := update1E 0 p s; rewrite mulmxBl -scalemxAl outerE.
rewrite opprD addrA e -Ax -mulmxBr e; congr (_ - _); rewrite scalerA; congr (_ * _ *: _).
by rewrite dtMl sy dtMl trmxK.
Qed.

Lemma updates_rcons lam p ss s : updates A b lam p (rcons ss s) = update1 A b lam (updates A b lam p ss) s.
Proof. by rewrite /updates -cats1 foldl_cat. Qed.
Lemma psd_updates lam p ss : 0 <= lam -> psd (x_cov p) -> psd (x_cov (updates A b lam p ss)).
Proof. by move=> l0 ps; elim/last_ind: ss => // ss s IH; rewrite updates_rcons; apply: psd_update. Qed.
Lemma psd_trans (S T U : 'M[R]_n) : loewner S T -> loewner T U -> loewner S U.
Proof. by move=> h1 h2; have := psdD h1 h2; rewrite /loewner addrC addrA subrK. Qed.
Lemma loewner_updates lam p ss ss' :
  loewner (x_cov (updates A b lam p (ss ++ ss'))) (x_cov (updates A b lam p ss)).
Proof.
elim/last_ind: ss' => [|ss' s IH]; first by rewrite cats0 /loewner subrr; exact: psd0.
by rewrite -rcons_cat updates_rcons; apply: psd_trans IH; exact: loewner_update.
Qed.
Lemma kills_updates p ss s : psd (x_cov p) -> s \in ss -> x_cov (updates A b 0 p ss) *m (A^T *m s) = 0.
Proof.
move=> ps; elim/last_ind: ss => // ss s' IH; rewrite mem_rcons inE updates_rcons.
have ps' := psd_updates ss (lexx 0) ps.
by case/orP => [/eqP ->|/IH]; [exact: kills_new|apply: kills_old; have [] := ps'].
Qed.
Lemma error_updates p ss (xs z : vec) : psd (x_cov p) -> A *m xs = b ->
  xs - x_mean p = x_cov p *m z ->
  xs - x_mean (updates A b 0 p ss) = x_cov (updates A b 0 p ss) *m z.
Proof.
move=> ps Ax e; elim/last_ind: ss => // ss s IH; rewrite updates_rcons; apply: error_update => //.
by have [] := psd_updates ss (lexx 0) ps.
Qed.
Lemma ainv_updates p ss lam : odflt 0 (ainv (updates A b lam p ss)) + x_cov (updates A b lam p ss)
  = odflt 0 (ainv p) + x_cov p.
Proof.
elim/last_ind: ss => // ss s IH; rewrite updates_rcons -IH.
by have [_ -> ->] := update1E lam (updates A b lam p ss) s; rewrite /= addrACA subrr addr0.
Qed.
End OneUpdate.
