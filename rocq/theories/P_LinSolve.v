(** C33, C34, C94-C97: solution-based probabilistic linear solvers. *)
From mathcomp Require Import all_ssreflect all_algebra.
From mathcomp Require Import realalg.
From Verif Require Import L_Zmod M_Gauss L_Kalman L_Filter M_PLS L_PLS P_PLS M_Ortho P_Ortho M_LinSolve L_IWP
  L_SSMExists L_LinSolve L_CG L_CG2 L_LinPost.
Set Implicit Arguments.
Unset Strict Implicit.
Unset Printing Implicit Defensive.
Import Order.Theory GRing.Theory Num.Theory.
Local Open Scope ring_scope.

(** A solver run: any stopping criterion, any consumer of the iterator. *)
Local Notation loop A b fuel sv consumer k0 prior :=
  (iterate (sresid A b) fuel sv consumer (init_state (sresid A b) k0 prior)).
(** Number. *)
Local Notation "''e' M" := (M 0 0) (at level 9, M at level 8).

Section C33.
Variables (R : rcfType) (n : nat).
Local Notation vec := 'cV[R]_n.

(** The yielded state carries finite actions [ss]. *)
Definition took (x : lstate (option (sbel R n)) (option vec) (option vec) (option R) (seq (option vec)))
    (ss : seq vec) := ls_actions x = rcons (map (fun s => Some (Some s)) ss) None.

Lemma took_belief (A : 'M[R]_n) (b : vec) lam stop policy consumer fuel k0 p l e z :
  loop A b fuel (solution_solver A lam stop policy) consumer k0 (Some p) = (l, e, z) ->
  forall x ss, List.In x l -> took x ss -> ls_belief x = Some (updates A b lam p ss).
Proof.
move=> E x ss xl t; have [acts [Ea ->]] := iterate_beliefs E xl.
have -> : acts = map Some ss.
  move: t; rewrite /took Ea => /rcons_inj [/esym H]; apply: (inj_map (f := @Some (option vec))).
    by move=> ? ? [].
  by rewrite -H -map_comp.
exact: ostep_all.
Qed.

(** *** C33 *)
(** For arbitrary policies: if the system has a solution whose difference to the prior mean
    is in the range of the prior covariance, every observed projection holds exactly from
    then on; the covariance annihilates the observed directions, stays symmetric positive
    semidefinite and below the prior covariance; and if the actions span, the solution is
    exact. *)
Theorem C33_projections : forall (A : 'M[R]_n) b stop policy consumer fuel k0 p l e z x ss xs w,
  loop A b fuel (solution_solver A 0 stop policy) consumer k0 (Some p) = (l, e, z) ->
  List.In x l -> took x ss ->
  psd (x_cov p) -> A *m xs = b -> xs - x_mean p = x_cov p *m w ->
  exists q, ls_belief x = Some q
    /\ (forall s, s \in ss -> 'e (s^T *m (b - A *m x_mean q)) = 0)
    /\ (forall s, s \in ss -> x_cov q *m (A^T *m s) = 0)
    /\ psd (x_cov q) /\ loewner (x_cov q) (x_cov p)
    /\ ((forall v : vec, (forall s, s \in ss -> 'e (s^T *m v) = 0) -> v = 0) -> A *m x_mean q = b).
Proof.
move=> A b stop policy consumer fuel k0 p l e z x ss xs w E xl t ps Ax e0.
exists (updates A b 0 p ss); split; first exact: took_belief E _ _ xl t.
have er := error_updates ss ps Ax e0.
have pr s : s \in ss -> 'e (s^T *m (b - A *m x_mean (updates A b 0 p ss))) = 0.
  move=> sl; rewrite -Ax -mulmxBr Ax er.
  rewrite -[LHS]/(dt s (A *m (x_cov (updates A b 0 p ss) *m w))) dtC dtMl dtMl.
  have [-> _] := psd_updates A b ss (lexx 0) ps.
  by rewrite (kills_updates A b ps sl) dt0r.
split=> //; split; first by move=> s; exact: kills_updates.
split; first exact: psd_updates.
split; first exact: (loewner_updates A b 0 p [::] ss).
by move=> H; apply/esym/subr0_eq; apply: H => s; exact: pr.
Qed.

(** Uncertainty never grows from one yielded state to the next (any noise). *)
Lemma succ_updates (A : 'M[R]_n) (b : vec) lam stop policy consumer fuel k0 prior l e z i x y :
  loop A b fuel (solution_solver A lam stop policy) consumer k0 prior = (l, e, z) ->
  List.nth_error l i = Some x -> List.nth_error l i.+1 = Some y ->
  exists a, ls_belief y = ostep A b lam (ls_belief x) a.
Proof.
move=> E Ex Ey; have := refines (sresid A b) (solution_solver A lam stop policy) consumer fuel k0 prior.
rewrite E {E}.
have : sp_a (s_init (Act := option vec) (Obs := option R) k0 prior) = None by [].
have : sp_o (s_init (Act := option vec) (Obs := option R) k0 prior) = None by [].
move: (s_init k0 prior) => t to ta.
case Es : (s_iterate _ _ _ _ _) => [[l' e'] z'] [F _].
elim: fuel t ta to i l l' e' z' F Es Ex Ey => [|fuel IH] t ta to i l l' e' z' F /=.
  by case=> El _ _; move: F; rewrite -El => F; inversion F; subst; case: i.
have := after_stepE A b lam stop policy consumer ta to; rewrite /after_step /=.
change (length (sp_past t)) with (size (sp_past t)).
case: (srun (sresid A b) stop _) => st t1 /=.
case: st => /=.
  move=> _ [El _ _]; rewrite -El in F; inversion F as [|x0 y0 l0 l1 _ F2]; subst; inversion F2; subst.
  by case: i => [|[|i]].
case: (srun _ (policy _) t1) => a t2 /= SE.
set t6 := s_next _ _ _ _ in SE *.
case Es : (s_iterate _ _ _ _ t6) => [[l1 e1] z1] [El _ _]; rewrite -El in F.
inversion F as [|x0 y0 l0 l2 R0 F2]; subst; case: i => [|i] /=; last first.
  by apply: (IH t6) F2 Es; rewrite SE.
move=> [<-] Ey; case: fuel Es {IH} => [|fuel] Es.
  by case: Es F2 => <- _ _ F2; inversion F2; subst.
exists a; have [_ [-> _]] := rel_inv _ _ _ R0.
have [l3 El3] := s_iterate_head Es.
rewrite El3 in F2; inversion F2 as [|y1 z1' l4 l5 R1 F3]; subst.
by move: Ey => [<-]; have [_ [-> _]] := rel_inv _ _ _ R1; rewrite SE.
Qed.
Theorem C33_never_grows : forall (A : 'M[R]_n) b lam stop policy consumer fuel k0 prior l e z i x y px py,
  loop A b fuel (solution_solver A lam stop policy) consumer k0 prior = (l, e, z) ->
  List.nth_error l i = Some x -> List.nth_error l i.+1 = Some y ->
  ls_belief x = Some px -> ls_belief y = Some py ->
  loewner (x_cov py) (x_cov px) /\ (0 <= lam -> psd (x_cov px) -> psd (x_cov py)).
Proof.
move=> A b lam stop policy consumer fuel k0 prior l e z i x y px py E Ex Ey bx by_.
have [a] := succ_updates E Ex Ey; rewrite bx by_; case: a => [s|] //= [->].
rewrite -/(update1 A b lam px s); split; first exact: loewner_update.
exact: psd_update.
Qed.

(** The belief is the conditional law of the unknown solution given the projections
    [s_j^T A x] observed with independent noise of variance [lam]: its mean is the same
    function [mu] of the data for every right-hand side, and [mu], [P] are a conditional law. *)
Theorem C33_posterior : forall K (X : rvec R K n) (V : nat -> rvec R K 1) (A : 'M[R]_n) lam p ss,
  0 <= lam -> psd (x_cov p) -> Mean X = x_mean p -> Cov X X = x_cov p ->
  (forall j, (j < size ss)%N -> [/\ Mean (V j) = 0, Cov (V j) (V j) = lam%:M & Cov X (V j) = 0]) ->
  (forall i j, (i < size ss)%N -> (j < size ss)%N -> i != j -> Cov (V i) (V j) = 0) ->
  exists mu P,
    cond_law (m := fun _ => 1%N) X (fun j => (nth 0 ss j)^T *m A *m X + V j) (size ss) mu P
    /\ forall b stop policy consumer fuel k0 l e z x,
       loop A b fuel (solution_solver A lam stop policy) consumer k0 (Some p) = (l, e, z) ->
       List.In x l -> took x ss ->
       exists q, [/\ ls_belief x = Some q, x_mean q = mu (fun j => (nth 0 ss j)^T *m b) & x_cov q = P].
Proof.
move=> K X V A lam p ss l0 ps MX CX HV CVV.
have [k0 [Kc [P [F1 F2 [ME CE EE _]]]]] :=
  post_all A (fun j => nth 0 ss j) l0 ps MX CX (fun j h => let: And3 a _ _ := HV j h in a)
    (fun j h => let: And3 _ a _ := HV j h in a) CVV (fun j h => let: And3 _ _ a := HV j h in a) (leqnn (size ss)).
have sE : map (fun j => nth 0 ss j) (iota 0 (size ss)) = ss by exact: mkseq_nth.
exists (predictor (m := fun _ => 1%N) (size ss) k0 Kc), P; split; first by exists k0, Kc.
move=> b stop policy consumer fuel k l e z x E xl t; exists (updates A b lam p ss).
by rewrite sE in F1 F2; split; [exact: took_belief E _ _ xl t|exact: F1|exact: F2].
Qed.

(** *** C94 *)
(** The belief about the inverse: its mean and the covariance of the solution add up to a
    constant ... *)
Theorem C94_inverse_partial : forall (A : 'M[R]_n) b lam stop policy consumer fuel k0 p l e z x ss,
  loop A b fuel (solution_solver A lam stop policy) consumer k0 (Some p) = (l, e, z) ->
  List.In x l -> took x ss ->
  exists q, ls_belief x = Some q
    /\ odflt 0 (ainv q) + x_cov q = odflt 0 (ainv p) + x_cov p
    (** ... so spanning actions make it exact if the prior covariance is the inverse. *)
    /\ (lam = 0 -> psd (x_cov p) -> A \in unitmx -> odflt 0 (ainv p) + x_cov p = invmx A ->
        (forall v : vec, (forall s, s \in ss -> 'e (s^T *m v) = 0) -> v = 0) ->
        odflt 0 (ainv q) = invmx A).
Proof.
move=> A b lam stop policy consumer fuel k0 p l e z x ss E xl t.
exists (updates A b lam p ss); split; first exact: took_belief E _ _ xl t.
split; first exact: ainv_updates.
move=> l0 ps Au ai sp; rewrite l0 -ai -(ainv_updates A b p ss 0); apply/esym.
suff -> : x_cov (updates A b 0 p ss) = 0 by rewrite addr0.
set C := x_cov _; have [Cs _] : psd C by apply: psd_updates.
have Cu (u : vec) : C *m u = 0.
  rewrite -[C *m u](mulKmx Au); suff -> : A *m (C *m u) = 0 by rewrite mulmx0.
  apply: sp => s sl; rewrite -[LHS]/(dt s (A *m (C *m u))) dtC dtMl dtMl Cs.
  by rewrite (kills_updates A b ps sl) dt0r.
apply/matrixP => i j; have /matrixP/(_ i 0) := Cu (col j 1%:M); rewrite !mxE => <-.
rewrite (bigD1 j) //= !mxE eqxx mulr1 big1 ?addr0 // => k kj.
by rewrite !mxE (negPf kj) mulr0.
Qed.
End C33.
Print Assumptions C33_projections.
Print Assumptions C33_never_grows.
Print Assumptions C33_posterior.
Print Assumptions C94_inverse_partial.

(** ** C34, C95, C96: conjugate gradients *)
Section C34.
Variables (R : rcfType) (n : nat).
Local Notation vec := 'cV[R]_n.
Local Notation lprog := (prog (option (sbel R n)) (option vec) (option vec) (option R) (seq (option vec))).

(** No reorthogonalisation, or one of the functions of utils/linalg/_orthogonalize.py. *)
Inductive standard : option (reorth R n) -> Prop :=
| NoReorth : standard None
| WithGS : standard (Some (fun s v l => gram_schmidt s false v l))
| WithMGS : standard (Some (fun s v l => modified_gram_schmidt s false v l))
| WithDouble m : standard (Some (fun s v l => double_gram_schmidt m s false v l)).

Lemma default_geometry (s : ipspec R n) : geometry s (ip_of s).
Proof.
case: s => [|M|g] v w //=; rewrite /inprod mxE; apply: eq_bigr => i _; rewrite !mxE //.
by rewrite mulr_sumr; apply: eq_bigr => j _; rewrite mulrA.
Qed.
Lemma standard_keeps o : standard o -> if o is Some f then keeps_orthogonal f else True.
Proof.
have H (s : ipspec R n) (l : seq vec) (v : vec) : is_form s -> orthogonal_family (ip_of s) l -> (forall u, u \in l -> ip_of s u v = 0) ->
    gram_schmidt s false v (AsArray l) = Some v /\ modified_gram_schmidt s false v (AsArray l) = Some v.
  move=> fs ol vo.
  have E1 : gram_schmidt s false v (AsArray l) = finish s false (Some (part (ip_of s) l v)).
    exact: (gs_run (default_geometry s) _ ol).
  have E2 : modified_gram_schmidt s false v (AsArray l) = finish s false (Some (part (ip_of s) l v)).
    by apply: (mgs_run (default_geometry s) _ _ ol) => //; case: (s) fs.
  by rewrite E1 E2 /= part_id.
case=> //= [s l v|s l v|m s l v] fs ol vo; have [H1 H2] := H s l v fs ol vo => //.
by case: m; rewrite /double_gram_schmidt ?H1 ?H2 /= ?H1 ?H2.
Qed.

Section Run.
Variables (A : 'M[R]_n) (b : vec) (p : sbel R n) (reo_r reo_a : option (reorth R n)).
Hypotheses (Au : A \in unitmx) (Sp : pd (x_cov p)) (nor : x_normal p)
  (sr : standard reo_r) (sa : standard reo_a).
Variables (stop : lprog bool) (consumer : nat -> lprog unit) (fuel : nat).
Hypothesis kc : forall f, reo_r = Some f ->
  keeps_cache A b stop /\ forall i, keeps_cache A b (consumer i).
Local Notation rsd := (rsd A b p).
Local Notation run_ := (loop A b fuel (bayes_cg A stop reo_r reo_a) consumer [::] (Some p)).
Lemma run_info l e z x : run_ = (l, e, z) -> List.In x l ->
  (forall i, (i < ls_step x)%N -> (forall j, (j < i)%N -> rsd j != 0) ->
     nth None (ls_resids x) i = Some (Some (rsd i)))
  /\ ((forall j, (j.+1 < ls_step x)%N -> rsd j != 0) ->
      ls_belief x = Some (bel A b p (ls_step x))
      /\ ls_actions x = rcons [seq Some (Some (act A b p j)) | j <- iota 0 (ls_step x)] None).
Proof.
move=> E; exact: (cg_iterate Au Sp nor (standard_keeps sr) (standard_keeps sa) kc E).
Qed.
End Run.

Theorem C34_conjugate_gradients : forall (A : 'M[R]_n) b p reo_r reo_a stop consumer fuel l e z x,
  A \in unitmx -> pd (x_cov p) -> x_normal p -> standard reo_r -> standard reo_a ->
  (forall f, reo_r = Some f -> keeps_cache A b stop /\ forall i, keeps_cache A b (consumer i)) ->
  loop A b fuel (bayes_cg A stop reo_r reo_a) consumer [::] (Some p) = (l, e, z) -> List.In x l ->
  let k := ls_step x in
  (forall j, (j < k)%N -> nth None (ls_resids x) j <> Some (Some 0)) ->
  exists q (r s : nat -> vec),
    [/\ ls_belief x = Some q, r k = b - A *m x_mean q,
        ls_actions x = rcons [seq Some (Some (s j)) | j <- iota 0 k] None
      & forall j, (j < k)%N -> nth None (ls_resids x) j = Some (Some (r j))]
    /\ [/\ forall i j, (i < j <= k)%N -> 'e ((r i)^T *m r j) = 0,
           forall i j, (i < j < k)%N -> 'e ((s i)^T *m (A *m x_cov p *m A^T) *m s j) = 0,
           (k <= n)%N & k = n -> A *m x_mean q = b].
Proof.
move=> A b p reo_r reo_a stop consumer fuel l e z x Au Sp nor sr sa kc E xl k nz.
have [I1 I2] := run_info Au Sp nor sr sa kc E xl.
have rn i : (i < k)%N -> rsd A b p i != 0.
  elim/ltn_ind: i => i IH ik; apply/negP => /eqP r0.
  by apply: (nz i ik); rewrite I1 // ?r0 // => j ji; apply: IH => //; exact: ltn_trans ji ik.
have [eb ea] := I2 (fun j jk => rn j (ltnW jk)).
have [[J1 J2 _ _ _] _] := cginv_all Au Sp rn.
have kn : (k <= n)%N.
  apply: (orthogonal_bound (f := rsd A b p)) => // i j /andP [ij jk]; apply: J1.
  by rewrite ij ltnW.
exists (bel A b p k), (rsd A b p), (act A b p); split; split=> //.
- by move=> j jk; apply: I1 => // i ij; apply: rn; exact: ltn_trans ij jk.
- move=> i j /andP [ij jk]; rewrite -mulmxA; apply: (J2 i j); by rewrite ij ltnW.
move=> kn'; apply/esym/subr0_eq; rewrite -/(resv A b _) -/(rsd A b p k); apply/eqP/negPn/negP => r0.
suff : (n.+1 <= n)%N by rewrite ltnn.
apply: (orthogonal_bound (f := rsd A b p)) => [j|i j]; rewrite ltnS -{1}kn'.
  by rewrite leq_eqVlt => /orP [/eqP ->|]; [exact: r0|exact: rn].
by move=> /andP [ij jk]; apply: J1; rewrite ij -ltnS.
Qed.

(** *** C95: the default solver *)
Lemma nth_errorE T (x0 : T) (l : seq T) i x : List.nth_error l i = Some x -> (i < size l)%N /\ nth x0 l i = x.
Proof. by elim: l i => [|y l IH] [|i] //= => [[->]|/IH]. Qed.
Lemma nth_error_ex T (l : seq T) i : (i < size l)%N -> exists x, List.nth_error l i = Some x.
Proof. by elim: l i => [|y l IH] [|i] //= => [_|/IH]; first by exists y. Qed.

Theorem C95_default_solver : forall (A : 'M[R]_n) b p reo_r reo_a atol rtol fuel,
  A \in unitmx -> pd (x_cov p) -> x_normal p -> standard reo_r -> standard reo_a ->
  0 <= atol -> (n * 10 < fuel)%N ->
  exists q z,
    solve (sresid A b) fuel (bayes_cg A (default_stop b atol rtol) reo_r reo_a) [::] (Some p)
      = Some (Some q, z)
    /\ (ls_step z <= n)%N
    /\ ((nrm (b - A *m x_mean q) <= atol) || (nrm (b - A *m x_mean q) <= rtol * nrm b)).
Proof.
move=> A b p reo_r reo_a atol rtol fuel Au Sp nor sr sa a0 fu.
set sv := bayes_cg _ _ _ _.
have [_ [sb _]] := @C32_max_iterations_bounds _ _ (option vec) (option R) (seq (option vec))
  (sresid A b) n None (residual_norm b atol rtol).
have [l [z [pre [x [E [El [Np [Bz [Sx [Sz [mx F]]]]]]]]]]] :=
  @C32_stops _ _ _ _ _ (sresid A b) sv (fun _ => Ret tt) _ [::] (Some p) _ sb (elimT ssrnat.ltP fu).
have kc f : reo_r = Some f -> keeps_cache A b (default_stop b atol rtol)
    /\ forall i : nat, keeps_cache A b (Ret tt).
  by split=> // t; rewrite /default_stop /stop_or /=; case: (Nat.leb _ _).
have info y (yl : List.In y l) := run_info Au Sp nor sr sa kc E yl.
(* the criterion at a state *)
have mt y : List.In y l -> met (sresid A b) sv (fun _ => Ret tt) y
    = (n * 10 <= ls_step y)%N ||
      (if sresid A b (ls_belief y) is Some r then (nrm r <= atol) || (nrm r <= rtol * nrm b) else false).
  move=> yl; rewrite /met /=.
  have [_ [_ H]] := @C31_residual_current _ _ _ _ _ _ _ _ _ _ _ _ _ _ E; have := H y yl.
  case: (PeanoNat.Nat.leb_spec (n * 10) (ls_step y)) => h /=; first by rewrite (introT ssrnat.leP h).
  have -> : (n * 10 <= ls_step y)%N = false by apply/negbTE; rewrite -ltnNge; exact/ssrnat.ltP.
  by case: (read_residual _ _) => r s' /= ->.
have stepi i y : List.nth_error l i = Some y -> ls_step y = i.
  by move=> Hy; have [] := @C31_history_aligned _ _ _ _ _ _ _ _ _ _ _ _ _ _ _ _ E Hy.
have preN j : (j < size pre)%N -> rsd A b p j != 0.
  elim/ltn_ind: j => j IH jp; apply/negP => /eqP r0.
  have [y Hy] := nth_error_ex jp.
  have Hl : List.nth_error l j = Some y by rewrite El List.nth_error_app1 //; apply/ssrnat.ltP.
  have yl := List.nth_error_In _ _ Hl; have st := stepi _ _ Hl.
  have := List.Forall_forall (fun x => met (sresid A b) sv (fun _ => Ret tt) x = false) pre.
  case=> H _; have := H F y (List.nth_error_In _ _ Hy); rewrite mt // => /negbT; rewrite negb_or => /andP [_].
  have [_ I2] := info y yl; have pr : forall i, (i.+1 < ls_step y)%N -> rsd A b p i != 0.
    by move=> i; rewrite st => ij; apply: IH; [exact: ltnW|exact: ltn_trans (ltnW ij) jp].
  have [-> _] := I2 pr; rewrite st /= -/(resv A b _) -/(rsd A b p j) r0.
  have -> : nrm (0 : vec) = 0.
    by rewrite /nrm big1 ?sqrtr0 // => i _; rewrite mxE expr0n.
  by rewrite a0.
have pn : (size pre <= n)%N.
  have [k kn [r0 _]] := cg_terminates b Au Sp.
  by rewrite leqNgt; apply/negP => h; have := preN k (leq_ltn_trans kn h); rewrite r0 eqxx.
have xl : List.In x l by rewrite El; apply/List.in_or_app; right; left.
have [_ I2] := info x xl; have prx : forall i, (i.+1 < ls_step x)%N -> rsd A b p i != 0.
  by move=> i; rewrite Sx => ij; apply: preN; exact: ltnW.
have [ex _] := I2 prx; exists (bel A b p (ls_step x)), z; split; last split.
- by rewrite /solve E Bz ex.
- by rewrite Sz.
move: mx; rewrite mt // ex /= => /orP [|//]; rewrite Sx => h.
have n0 : n = 0%N.
  have : (n * 10 <= n)%N by apply: leq_trans h pn.
  by rewrite -{2}[n]muln1 leq_mul2l orbF => /eqP.
suff -> : nrm (b - A *m x_mean (bel A b p (length pre))) = 0 by rewrite a0.
rewrite /nrm big1 ?sqrtr0 // => i _; exfalso.
by case: i => i /= h'; move: h'; rewrite n0.
Qed.
End C34.
Print Assumptions C34_conjugate_gradients.
Print Assumptions C95_default_solver.

(** *** C94, C96: what fails *)
Section Fails.
Variables (R : rcfType) (n : nat).
Local Notation vec := 'cV[R]_n.
Local Notation lprog := (prog (option (sbel R n)) (option vec) (option vec) (option R) (seq (option vec))).

(** Iterating on when the solution is exact: one iteration is harmless ... *)
Theorem C96_extra_iterations_partial : forall (A : 'M[R]_n) b p reo_r reo_a
    (stop : lprog bool) consumer fuel l e z x y i q,
  A \in unitmx -> pd (x_cov p) -> x_normal p -> standard reo_r -> standard reo_a ->
  (forall f, reo_r = Some f -> keeps_cache A b stop /\ forall i, keeps_cache A b (consumer i)) ->
  loop A b fuel (bayes_cg A stop reo_r reo_a) consumer [::] (Some p) = (l, e, z) ->
  List.nth_error l i = Some x -> List.nth_error l i.+1 = Some y ->
  (forall j, (j < i)%N -> nth None (ls_resids x) j <> Some (Some 0)) ->
  ls_belief x = Some q -> A *m x_mean q = b ->
  exists q', ls_belief y = Some q' /\ A *m x_mean q' = b.
Proof.
move=> A b p reo_r reo_a stop consumer fuel l e z x y i q Au Sp nor sr sa kc E Ex Ey nz bx Aq.
have [I1 I2] := run_info Au Sp nor sr sa kc E (List.nth_error_In _ _ Ex).
have sx : ls_step x = i by have [] := @C31_history_aligned _ _ _ _ _ _ _ _ _ _ _ _ _ _ _ _ E Ex.
have sy : ls_step y = i.+1 by have [] := @C31_history_aligned _ _ _ _ _ _ _ _ _ _ _ _ _ _ _ _ E Ey.
have rn j : (j < i)%N -> rsd A b p j != 0.
  elim/ltn_ind: j => j IH ji; apply/negP => /eqP r0; apply: (nz j ji).
  by rewrite I1 ?sx ?r0 // => k kj; apply: IH => //; exact: ltn_trans kj ji.
have [_ J2] := run_info Au Sp nor sr sa kc E (List.nth_error_In _ _ Ey).
rewrite sy in J2; have [by_ _] := J2 (fun j jk => rn j jk).
have [bx' _] := I2 (fun j jk => rn j (ltnW (eq_ind _ (fun m => (j.+1 < m)%N) jk _ sx))).
rewrite sx bx in bx'; exists (bel A b p i.+1); split=> //; case: bx' => bx'.
rewrite belS; have [-> _ _] := update1E A b 0 (bel A b p i) (act A b p i).
by rewrite -bx' Aq subrr dt0r mulr0 scale0r addr0.
Qed.
(** ... the second makes every number non-finite. *)
Theorem C96_extra_iterations_refuted : forall (A : 'M[R]_n) b p,
  A *m x_mean p = b ->
  exists z, solve (sresid A b) 3 (bayes_cg A (max_iterations n (Some 2%N)) None None) [::] (Some p)
    = Some (None, z).
Proof.
move=> A b p Ax; rewrite /solve /bayes_cg /solution_solver /proj_upd /proj_info /cg_policy /cg_body /cg_finish.
have g0 x a : cg_action x (sresid A b (Some p)) a = None.
  have n0 : nrm (0 : vec) = 0 by rewrite /nrm big1 ?sqrtr0 // => i _; rewrite mxE expr0n.
  by case: x a => [x|] [a|] //=; rewrite Ax subrr n0 /divide eqxx.
have f0 q o : proj_step A 0 q None o = None by case: q.
move: (@cg_action R n) (@proj_obs R n) (proj_step A 0) (sresid A b) g0 f0 => g o f r g0 f0.
move: (g0 (r (f (Some p) (r (Some p)) (o (r (Some p)) (r (Some p))))) (r (Some p))) (f0 (f (Some p) (r (Some p)) (o (r (Some p)) (r (Some p))))).
by lazy => -> {}f0; eexists; rewrite f0.
Qed.
End Fails.
Print Assumptions C96_extra_iterations_partial.
Print Assumptions C96_extra_iterations_refuted.

(** ** Cases: two dimensions, the actions are the unit vectors *)
Lemma fixed_run (B Y Act Obs K : Type) (r : B -> Y) (u : nat -> Act) (g : Y -> view B Y Act Obs K -> Obs)
    (f : view B Y Act Obs K -> B) d c p : exists l e z x,
  iterate r 3 (mk_pls (max_iterations d (Some 2%N)) (fun k => Ret (u k))
    (ReadResidual (fun y => Look (fun v => Ret (g y v)))) (Look (fun v => Ret (f v))))
    (fun _ => Ret tt) (init_state r c p) = (l, e, z)
  /\ List.In x l /\ ls_actions x = [:: Some (u 0%N); Some (u 1%N); None].
Proof.
case E : (iterate _ _ _ _ _) => [[l e] z]; exists l, e, z.
by move: E; lazy; case=> <- _ _; eexists; split=> //; split; [right; right; left; reflexivity|].
Qed.
Lemma one_run (B Y Obs : Type) (r : B -> Y) (h : Y -> view B Y Y Obs (seq Y) -> prog B Y Y Obs (seq Y) Y)
    (g : Y -> view B Y Y Obs (seq Y) -> Obs) (f : view B Y Y Obs (seq Y) -> B) d p l e z :
  iterate r 2 (mk_pls (max_iterations d (Some 1%N))
    (fun k => ReadResidual (fun y => Look (fun v =>
      if v_step v == 0%N then SetCache (rcons (v_cache v) y) (Ret y) else h y v)))
    (ReadResidual (fun y => Look (fun v => Ret (g y v)))) (Look (fun v => Ret (f v))))
    (fun _ => Ret tt) (init_state r [::] p) = (l, e, z) ->
  exists x, List.In x l /\ ls_step x = 1%N /\ nth None (ls_resids x) 0 = Some (r p).
Proof.
by lazy; case=> <- _ _; eexists; split; [right; left; reflexivity|].
Qed.
Section Cases.
Variable R : rcfType.
Local Notation lprog := (prog (option (sbel R 2)) (option 'cV[R]_2) (option 'cV[R]_2) (option R) (seq (option 'cV[R]_2))).
Definition unit_vec (k : nat) : 'cV[R]_2 := \col_i (i == k :> nat)%:R.
Definition unit_policy (k : nat) : lprog (option 'cV[R]_2) := Ret (Some (unit_vec k)).
Definition two_steps : lprog bool := max_iterations 2 (Some 2%N).
Definition units := [:: unit_vec 0; unit_vec 1].

Lemma unit_run A b lam p : exists l e z x,
  loop A b 3 (solution_solver A lam two_steps unit_policy) (fun _ => Ret tt) [::] (Some p) = (l, e, z)
  /\ List.In x l /\ took x units.
Proof. exact: (fixed_run (sresid A b) (fun k => Some (unit_vec k))). Qed.
Lemma unit_spans (v : 'cV[R]_2) : (forall s, s \in units -> 'e (s^T *m v) = 0) -> v = 0.
Proof.
move=> H; apply/matrixP => i j; rewrite (ord1 j) [RHS]mxE.
have us k : (k < 2)%N -> unit_vec k \in units.
  by case: k => [|[|]] // _; rewrite !inE eqxx ?orbT.
have := H (unit_vec i) (us _ (ltn_ord i)); rewrite mxE (bigD1 i) //= big1 => [|k ki].
  by rewrite !mxE eqxx mul1r addr0.
by rewrite !mxE -val_eqE /= in ki *; rewrite (negPf ki) mul0r.
Qed.

Lemma psd1 m : pd (1%:M : 'M[R]_m).
Proof. by have := @pd_gram R m 1%:M (unitmx1 _ _); rewrite trmx1 mulmx1. Qed.
Definition prior m : sbel R m := SBel true 0 1%:M None.

(** Any system with a regular matrix is solved by the unit vectors (C33). *)
Example ex_C33 (A : 'M[R]_2) b : A \in unitmx -> exists l e z x q,
  loop A b 3 (solution_solver A 0 two_steps unit_policy) (fun _ => Ret tt) [::] (Some (prior 2)) = (l, e, z)
  /\ List.In x l /\ ls_belief x = Some q /\ x_mean q = invmx A *m b.
Proof.
move=> Au; have [l [e [z [x [E [xl t]]]]]] := unit_run A b 0 (prior 2).
have [||q [bq [_ [_ [_ [_ H]]]]]] := @C33_projections _ _ A b _ _ _ _ _ _ _ _ _ _ _ (invmx A *m b) (invmx A *m b) E xl t (pd_psd (psd1 2)).
- by rewrite mulKVmx.
- by rewrite subr0 mul1mx.
exists l, e, z, x, q; split; [exact: E|split; [exact: xl|split; [exact: bq|]]].
clear E; by rewrite -[x_mean q](mulKmx Au) H //; exact: unit_spans.
Qed.

(** C94: after spanning actions, the belief about the inverse need not be the inverse. *)
Theorem C94_inverse_refuted : exists (A : 'M[R]_2) l e z x q,
  [/\ A \in unitmx, loop A 0 3 (solution_solver A 0 two_steps unit_policy) (fun _ => Ret tt) [::] (Some (prior 2)) = (l, e, z),
      List.In x l /\ took x units, pd (x_cov (prior 2)) & ls_belief x = Some q]
  /\ ainv q <> Some (invmx A).
Proof.
pose A : 'M[R]_2 := 2%:R%:M; exists A.
have n2 : (2%:R : R) != 0 by rewrite pnatr_eq0.
have Au : A \in unitmx by rewrite unitmxE det_scalar unitrX // unitfE.
have [l [e [z [x [E [xl t]]]]]] := unit_run A 0 0 (prior 2).
have [q [bq [Hq _]]] := @C94_inverse_partial _ _ A 0 _ _ _ _ _ _ _ _ _ _ _ _ E xl t.
have [||q' [bq' [_ [k [ps _]]]]] := @C33_projections _ _ A 0 _ _ _ _ _ _ _ _ _ _ _ 0 0 E xl t (pd_psd (psd1 2)).
- by rewrite mulmx0.
- by rewrite subr0 mulmx0.
have qq : q' = q by move: bq; rewrite bq' => -[].
rewrite qq in k ps; exists l, e, z, x, q; split; first by split; [exact: Au|exact: E|exact: (conj xl t)|exact: psd1|exact: bq].
clear E; have c0 : x_cov q = 0.
  apply/matrixP => i j; have ks : unit_vec j \in units.
    by case: j => -[|[|]] //= jl; rewrite !inE eqxx ?orbT.
  have /matrixP/(_ i 0) := k _ ks; rewrite /A tr_scalar_mx mul_scalar_mx -scalemxAr !mxE.
  move/eqP; rewrite mulf_eq0 (negPf n2) /= (bigD1 j) //= !mxE eqxx mulr1 big1 ?addr0 => [/eqP //|m mj].
  by rewrite mxE -val_eqE /= in mj *; rewrite (negPf mj) mulr0.
move=> aq; move: Hq; rewrite c0 aq /= add0r addr0 => e1.
have := mulmxV Au; rewrite e1 mulmx1 => /matrixP/(_ 0 0).
by rewrite !mxE /= !mulr1n => /eqP; rewrite -subr_eq0 -[2%:R]/(1 + 1) addrK oner_eq0.
Qed.

(** C33: noisy projections of a vector with the prior law. *)
Example ex_posterior lam : 0 <= lam -> exists K (X : rvec R K 2) (V : nat -> rvec R K 1),
  [/\ Mean X = x_mean (prior 2), Cov X X = x_cov (prior 2),
      forall j, (j < size units)%N -> [/\ Mean (V j) = 0, Cov (V j) (V j) = lam%:M & Cov X (V j) = 0]
    & forall i j, (i < size units)%N -> (j < size units)%N -> i != j -> Cov (V i) (V j) = 0].
Proof.
move=> l0; have [K [U [U1 U2]]] := @indep_family R (fun _ => 1%N) (fun _ => (Num.sqrt lam)%:M) 2.
pose X : rvec R (2 + K) 2 := row_mx 0 (row_mx 1%:M 0).
pose V j : rvec R (2 + K) 1 := row_mx 0 (row_mx 0 (U j)).
have c := (row_mxKr, row_mxKl, tr_row_mx, mul_row_col, mul0mx, mulmx0, trmx0, trmx1, add0r, addr0, mulmx1).
exists (2 + K)%N, X, V; split.
- by rewrite /Mean !c.
- by rewrite /Cov !c.
- move=> j jn; split; rewrite /Mean /Cov !c // U1 // tr_scalar_mx mul_scalar_mx.
  by rewrite scale_scalar_mx -expr2 sqr_sqrtr.
by move=> i j iN jN ij; rewrite /Cov !c U2.
Qed.

(** C34: after one step of conjugate gradients. *)
Example ex_C34 (A : 'M[R]_2) b : A \in unitmx -> b != 0 -> exists l e z x q,
  loop A b 2 (bayes_cg A (max_iterations 2 (Some 1%N)) (Some (fun s v l => gram_schmidt s false v l)) None)
    (fun _ => Ret tt) [::] (Some (prior 2)) = (l, e, z)
  /\ List.In x l /\ ls_step x = 1%N /\ ls_belief x = Some q /\ 'e (b^T *m (b - A *m x_mean q)) = 0.
Proof.
move=> Au b0; case E : (iterate _ _ _ _ _) => [[l e] z].
have [x [xl [sx rx]]] : exists x, List.In x l /\ ls_step x = 1%N /\ nth None (ls_resids x) 0 = Some (Some b).
  have [x [xl [sx H]]] := one_run E; exists x; split; [exact: xl|split; [exact: sx|]].
  by rewrite H /= mulmx0 subr0.
have kc (f : reorth R 2) : Some (fun s v l => gram_schmidt s false v l) = Some f ->
    keeps_cache A b (max_iterations 2 (Some 1%N)) /\ forall i : nat, keeps_cache A b (Ret tt) by [].
have [|q [r [s [[bq rk _ rr] [H _ _ _]]]]] := @C34_conjugate_gradients _ _ A b (prior 2) _ _ _ _ _ _ _ _ _ Au (psd1 2) isT
  (WithGS _ _) (NoReorth _ _) kc E xl.
  clear E; move=> j; rewrite sx; case: j => // _; rewrite rx => -[/eqP]; exact/negP.
exists l, e, z, x, q; split; [exact: erefl|split; [exact: xl|split; [exact: sx|split; [exact: bq|]]]].
clear E.
rewrite -rk sx; have := rr 0%N; rewrite sx rx => /(_ isT) [->].
by apply: H; rewrite sx.
Qed.
End Cases.
Print Assumptions C94_inverse_refuted.
