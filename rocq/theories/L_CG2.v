(** The solver loop with the conjugate gradient policy runs the iteration of [L_CG]. *)
From mathcomp Require Import all_ssreflect all_algebra.
From Verif Require Import L_Zmod L_Kalman M_PLS L_PLS M_Ortho P_Ortho M_LinSolve L_LinSolve L_CG.
Set Implicit Arguments.
Unset Strict Implicit.
Unset Printing Implicit Defensive.
Import Order.Theory GRing.Theory Num.Theory.
Local Open Scope ring_scope.

Section Link.
Variables (R : rcfType) (n : nat).
Local Notation vec := 'cV[R]_n.
Variables (A : 'M[R]_n) (b : vec) (p0 : sbel R n).
Hypotheses (Au : A \in unitmx) (Sp : pd (x_cov p0)) (nor : x_normal p0).
Local Notation bel := (bel A b p0).
Local Notation act := (act A b p0).
Local Notation rsd := (rsd A b p0).
Local Notation spec := (@spec (option (sbel R n)) (option vec) (option R) (seq (option vec))).
Local Notation res := (sresid A b).

(** A reorthogonalisation function that leaves orthogonal vectors alone. (The inner products
    of the policy are never functions.) *)
Definition is_form (s : ipspec R n) := if s is Callable _ then false else true.
Definition keeps_orthogonal (f : reorth R n) := forall s l v, is_form s ->
  orthogonal_family (ip_of s) l -> (forall u, u \in l -> ip_of s u v = 0) ->
  f s v (AsArray l) = Some v.
Variables (reo_r reo_a : option (reorth R n)).
Hypotheses (okr : if reo_r is Some f then keeps_orthogonal f else True)
  (oka : if reo_a is Some f then keeps_orthogonal f else True).

Definition trace k : seq (option (sbel R n) * option vec * option R * bool) :=
  [seq (Some (bel j), Some (act j), Some (dt (act j) (rsd j)), true) | j <- iota 0 k].
Definition cache_ok k (c : seq (option vec)) :=
  if reo_r is Some _ then c = [seq Some (rsd j) | j <- iota 0 k] else True.
Definition at_step k (t : spec) :=
  [/\ sp_prior t = Some p0, sp_past t = trace k, sp_cur t = Some (bel k) & cache_ok k (sp_cache t)].

Lemma all_finiteE T (f : T -> vec) l : all_finite [seq Some (f j) | j <- l] = Some (map f l).
Proof. by rewrite /all_finite; elim: l => //= j l ->. Qed.
Lemma nrm_dt (v : vec) : nrm v ^+ 2 = dt v v.
Proof.
rewrite /nrm sqr_sqrtr; last by apply: sumr_ge0 => i _; exact: sqr_ge0.
by rewrite /dt /num mxE; apply: eq_bigr => i _; rewrite mxE expr2.
Qed.
Lemma nrm_eq0 (v : vec) : nrm v = 0 -> v = 0.
Proof. by move=> E; apply: dt_eq0; rewrite -nrm_dt E expr0n. Qed.
Lemma cg_actionE k : rsd k != 0 ->
  cg_action (Some (rsd k.+1)) (Some (rsd k)) (Some (act k)) = Some (act k.+1).
Proof.
move=> r0; rewrite /cg_action /= /divide.
have -> : (nrm (rsd k) == 0) = false by apply: contraNF r0 => /eqP/nrm_eq0 ->.
by rewrite /= expr_div_n !nrm_dt actS.
Qed.
Lemma inprod_dt (u v : vec) : inprod None u v = dt u v. Proof. by []. Qed.
Lemma orth_rsd k : (forall j, (j < k)%N -> rsd j != 0) -> orthogonal_family (ip_of Default) (map rsd (iota 0 k)).
Proof.
move=> nz; split=> [i j|i]; rewrite size_map size_iota.
  move=> ik jk ij; rewrite !(nth_map 0%N) ?size_iota // !nth_iota // !add0n -[ip_of _ _ _]/(dt (rsd i) (rsd j)).
  have [[I1 _ _ _ _] _] := cginv_all Au Sp nz.
  case: (ltngtP i j) ij => // ij _; first by apply: I1; rewrite ij ltnW.
  by rewrite dtC; apply: I1; rewrite ij ltnW.
move=> ik; rewrite !(nth_map 0%N) ?size_iota // !nth_iota // !add0n -[ip_of _ _ _]/(dt (rsd i) (rsd i)).
by rewrite gt_eqF // dt_gt0 // nz.
Qed.
Lemma ip_KK (u v : vec) : ip_of (ByMatrix (KK A p0)) u v = dt u (KK A p0 *m v).
Proof. by []. Qed.
Lemma orth_act k : (forall j, (j < k)%N -> rsd j != 0) ->
  orthogonal_family (ip_of (ByMatrix (KK A p0))) (map act (iota 0 k)).
Proof.
move=> nz; have I := cginv_all Au Sp nz; have [[_ I2 _ _ _] _] := I.
split=> [i j|i]; rewrite size_map size_iota.
  move=> ik jk ij; rewrite !(nth_map 0%N) ?size_iota // !nth_iota // !add0n ip_KK.
  case: (ltngtP i j) ij => // ij _; first by apply: I2; rewrite ij ltnW.
  by rewrite KK_sym //; apply: I2; rewrite ij ltnW.
move=> ik; rewrite !(nth_map 0%N) ?size_iota // !nth_iota // !add0n ip_KK.
rewrite gt_eqF // KK_gt0 // (@act_neq0 _ _ _ _ _ i) //; last exact: nz.
by apply: cginv_all => // j ji; apply: nz; exact: ltn_trans ji ik.
Qed.

Lemma policy_run k t : at_step k t -> sp_a t = None -> (forall j, (j < k)%N -> rsd j != 0) ->
  let q := srun res (cg_policy reo_r reo_a (cg_ipm A)) t in
  fst q = Some (act k) /\ cache_ok k.+1 (sp_cache (snd q)).
Proof.
move=> [pr pa cu ca] ta nz; have I := cginv_all Au Sp nz; have [[I1 I2 _ _ _] _] := I.
pose t' := mk_spec (sp_prior t) (sp_past t) (sp_cur t) true (sp_a t) (sp_o t) (sp_cache t).
rewrite -[srun _ _ _]/(srun res (cg_body reo_r reo_a (cg_ipm A) (res (sp_cur t)) (spec_view res t')) t').
have st : v_step (spec_view res t') = k.
  by rewrite /= pa -[length _]/(size _) size_map size_iota.
have vp : v_prior (spec_view res t') = Some p0 by [].
have vc : v_cache (spec_view res t') = sp_cache t by [].
have tk : take k (v_actions (spec_view res t')) = [seq Some (Some (act j)) | j <- iota 0 k].
  rewrite /= pa -[List.map _ _]/(map _ _) take_size_cat ?size_map ?size_iota //.
  by rewrite -map_comp.
have na : (0 < k)%N -> nth None (v_actions (spec_view res t')) k.-1 = Some (Some (act k.-1)).
  move=> k0; have kk : (k.-1 < k)%N by rewrite ltn_predL.
  by rewrite -(nth_take None kk) tk (nth_map 0%N) ?size_iota // nth_iota.
have nr : (0 < k)%N -> nth None (v_resids (spec_view res t')) k.-1 = Some (Some (rsd k.-1)).
  move=> k0; have kk : (k.-1 < k)%N by rewrite ltn_predL.
  rewrite /= pa -[List.map _ _]/(map _ _) nth_cat size_map size_map size_iota kk.
  by rewrite -map_comp (nth_map 0%N) ?size_iota // nth_iota.
have rE : res (sp_cur t) = Some (rsd k) by rewrite cu.
rewrite rE; move: (spec_view res t') st vp vc tk na nr => v st vp vc tk na nr.
have fin a : a = Some (act k) -> cg_finish reo_a (cg_ipm A) v a = Some (act k).
  move=> ->; rewrite /cg_finish st tk -map_comp vp; case: (reo_a) oka => // f okf.
  rewrite (all_finiteE act) /= nor; apply: okf => //; first exact: orth_act.
  move=> u /mapP [j]; rewrite mem_iota => /andP [_ jk] ->; rewrite -[LHS]/(dt (act j) (KK A p0 *m act k)).
  by apply: I2; rewrite jk leqnn.
rewrite /cg_body st vc; case: (posnP k) => [k0|k0].
  by rewrite /= k0 /cache_ok; rewrite /cache_ok k0 in ca; case: (reo_r) ca => [f|] //= ->.
have aE : cg_action (Some (rsd k)) (Some (rsd k.-1)) (Some (act k.-1)) = Some (act k).
  by rewrite -{1 4}(prednK k0) cg_actionE // nz // ltn_predL.
rewrite (na k0) (nr k0) [odflt _ _]/=; move: ca; rewrite /cache_ok.
case: (reo_r) okr => [f|] okf ca; last by split=> //=; exact: fin.
rewrite /= ca (all_finiteE rsd) /=.
have -> : f Default (rsd k) (AsArray (map rsd (iota 0 k))) = Some (rsd k).
  apply: okf => //; first exact: orth_rsd.
  move=> u /mapP [j]; rewrite mem_iota => /andP [_ jk] ->; rewrite -[LHS]/(dt (rsd j) (rsd k)).
  by apply: I1; rewrite jk leqnn.
split; last by rewrite -[RHS]/(map (fun j => Some (rsd j)) (iota 0 k.+1)) iota_last map_rcons.
apply: fin; rewrite nth_rcons size_map size_iota ltn_predL k0 (nth_map 0%N) ?size_iota ?ltn_predL //.
by rewrite nth_iota ?ltn_predL // add0n.
Qed.

(** Programs that leave the cache alone. *)
Definition keeps_cache T (p : prog (option (sbel R n)) (option vec) (option vec) (option R) (seq (option vec)) T) :=
  forall t : spec, sp_cache (snd (srun res p t)) = sp_cache t.

Variables (stop : prog (option (sbel R n)) (option vec) (option vec) (option R) (seq (option vec)) bool)
  (consumer : nat -> prog (option (sbel R n)) (option vec) (option vec) (option R) (seq (option vec)) unit).
Hypothesis kc : forall f, reo_r = Some f -> keeps_cache stop /\ forall i, keeps_cache (consumer i).

Lemma cg_step k t : at_step k t -> sp_a t = None -> sp_o t = None ->
  (forall j, (j < k)%N -> rsd j != 0) ->
  at_step k.+1 (after_step res (bayes_cg A stop reo_r reo_a) consumer t).
Proof.
move=> at_ ta to nz; rewrite /bayes_cg after_stepE //.
set t0 := snd (srun _ (consumer _) t); set t1 := snd (srun _ stop t0).
have at1 : at_step k t1.
  have [[E1 E2 E3 E4 E5] _] := srun_trace res (consumer (size (sp_past t))) t.
  have [[F1 F2 F3 F4 F5] _] := srun_trace res stop t0.
  rewrite -/t0 in E1 E2 E3 E4 E5; rewrite -/t1 in F1 F2 F3 F4 F5.
  have [G1 G2 G3 G4] := at_; split; rewrite ?F1 ?E1 ?F2 ?E2 ?F3 ?E3 //.
  move: G4; rewrite /cache_ok; case Er: reo_r => [f|] //; have [ks kcs] := kc Er.
  by rewrite /t1 ks /t0 kcs.
have ta1 : sp_a t1 = None.
  by have [[_ _ _ E4 _] _] := srun_trace res (consumer (size (sp_past t))) t;
     have [[_ _ _ F4 _] _] := srun_trace res stop t0; rewrite F4 E4.
have [aE ce] := policy_run at1 ta1 nz.
have [pr pa cu _] := at_.
split=> //=.
- by rewrite aE pa cu /trace iota_last map_rcons.
- by rewrite aE cu /= belS.
Qed.

(** As long as no residual before the last one is zero, the past is the iteration. *)
Definition prefix_ok (t : spec) :=
  (forall i, (i <= size (sp_past t))%N -> (forall j, (j.+1 < i)%N -> rsd j != 0) ->
     take i (sp_past t) = trace i)
  /\ ((forall j, (j.+1 < size (sp_past t))%N -> rsd j != 0) -> at_step (size (sp_past t)) t).
Lemma prefix_step t : prefix_ok t -> sp_a t = None -> sp_o t = None ->
  prefix_ok (after_step res (bayes_cg A stop reo_r reo_a) consumer t).
Proof.
move=> [Pi Pt] ta to; have E2 := after_stepE A b 0 stop (fun _ => cg_policy reo_r reo_a (cg_ipm A)) consumer ta to.
rewrite -/(bayes_cg A stop reo_r reo_a) in E2.
have Pt' : (forall j, (j < size (sp_past t))%N -> rsd j != 0) ->
    at_step (size (sp_past t)).+1 (after_step res (bayes_cg A stop reo_r reo_a) consumer t).
  by move=> nz; apply: cg_step => //; apply: Pt => j jk; apply: nz; exact: ltnW.
have sz : size (sp_past (after_step res (bayes_cg A stop reo_r reo_a) consumer t)) = (size (sp_past t)).+1.
  by rewrite E2 /= size_rcons.
split; rewrite sz; last by move=> nz; apply: Pt' => j jk; exact: nz.
move=> i; rewrite leq_eqVlt => /orP [/eqP ->|] nz; last first.
  by move=> nz'; rewrite E2 /= -cats1 takel_cat ?Pi // -ltnS.
have [_ pa _ _] : at_step (size (sp_past t)).+1 (after_step res (bayes_cg A stop reo_r reo_a) consumer t).
  by apply: Pt' => j jk; exact: nz.
by rewrite pa take_oversize // size_map size_iota.
Qed.

Lemma cg_iterate fuel l e z :
  iterate res fuel (bayes_cg A stop reo_r reo_a) consumer (init_state res [::] (Some p0)) = (l, e, z) ->
  forall x, List.In x l ->
  (forall i, (i < ls_step x)%N -> (forall j, (j < i)%N -> rsd j != 0) ->
     nth None (ls_resids x) i = Some (Some (rsd i)))
  /\ ((forall j, (j.+1 < ls_step x)%N -> rsd j != 0) ->
      ls_belief x = Some (bel (ls_step x))
      /\ ls_actions x = rcons [seq Some (Some (act j)) | j <- iota 0 (ls_step x)] None).
Proof.
move=> E x xl.
have [] := @iterate_inv _ _ _ _ _ res (bayes_cg A stop reo_r reo_a) consumer
  (fun t => sp_a t = None /\ prefix_ok t) _ fuel [::] (Some p0) l e z _ E x xl => //.
- move=> t [_ Pt] ta to; split; last exact: prefix_step.
  have E2 := after_stepE A b 0 stop (fun _ => cg_policy reo_r reo_a (cg_ipm A)) consumer ta to.
  by rewrite /bayes_cg E2.
- split=> //; split=> [i|_]; first by rewrite leqn0 => /eqP ->.
  by split=> //; rewrite /cache_ok; case: (reo_r).
move=> t [rt [ta [Pi at_]]].
have [_ [-> [-> [_ [-> [_ st]]]]]] := rel_inv _ _ _ rt.
rewrite st -[length _]/(size _); split=> [i ik nz|nz].
  have Ti := Pi i.+1 ik (fun j => nz j).
  rewrite -[List.map _ _]/(map _ _) nth_cat size_map ik -(nth_take None (ltnSn i)) -map_take Ti.
  by rewrite -map_comp (nth_map 0%N) ?size_iota // nth_iota.
have [_ pa cu _] := at_ nz.
rewrite cu; split=> //; rewrite ta -cats1 -[List.map _ _]/(map _ _) {1}pa; congr (_ ++ _).
by rewrite -map_comp.
Qed.
End Link.
