From Coq Require Import List Reals Bool Lra Lia.
From Verif Require Import M_ODELoop L_ODELoop L_ODELoop2 M_RKWrap L_RKWrap.
Import ListNotations.
Open Scope R_scope.

Lemma rk_run_chain Y E N (yzero : Y) yadd yscale fld tabA tabB tabC (est : list Y -> R -> E)
      nrm acc sug (d : N) h0 fuel fi s dt tr z :
  (forall n, acc n = true) ->
  loop (rk_solver yzero yadd yscale fld tabA tabB tabC est nrm acc sug d h0) fuel fi []
       (rk_init fld (st_t s) (p_y (st_x s))) s dt None = (tr, z) ->
  rk_chain yzero yadd yscale fld tabA tabB tabC s tr.
Proof. intros Hacc El. eapply rk_loop_chain; [exact Hacc| |exact El]. reflexivity. Qed.

Lemma pert_run_aligned Y E N (yzero : Y) yadd yscale fld tabA tabB tabC (est : list Y -> R -> E)
      nrm acc sug (d : N) h0 noise fuel fi s dt tr z :
  (forall n, acc n = true) -> (forall dt n sg, sug dt n = Some sg -> 0 < sg) -> 0 < dt ->
  let sv := pert_solver yzero yadd yscale fld tabA tabB tabC est nrm acc sug noise d h0 in
  let w0 := pert_init fld (st_t s) (p_y (st_x s)) in
  loop sv fuel fi [] w0 s dt None = (tr, z) ->
  let w' := final sv fuel fi [] w0 s dt None in
  let locs := times (s :: tr) in
  length (wp_scales w') = length tr /\ length (w_interp (wp_rk w')) = length tr /\
  forall i l l' D,
    nth_error locs i = Some l -> nth_error locs (S i) = Some l' ->
    nth_error (w_interp (wp_rk w')) i = Some D ->
    d_told D = l
    /\ pert_eval_point locs (wp_scales w') i l = Some (d_told D)
    /\ pert_eval_point locs (wp_scales w') i l' = Some (d_t D).
Proof.
  intros Hacc Hsg Hdt sv w0 El w' locs.
  assert (aligned (st_t s) ([] ++ times tr) (wp_scales w') (w_interp (wp_rk w'))) as Ha.
  { unfold w', sv.
    eapply pert_loop; [exact Hacc|exact Hsg|intros _; exact Hdt|exact I|reflexivity|exact El]. }
  simpl app in Ha.
  assert (forall ts t sc ds, @aligned Y t ts sc ds -> length sc = length ts /\ length ds = length ts) as HL.
  { induction ts as [|t1 ts IH]; intros t [|c sc] [|d0 ds]; simpl; try tauto.
    intros (_ & _ & H). destruct (IH _ _ _ H) as [-> ->]. auto. }
  destruct (HL _ _ _ _ Ha) as [L1 L2]. unfold times in L1, L2. rewrite map_length in L1, L2.
  split; [exact L1|split; [exact L2|]].
  intros i l l' D H1 H2 H3. eapply aligned_eval; eauto.
Qed.

(** SciPy's RK23 tableau (scipy.integrate._ivp.rk.RK23). *)
Definition rk23_A : list (list R) := [[1/2]; [0; 3/4]].
Definition rk23_B : list R := [2/9; 1/3; 4/9].
Definition rk23_C : list R := [1/2; 3/4].
Definition rk23_field : R -> R -> R := fun _ y => y.
Definition rk23_solver (acc : R -> bool) (sug : R -> R -> option R) : solver (@pay R R) (@wrk R) R :=
  rk_solver 0 Rplus Rmult rk23_field rk23_A rk23_B rk23_C
    (fun _ dt => dt) (fun e _ => e) acc sug 0 1.
Definition rk23_perturbed acc sug noise : solver (@pay R R) (@wpert R) R :=
  pert_solver 0 Rplus Rmult rk23_field rk23_A rk23_B rk23_C
    (fun _ dt => dt) (fun e _ => e) acc sug noise 0 1.
Definition rk23_reference := rk_reference 0 Rplus Rmult rk23_field rk23_A rk23_B rk23_C.

Lemma fsal_witness :
  exists (acc : R -> bool) (sug : R -> R -> option R) (s s' : state (@pay R R)) w' dt',
    full_step (rk23_solver acc sug) 2 (rk_init rk23_field (st_t s) (p_y (st_x s))) s 1
      = Ok (w', s', dt')
    /\ st_t s' - st_t s = 1 / 2
    /\ p_y (st_x s') <> rk23_reference (st_t s) (p_y (st_x s)) (1 / 2).
Proof.
  exists (fun n => Rltb n 1), (fun dt _ => Some (dt / 2)), (mk_state 0 10 (mk_pay 1 None None)).
  do 3 eexists. split; [|split].
  - cbn -[rk_attempt]. unfold rk_attempt. cbn -[Rltb Rmin]. 
    destruct (Rltb_spec 1 1); [lra|]. rewrite Rmin_left by lra.
    destruct (Rltb_spec (1/2) 1); [|lra]. reflexivity.
  - simpl. lra.
  - unfold rk23_reference, rk_reference, rk_step, stages, lincomb, rk23_field; simpl. lra.
Qed.

Lemma scales_witness :
  exists (acc : R -> bool) (sug : R -> R -> option R) noise (s s' : state (@pay R R)) w' dt' D x,
    (forall i h, 0 < h -> 0 < noise i h) /\
    full_step (rk23_perturbed acc sug noise) 2 (pert_init rk23_field (st_t s) (p_y (st_x s))) s 1
      = Ok (w', s', dt')
    /\ w_interp (wp_rk w') = [D]
    /\ pert_eval_point [st_t s; st_t s'] (wp_scales w') 0 (st_t s') = Some x
    /\ x <> d_t D.
Proof.
  exists (fun n => Rltb n 1), (fun dt _ => Some (dt / 4)),
    (fun i h => match i with O => h | _ => h * 2 end), (mk_state 0 10 (mk_pay 1 None None)).
  do 5 eexists. split; [|split; [|split; [|split]]].
  - intros [|i] h Hh; lra.
  - cbn -[rk_attempt]. unfold rk_attempt. cbn -[Rltb Rmin].
    destruct (Rltb_spec 1 1); [lra|]. rewrite Rmin_left by lra.
    destruct (Rltb_spec (1/4*2) 1); [|lra]. reflexivity.
  - simpl. reflexivity.
  - unfold pert_eval_point. simpl. reflexivity.
  - simpl. lra.
Qed.

Lemma two_steps :
  exists tr, loop (rk23_solver (fun _ => true) (fun _ _ => Some (1/2))) 2 1 []
               (rk_init rk23_field 0 1) (mk_state 0 1 (mk_pay 1 None None)) (1/2) None
             = (tr, Finished) /\ length tr = 2%nat.
Proof.
  eexists. split.
  - cbn -[Rltb Rmin rk_attempt]. unfold rk_attempt. cbn -[Rltb Rmin]. dec. reflexivity.
  - reflexivity.
Qed.

Lemma uniform_band c order step u h :
  0 <= c -> 0 < step -> 0 <= u <= 1 ->
  perturb_uniform c order step u = Some h ->
  step < 1 /\ Rabs (h - step) <= c * (step ^ order * sqrt step)
  /\ (c < 1 -> (1 <= order)%nat -> 0 < h).
Proof.
  intros Hc Hs Hu. unfold perturb_uniform. destruct (Rleb_spec 1 step) as [|Hlt]; [discriminate|].
  set (sh := step ^ order * sqrt step). intros E; injection E as <-.
  assert (0 < sqrt step) as Hsq by (apply sqrt_lt_R0; assumption).
  assert (0 < sh) as Hsh by (apply Rmult_lt_0_compat; [apply pow_lt|]; assumption).
  assert (0 <= c * sh) as Hcs by (apply Rmult_le_pos; lra).
  split; [lra|split].
  - apply Rabs_le. nra.
  - intros Hc1 Ho. destruct order as [|order]; [lia|].
    assert (sqrt step < 1) as Hs1.
    { rewrite <- sqrt_1. apply sqrt_lt_1; lra. }
    assert (step ^ S order <= step) as Hpw.
    { simpl. rewrite <- (Rmult_1_r step) at 3. apply Rmult_le_compat_l; [lra|].
      rewrite <- (pow1 order). apply pow_incr. lra. }
    assert (0 < step ^ S order) by (apply pow_lt; assumption).
    assert (sh < step) by (unfold sh; nra).
    assert (c * sh < step) by nra. nra.
Qed.

Lemma lognormal_mean c order step z :
  0 <= c -> 0 < step ->
  0 < perturb_lognormal c order step z
  /\ exists mu sigma, 0 <= sigma
     /\ perturb_lognormal c order step z = exp (mu + sigma * z)
     /\ exp (mu + sigma * sigma / 2) = step.
Proof.
  intros Hc Hs. unfold perturb_lognormal. split; [apply exp_pos|].
  set (q := step ^ (2 * order)).
  assert (0 <= q) as Hq by (apply pow_le; lra).
  set (shf := 1/2 * ln (1 + c * q)).
  assert (0 <= shf) as Hsh.
  { unfold shf. assert (0 <= ln (1 + c * q)); [|lra].
    assert (0 <= c * q) as Hcq by (apply Rmult_le_pos; lra).
    destruct (Req_dec (c * q) 0) as [->|Hne]; [rewrite Rplus_0_r, ln_1; lra|].
    rewrite <- ln_1. left. apply ln_increasing; lra. }
  exists (ln step - shf), (sqrt (2 * shf)). split; [apply sqrt_pos|split; [reflexivity|]].
  rewrite sqrt_sqrt by lra. replace (ln step - shf + 2 * shf / 2) with (ln step) by field.
  apply exp_ln. assumption.
Qed.
