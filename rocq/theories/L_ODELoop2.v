From Coq Require Import List Reals Bool Lra Lia Sorted.
From Verif Require Import M_ODELoop L_ODELoop.
Import ListNotations.
Open Scope R_scope.

(** Admissible [stop_at] arguments: absent, or a non-empty strictly increasing
    list of which at most the first element is not after [t0]; with locations,
    the step rule must not enlarge rejected steps. *)
Definition good_stops {X W N} (sv : solver X W N) (t0 : R) (stop_at : option (list R)) : Prop :=
  match stop_at with
  | None => True
  | Some ls => exists l ls', ls = l :: ls' /\ StronglySorted Rlt ls
                 /\ Forall (fun x => t0 < x) ls' /\ shrinks_on_rejection sv
  end.

(** A rejected attempt does not change the solver object. *)
Definition clean_rejection {X W N} (sv : solver X W N) :=
  forall w s dt w' x, attempt sv w s dt = Some (w', x) ->
    accepted sv (norm sv x) = false -> w' = w.

Lemma generate_loop {X W N} (sv : solver X W N) fuel fi cbs w s0 stop_at tr z :
  good_stops sv (st_t s0) stop_at ->
  generate sv fuel fi cbs w s0 stop_at = (tr, z) ->
  exists sp tr', tr = s0 :: tr' /\ loop sv fuel fi cbs w s0 (firststep sv) sp = (tr', z)
    /\ stopper_ok sp (st_t s0) /\ safe sv sp
    /\ (forall ls x, stop_at = Some ls -> (pending sp x <-> In x ls)).
Proof.
  intros Hg E. destruct stop_at as [ls|]; simpl in *.
  - destruct Hg as (l & ls' & -> & Hs & Hf & Hsh).
    destruct (loop sv fuel fi cbs w s0 (firststep sv) (Some (ls', Some l))) as [tr' z'] eqn:El.
    inversion E; subst. exists (Some (ls', Some l)), tr'.
    repeat split; auto; try (right; assumption); intros H0;
      match goal with H : Some _ = Some _ |- _ => inversion H; subst; exact H0 end.
  - destruct (loop sv fuel fi cbs w s0 (firststep sv) None) as [tr' z'] eqn:El.
    inversion E; subst. exists None, tr'. repeat split; auto; try (left; reflexivity); discriminate.
Qed.

Lemma last_times {X} (tr : list (state X)) s : last (times (s :: tr)) 0 = st_t (last tr s).
Proof.
  revert s. induction tr as [|s1 tr IH]; intros s; [reflexivity|].
  change (last (times (s :: s1 :: tr)) 0) with (last (times (s1 :: tr)) 0).
  rewrite IH. destruct tr as [|s2 tr]; [reflexivity|].
  change (last (s1 :: s2 :: tr) s) with (last (s2 :: tr) s).
  f_equal. clear. revert s2; induction tr as [|s3 tr IH]; intros s2; [reflexivity|apply (IH s3)].
Qed.

Lemma time_grid_increasing {X W N} (sv : solver X W N) fuel fi cbs w s0 stop_at tr z :
  keeps_time cbs -> suggests_positive sv ->
  good_stops sv (st_t s0) stop_at -> 0 < firststep sv ->
  generate sv fuel fi cbs w s0 stop_at = (tr, z) ->
  hd_error tr = Some s0 /\ StronglySorted Rlt (times tr).
Proof.
  intros Hcb Hpos Hg Hf E.
  destruct (generate_loop _ _ _ _ _ _ _ _ _ Hg E) as (sp & tr' & -> & El & Hok & Hsafe & _).
  apply loop_times in El; auto. split; [reflexivity|tauto].
Qed.

Lemma time_grid {X W N} (sv : solver X W N) fuel fi cbs w s0 stop_at tr z :
  keeps_time cbs -> suggests_positive sv ->
  good_stops sv (st_t s0) stop_at ->
  0 < firststep sv <= st_tmax s0 - st_t s0 ->
  generate sv fuel fi cbs w s0 stop_at = (tr, z) ->
  hd_error tr = Some s0
  /\ StronglySorted Rlt (times tr)
  /\ Forall (fun t => t <= st_tmax s0) (times tr)
  /\ (z = Finished -> last (times tr) 0 = st_tmax s0).
Proof.
  intros Hcb Hpos Hg Hf E.
  destruct (generate_loop _ _ _ _ _ _ _ _ _ Hg E) as (sp & tr' & -> & El & Hok & Hsafe & _).
  apply loop_times in El; auto; [|lra]. destruct El as (S1 & _ & S3).
  destruct S3 as [S3 S4]; [lra|lra|].
  split; [reflexivity|split; [exact S1|split]].
  - simpl. constructor; [lra|]. unfold times. apply Forall_map. exact S3.
  - intros Hz. rewrite last_times. auto.
Qed.

Lemma stops_hit {X W N} (sv : solver X W N) fuel fi cbs w s0 ls tr z x :
  keeps_time cbs -> suggests_positive sv -> shrinks_on_rejection sv ->
  good_stops sv (st_t s0) (Some ls) -> 0 < firststep sv ->
  generate sv fuel fi cbs w s0 (Some ls) = (tr, z) ->
  In x ls -> st_t s0 < x ->
  (z = Finished /\ x <= st_tmax s0) \/ Exists (fun t => x <= t) (times tr) ->
  In x (times tr).
Proof.
  intros Hcb Hpos Hsh Hg Hf E Hin Hx Hz.
  destruct (generate_loop _ _ _ _ _ _ _ _ _ Hg E) as (sp & tr' & -> & El & Hok & Hsafe & Hp).
  simpl. right. eapply loop_hits; try eassumption; auto.
  - apply (Hp ls x eq_refl). exact Hin.
  - destruct Hz as [Hz|Hz]; [left; exact Hz|right].
    simpl in Hz. inversion Hz as [? ? Hz'|? ? Hz']; subst; [lra|].
    unfold times in Hz'. apply Exists_exists in Hz' as (t & Ht & Hxt).
    apply in_map_iff in Ht as (s & <- & Hs). apply Exists_exists. eauto.
Qed.

(** Concrete solvers for the refutations: constant steps, always accepted. *)
Definition csolver (h : R) : solver unit unit unit :=
  mk_solver (fun _ _ _ => Some (tt, tt)) (fun _ => tt) constant_accepted (constant_suggest h)
            (fun _ _ => tt) h.

Lemma csolver_pos h : 0 < h -> suggests_positive (csolver h).
Proof. intros Hh dt n sg _ E. inversion E; subst; assumption. Qed.
Lemma csolver_shr h : shrinks_on_rejection (csolver h).
Proof. intros dt n sg _ E. discriminate. Qed.

Ltac plain a :=
  match a with
  | context [Rltb _ _] => fail 1
  | context [Rleb _ _] => fail 1
  | context [Rmin _ _] => fail 1
  | _ => idtac
  end.
Ltac dec := repeat match goal with
  | |- context [Rltb ?a ?b] => plain a; plain b; 
      first [destruct (Rltb_spec a b); [|exfalso; lra] | destruct (Rltb_spec a b); [exfalso; lra|]]
  | |- context [Rleb ?a ?b] => plain a; plain b; 
      first [destruct (Rleb_spec a b); [|exfalso; lra] | destruct (Rleb_spec a b); [exfalso; lra|]]
  | |- context [Rmin ?a ?b] => plain a; plain b;
      (rewrite (Rmin_left a b) by lra) || (rewrite (Rmin_right a b) by lra)
  end.

Lemma overshoot :
  exists (sv : solver unit unit unit) s0 tr,
    suggests_positive sv /\ 0 < firststep sv /\ st_t s0 < st_tmax s0
    /\ generate sv 1 1 [] tt s0 None = (tr, Finished)
    /\ exists t, In t (times tr) /\ st_tmax s0 < t.
Proof.
  exists (csolver 2), (mk_state 0 1 tt), [mk_state 0 1 tt; mk_state (0 + 2) 1 tt].
  split; [apply csolver_pos; lra|split; [simpl; lra|split; [simpl; lra|split]]].
  - unfold generate. rewrite loop_S. cbn. dec. reflexivity.
  - exists (0 + 2). simpl. split; [auto|lra].
Qed.

Lemma backward :
  exists (sv : solver unit unit unit) s0 ls tr z,
    suggests_positive sv /\ shrinks_on_rejection sv /\ 0 < firststep sv
    /\ StronglySorted Rlt ls
    /\ generate sv 1 1 [] tt s0 (Some ls) = (tr, z)
    /\ exists t, In t (times tr) /\ t < st_t s0.
Proof.
  exists (csolver 1), (mk_state 0 1 tt), [-2; -1]. do 2 eexists.
  split; [apply csolver_pos; lra|split; [apply csolver_shr|split; [simpl; lra|split]]].
  - repeat constructor; lra.
  - split.
    + unfold generate. rewrite loop_S. unfold clip, adjust, clip, advance. simpl. unfold clip; simpl. dec. simpl. dec. reflexivity.
    + exists (0 + (-1 - 0)). simpl. split; [auto|lra].
Qed.

Lemma duplicate :
  exists (sv : solver unit unit unit) s0 ls tr z,
    suggests_positive sv /\ shrinks_on_rejection sv /\ 0 < firststep sv
    /\ StronglySorted Rle ls /\ Forall (fun x => st_t s0 < x) ls
    /\ generate sv 2 1 [] tt s0 (Some ls) = (tr, z)
    /\ ~ StronglySorted Rlt (times tr).
Proof.
  exists (csolver (1/2)), (mk_state 0 1 tt), [1/2; 1/2]. do 2 eexists.
  split; [apply csolver_pos; lra|split; [apply csolver_shr|split; [simpl; lra|split; [|split]]]].
  - repeat constructor; lra.
  - repeat constructor; simpl; lra.
  - split.
    + unfold generate. rewrite !loop_S. cbn. unfold clip; cbn. dec. cbn. dec. cbn. dec. reflexivity.
    + simpl. intros H. apply StronglySorted_inv in H as [H _].
      apply StronglySorted_inv in H as [_ H]. inversion H; subst. lra.
Qed.

(** AdaptiveSteps, in terms of [adaptive_suggest]. *)
Lemma suggest_some a p last e step :
  adaptive_suggest a p last e = Some step ->
  step = adaptive_step a p last e /\ ad_min a <= step <= ad_max a.
Proof.
  unfold adaptive_suggest. destruct (Rltb_spec (adaptive_step a p last e) (ad_min a)); [discriminate|].
  destruct (Rltb_spec (ad_max a) (adaptive_step a p last e)); [discriminate|].
  intros E; inversion E; subst. split; [reflexivity|lra].
Qed.

Lemma adaptive_limits a p last e step :
  (1 <= p)%nat -> ad_small a <= ad_large a -> 0 < last ->
  adaptive_suggest a p last e = Some step ->
  ad_small a * last <= step <= ad_large a * last /\ ad_min a <= step <= ad_max a.
Proof.
  intros Hp Hl Hlast E. apply suggest_some in E as [-> Hw]. split; [|assumption].
  rewrite adaptive_step_factor by assumption.
  pose proof (factor_bounds a p Hl e). nra.
Qed.

Lemma adaptive_monotone a p last e e' step step' :
  (1 <= p)%nat -> ad_small a <= ad_large a -> 0 < ad_safety a -> 0 < last ->
  0 <= e <= e' ->
  adaptive_suggest a p last e = Some step -> adaptive_suggest a p last e' = Some step' ->
  step' <= step.
Proof.
  intros Hp Hl Hs Hlast He E E'. apply suggest_some in E as [-> _]. apply suggest_some in E' as [-> _].
  rewrite !adaptive_step_factor by assumption.
  pose proof (factor_antitone a p Hp Hl e e' Hs (proj1 He) (proj2 He)). nra.
Qed.

Lemma adaptive_raises a p last e :
  adaptive_suggest a p last e = None <->
  adaptive_step a p last e < ad_min a \/ ad_max a < adaptive_step a p last e.
Proof.
  unfold adaptive_suggest. destruct (Rltb_spec (adaptive_step a p last e) (ad_min a)); [tauto|].
  destruct (Rltb_spec (ad_max a) (adaptive_step a p last e)); [tauto|].
  split; [discriminate|lra].
Qed.

Lemma adaptive_proportional a p last e step :
  (1 <= p)%nat -> 0 < ad_safety a -> 0 < last -> 0 < e ->
  ad_small a * last < step < ad_large a * last ->
  adaptive_suggest a p last e = Some step ->
  (step / last) ^ p * e = ad_safety a ^ p.
Proof.
  intros Hp Hs Hlast He Hb E. apply suggest_some in E as [E _].
  unfold adaptive_step, change in E. destruct (Rltb_spec 0 e) as [_|Hn]; [|lra].
  set (rt := Rpower (1 / e) (1 / INR p)) in *.
  assert (rt ^ p = 1 / e) as Hr.
  { unfold rt. rewrite <- Rpower_pow by apply root_pos.
    rewrite Rpower_mult. replace (1 / INR p * INR p) with 1.
    - apply Rpower_1. apply Rdiv_lt_0_compat; lra.
    - field. apply not_0_INR. lia. }
  destruct (Rltb_spec (ad_safety a * rt) (ad_small a)); [lra|].
  destruct (Rltb_spec (ad_large a) (ad_safety a * rt)); [lra|].
  subst step. replace (ad_safety a * rt * last / last) with (ad_safety a * rt) by (field; lra).
  rewrite Rpow_mult_distr, Hr. field. lra.
Qed.

Lemma adaptive_accept e : adaptive_accepted e = true <-> e < 1.
Proof.
  unfold adaptive_accepted. destruct (Rltb_spec e 1); split; auto; try discriminate; lra.
Qed.

Lemma adaptive_reject a p last e step :
  (1 <= p)%nat -> ad_small a <= ad_large a -> 0 < ad_safety a -> 0 < last ->
  adaptive_accepted e = false -> adaptive_suggest a p last e = Some step ->
  step <= Rmax (ad_small a) (ad_safety a) * last.
Proof.
  intros Hp Hl Hs Hlast Ha E. apply suggest_some in E as [-> _].
  rewrite adaptive_step_factor by assumption.
  assert (1 <= e).
  { unfold adaptive_accepted in Ha. destruct (Rltb_spec e 1); [discriminate|lra]. }
  pose proof (factor_rejected a p Hp e Hs H). nra.
Qed.

Lemma no_trace {X W N} (sv : solver X W N) fi : forall w s dt w' s' dt',
  clean_rejection sv ->
  full_step sv fi w s dt = Ok (w', s', dt') ->
  exists dta w1 x,
    attempt sv w s dta = Some (w1, x) /\ accepted sv (norm sv x) = true
    /\ s' = propose s dta x /\ w' = mcb sv w1 s.
Proof.
  induction fi as [|fi IH]; simpl; intros w s dt w' s' dt' Hc E; [discriminate|].
  destruct (attempt sv w s dt) as [[w1 x]|] eqn:Ea; [|discriminate].
  destruct (suggest sv dt (norm sv x)) as [sg|]; [|discriminate].
  destruct (accepted sv (norm sv x)) eqn:Eb.
  - inversion E; subst. exists dt, w1, x. auto.
  - rewrite (Hc _ _ _ _ _ Ea Eb) in E. apply (IH _ _ _ _ _ _ Hc E).
Qed.

Lemma constant_grid {X W N} (sv : solver X W N) h k fuel fi cbs w s0 :
  0 < h -> firststep sv = h ->
  (forall n, accepted sv n = constant_accepted n) ->
  (forall dt n, suggest sv dt n = constant_suggest h dt n) ->
  (forall w s dt, attempt sv w s dt <> None) ->
  keeps_time cbs ->
  st_t s0 < st_tmax s0 -> h <= st_tmax s0 - st_t s0 ->
  INR k * h - h < st_tmax s0 - st_t s0 <= INR k * h -> (k <= fuel)%nat ->
  exists tr, generate sv fuel (S fi) cbs w s0 None = (tr, Finished)
    /\ length tr = S k
    /\ forall i s, nth_error tr i = Some s ->
         st_t s = Rmin (st_tmax s0) (st_t s0 + INR i * h).
Proof.
  intros Hh Hf Ha Hs Hat Hcb Ht Hle Hk Hfu.
  destruct (const_loop sv h Hh Ha Hs Hat fi cbs Hcb k fuel w s0 h) as (tr & E & L & T); auto.
  - rewrite Rmin_left; lra.
  - lra.
  - exists (s0 :: tr). unfold generate. rewrite Hf, E. split; [reflexivity|].
    split; [simpl; congruence|]. intros [|i] s; simpl nth_error; intros Hn.
    + inversion Hn; subst. simpl. rewrite Rmin_right; lra.
    + apply T. assumption.
Qed.

Lemma adaptive_terminates {X W} (sv : solver X W R) a p cbs w s0 stop_at :
  (1 <= p)%nat -> 0 < ad_min a -> 0 <= ad_small a < 1 -> ad_small a <= ad_large a ->
  0 < ad_safety a < 1 ->
  (forall e, accepted sv e = adaptive_accepted e) ->
  (forall dt e, suggest sv dt e = adaptive_suggest a p dt e) ->
  0 < firststep sv -> keeps_time cbs ->
  good_stops sv (st_t s0) stop_at ->
  exists fuel fi, snd (generate sv fuel fi cbs w s0 stop_at) <> Timeout.
Proof.
  intros Hp Hm Hsm Hl Hs Ha Hsg Hf Hcb Hg.
  apply (terminates sv (ad_min a) (Rmax (ad_small a) (ad_safety a))); auto.
  - split; [apply Rle_trans with (ad_small a); [lra|apply Rmax_l]|apply Rmax_lub_lt; lra].
  - intros dt n sg Hdt E. rewrite Hsg in E. apply suggest_some in E. lra.
  - intros dt n sg Hdt Hr E. rewrite Hsg in E. rewrite Ha in Hr.
    apply (adaptive_reject a p dt n sg); auto; lra.
  - destruct stop_at as [ls|]; auto. destruct Hg as (l & ls' & A & B & C & _). exists l, ls'. auto.
Qed.
