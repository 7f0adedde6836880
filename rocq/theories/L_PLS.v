From Coq Require Import List Bool Arith Lia.
From Verif Require Import M_PLS.
Import ListNotations.

Section L.
Context {B Y Act Obs K : Type}.
Variable resid : B -> Y.
Notation lstate := (lstate B Y Act Obs K).
Notation view := (view B Y Act Obs K).
Notation prog := (prog B Y Act Obs K).
Notation pls := (pls B Y Act Obs K).

(** ** Specification machine without cached residuals.
    It keeps the completed steps (belief, action, observation, and whether the
    residual was asked for in that step) and recomputes every residual. *)
Record spec := mk_spec {
  sp_prior : B; sp_past : list (B * Act * Obs * bool);
  sp_cur : B; sp_read : bool; sp_a : option Act; sp_o : option Obs; sp_cache : K }.

Definition shown (b : B) (read : bool) : option Y := if read then Some (resid b) else None.

Definition spec_view (s : spec) : view :=
  mk_view (sp_prior s) (sp_cur s)
    (map (fun '(_, a, _, _) => Some a) (sp_past s) ++ [sp_a s])
    (map (fun '(_, _, o, _) => Some o) (sp_past s) ++ [sp_o s])
    (map (fun '(b, _, _, r) => shown b r) (sp_past s) ++ [shown (sp_cur s) (sp_read s)])
    (sp_cache s) (length (sp_past s)).

Fixpoint srun {T} (p : prog T) (s : spec) : T * spec :=
  match p with
  | Ret t => (t, s)
  | ReadResidual k =>
      srun (k (resid (sp_cur s)))
           (mk_spec (sp_prior s) (sp_past s) (sp_cur s) true (sp_a s) (sp_o s) (sp_cache s))
  | Look k => srun (k (spec_view s)) s
  | SetCache c k =>
      srun k (mk_spec (sp_prior s) (sp_past s) (sp_cur s) (sp_read s) (sp_a s) (sp_o s) c)
  end.

Definition s_action (a : Act) (s : spec) : spec :=
  mk_spec (sp_prior s) (sp_past s) (sp_cur s) (sp_read s) (Some a) (sp_o s) (sp_cache s).
Definition s_obs (o : Obs) (s : spec) : spec :=
  mk_spec (sp_prior s) (sp_past s) (sp_cur s) (sp_read s) (sp_a s) (Some o) (sp_cache s).
Definition s_next (b : B) (a : Act) (o : Obs) (s : spec) : spec :=
  mk_spec (sp_prior s) (sp_past s ++ [(sp_cur s, a, o, sp_read s)]) b false None None (sp_cache s).
Definition s_init (k0 : K) (prior : B) : spec := mk_spec prior [] prior true None None k0.

Fixpoint s_iterate (fuel : nat) (sv : pls) (consumer : nat -> prog unit) (s : spec)
  : list spec * bool * spec :=
  match fuel with
  | O => ([], false, s)
  | S fuel' =>
      let s0 := snd (srun (consumer (length (sp_past s))) s) in
      let (stop, s1) := srun (p_stop sv) s0 in
      if stop then ([s], true, s1)
      else
        let (a, s2) := srun (p_policy sv (length (sp_past s))) s1 in
        let (o, s4) := srun (p_info sv) (s_action a s2) in
        let (b, s6) := srun (p_update sv) (s_obs o s4) in
        let '(l, e, z) := s_iterate fuel' sv consumer (s_next b a o s6) in
        (s :: l, e, z)
  end.

Definition rel (s : lstate) (t : spec) : Prop := view_of s = spec_view t.

Lemma nth_error_last {T} (l : list T) x : nth_error (l ++ [x]) (length l) = Some x.
Proof. rewrite nth_error_app2 by lia. rewrite Nat.sub_diag. reflexivity. Qed.

Lemma set_nth_last {T} (l : list T) x y : set_nth (length l) y (l ++ [x]) = l ++ [y].
Proof.
  unfold set_nth. rewrite firstn_app, skipn_app, firstn_all, skipn_all, Nat.sub_diag.
  simpl. rewrite app_nil_r. reflexivity.
Qed.

Lemma rel_inv s t : rel s t ->
  ls_prior s = sp_prior t /\ ls_belief s = sp_cur t
  /\ ls_actions s = map (fun '(_, a, _, _) => Some a) (sp_past t) ++ [sp_a t]
  /\ ls_obs s = map (fun '(_, _, o, _) => Some o) (sp_past t) ++ [sp_o t]
  /\ ls_resids s = map (fun '(b, _, _, r) => shown b r) (sp_past t) ++ [shown (sp_cur t) (sp_read t)]
  /\ ls_cache s = sp_cache t /\ ls_step s = length (sp_past t).
Proof. unfold rel, view_of, spec_view. intros [= -> -> -> -> -> -> ->]. auto 10. Qed.

Lemma read_rel s t : rel s t ->
  fst (read_residual resid s) = resid (sp_cur t)
  /\ rel (snd (read_residual resid s))
       (mk_spec (sp_prior t) (sp_past t) (sp_cur t) true (sp_a t) (sp_o t) (sp_cache t)).
Proof.
  intros R. pose proof (rel_inv s t R) as (E1 & E2 & E3 & E4 & E5 & E6 & E7).
  unfold read_residual. rewrite E5, E7.
  rewrite <- (map_length (fun '(b, _, _, r) => shown b r) (sp_past t)).
  rewrite nth_error_last. unfold shown at 2.
  destruct (sp_read t) eqn:Er; simpl.
  - split; [reflexivity|]. unfold rel in *. rewrite R. unfold spec_view. simpl. rewrite Er. reflexivity.
  - split; [rewrite E2; reflexivity|]. unfold rel, view_of, spec_view. simpl.
    rewrite set_nth_last, E1, E2, E3, E4, E6, map_length. reflexivity.
Qed.

Lemma run_rel {T} (p : prog T) : forall s t, rel s t ->
  fst (run resid p s) = fst (srun p t) /\ rel (snd (run resid p s)) (snd (srun p t))
  /\ sp_past (snd (srun p t)) = sp_past t /\ sp_cur (snd (srun p t)) = sp_cur t
  /\ sp_a (snd (srun p t)) = sp_a t /\ sp_o (snd (srun p t)) = sp_o t
  /\ sp_prior (snd (srun p t)) = sp_prior t.
Proof.
  induction p as [x|k IH|k IH|c k IH]; intros s t R; simpl.
  - auto 10.
  - destruct (read_rel s t R) as [E R']. destruct (read_residual resid s) as [r s'].
    simpl in E, R'. subst r. destruct (IH (resid (sp_cur t)) _ _ R') as (F1 & F2 & F3 & F4 & F5 & F6 & F7).
    simpl in *. auto 10.
  - rewrite R. apply IH. assumption.
  - edestruct IH with (s := mk_lstate (ls_prior s) (ls_belief s) (ls_actions s) (ls_obs s)
      (ls_resids s) c (ls_step s)) (t := mk_spec (sp_prior t) (sp_past t) (sp_cur t) (sp_read t)
      (sp_a t) (sp_o t) c) as (F1 & F2 & F3 & F4 & F5 & F6 & F7).
    + pose proof (rel_inv s t R) as (E1 & E2 & E3 & E4 & E5 & E6 & E7).
      unfold rel, view_of, spec_view. simpl. rewrite E1, E2, E3, E4, E5, E7. reflexivity.
    + simpl in *. auto 10.
Qed.

Lemma init_rel k0 prior : rel (init_state resid k0 prior) (s_init k0 prior).
Proof. reflexivity. Qed.

Lemma action_rel a s t : rel s t -> sp_a t = None ->
  exists s', set_action a s = Some s' /\ rel s' (s_action a t).
Proof.
  intros R Ea. pose proof (rel_inv s t R) as (E1 & E2 & E3 & E4 & E5 & E6 & E7).
  unfold set_action. rewrite E3, E7.
  rewrite <- (map_length (fun '(_, a, _, _) => Some a) (sp_past t)), nth_error_last, Ea.
  eexists. split; [reflexivity|]. unfold rel, view_of, spec_view, s_action; simpl.
  rewrite set_nth_last, E1, E2, E4, E5, E6, map_length. reflexivity.
Qed.

Lemma obs_rel o s t : rel s t -> sp_o t = None ->
  exists s', set_obs o s = Some s' /\ rel s' (s_obs o t).
Proof.
  intros R Ea. pose proof (rel_inv s t R) as (E1 & E2 & E3 & E4 & E5 & E6 & E7).
  unfold set_obs. rewrite E4, E7.
  rewrite <- (map_length (fun '(_, _, o, _) => Some o) (sp_past t)), nth_error_last, Ea.
  eexists. split; [reflexivity|]. unfold rel, view_of, spec_view, s_obs; simpl.
  rewrite set_nth_last, E1, E2, E3, E5, E6, map_length. reflexivity.
Qed.

Lemma next_rel b a o s t : rel s t -> sp_a t = Some a -> sp_o t = Some o ->
  rel (next_step (set_belief b s)) (s_next b a o t).
Proof.
  intros R Ea Eo. pose proof (rel_inv s t R) as (E1 & E2 & E3 & E4 & E5 & E6 & E7).
  unfold rel, view_of, spec_view, next_step, set_belief, s_next; simpl.
  rewrite E1, E3, E4, E5, E6, E7, !map_app, Ea, Eo, app_length. simpl.
  rewrite Nat.add_1_r. reflexivity.
Qed.

Lemma iterate_rel sv consumer fuel : forall s t, rel s t -> sp_a t = None -> sp_o t = None ->
  let '(l, e, z) := iterate resid fuel sv consumer s in
  let '(l', e', z') := s_iterate fuel sv consumer t in
  Forall2 rel l l' /\ rel z z' /\ e = (if e' then Stopped else NoFuel).
Proof.
  induction fuel as [|fuel IH]; intros s t R Ha Ho; simpl; [auto|].
  pose proof (rel_inv s t R) as (_ & _ & _ & _ & _ & _ & E7). rewrite E7.
  destruct (run_rel (consumer (length (sp_past t))) s t R) as (_ & R0 & C1 & C2 & C3 & C4 & _).
  destruct (run resid (consumer (length (sp_past t))) s) as [u s0]. simpl in R0.
  set (t0 := snd (srun (consumer (length (sp_past t))) t)) in *.
  destruct (run_rel (p_stop sv) s0 t0 R0) as (E1 & R1 & D1 & D2 & D3 & D4 & _).
  destruct (run resid (p_stop sv) s0) as [b1 s1]. destruct (srun (p_stop sv) t0) as [b1' t1].
  simpl in *. subst b1'. destruct b1; [auto|].
  destruct (run_rel (p_policy sv (length (sp_past t))) s1 t1 R1) as (E2 & R2 & F1 & F2 & F3 & F4 & _).
  destruct (run resid (p_policy sv (length (sp_past t))) s1) as [a s2].
  destruct (srun (p_policy sv (length (sp_past t))) t1) as [a' t2]. simpl in *. subst a'.
  destruct (action_rel a s2 t2 R2) as (s3 & -> & R3); [congruence|].
  destruct (run_rel (p_info sv) s3 _ R3) as (E4 & R4 & G1 & G2 & G3 & G4 & _).
  destruct (run resid (p_info sv) s3) as [o s4].
  destruct (srun (p_info sv) (s_action a t2)) as [o' t4]. simpl in *. subst o'.
  destruct (obs_rel o s4 t4 R4) as (s5 & -> & R5); [congruence|].
  destruct (run_rel (p_update sv) s5 _ R5) as (E6 & R6 & H1 & H2 & H3 & H4 & _).
  destruct (run resid (p_update sv) s5) as [b s6].
  destruct (srun (p_update sv) (s_obs o t4)) as [b' t6]. simpl in *. subst b'.
  assert (rel (next_step (set_belief b s6)) (s_next b a o t6)) as RN
    by (apply next_rel; congruence).
  specialize (IH _ _ RN eq_refl eq_refl).
  destruct (iterate resid fuel sv consumer (next_step (set_belief b s6))) as [[l e] z].
  destruct (s_iterate fuel sv consumer (s_next b a o t6)) as [[l' e'] z'].
  destruct IH as (I1 & I2 & I3). auto.
Qed.

Lemma refines sv consumer fuel k0 prior :
  let '(l, e, z) := iterate resid fuel sv consumer (init_state resid k0 prior) in
  let '(l', e', z') := s_iterate fuel sv consumer (s_init k0 prior) in
  Forall2 rel l l' /\ rel z z' /\ e = (if e' then Stopped else NoFuel).
Proof. apply iterate_rel; reflexivity. Qed.

Lemma rel_residual (s : lstate) (t : spec) : rel s t -> fst (read_residual resid s) = resid (ls_belief s).
Proof.
  intros R. destruct (read_rel s t R) as [-> _].
  pose proof (rel_inv s t R) as (_ & -> & _). reflexivity.
Qed.

Lemma residual_current (sv : pls) consumer fuel k0 prior l e z :
  iterate resid fuel sv consumer (init_state resid k0 prior) = (l, e, z) ->
  e <> AssertionError
  /\ fst (read_residual resid z) = resid (ls_belief z)
  /\ forall s, In s l -> fst (read_residual resid s) = resid (ls_belief s).
Proof.
  intros E. pose proof (refines sv consumer fuel k0 prior) as H. rewrite E in H.
  destruct (s_iterate fuel sv consumer (s_init k0 prior)) as [[l' e'] z'].
  destruct H as (H1 & H2 & H3). split; [|split].
  - subst e. destruct e'; discriminate.
  - eapply rel_residual; eauto.
  - intros s Hs. clear - H1 Hs. induction H1; [destruct Hs|].
    destruct Hs as [<-|Hs]; [eapply rel_residual; eauto|auto].
Qed.

(** ** Number of iterations *)
Lemma read_step (s : lstate) : ls_step (snd (read_residual resid s)) = ls_step s
  /\ ls_belief (snd (read_residual resid s)) = ls_belief s.
Proof.
  unfold read_residual. destruct (nth_error _ _) as [[y|]|]; simpl; auto.
Qed.

Lemma run_keeps {T} (p : prog T) : forall s,
  ls_step (snd (run resid p s)) = ls_step s /\ ls_belief (snd (run resid p s)) = ls_belief s.
Proof.
  induction p as [x|k IH|k IH|c k IH]; intros s; simpl; auto.
  - destruct (read_step s) as [E1 E2]. destruct (read_residual resid s) as [r s']; simpl in *.
    destruct (IH r s') as [-> ->]. auto.
  - destruct (IH (mk_lstate (ls_prior s) (ls_belief s) (ls_actions s) (ls_obs s)
      (ls_resids s) c (ls_step s))) as [-> ->]. auto.
Qed.

Lemma run_bind {T U} (p : prog T) (f : T -> prog U) : forall s,
  run resid (bind p f) s = let (t, s') := run resid p s in run resid (f t) s'.
Proof.
  induction p as [x|k IH|k IH|c k IH]; intros s; simpl; auto.
  destruct (read_residual resid s) as [r s']. apply IH.
Qed.

(** A criterion that is met at the latest in step [N]. *)
Definition stops_by (N : nat) (p : prog bool) : Prop :=
  forall s, N <= ls_step s -> fst (run resid p s) = true.

Lemma stops_by_max n m :
  stops_by (match m with None => n * 10 | Some m => m end) (max_iterations n m).
Proof. intros s H. simpl. apply Nat.leb_le. assumption. Qed.

Lemma stops_by_or_l N p q : stops_by N p -> stops_by N (stop_or p q).
Proof.
  intros H s Hs. unfold stop_or. rewrite run_bind. specialize (H s Hs).
  destruct (run resid p s) as [b s']. simpl in H. subst b. reflexivity.
Qed.

Lemma stops_by_or_r N p q : stops_by N q -> stops_by N (stop_or p q).
Proof.
  intros H s Hs. unfold stop_or. rewrite run_bind.
  pose proof (run_keeps p s) as [E _].
  destruct (run resid p s) as [b s']. simpl in E. destruct b; [reflexivity|].
  apply H. lia.
Qed.

(** Stopping exactly when met. *)
Definition met (sv : pls) (consumer : nat -> prog unit) (s : lstate) : bool :=
  fst (run resid (p_stop sv) (snd (run resid (consumer (ls_step s)) s))).

Lemma iterate_bound sv consumer N : stops_by N (p_stop sv) ->
  forall fuel s t, rel s t -> sp_a t = None -> sp_o t = None ->
  ls_step s <= N -> S N - ls_step s <= fuel ->
  exists l z pre s',
    iterate resid fuel sv consumer s = (l, Stopped, z)
    /\ l = pre ++ [s']
    /\ ls_belief z = ls_belief s' /\ ls_step z = ls_step s'
    /\ ls_step s' = ls_step s + length pre /\ ls_step s' <= N
    /\ met sv consumer s' = true /\ Forall (fun x => met sv consumer x = false) pre.
Proof.
  intros HN. induction fuel as [|fuel IH]; intros s t R Ha Ho Hs Hf; [lia|].
  simpl.
  pose proof (rel_inv s t R) as (_ & _ & _ & _ & _ & _ & E7).
  destruct (run_rel (consumer (ls_step s)) s t R) as (_ & R0 & C1 & C2 & C3 & C4 & _).
  destruct (run_keeps (consumer (ls_step s)) s) as [K1 K2].
  unfold met.
  destruct (run resid (consumer (ls_step s)) s) as [u s0] eqn:Ec. simpl in R0, K1, K2.
  set (t0 := snd (srun (consumer (ls_step s)) t)) in *.
  destruct (run_rel (p_stop sv) s0 t0 R0) as (_ & R1 & D1 & D2 & D3 & D4 & _).
  destruct (run_keeps (p_stop sv) s0) as [K3 K4].
  destruct (run resid (p_stop sv) s0) as [b1 s1] eqn:Es. simpl in K3, K4, R1.
  set (t1 := snd (srun (p_stop sv) t0)) in *.
  destruct b1.
  { exists [s], s1, [], s. simpl. rewrite Ec. simpl. rewrite Es. simpl.
    repeat split; auto; try lia; congruence. }
  assert (ls_step s < N) as HsN.
  { destruct (Nat.eq_dec (ls_step s) N) as [E|E]; [|lia].
    pose proof (HN s0) as H. rewrite Es in H. simpl in H. exfalso. assert (false = true) by (apply H; lia). discriminate. }
  destruct (run_rel (p_policy sv (ls_step s)) s1 t1 R1) as (_ & R2 & F1 & F2 & F3 & F4 & _).
  destruct (run_keeps (p_policy sv (ls_step s)) s1) as [K5 K6].
  destruct (run resid (p_policy sv (ls_step s)) s1) as [a s2]. simpl in K5, K6, R2.
  set (t2 := snd (srun (p_policy sv (ls_step s)) t1)) in *.
  destruct (action_rel a s2 t2 R2) as (s3 & E3 & R3); [congruence|]. rewrite E3.
  destruct (run_rel (p_info sv) s3 _ R3) as (_ & R4 & G1 & G2 & G3 & G4 & _).
  destruct (run_keeps (p_info sv) s3) as [K7 K8].
  destruct (run resid (p_info sv) s3) as [o s4]. simpl in K7, K8, R4.
  set (t4 := snd (srun (p_info sv) (s_action a t2))) in *.
  simpl in G1, G2, G3, G4.
  destruct (obs_rel o s4 t4 R4) as (s5 & E5 & R5); [congruence|]. rewrite E5.
  destruct (run_rel (p_update sv) s5 _ R5) as (_ & R6 & H1 & H2 & H3 & H4 & _).
  destruct (run resid (p_update sv) s5) as [b s6]. simpl in R6.
  set (t6 := snd (srun (p_update sv) (s_obs o t4))) in *. simpl in H1, H2, H3, H4.
  assert (rel (next_step (set_belief b s6)) (s_next b a o t6)) as RN
    by (apply next_rel; congruence).
  assert (ls_step (next_step (set_belief b s6)) = S (ls_step s)) as Estep.
  { simpl. pose proof (rel_inv _ _ R6) as (_ & _ & _ & _ & _ & _ & E8). rewrite E8.
    rewrite H1, G1, F1, D1, C1, E7. reflexivity. }
  destruct (IH _ _ RN eq_refl eq_refl) as (l & z & pre & s' & I1 & I2 & I3 & I4 & I5 & I6 & I7 & I8).
  { lia. } { lia. }
  rewrite I1. subst l. exists (s :: pre ++ [s']), z, (s :: pre), s'.
  split; [reflexivity|]. split; [reflexivity|]. split; [assumption|]. split; [assumption|].
  split; [simpl; lia|]. split; [assumption|]. split; [assumption|].
  constructor; auto. rewrite Ec. simpl. rewrite Es. reflexivity.
Qed.

Lemma iterate_stops sv consumer N k0 prior fuel : stops_by N (p_stop sv) -> N < fuel ->
  exists l z pre s',
    iterate resid fuel sv consumer (init_state resid k0 prior) = (l, Stopped, z)
    /\ l = pre ++ [s'] /\ length pre <= N
    /\ ls_belief z = ls_belief s' /\ ls_step s' = length pre /\ ls_step z = length pre
    /\ met sv consumer s' = true /\ Forall (fun x => met sv consumer x = false) pre.
Proof.
  intros HN Hf.
  destruct (iterate_bound sv consumer N HN fuel _ _ (init_rel k0 prior) eq_refl eq_refl)
    as (l & z & pre & s' & I1 & I2 & I3 & I4 & I5 & I6 & I7 & I8).
  { simpl; lia. } { simpl; lia. }
  simpl in I5. exists l, z, pre, s'. repeat split; auto; lia || congruence.
Qed.

(** Yielded state [i] is in step [i], with [i] completed actions and
    observations. *)
Lemma yields_numbered sv consumer fuel : forall s t, rel s t -> sp_a t = None -> sp_o t = None ->
  forall l e z i x, iterate resid fuel sv consumer s = (l, e, z) -> nth_error l i = Some x ->
  ls_step x = ls_step s + i
  /\ exists acts obs, length acts = ls_step x /\ length obs = ls_step x
     /\ ls_actions x = map Some acts ++ [None] /\ ls_obs x = map Some obs ++ [None]
     /\ ls_prior x = ls_prior s.
Proof.
  intros s t R Ha Ho l e z i x E Hi.
  pose proof (iterate_rel sv consumer fuel s t R Ha Ho) as H. rewrite E in H.
  assert (forall fuel t, sp_a t = None -> sp_o t = None ->
    forall i y, nth_error (fst (fst (s_iterate fuel sv consumer t))) i = Some y ->
    sp_a y = None /\ sp_o y = None /\ length (sp_past y) = length (sp_past t) + i
    /\ sp_prior y = sp_prior t) as HS.
  { clear. induction fuel as [|fuel IH]; intros t Ha Ho i y; simpl; [destruct i; discriminate|].
    assert (forall T (p : prog T) t, sp_prior (snd (srun p t)) = sp_prior t
              /\ sp_past (snd (srun p t)) = sp_past t) as SP.
    { clear. intros T p. induction p as [x|k IH|k IH|c k IH]; intros t; simpl; auto;
        edestruct IH as [-> ->]; auto. }
    destruct (SP _ (consumer (length (sp_past t))) t) as [P0 Q0].
    set (t0 := snd (srun (consumer (length (sp_past t))) t)) in *.
    destruct (SP _ (p_stop sv) t0) as [P1 Q1].
    destruct (srun (p_stop sv) t0) as [b1 t1]; simpl in P1, Q1.
    destruct b1; simpl.
    { destruct i as [|[|i]]; simpl; try discriminate. intros [= <-]. repeat split; auto. }
    destruct (SP _ (p_policy sv (length (sp_past t))) t1) as [P2 Q2].
    destruct (srun (p_policy sv (length (sp_past t))) t1) as [a t2]; simpl in P2, Q2.
    destruct (SP _ (p_info sv) (s_action a t2)) as [P4 Q4].
    destruct (srun (p_info sv) (s_action a t2)) as [o t4]; simpl in P4, Q4.
    destruct (SP _ (p_update sv) (s_obs o t4)) as [P6 Q6].
    destruct (srun (p_update sv) (s_obs o t4)) as [b t6]; simpl in P6, Q6.
    specialize (IH (s_next b a o t6) eq_refl eq_refl).
    destruct (s_iterate fuel sv consumer (s_next b a o t6)) as [[l e] z]; simpl in *.
    destruct i as [|i]; simpl.
    - intros [= <-]. repeat split; auto.
    - intros Hy. destruct (IH i y Hy) as (I1 & I2 & I3 & I4). repeat split; auto.
      + rewrite I3, app_length. simpl. rewrite Q6, Q4, Q2, Q1, Q0. lia.
      + congruence. }
  specialize (HS fuel t Ha Ho i).
  destruct (s_iterate fuel sv consumer t) as [[l' e'] z']. simpl in HS.
  destruct H as (H1 & _ & _).
  assert (exists y, nth_error l' i = Some y /\ rel x y) as (y & Hy & Ry).
  { clear - H1 Hi. revert i Hi. induction H1; intros [|i] Hi; simpl in *; try discriminate.
    - injection Hi as <-. eauto.
    - eauto. }
  destruct (HS y Hy) as (S1 & S2 & S3 & S4).
  pose proof (rel_inv _ _ Ry) as (E1 & E2 & E3 & E4 & E5 & E6 & E7).
  pose proof (rel_inv _ _ R) as (E1' & _ & _ & _ & _ & _ & E7').
  split; [lia|].
  exists (map (fun '(_, a, _, _) => a) (sp_past y)), (map (fun '(_, _, o, _) => o) (sp_past y)).
  rewrite !map_length, !map_map, E3, E4, S1, S2. repeat split; try lia; try congruence.
  - f_equal. apply map_ext. intros [[[? ?] ?] ?]. reflexivity.
  - f_equal. apply map_ext. intros [[[? ?] ?] ?]. reflexivity.
Qed.
End L.

Section Other.
Context {B Y Act Obs K : Type}.
Variable resid : B -> Y.

(** Stopping before the maximum is due to the other criterion. *)
Lemma stop_early (n : nat) m (other : prog B Y Act Obs K bool) s :
  fst (run resid (stop_or (max_iterations n m) other) s) = true ->
  ls_step s < (match m with None => n * 10 | Some m => m end) ->
  fst (run resid other s) = true.
Proof.
  unfold stop_or. rewrite run_bind. simpl. intros H Hlt.
  destruct (Nat.leb_spec (match m with None => n * 10 | Some m => m end) (ls_step s)); [lia|].
  assumption.
Qed.
End Other.
