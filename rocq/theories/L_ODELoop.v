From Coq Require Import List Reals Bool Lra Lia Sorted.
From Verif Require Import M_ODELoop.
Import ListNotations.
Open Scope R_scope.

Lemma Rltb_spec x y : reflect (x < y) (Rltb x y).
Proof. unfold Rltb; destruct (Rlt_dec x y); constructor; assumption. Qed.
Lemma Rleb_spec x y : reflect (x <= y) (Rleb x y).
Proof. unfold Rleb; destruct (Rle_dec x y); constructor; assumption. Qed.

Lemma INR_unbounded' (x : R) : exists n, x < INR n.
Proof.
  destruct (Rle_lt_dec x 0) as [H|H]; [exists 1%nat; simpl; lra|].
  exists (Z.to_nat (up x)). destruct (archimed x) as [H1 _].
  rewrite INR_IZR_INZ, Z2Nat.id; [lra|]. apply le_IZR. lra.
Qed.

Section Proofs.
Context {X W N : Type}.
Variable sv : solver X W N.
Implicit Types (s : state X) (w : W) (cbs : list (state X -> state X)).

(** Callbacks may change the payload but neither time nor final time. *)
Definition keeps_time cbs :=
  Forall (fun cb => forall s, st_t (cb s) = st_t s /\ st_tmax (cb s) = st_tmax s) cbs.

(** Requirements on step rules. *)
Definition suggests_positive :=
  forall dt n sg, 0 < dt -> suggest sv dt n = Some sg -> 0 < sg.
Definition shrinks_on_rejection :=
  forall dt n sg, 0 < dt -> accepted sv n = false -> suggest sv dt n = Some sg -> sg <= dt.

Lemma run_callbacks_time cbs s : keeps_time cbs ->
  st_t (run_callbacks cbs s) = st_t s /\ st_tmax (run_callbacks cbs s) = st_tmax s.
Proof.
  unfold run_callbacks. intros H; revert s.
  induction H as [|cb cbs Hcb H IH]; simpl; intros s; auto.
  destruct (IH (cb s)) as [-> ->]. apply Hcb.
Qed.

Lemma full_step_ok fi : forall w s dt w' s' dt',
  suggests_positive -> 0 < dt -> st_t s < st_tmax s ->
  full_step sv fi w s dt = Ok (w', s', dt') ->
  exists dta, 0 < dta /\ st_t s' = st_t s + dta /\ st_tmax s' = st_tmax s
    /\ (dta = dt \/ dta <= st_tmax s - st_t s)
    /\ dt' <= st_tmax s - st_t s'
    /\ (st_t s' < st_tmax s -> 0 < dt').
Proof.
  induction fi as [|fi IH]; simpl; intros w s dt w' s' dt' Hpos Hdt Ht E; [discriminate|].
  destruct (attempt sv w s dt) as [[w1 x]|]; [|discriminate].
  destruct (suggest sv dt (norm sv x)) as [sg|] eqn:Es; [|discriminate].
  pose proof (Hpos _ _ _ Hdt Es) as Hsg.
  destruct (accepted sv (norm sv x)).
  - inversion E; subst; clear E. exists dt. simpl. repeat split; auto.
    + apply Rmin_r.
    + intros H. apply Rmin_glb_lt; lra.
  - apply IH in E; auto; [|apply Rmin_glb_lt; lra].
    destruct E as (dta & A & B & C & D & F & G).
    exists dta. repeat split; auto. right.
    destruct D as [->|D]; [|assumption]. apply Rmin_r.
Qed.

Lemma full_step_shrinks fi : forall w s dt w' s' dt',
  suggests_positive -> shrinks_on_rejection -> 0 < dt -> st_t s < st_tmax s ->
  full_step sv fi w s dt = Ok (w', s', dt') -> st_t s' <= st_t s + dt.
Proof.
  induction fi as [|fi IH]; simpl; intros w s dt w' s' dt' Hpos Hshr Hdt Ht E; [discriminate|].
  destruct (attempt sv w s dt) as [[w1 x]|]; [|discriminate].
  destruct (suggest sv dt (norm sv x)) as [sg|] eqn:Es; [|discriminate].
  pose proof (Hpos _ _ _ Hdt Es) as Hsg.
  destruct (accepted sv (norm sv x)) eqn:Ea.
  - inversion E; subst; clear E. simpl. lra.
  - pose proof (Hshr _ _ _ Hdt Ea Es) as Hle.
    apply IH in E; auto.
    + pose proof (Rmin_l sg (st_tmax s - st_t s)). lra.
    + apply Rmin_glb_lt; lra.
Qed.

(** Invariant of the time stopper at the head of the loop: the pending
    locations are sorted, and all but possibly the next one lie ahead. *)
Definition stopper_ok (sp : option stopper) (t : R) : Prop :=
  match sp with
  | None => True
  | Some (locs, None) => locs = []
  | Some (locs, Some l) => StronglySorted Rlt (l :: locs) /\ Forall (fun x => t < x) locs
  end.

Definition pending (sp : option stopper) (x : R) : Prop :=
  match sp with
  | None => False
  | Some (locs, None) => False
  | Some (locs, Some l) => In x (l :: locs)
  end.

Definition ahead (sp : option stopper) (t : R) : Prop :=
  match sp with
  | Some (_, Some l) => t < l
  | _ => True
  end.

Lemma adjust_ok sp t dt dt1 sp' :
  stopper_ok sp t -> 0 < dt -> adjust sp t dt = (dt1, sp') ->
  stopper_ok sp' t /\ ahead sp' t /\ 0 < dt1 /\ dt1 <= dt
  /\ (forall locs l, sp' = Some (locs, Some l) -> t + dt1 <= l)
  /\ (forall x, t < x -> (pending sp' x <-> pending sp x)).
Proof.
  intros Hok Hdt E. destruct sp as [[locs nl]|]; simpl in E.
  2:{ inversion E; subst; simpl. repeat split; auto; try tauto; try lra. discriminate. }
  destruct nl as [l|]; simpl in *.
  - destruct Hok as [Hs Hf]. destruct (Rleb_spec l t) as [Hl|Hl].
    + destruct locs as [|l' locs']; simpl in E.
      * unfold clip in E; simpl in E. inversion E; subst; simpl.
        repeat split; auto; try lra; try discriminate; try tauto; intros [H0|[]]; lra.
      * apply Forall_inv in Hf as Hl'. apply Forall_inv_tail in Hf.
        apply StronglySorted_inv in Hs as [Hs _].
        unfold clip in E; simpl in E. inversion E; subst; simpl. clear E.
        assert (0 < (if Rltb l' (t + dt) then l' - t else dt)
                /\ (if Rltb l' (t + dt) then l' - t else dt) <= dt
                /\ t + (if Rltb l' (t + dt) then l' - t else dt) <= l') as (A & B & C).
        { destruct (Rltb_spec l' (t + dt)); repeat split; lra. }
        repeat split; auto;
          [intros locs0 l0 H; inversion H; subst; assumption|].
        intros [H0|H0]; [lra|assumption].
    + unfold clip in E; simpl in E. inversion E; subst; simpl. clear E.
      assert (0 < (if Rltb l (t + dt) then l - t else dt)
                /\ (if Rltb l (t + dt) then l - t else dt) <= dt
                /\ t + (if Rltb l (t + dt) then l - t else dt) <= l) as (A & B & C).
      { destruct (Rltb_spec l (t + dt)); repeat split; lra. }
      repeat split; auto; try lra.
      intros locs0 l0 H0. inversion H0; subst. assumption.
  - unfold clip in E; simpl in E. inversion E; subst; simpl.
    repeat split; auto; try lra; try discriminate; tauto.
Qed.

Lemma adjust_none sp' dt dt1 t : adjust None t dt = (dt1, sp') -> dt1 = dt /\ sp' = None.
Proof. simpl. intros E; inversion E; auto. Qed.

Lemma stopper_step sp' t t' :
  stopper_ok sp' t -> ahead sp' t -> t <= t' ->
  (forall locs l, sp' = Some (locs, Some l) -> t' <= l) -> stopper_ok sp' t'.
Proof.
  destruct sp' as [[locs [l|]]|]; simpl; auto.
  intros [Hs Hf] Ha Ht Hle. split; auto.
  specialize (Hle _ _ eq_refl).
  apply StronglySorted_inv in Hs as [_ Hs].
  eapply Forall_impl; [|exact Hs]. simpl. intros; lra.
Qed.

(** One iteration of the loop. *)
Lemma loop_S fuel fi cbs w s dt sp :
  loop sv (S fuel) fi cbs w s dt sp =
  if Rltb (st_t s) (st_tmax s) then
    let (dt1, sp') := adjust sp (st_t s) dt in
    match full_step sv fi w s dt1 with
    | OutOfFuel => ([], Timeout)
    | Raised => ([], Error)
    | Ok (w', s', dt') =>
        let s'' := run_callbacks cbs s' in
        let (tr, z) := loop sv fuel fi cbs w' s'' dt' sp' in (s'' :: tr, z)
    end
  else ([], Finished).
Proof. reflexivity. Qed.

Lemma loop_0 fi cbs w s dt sp :
  loop sv 0 fi cbs w s dt sp =
  if Rltb (st_t s) (st_tmax s) then ([], Timeout) else ([], Finished).
Proof. reflexivity. Qed.

(** Safe: with a stopper, rejections must shrink the step. *)
Definition safe (sp : option stopper) := sp = None \/ shrinks_on_rejection.

Lemma loop_times fuel : forall fi cbs w s dt sp tr z,
  keeps_time cbs -> suggests_positive -> safe sp ->
  stopper_ok sp (st_t s) -> (st_t s < st_tmax s -> 0 < dt) ->
  loop sv fuel fi cbs w s dt sp = (tr, z) ->
  StronglySorted Rlt (times (s :: tr))
  /\ Forall (fun s' => st_tmax s' = st_tmax s) tr
  /\ (st_t s <= st_tmax s -> dt <= st_tmax s - st_t s ->
      Forall (fun s' => st_t s' <= st_tmax s) tr
      /\ (z = Finished -> st_t (last tr s) = st_tmax s)).
Proof.
  induction fuel as [|fuel IH]; intros fi cbs w s dt sp tr z Hcb Hpos Hsafe Hok Hdt E.
  - rewrite loop_0 in E. destruct (Rltb_spec (st_t s) (st_tmax s)) as [Hlt|Hge];
      inversion E; subst; simpl; (split; [repeat constructor|split; [constructor|]]);
      intros Hle Hd; (split; [constructor|]); intros Hz; try discriminate; lra.
  - rewrite loop_S in E. destruct (Rltb_spec (st_t s) (st_tmax s)) as [Hlt|Hge].
    2:{ inversion E; subst; simpl; (split; [repeat constructor|split; [constructor|]]);
        intros Hle Hd; (split; [constructor|]); intros Hz; lra. }
    specialize (Hdt Hlt).
    destruct (adjust sp (st_t s) dt) as [dt1 sp'] eqn:Ea.
    destruct (adjust_ok _ _ _ _ _ Hok Hdt Ea) as (Hok' & Hah & Hd1 & Hd1le & Hnl & _).
    destruct (full_step sv fi w s dt1) as [[[w' s'] dt']| |] eqn:Ef;
      [|inversion E; subst; simpl; (split; [repeat constructor|split; [constructor|]]);
        intros Hle Hd; (split; [constructor|]); discriminate
       |inversion E; subst; simpl; (split; [repeat constructor|split; [constructor|]]);
        intros Hle Hd; (split; [constructor|]); discriminate].
    destruct (full_step_ok _ _ _ _ _ _ _ Hpos Hd1 Hlt Ef) as (dta & A & B & C & D & F & G).
    destruct (run_callbacks_time cbs s' Hcb) as [Ht Hm]. simpl in E.
    set (s'' := run_callbacks cbs s') in *.
    destruct (loop sv fuel fi cbs w' s'' dt' sp') as [tr' z'] eqn:El.
    inversion E; subst tr z; clear E.
    assert (safe sp') as Hsafe'.
    { destruct Hsafe as [->|H]; [left; apply adjust_none in Ea; tauto|right; assumption]. }
    assert (stopper_ok sp' (st_t s'')) as Hok''.
    { apply stopper_step with (t := st_t s); auto; [lra|].
      intros locs l ->. destruct Hsafe' as [Hn|Hshr]; [discriminate|].
      pose proof (full_step_shrinks _ _ _ _ _ _ _ Hpos Hshr Hd1 Hlt Ef).
      specialize (Hnl _ _ eq_refl). lra. }
    apply IH in El; auto; [|intros H; apply G; lra].
    destruct El as (S1 & S2 & S3).
    split; [|split].
    + simpl. constructor; [exact S1|]. simpl in S1. apply StronglySorted_inv in S1 as [S1 S1'].
      constructor; [lra|]. eapply Forall_impl; [|exact S1']. simpl; intros; lra.
    + constructor; [lra|]. eapply Forall_impl; [|exact S2]. simpl; intros; lra.
    + intros Hle Hd. destruct S3 as [S3 S4]; [lra|lra|].
      rewrite Hm, C in S3, S4. split.
      * constructor; [|exact S3]. rewrite Ht.
        destruct D as [->|D]; lra.
      * intros Hz. specialize (S4 Hz). destruct tr' as [|s3 tr']; [exact S4|].
        change (last (s'' :: s3 :: tr') s) with (last (s3 :: tr') s).
        rewrite <- S4. clear. revert s3; induction tr' as [|s4 tr' IH]; intros s3; [reflexivity|].
        apply (IH s4).
Qed.

(** Pending locations are hit. *)
Lemma loop_hits fuel : forall fi cbs w s dt sp tr z x,
  keeps_time cbs -> suggests_positive -> shrinks_on_rejection ->
  stopper_ok sp (st_t s) -> (st_t s < st_tmax s -> 0 < dt) ->
  loop sv fuel fi cbs w s dt sp = (tr, z) ->
  pending sp x -> st_t s < x -> 
  ((z = Finished /\ x <= st_tmax s) \/ Exists (fun s' => x <= st_t s') tr) ->
  In x (times tr).
Proof.
  induction fuel as [|fuel IH]; intros fi cbs w s dt sp tr z x Hcb Hpos Hshr Hok Hdt E Hp Hx Hz.
  - rewrite loop_0 in E. destruct (Rltb_spec (st_t s) (st_tmax s)) as [Hlt|Hge];
      inversion E; subst; destruct Hz as [[Hz Hxm]|Hz];
      try discriminate; try (inversion Hz; fail); lra.
  - rewrite loop_S in E. destruct (Rltb_spec (st_t s) (st_tmax s)) as [Hlt|Hge].
    2:{ inversion E; subst; destruct Hz as [[Hz Hxm]|Hz]; [lra|inversion Hz]. }
    specialize (Hdt Hlt).
    destruct (adjust sp (st_t s) dt) as [dt1 sp'] eqn:Ea.
    destruct (adjust_ok _ _ _ _ _ Hok Hdt Ea) as (Hok' & Hah & Hd1 & Hd1le & Hnl & Hpend).
    destruct (full_step sv fi w s dt1) as [[[w' s'] dt']| |] eqn:Ef;
      try (inversion E; subst; destruct Hz as [[Hz Hxm]|Hz]; [discriminate|inversion Hz]; fail).
    destruct (full_step_ok _ _ _ _ _ _ _ Hpos Hd1 Hlt Ef) as (dta & A & B & C & D & F & G).
    pose proof (full_step_shrinks _ _ _ _ _ _ _ Hpos Hshr Hd1 Hlt Ef) as Hsh.
    destruct (run_callbacks_time cbs s' Hcb) as [Ht Hm]. simpl in E.
    set (s'' := run_callbacks cbs s') in *.
    destruct (loop sv fuel fi cbs w' s'' dt' sp') as [tr' z'] eqn:El.
    inversion E; subst tr z; clear E.
    apply Hpend in Hp as Hp'; [|assumption].
    assert (stopper_ok sp' (st_t s'')) as Hok''.
    { apply stopper_step with (t := st_t s); auto; [lra|].
      intros locs l ->. specialize (Hnl _ _ eq_refl). lra. }
    assert (st_t s'' <= x) as Hle.
    { destruct sp' as [[locs [l|]]|]; simpl in Hp'; try tauto.
      specialize (Hnl _ _ eq_refl). simpl in Hok'. destruct Hok' as [Hs' _].
      apply StronglySorted_inv in Hs' as [_ Hs'].
      destruct Hp' as [<-|Hin]; [lra|].
      rewrite Forall_forall in Hs'. specialize (Hs' _ Hin). lra. }
    simpl. destruct (Rle_lt_or_eq_dec _ _ Hle) as [Hlt'|Heq]; [right|left; assumption].
    eapply IH; try eassumption.
    + intros H. apply G. lra.
    + destruct Hz as [[Hz Hxm]|Hz]; [left; split; [assumption|lra]|].
      right. inversion Hz; subst; [lra|assumption].
Qed.
End Proofs.

(** ** Constant steps *)
Section Constant.
Context {X W N : Type}.
Variable sv : solver X W N.
Variable h : R.
Hypothesis Hh : 0 < h.
Hypothesis Hfirst : firststep sv = h.
Hypothesis Hacc : forall n, accepted sv n = true.
Hypothesis Hsug : forall dt n, suggest sv dt n = Some h.
Hypothesis Hatt : forall w s dt, attempt sv w s dt <> None.

Lemma const_full_step fi w s dt :
  exists w' x, full_step sv (S fi) w s dt
    = Ok (w', propose s dt x, Rmin h (st_tmax s - (st_t s + dt))).
Proof.
  simpl. destruct (attempt sv w s dt) as [[w' x]|] eqn:E.
  - rewrite Hsug, Hacc. eauto.
  - exfalso. apply (Hatt _ _ _ E).
Qed.

Lemma const_loop fi cbs (Hcb : keeps_time cbs) : forall k fuel w s dt,
  (k <= fuel)%nat ->
  dt = Rmin h (st_tmax s - st_t s) ->
  st_t s <= st_tmax s ->
  INR k * h - h < st_tmax s - st_t s <= INR k * h ->
  exists tr, loop sv fuel (S fi) cbs w s dt None = (tr, Finished)
    /\ length tr = k
    /\ forall i si, nth_error tr i = Some si ->
         st_t si = Rmin (st_tmax s) (st_t s + INR (S i) * h).
Proof.
  induction k as [|k IH]; intros fuel w s dt Hf Hdt Hle Hk.
  - simpl in Hk. exists []. split; [|split; [reflexivity|]].
    + destruct fuel; simpl; destruct (Rltb_spec (st_t s) (st_tmax s)); try reflexivity; lra.
    + intros [|i] si; simpl; discriminate.
  - destruct fuel as [|fuel]; [lia|]. rewrite loop_S.
    rewrite S_INR in Hk.
    assert (0 <= INR k) as Hk0 by apply pos_INR.
    assert (0 <= INR k * h) as Hkh by (apply Rmult_le_pos; lra).
    destruct (Rltb_spec (st_t s) (st_tmax s)) as [Hlt|Hge]; [|exfalso; nra].
    simpl adjust. cbv iota beta.
    destruct (const_full_step fi w s dt) as (w' & x & ->).
    set (s'' := run_callbacks cbs (propose s dt x)).
    destruct (run_callbacks_time cbs (propose s dt x) Hcb) as [Ht Hm].
    fold s'' in Ht, Hm. simpl in Ht, Hm.
    destruct (IH fuel w' s'' (Rmin h (st_tmax s - (st_t s + dt)))) as (tr & E & L & T).
    { lia. } { rewrite Ht, Hm. reflexivity. }
    { rewrite Ht, Hm, Hdt. pose proof (Rmin_r h (st_tmax s - st_t s)). lra. }
    { rewrite Ht, Hm, Hdt. unfold Rmin. destruct (Rle_dec h (st_tmax s - st_t s)); [lra|].
      destruct k; [simpl in *; lra|]. exfalso. rewrite S_INR in *.
      pose proof (pos_INR k). nra. }
    simpl. rewrite E. exists (s'' :: tr). split; [reflexivity|split; [simpl; lia|]].
    intros [|i] si; simpl nth_error; intros Hsi.
    + inversion Hsi; subst si. rewrite Ht, Hdt. simpl INR. unfold Rmin.
      destruct (Rle_dec h (st_tmax s - st_t s)), (Rle_dec (st_tmax s) (st_t s + 1 * h)); lra.
    + rewrite (T _ _ Hsi), Hm, Ht, Hdt. rewrite !S_INR.
      pose proof (pos_INR i). unfold Rmin.
      destruct (Rle_dec h (st_tmax s - st_t s));
        destruct (Rle_dec (st_tmax s) _); destruct (Rle_dec (st_tmax s) _); nra.
Qed.
End Constant.

(** ** Termination of adaptive step-size control *)
Section Termination.
Context {X W N : Type}.
Variable sv : solver X W N.
Variables minstep c : R.
Hypothesis Hmin : 0 < minstep.
Hypothesis Hc : 0 <= c < 1.
Hypothesis Hlow : forall dt n sg, 0 < dt -> suggest sv dt n = Some sg -> minstep <= sg.
Hypothesis Hshr : forall dt n sg, 0 < dt -> accepted sv n = false ->
                    suggest sv dt n = Some sg -> sg <= c * dt.

Lemma term_pos : suggests_positive sv.
Proof. intros dt n sg H E. specialize (Hlow _ _ _ H E). lra. Qed.
Lemma term_shrink : shrinks_on_rejection sv.
Proof. intros dt n sg H Ha E. specialize (Hshr _ _ _ H Ha E). nra. Qed.

Lemma full_step_fuel fi : forall w (s : state X) dt,
  0 < dt -> st_t s < st_tmax s -> c ^ fi * dt < minstep ->
  full_step sv (S fi) w s dt <> OutOfFuel.
Proof.
  induction fi as [|fi IH]; intros w s dt Hdt Ht Hf; simpl.
  - destruct (attempt sv w s dt) as [[w' x]|]; [|discriminate].
    destruct (suggest sv dt (norm sv x)) as [sg|] eqn:E; [|discriminate].
    destruct (accepted sv (norm sv x)) eqn:Ea; [discriminate|].
    pose proof (Hlow _ _ _ Hdt E). pose proof (Hshr _ _ _ Hdt Ea E). simpl in Hf. nra.
  - destruct (attempt sv w s dt) as [[w' x]|]; [|discriminate].
    destruct (suggest sv dt (norm sv x)) as [sg|] eqn:E; [|discriminate].
    destruct (accepted sv (norm sv x)) eqn:Ea; [discriminate|].
    pose proof (Hlow _ _ _ Hdt E). pose proof (Hshr _ _ _ Hdt Ea E).
    apply (IH w' s); auto.
    + apply Rmin_glb_lt; lra.
    + simpl in Hf. assert (0 <= c ^ fi) by (apply pow_le; lra).
      pose proof (Rmin_l sg (st_tmax s - st_t s)). nra.
Qed.

(** Step sizes taken are at least [m], unless they end at a stop. *)
Lemma full_step_progress m fi : forall w (s : state X) dt w' s' dt',
  m <= minstep -> 0 < dt -> st_t s < st_tmax s ->
  full_step sv fi w s dt = Ok (w', s', dt') ->
  (st_t s' = st_t s + dt \/ st_t s' = st_tmax s \/ st_t s + m <= st_t s')
  /\ (m <= dt' \/ dt' = st_tmax s - st_t s').
Proof.
  induction fi as [|fi IH]; simpl; intros w s dt w' s' dt' Hm Hdt Ht E; [discriminate|].
  destruct (attempt sv w s dt) as [[w1 x]|]; [|discriminate].
  destruct (suggest sv dt (norm sv x)) as [sg|] eqn:Es; [|discriminate].
  pose proof (Hlow _ _ _ Hdt Es) as Hsg.
  destruct (accepted sv (norm sv x)).
  - inversion E; subst; clear E. simpl. split; [left; reflexivity|].
    unfold Rmin. destruct (Rle_dec sg _); [left; lra|right; reflexivity].
  - apply IH in E; auto; [|apply Rmin_glb_lt; lra].
    destruct E as [E1 E2]. split; [|assumption].
    destruct E1 as [E1|E1]; [|right; assumption].
    rewrite E1. unfold Rmin. destruct (Rle_dec sg _); [right; right; lra|right; left; lra].
Qed.

Definition todo (sp : option stopper) (t : R) : nat :=
  match sp with
  | None => 0
  | Some (locs, None) => length locs
  | Some (locs, Some l) => length locs + (if Rltb t l then 1 else 0)
  end.

Lemma adjust_todo sp t dt dt1 sp' :
  stopper_ok sp t -> adjust sp t dt = (dt1, sp') ->
  (todo sp' t <= todo sp t)%nat
  /\ (dt1 = dt \/ exists locs l, sp' = Some (locs, Some l) /\ t + dt1 = l).
Proof.
  intros Hok E. destruct sp as [[locs [l|]]|]; simpl in E.
  - simpl in Hok. destruct Hok as [Hs Hf].
    destruct (Rleb_spec l t) as [Hl|Hl]; [destruct locs as [|l' locs']|].
    + unfold clip in E; simpl in E. inversion E; subst; simpl. split; [lia|auto].
    + unfold clip in E; simpl in E. inversion E; subst. clear E. simpl.
      apply Forall_inv in Hf. split.
      * destruct (Rltb_spec t l'), (Rltb_spec t l); try lra; lia.
      * destruct (Rltb_spec l' (t + dt)); [right|left; reflexivity].
        do 2 eexists; split; [reflexivity|lra].
    + unfold clip in E; simpl in E. inversion E; subst. clear E. split; [simpl; lia|].
      destruct (Rltb_spec l (t + dt)); [right|left; reflexivity].
      do 2 eexists; split; [reflexivity|lra].
  - unfold clip in E; simpl in E. inversion E; subst. split; [simpl; lia|auto].
  - inversion E; subst. split; [simpl; lia|auto].
Qed.

Lemma todo_mono sp t t' : t <= t' -> (todo sp t' <= todo sp t)%nat.
Proof.
  destruct sp as [[locs [l|]]|]; simpl; auto. intros H.
  destruct (Rltb_spec t' l), (Rltb_spec t l); try lra; lia.
Qed.

Lemma loop_terminates m D fi cbs (Hcb : keeps_time cbs) :
  0 < m <= minstep -> c ^ fi * D < minstep ->
  forall fuel K w (s : state X) dt sp,
  (K + todo sp (st_t s) <= fuel)%nat ->
  stopper_ok sp (st_t s) ->
  (st_t s < st_tmax s -> 0 < dt) ->
  dt <= D -> st_tmax s - st_t s <= D ->
  (m <= dt \/ dt = st_tmax s - st_t s) ->
  st_tmax s - st_t s <= INR K * m ->
  snd (loop sv fuel (S fi) cbs w s dt sp) <> Timeout.
Proof.
  intros Hm HD. induction fuel as [|fuel IH]; intros K w s dt sp HK Hok Hdt HdD HtD Hmd HKm.
  - assert (K = 0)%nat as -> by lia. simpl in HKm.
    rewrite loop_0. destruct (Rltb_spec (st_t s) (st_tmax s)); [lra|discriminate].
  - rewrite loop_S. destruct (Rltb_spec (st_t s) (st_tmax s)) as [Hlt|Hge]; [|discriminate].
    specialize (Hdt Hlt).
    destruct (adjust sp (st_t s) dt) as [dt1 sp'] eqn:Ea.
    destruct (adjust_ok _ _ _ _ _ Hok Hdt Ea) as (Hok' & Hah & Hd1 & Hd1le & Hnl & _).
    destruct (adjust_todo _ _ _ _ _ Hok Ea) as (Htd & Hcase).
    pose proof (full_step_fuel fi w s dt1 Hd1 Hlt) as Hfuel.
    assert (0 <= c ^ fi) as Hcp by (apply pow_le; lra).
    destruct (full_step sv (S fi) w s dt1) as [[[w' s'] dt']| |] eqn:Ef;
      [|discriminate|exfalso; apply Hfuel; [nra|reflexivity]].
    clear Hfuel.
    destruct (full_step_ok sv _ _ _ _ _ _ _ term_pos Hd1 Hlt Ef) as (dta & A & B & C & Dd & F & G).
    pose proof (full_step_shrinks sv _ _ _ _ _ _ _ term_pos term_shrink Hd1 Hlt Ef) as Hsh.
    destruct (full_step_progress m (S fi) _ _ _ _ _ _ (proj2 Hm) Hd1 Hlt Ef) as [P1 P2].
    destruct (run_callbacks_time cbs s' Hcb) as [Ht Hmx]. simpl.
    set (s'' := run_callbacks cbs s') in *.
    assert (stopper_ok sp' (st_t s'')) as Hok''.
    { apply stopper_step with (t := st_t s); auto; [lra|].
      intros locs l ->. specialize (Hnl _ _ eq_refl). lra. }
    assert (st_t s < st_t s'') as Htt by lra.
    assert (K <> 0)%nat as HK0.
    { intros ->. simpl in HKm. lra. }
    destruct (Rltb_spec (st_t s'') (st_tmax s'')) as [Hlt'|Hend].
    2:{ (* ended *)
      destruct (loop sv fuel (S fi) cbs w' s'' dt' sp') as [tr z] eqn:El.
      destruct fuel as [|fuel].
      - rewrite loop_0 in El. destruct (Rltb_spec (st_t s'') (st_tmax s'')); [lra|].
        inversion El; subst; discriminate.
      - rewrite loop_S in El. destruct (Rltb_spec (st_t s'') (st_tmax s'')); [lra|].
        inversion El; subst; discriminate. }
    assert (exists K', (K' + todo sp' (st_t s'') <= fuel)%nat
              /\ st_tmax s'' - st_t s'' <= INR K' * m) as (K' & HK' & HKm').
    { assert (todo sp' (st_t s'') <= todo sp' (st_t s))%nat as Hmono by (apply todo_mono; lra).
      assert ((st_t s + m <= st_t s'' \/ (todo sp' (st_t s'') < todo sp' (st_t s))%nat)) as [Hp|Hp].
      { destruct P1 as [P1|[P1|P1]]; [|lra|left; lra].
        destruct Hcase as [->|(locs & l & -> & Hl)].
        - left. destruct Hmd as [Hmd|Hmd]; [lra|]. lra.
        - right. simpl. simpl in Hah.
          destruct (Rltb_spec (st_t s'') l), (Rltb_spec (st_t s) l); try lra. lia. }
      - exists (K - 1)%nat. split; [lia|]. rewrite minus_INR by lia. simpl INR. nra.
      - exists K. split; [lia|]. lra. }
    specialize (IH K' w' s'' dt' sp' HK' Hok'').
    destruct (loop sv fuel (S fi) cbs w' s'' dt' sp') as [tr z] eqn:El. simpl in *.
    apply IH; lra.
Qed.

Lemma terminates cbs w (s : state X) stop_at :
  keeps_time cbs -> 0 < firststep sv ->
  match stop_at with
  | None => True
  | Some ls => exists l ls', ls = l :: ls' /\ StronglySorted Rlt ls
                 /\ Forall (fun x => st_t s < x) ls'
  end ->
  exists fuel fi, snd (generate sv fuel fi cbs w s stop_at) <> Timeout.
Proof.
  intros Hcb Hfs Hst.
  set (m := Rmin minstep (firststep sv)).
  set (D := Rmax (firststep sv) (st_tmax s - st_t s)).
  assert (0 < m <= minstep) as Hm by (split; [apply Rmin_glb_lt; lra|apply Rmin_l]).
  assert (m <= firststep sv) as Hmf by apply Rmin_r.
  assert (firststep sv <= D /\ st_tmax s - st_t s <= D) as [HD1 HD2]
    by (split; [apply Rmax_l|apply Rmax_r]).
  assert (exists fi, c ^ fi * D < minstep) as [fi Hfi].
  { destruct (pow_lt_1_zero c) with (y := minstep / (D + 1)) as [fi Hfi].
    - rewrite Rabs_pos_eq; lra.
    - apply Rdiv_lt_0_compat; lra.
    - exists fi. specialize (Hfi fi (le_n _)). rewrite Rabs_pos_eq in Hfi by (apply pow_le; lra).
      assert (0 <= c ^ fi) by (apply pow_le; lra).
      apply Rle_lt_trans with (c ^ fi * (D + 1)); [nra|].
      apply Rmult_lt_reg_r with (/ (D + 1)); [apply Rinv_0_lt_compat; lra|].
      rewrite Rmult_assoc, Rinv_r, Rmult_1_r by lra. exact Hfi. }
  assert (exists K, st_tmax s - st_t s <= INR K * m) as [K HK].
  { destruct (INR_unbounded' ((st_tmax s - st_t s) / m)) as [K HK]. exists K.
    apply Rmult_le_reg_r with (/ m); [apply Rinv_0_lt_compat; lra|].
    rewrite Rmult_assoc, Rinv_r, Rmult_1_r by lra. unfold Rdiv in HK. lra. }
  set (sp := match stop_at with Some (l :: ls) => Some (ls, Some l) | _ => None end).
  exists (K + todo sp (st_t s))%nat, (S fi).
  assert (stopper_ok sp (st_t s)) as Hok.
  { unfold sp. destruct stop_at as [ls|]; [|exact I].
    destruct Hst as (l & ls' & -> & H1 & H2). simpl. auto. }
  assert (snd (loop sv (K + todo sp (st_t s)) (S fi) cbs w s (firststep sv) sp) <> Timeout) as H.
  { apply (loop_terminates m D fi cbs Hcb Hm Hfi _ K); auto. }
  unfold generate. subst sp. destruct stop_at as [ls|].
  - destruct Hst as (l & ls' & -> & _).
    destruct (loop sv _ (S fi) cbs w s _ _) as [tr z]. exact H.
  - destruct (loop sv _ (S fi) cbs w s _ _) as [tr z]. exact H.
Qed.
End Termination.

(** ** AdaptiveSteps *)
Section Adaptive.
Variable a : adaptive.
Variable p : nat.
Hypothesis Hp : (1 <= p)%nat.

Lemma inv_p_pos : 0 < 1 / INR p.
Proof.
  assert (0 < INR p) by (apply lt_0_INR; lia).
  apply Rdiv_lt_0_compat; lra.
Qed.

Lemma root_le_1 e : 1 <= e -> Rpower (1 / e) (1 / INR p) <= 1.
Proof.
  intros He. unfold Rpower.
  assert (1 / INR p * ln (1 / e) <= 0) as H.
  { assert (ln (1 / e) <= 0).
    { destruct (Req_dec e 1) as [->|Hne].
      - unfold Rdiv. rewrite Rinv_1, Rmult_1_r, ln_1. lra.
      - rewrite <- ln_1. left. apply ln_increasing; [apply Rdiv_lt_0_compat; lra|].
        apply Rmult_lt_reg_r with e; [lra|]. unfold Rdiv.
        rewrite Rmult_assoc, Rinv_l by lra. lra. }
    pose proof inv_p_pos. nra. }
  destruct (Req_dec (1 / INR p * ln (1 / e)) 0) as [->|Hne]; [rewrite exp_0; lra|].
  left. pose proof (exp_increasing (1 / INR p * ln (1 / e)) 0) as Hi.
  rewrite exp_0 in Hi. apply Hi. lra.
Qed.

Lemma root_antitone e e' : 0 < e -> e <= e' ->
  Rpower (1 / e') (1 / INR p) <= Rpower (1 / e) (1 / INR p).
Proof.
  intros He Hee. apply Rle_Rpower_l.
  - left. apply inv_p_pos.
  - split; [apply Rdiv_lt_0_compat; lra|].
    unfold Rdiv. rewrite !Rmult_1_l. apply Rinv_le_contravar; lra.
Qed.

Lemma root_pos e : 0 < Rpower (1 / e) (1 / INR p).
Proof. apply exp_pos. Qed.

(** The factor applied to the last step. *)
Definition factor (e : R) : R :=
  match change (ad_safety a) e p with
  | None => ad_large a
  | Some c => Rmax (ad_small a) (Rmin (ad_large a) c)
  end.

Hypothesis Hlim : ad_small a <= ad_large a.

Lemma adaptive_step_factor last e : adaptive_step a p last e = factor e * last.
Proof.
  unfold adaptive_step, factor. destruct (change (ad_safety a) e p) as [c|]; [|reflexivity].
  destruct (Rltb_spec c (ad_small a)); [|destruct (Rltb_spec (ad_large a) c)].
  - rewrite (Rmin_right (ad_large a) c) by lra. rewrite Rmax_left by lra. reflexivity.
  - rewrite (Rmin_left (ad_large a) c) by lra. rewrite Rmax_right by lra. reflexivity.
  - rewrite (Rmin_right (ad_large a) c) by lra. rewrite Rmax_right by lra. reflexivity.
Qed.

Lemma factor_bounds e : ad_small a <= factor e <= ad_large a.
Proof.
  unfold factor. destruct (change (ad_safety a) e p) as [c|]; [|lra].
  split; [apply Rmax_l|]. apply Rmax_lub; [assumption|apply Rmin_l].
Qed.

Lemma factor_antitone e e' : 0 < ad_safety a -> 0 <= e -> e <= e' -> factor e' <= factor e.
Proof.
  intros Hs He Hee. unfold factor, change.
  destruct (Rltb_spec 0 e) as [H0|H0]; destruct (Rltb_spec 0 e') as [H0'|H0']; try lra.
  - pose proof (root_antitone e e' H0 Hee) as Hr.
    apply Rmax_lub; [apply Rmax_l|].
    apply Rle_trans with (Rmin (ad_large a) (ad_safety a * Rpower (1 / e) (1 / INR p)));
      [|apply Rmax_r].
    apply Rmin_glb; [apply Rmin_l|]. eapply Rle_trans; [apply Rmin_r|].
    apply Rmult_le_compat_l; lra.
  - apply Rmax_lub; [assumption|apply Rmin_l].
Qed.

Lemma factor_rejected e : 0 < ad_safety a -> 1 <= e ->
  factor e <= Rmax (ad_small a) (ad_safety a).
Proof.
  intros Hs He. unfold factor, change. destruct (Rltb_spec 0 e); [|lra].
  apply Rmax_lub; [apply Rmax_l|]. eapply Rle_trans; [apply Rmin_r|].
  eapply Rle_trans; [|apply Rmax_r].
  pose proof (root_le_1 e He). nra.
Qed.
End Adaptive.

Lemma sumsq_bound l : Forall (fun x => Rabs x <= 1) l -> sumsq l <= INR (length l).
Proof.
  induction 1 as [|x l Hx H IH]; simpl sumsq; simpl length; [simpl; lra|].
  rewrite S_INR. assert (x * x <= 1); [|lra].
  unfold Rabs in Hx. destruct (Rcase_abs x); nra.
Qed.

Lemma sumsq_bound_lt l : l <> [] -> Forall (fun x => Rabs x < 1) l -> sumsq l < INR (length l).
Proof.
  intros Hne H. destruct H as [|x l Hx H]; [congruence|].
  simpl sumsq; simpl length. rewrite S_INR.
  assert (sumsq l <= INR (length l)).
  { apply sumsq_bound. eapply Forall_impl; [|exact H]. simpl; intros; lra. }
  assert (x * x < 1); [|lra]. unfold Rabs in Hx. destruct (Rcase_abs x); nra.
Qed.

Lemma sumsq_nonneg l : 0 <= sumsq l.
Proof. induction l; simpl; nra. Qed.

Lemma sumsq_max l x : In x l -> x * x <= sumsq l.
Proof.
  induction l as [|y l IH]; simpl; [tauto|]. intros [->|H]; [pose proof (sumsq_nonneg l); lra|].
  specialize (IH H). nra.
Qed.

Lemma sqrt_ratio_lt s n : 0 <= s -> 0 < n -> (sqrt s / sqrt n < 1 <-> s < n).
Proof.
  intros Hs Hn. assert (0 < sqrt n) by (apply sqrt_lt_R0; assumption).
  split; intros Hlt.
  - apply sqrt_lt_0_alt. apply Rmult_lt_reg_r with (/ sqrt n); [apply Rinv_0_lt_compat; lra|].
    rewrite Rinv_r by lra. exact Hlt.
  - apply Rmult_lt_reg_r with (sqrt n); [assumption|].
    unfold Rdiv. rewrite Rmult_assoc, Rinv_l, Rmult_1_r, Rmult_1_l by lra.
    apply sqrt_lt_1_alt. lra.
Qed.

Lemma ratio_small atol rtol errs refs :
  Forall (fun er => Rabs (fst er) < atol + rtol * snd er) (combine errs refs) ->
  Forall (fun x => Rabs x < 1)
    (map (fun er => fst er / (atol + rtol * snd er)) (combine errs refs)).
Proof.
  intros H. apply Forall_map. eapply Forall_impl; [|exact H]. simpl. intros [e r]; simpl. intros Hr.
  assert (0 < atol + rtol * r) by (pose proof (Rabs_pos e); lra).
  unfold Rdiv. rewrite Rabs_mult, (Rabs_pos_eq (/ _)) by (left; apply Rinv_0_lt_compat; lra).
  apply Rmult_lt_reg_r with (atol + rtol * r); [assumption|].
  rewrite Rmult_assoc, Rinv_l by lra. lra.
Qed.

Lemma errorest_accept atol rtol errs refs :
  errs <> [] -> length errs = length refs ->
  Forall (fun er => Rabs (fst er) < atol + rtol * snd er) (combine errs refs) ->
  adaptive_accepted (errorest_to_norm atol rtol errs refs) = true.
Proof.
  intros Hne Hl H. unfold adaptive_accepted, errorest_to_norm.
  set (l := map _ _).
  assert (l <> []) as Hln.
  { unfold l. destruct errs, refs; simpl in *; try congruence; discriminate. }
  destruct (Rltb_spec (sqrt (sumsq l) / sqrt (INR (length l))) 1) as [Hx|Hx]; [reflexivity|].
  exfalso. apply Hx. apply sqrt_ratio_lt.
  - apply sumsq_nonneg.
  - apply lt_0_INR. destruct l; [congruence|simpl; lia].
  - apply sumsq_bound_lt; [assumption|]. apply ratio_small; assumption.
Qed.

Lemma errorest_reject atol rtol errs refs :
  errs <> [] -> length errs = length refs ->
  Forall (fun er => 0 < atol + rtol * snd er) (combine errs refs) ->
  Exists (fun er => sqrt (INR (length errs)) * (atol + rtol * snd er) <= Rabs (fst er))
         (combine errs refs) ->
  adaptive_accepted (errorest_to_norm atol rtol errs refs) = false.
Proof.
  intros Hne Hl Hpos Hex. unfold adaptive_accepted, errorest_to_norm.
  set (l := map _ _).
  assert (length l = length errs) as Hll.
  { unfold l. rewrite map_length, combine_length, <- Hl. lia. }
  assert (0 < INR (length l)) as Hn.
  { rewrite Hll. apply lt_0_INR. destruct errs; [congruence|simpl; lia]. }
  destruct (Rltb_spec (sqrt (sumsq l) / sqrt (INR (length l))) 1) as [Hx|Hx]; [|reflexivity].
  exfalso. apply (sqrt_ratio_lt _ _ (sumsq_nonneg l) Hn) in Hx.
  apply Exists_exists in Hex as ([e r] & Hin & Her). simpl in Her.
  rewrite Forall_forall in Hpos. specialize (Hpos _ Hin). simpl in Hpos.
  assert (In (e / (atol + rtol * r)) l) as Hin'.
  { unfold l. apply in_map_iff. exists (e, r). auto. }
  apply sumsq_max in Hin'.
  assert (INR (length l) <= e / (atol + rtol * r) * (e / (atol + rtol * r))); [|lra].
  rewrite Hll. set (T := atol + rtol * r) in *. set (n := INR (length errs)) in *.
  assert (0 <= sqrt n) by apply sqrt_pos.
  assert (sqrt n * sqrt n = n) as Hsq by (apply sqrt_sqrt; apply pos_INR).
  assert (sqrt n <= Rabs e / T) as Hq.
  { apply Rmult_le_reg_r with T; [assumption|]. unfold Rdiv. rewrite Rmult_assoc, Rinv_l by lra. lra. }
  assert (e / T * (e / T) = (Rabs e / T) * (Rabs e / T)) as ->.
  { unfold Rdiv. replace (e * / T * (e * / T)) with (Rsqr e * (/ T * / T)) by (unfold Rsqr; ring).
    rewrite (Rsqr_abs e). unfold Rsqr. ring. }
  nra.
Qed.
