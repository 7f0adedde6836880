From Coq Require Import List String Bool.
From Verif Require Import M_Config.
Import ListNotations.

Section Proofs.
Context {V : Type}.
Implicit Types (r : registry V) (k : string) (kw old : list (string * V)).

Lemma get_put_same r k v : get r k <> None -> get (put r k v) k = Some v.
Proof.
  induction r as [|[k' v'] r IH]; simpl; intros H; [congruence|].
  destruct (String.eqb k k') eqn:E; simpl; rewrite E; auto.
Qed.

Lemma get_put_other r k k' v : k <> k' -> get (put r k v) k' = get r k'.
Proof.
  intros N. induction r as [|[k0 v0] r IH]; simpl; auto.
  destruct (String.eqb k k0) eqn:E; simpl.
  - apply String.eqb_eq in E; subst k0.
    destruct (String.eqb k' k) eqn:E'; auto.
    apply String.eqb_eq in E'; congruence.
  - rewrite IH; reflexivity.
Qed.

Lemma get_put_dom r k v k' : (get (put r k v) k' = None) <-> (get r k' = None).
Proof.
  destruct (string_dec k k') as [<-|N].
  - destruct (get r k) eqn:E.
    + rewrite get_put_same by congruence. split; congruence.
    + induction r as [|[k0 v0] r IH]; simpl in *; [tauto|].
      destruct (String.eqb k k0) eqn:E0; [congruence|].
      simpl. rewrite E0. auto.
  - rewrite get_put_other by assumption. tauto.
Qed.

Fixpoint lookup (l : list (string * V)) k : option V :=
  match l with
  | [] => None
  | (k', v) :: l' => if String.eqb k k' then Some v else lookup l' k
  end.

Lemma lookup_app l1 l2 k :
  lookup (l1 ++ l2) k = match lookup l1 k with Some v => Some v | None => lookup l2 k end.
Proof.
  induction l1 as [|[k' v'] l1 IH]; simpl; auto.
  destruct (String.eqb k k'); auto.
Qed.

Lemma lookup_notin l k : ~ In k (map fst l) -> lookup l k = None.
Proof.
  induction l as [|[k' v'] l IH]; simpl; intros H; auto.
  destruct (String.eqb k k') eqn:E.
  - apply String.eqb_eq in E; subst; tauto.
  - apply IH; tauto.
Qed.

Lemma lookup_in l k : In k (map fst l) -> lookup l k <> None.
Proof.
  induction l as [|[k' v'] l IH]; simpl; intros H; [tauto|].
  destruct (String.eqb k k') eqn:E; [congruence|].
  apply IH. destruct H as [H|H]; auto. subst. rewrite String.eqb_refl in E; congruence.
Qed.

(** What entering does, when it succeeds. *)
Lemma enter_ok kw : forall r old r1 old1,
  NoDup (map fst kw) ->
  enter r old kw = (r1, old1, false) ->
  (forall k, In k (map fst kw) -> get r k <> None)
  /\ (forall k v, In (k, v) kw -> get r1 k = Some v)
  /\ (forall k, ~ In k (map fst kw) -> get r1 k = get r k)
  /\ (exists ext, old1 = old ++ ext /\ map fst ext = map fst kw
      /\ forall k o, In (k, o) ext -> get r k = Some o).
Proof.
  induction kw as [|[k0 v0] kw IH]; simpl; intros r old r1 old1 ND E.
  - inversion E; subst. repeat split; auto; try tauto.
    exists []. rewrite app_nil_r. repeat split; simpl; auto; tauto.
  - destruct (get r k0) as [o|] eqn:G; [|discriminate].
    inversion ND as [|? ? Hnin ND']; subst.
    destruct (IH _ _ _ _ ND' E) as (A & B & C & ext & E1 & E2 & E3).
    repeat split.
    + intros k [<-|Hk]; [congruence|].
      intros Hn. apply (A k Hk). apply get_put_dom. assumption.
    + intros k v [Heq|Hin].
      * inversion Heq; subst. rewrite C by assumption.
        apply get_put_same; congruence.
      * apply (B _ _ Hin).
    + intros k Hk. rewrite C by tauto. apply get_put_other. tauto.
    + exists ((k0, o) :: ext). split; [|split].
      * rewrite E1, <- app_assoc. reflexivity.
      * simpl. congruence.
      * intros k o' [Heq|Hin]; [inversion Heq; subst; assumption|].
        assert (k <> k0) as N.
        { intros ->. apply Hnin. rewrite <- E2. apply (in_map fst _ _ Hin). }
        rewrite <- (E3 _ _ Hin). symmetry. apply get_put_other. congruence.
Qed.

Lemma enter_fails kw : forall r old r1 old1,
  enter r old kw = (r1, old1, true) -> exists k, In k (map fst kw) /\ get r k = None.
Proof.
  induction kw as [|[k0 v0] kw IH]; simpl; intros r old r1 old1 E; [discriminate|].
  destruct (get r k0) eqn:G.
  - destruct (IH _ _ _ _ E) as (k & Hk & Gk). exists k. split; auto.
    apply get_put_dom in Gk; assumption.
  - exists k0; auto.
Qed.

Lemma enter_succeeds kw : forall r old,
  (forall k, In k (map fst kw) -> get r k <> None) ->
  exists r1 old1, enter r old kw = (r1, old1, false).
Proof.
  induction kw as [|[k0 v0] kw IH]; simpl; intros r old H; eauto.
  destruct (get r k0) eqn:G; [|exfalso; apply (H k0); auto].
  apply IH. intros k Hk Hn. apply (H k); auto. apply get_put_dom in Hn; assumption.
Qed.

Lemma restore_get old : forall r k,
  NoDup (map fst old) -> (forall k, In k (map fst old) -> get r k <> None) ->
  get (restore r old) k = match lookup old k with Some o => Some o | None => get r k end.
Proof.
  induction old as [|[k0 o0] old IH]; simpl; intros r k ND H; auto.
  inversion ND as [|? ? Hn ND']; subst.
  rewrite IH; [|assumption|].
  2:{ intros k' Hk' Hn'. apply (H k'); auto. apply get_put_dom in Hn'; assumption. }
  destruct (String.eqb k k0) eqn:E.
  - apply String.eqb_eq in E; subst k.
    rewrite lookup_notin by assumption. apply get_put_same. auto.
  - destruct (lookup old k); auto. apply get_put_other.
    intros ->. rewrite String.eqb_refl in E; discriminate.
Qed.

Lemma restore_dom old : forall r k, get (restore r old) k = None <-> get r k = None.
Proof.
  induction old as [|[k0 o0] old IH]; simpl; intros r k; [tauto|].
  rewrite IH. apply get_put_dom.
Qed.

Lemma exec_with kw body r :
  exec (CWith kw body) r =
  match enter r [] kw with
  | (r1, _, true) => (r1, true)
  | (r1, old, false) => let (r2, raised) := execs body r1 in (restore r2 old, raised)
  end.
Proof. reflexivity. Qed.

Lemma exec_try body r : exec (CTry body) r = (fst (execs body r), false).
Proof. reflexivity. Qed.

(** Induction over programs with nested bodies. *)
Lemma cmd_rect' (P : cmd V -> Prop) :
  (forall k v, P (CSet k v)) -> (forall k v, P (CRegister k v)) -> P CRaise ->
  (forall b, Forall P b -> P (CTry b)) ->
  (forall kw b, Forall P b -> P (CWith kw b)) -> forall c, P c.
Proof.
  intros H1 H2 H3 H4 H5.
  fix IH 1. intros [k v|k v| |b|kw b]; [apply H1|apply H2|apply H3| |].
  - apply H4. induction b as [|c b IHb]; constructor; [apply IH|apply IHb].
  - apply H5. induction b as [|c b IHb]; constructor; [apply IH|apply IHb].
Qed.

(** Registered options are never lost. *)
Lemma enter_dom kw : forall r old r1 old1 b k,
  enter r old kw = (r1, old1, b) -> (get r1 k = None <-> get r k = None).
Proof.
  induction kw as [|[k0 v0] kw IH]; simpl; intros r old r1 old1 b k E.
  - inversion E; subst; tauto.
  - destruct (get r k0).
    + rewrite (IH _ _ _ _ _ k E). apply get_put_dom.
    + inversion E; subst; tauto.
Qed.

Lemma get_app r1 r2 k :
  get (r1 ++ r2) k = match get r1 k with Some v => Some v | None => get r2 k end.
Proof.
  induction r1 as [|[k' v'] r1 IH]; simpl; auto. destruct (String.eqb k k'); auto.
Qed.

Lemma execs_mono_of b :
  Forall (fun c => forall r k, get r k <> None -> get (fst (exec c r)) k <> None) b ->
  forall r k, get r k <> None -> get (fst (execs b r)) k <> None.
Proof.
  induction b as [|c b IH]; simpl; intros F r k H; auto.
  inversion F as [|? ? Hc Fb]; subst.
  specialize (Hc r k H). destruct (exec c r) as [r' raised]; simpl in *.
  destruct raised; simpl; auto.
Qed.

Lemma exec_mono c : forall r k, get r k <> None -> get (fst (exec c r)) k <> None.
Proof.
  induction c as [k0 v0|k0 v0| |b IHb|kw b IHb] using cmd_rect'; intros r k H.
  - simpl. unfold setattr. destruct (get r k0); simpl; auto. rewrite get_put_dom; auto.
  - simpl. unfold register. destruct (get r k0) eqn:E; simpl; auto.
    rewrite get_app. destruct (get r k); congruence.
  - auto.
  - rewrite exec_try. simpl. apply execs_mono_of; auto.
  - rewrite exec_with. destruct (enter r [] kw) as [[r1 old] [|]] eqn:E.
    + simpl. intros Hn. apply H. apply (enter_dom _ _ _ _ _ _ k E). assumption.
    + destruct (execs b r1) as [r2 raised] eqn:Eb. simpl.
      rewrite restore_dom. change r2 with (fst (r2, raised)). rewrite <- Eb.
      apply execs_mono_of; auto. intros Hn. apply H. apply (enter_dom _ _ _ _ _ _ k E). assumption.
Qed.

Lemma execs_mono b r k : get r k <> None -> get (fst (execs b r)) k <> None.
Proof. apply execs_mono_of, Forall_forall. intros c _. apply exec_mono. Qed.

Lemma with_ok kw body r :
  NoDup (map fst kw) ->
  (forall k, In k (map fst kw) -> get r k <> None) ->
  exists r1,
    (forall k v, In (k, v) kw -> get r1 k = Some v)
    /\ (forall k, ~ In k (map fst kw) -> get r1 k = get r k)
    /\ snd (exec (CWith kw body) r) = snd (execs body r1)
    /\ (forall k, In k (map fst kw) -> get (fst (exec (CWith kw body) r)) k = get r k)
    /\ (forall k, ~ In k (map fst kw) ->
        get (fst (exec (CWith kw body) r)) k = get (fst (execs body r1)) k).
Proof.
  intros ND Hreg. destruct (enter_succeeds kw r [] Hreg) as (r1 & old & E).
  destruct (enter_ok kw r [] r1 old ND E) as (A & B & C & ext & E1 & E2 & E3).
  simpl in E1; subst old. exists r1. rewrite exec_with, E.
  destruct (execs body r1) as [r2 raised] eqn:Eb; simpl.
  assert (forall k, In k (map fst ext) -> get r2 k <> None) as Hd.
  { intros k Hk. change r2 with (fst (r2, raised)). rewrite <- Eb. apply execs_mono.
    intros Hn. rewrite E2 in Hk. apply (Hreg k Hk). apply (enter_dom _ _ _ _ _ _ k E). assumption. }
  assert (NoDup (map fst ext)) as ND' by (rewrite E2; assumption).
  repeat split; auto; intros k Hk; rewrite restore_get by assumption.
  - rewrite <- E2 in Hk. pose proof (lookup_in _ _ Hk) as Hl.
    destruct (lookup ext k) as [o|] eqn:L; [|congruence].
    symmetry. apply E3. clear - L. induction ext as [|[k' o'] ext IH]; simpl in *; [discriminate|].
    destruct (String.eqb k k') eqn:Ek; [|auto].
    apply String.eqb_eq in Ek; subst. left; congruence.
  - rewrite lookup_notin; auto. rewrite E2; assumption.
Qed.

(** Programs whose only writes are with-blocks. *)
Inductive scoped : cmd V -> Prop :=
| S_raise : scoped CRaise
| S_try b : Forall scoped b -> scoped (CTry b)
| S_with kw b : NoDup (map fst kw) -> Forall scoped b -> scoped (CWith kw b).

(** ... and which only name options in [dom]. *)
Inductive names_in (dom : string -> Prop) : cmd V -> Prop :=
| N_set k v : dom k -> names_in dom (CSet k v)
| N_reg k v : names_in dom (CRegister k v)
| N_raise : names_in dom CRaise
| N_try b : Forall (names_in dom) b -> names_in dom (CTry b)
| N_with kw b : (forall k, In k (map fst kw) -> dom k) ->
                Forall (names_in dom) b -> names_in dom (CWith kw b).

Lemma execs_scoped_of (dom : string -> Prop) b :
  Forall (fun c => scoped c -> names_in dom c -> forall r,
     (forall k, dom k -> get r k <> None) -> forall k, get (fst (exec c r)) k = get r k) b ->
  Forall scoped b -> Forall (names_in dom) b -> forall r,
  (forall k, dom k -> get r k <> None) -> forall k, get (fst (execs b r)) k = get r k.
Proof.
  induction b as [|c b IH]; simpl; intros F S N r Hd k; auto.
  inversion F as [|? ? Fc Fb]; inversion S as [|? ? Sc Sb]; inversion N as [|? ? Nc Nb]; subst.
  pose proof (Fc Sc Nc r Hd) as Hc.
  destruct (exec c r) as [r' [|]]; simpl in *; auto.
  rewrite IH; auto. intros k' Hk'. rewrite Hc. auto.
Qed.

Lemma exec_scoped (dom : string -> Prop) c : scoped c -> names_in dom c -> forall r,
  (forall k, dom k -> get r k <> None) -> forall k, get (fst (exec c r)) k = get r k.
Proof.
  induction c as [k0 v0|k0 v0| |b IHb|kw b IHb] using cmd_rect'; intros S N r Hd k.
  - inversion S.
  - inversion S.
  - reflexivity.
  - rewrite exec_try. simpl. inversion S; inversion N; subst.
    eapply execs_scoped_of; eauto.
  - inversion S as [| |? ? ND Sb]; inversion N as [| | | |? ? Hkw Nb]; subst.
    destruct (with_ok kw b r ND) as (r1 & A & B & C & D & E); [auto|].
    destruct (in_dec string_dec k (map fst kw)) as [Hi|Hi]; [auto|].
    rewrite E by assumption.
    rewrite (execs_scoped_of dom b IHb Sb Nb); [auto|].
    intros k' Hk' Hn. destruct (in_dec string_dec k' (map fst kw)) as [Hi'|Hi'].
    + apply in_map_iff in Hi' as ([k1 v1] & E1 & Hin). simpl in E1; subst.
      rewrite (A _ _ Hin) in Hn; discriminate.
    + rewrite B in Hn by assumption. apply (Hd k'); auto.
Qed.

Lemma execs_scoped (dom : string -> Prop) b : Forall scoped b -> Forall (names_in dom) b -> forall r,
  (forall k, dom k -> get r k <> None) -> forall k, get (fst (execs b r)) k = get r k.
Proof.
  intros S N. apply execs_scoped_of; auto. apply Forall_forall. intros c _. apply exec_scoped.
Qed.

Lemma unknown_first kw0 k0 v0 body r :
  get r k0 = None -> exec (CWith ((k0, v0) :: kw0) body) r = (r, true).
Proof. intros H. rewrite exec_with. simpl. rewrite H. reflexivity. Qed.

Lemma unknown_raises kw body r k0 :
  NoDup (map fst kw) -> In k0 (map fst kw) -> get r k0 = None ->
  snd (exec (CWith kw body) r) = true.
Proof.
  intros ND Hi Hn. rewrite exec_with.
  destruct (enter r [] kw) as [[r1 old] [|]] eqn:E; [reflexivity|].
  destruct (enter_ok kw r [] r1 old ND E) as (A & _). exfalso. apply (A k0 Hi Hn).
Qed.
End Proofs.
