(** C92: discrete callbacks of the ODE solver loop. *)
From Coq Require Import List Reals Bool Lra.
From Verif Require Import M_ODELoop L_ODELoop L_ODELoop2.
Import ListNotations.
Open Scope R_scope.

Section Spec.
Context {X W N : Type}.
(** A callback: condition and replacement. One after the other, those whose
    condition holds for the state left by the earlier ones replace it. *)
Definition event := ((state X -> bool) * (state X -> state X))%type.
Inductive fired : list event -> state X -> state X -> Prop :=
| fired_nil s : fired [] s s
| fired_yes c r es s s' : c s = true -> fired es (r s) s' -> fired ((c, r) :: es) s s'
| fired_no c r es s s' : c s = false -> fired es s s' -> fired ((c, r) :: es) s s'.

(** Every reported state comes from an accepted step from the state reported
    before, then the callbacks; the run is finished once the reported state is
    not before the end of its own problem. *)
Inductive run (sv : solver X W N) (fi : nat) (es : list event)
  : W -> state X -> R -> option stopper -> list (state X) -> status -> Prop :=
| run_end w s dt sp : st_tmax s <= st_t s -> run sv fi es w s dt sp [] Finished
| run_timeout w s dt sp : st_t s < st_tmax s -> run sv fi es w s dt sp [] Timeout
| run_raise w s dt sp : st_t s < st_tmax s ->
    full_step sv fi w s (fst (adjust sp (st_t s) dt)) = Raised ->
    run sv fi es w s dt sp [] Error
| run_step w s dt sp w' s' dt' s'' tr z : st_t s < st_tmax s ->
    full_step sv fi w s (fst (adjust sp (st_t s) dt)) = Ok (w', s', dt') ->
    fired es s' s'' ->
    run sv fi es w' s'' dt' (snd (adjust sp (st_t s) dt)) tr z ->
    run sv fi es w s dt sp (s'' :: tr) z.

Lemma fired_callbacks es : forall s,
  fired es s (run_callbacks (map (fun e => discrete_callback (fst e) (snd e)) es) s).
Proof.
  induction es as [|[c r] es IH]; intros s; [constructor|]. unfold run_callbacks in *. simpl.
  unfold discrete_callback at 2. simpl. destruct (c s) eqn:E; [now apply fired_yes|now apply fired_no].
Qed.
End Spec.

Theorem C92_callbacks :
  forall X W N (sv : solver X W N) es fuel fi w s dt sp tr z,
  loop sv fuel fi (map (fun e => discrete_callback (fst e) (snd e)) es) w s dt sp = (tr, z) ->
  run sv fi es w s dt sp tr z.
Proof.
  intros X W N sv es. induction fuel as [|fuel IH]; intros fi w s dt sp tr z H.
  - rewrite loop_0 in H. destruct (Rltb_spec (st_t s) (st_tmax s)); inversion H; subst.
    + now constructor. + constructor. lra.
  - rewrite loop_S in H. destruct (Rltb_spec (st_t s) (st_tmax s)) as [L|L].
    2: { inversion H; subst. constructor. lra. }
    destruct (adjust sp (st_t s) dt) as [dt1 sp1] eqn:Ea.
    destruct (full_step sv fi w s dt1) as [[[w' s'] dt']| |] eqn:Ef.
    + cbv zeta in H. destruct (loop sv fuel fi _ w' _ dt' sp1) as [tr' z'] eqn:El.
      inversion H; subst. eapply run_step; [exact L|rewrite Ea; exact Ef|apply fired_callbacks|].
      rewrite Ea. apply IH. exact El.
    + inversion H; subst. apply run_raise; [exact L|rewrite Ea; exact Ef].
    + inversion H; subst. now apply run_timeout.
Qed.
Print Assumptions C92_callbacks.

(** Non-vacuity: the second callback sees what the first has done. *)
Example ex_fired :
  fired [(fun _ => true, fun s => mk_state (st_t s) (st_tmax s) 1%nat);
         (fun s => Nat.eqb (st_x s) 1, fun s => mk_state (st_t s) (st_t s) 5%nat)]
        (mk_state 0 2 0%nat) (mk_state 0 0 5%nat).
Proof. apply fired_yes; [reflexivity|]. apply fired_yes; [reflexivity|]. constructor. Qed.
