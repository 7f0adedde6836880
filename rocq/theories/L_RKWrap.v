From Coq Require Import List Reals Bool Lra Lia.
From Verif Require Import M_ODELoop L_ODELoop L_ODELoop2 M_RKWrap.
Import ListNotations.
Open Scope R_scope.

Section RK.
Context {Y E N : Type}.
Variables (yzero : Y) (yadd : Y -> Y -> Y) (yscale : R -> Y -> Y).
Variable fld : R -> Y -> Y.
Variables (tabA : list (list R)) (tabB tabC : list R).
Variable est : list Y -> R -> E.
Variable nrm : E -> Y -> N.
Variable acc : N -> bool.
Variable sug : R -> N -> option R.
Variables (d : N) (h0 : R).

Notation rks := (rk_solver yzero yadd yscale fld tabA tabB tabC est nrm acc sug d h0).
Notation step := (rk_step yzero yadd yscale fld tabA tabB tabC).

(** Specification: one Runge-Kutta step from the given state, first stage
    evaluated at that state. *)
Definition rk_reference (t : R) (y : Y) (h : R) : Y := fst (fst (step t y (fld t y) h)).

(** Specification: [y'] is a Runge-Kutta step from [(t, y)]: for some stages, the
    first the field at [(t, y)] and stage [i + 1] the field at [t + c_i h] and the
    combination of the earlier stages with the weights of row [i]. *)
Fixpoint wsum (a : Y) (cs : list R) (ks : list Y) : Y :=
  match cs, ks with
  | c :: cs', k :: ks' => wsum (yadd a (yscale c k)) cs' ks'
  | _, _ => a
  end.
Definition rk_stages (t : R) (y : Y) (h : R) (ks : list Y) : Prop :=
  length ks = S (Nat.min (length tabA) (length tabC))
  /\ nth_error ks 0 = Some (fld t y)
  /\ forall i a c, nth_error tabA i = Some a -> nth_error tabC i = Some c ->
       nth_error ks (S i)
       = Some (fld (t + c * h) (yadd y (yscale h (wsum yzero a (firstn (S i) ks))))).
Definition rk_spec (t : R) (y : Y) (h : R) (y' : Y) : Prop :=
  exists ks, rk_stages t y h ks /\ y' = yadd y (yscale h (wsum yzero tabB ks)).

Lemma lincomb_wsum cs : forall ks, lincomb yzero yadd yscale cs ks = wsum yzero cs ks.
Proof.
  unfold lincomb. generalize yzero. induction cs as [|c cs IH]; intros a [|k ks]; simpl; auto.
Qed.
Lemma stages_spec t y h : rk_stages t y h (stages yzero yadd yscale fld tabA tabC t y h (fld t y)).
Proof.
  unfold rk_stages, stages.
  assert (forall rows ks0,
    let ks := fold_left (fun ks ac =>
               let dy := yscale h (lincomb yzero yadd yscale (fst ac) ks) in
               ks ++ [fld (t + snd ac * h) (yadd y dy)]) rows ks0 in
    length ks = (length ks0 + length rows)%nat /\ firstn (length ks0) ks = ks0
    /\ forall i a c, nth_error rows i = Some (a, c) ->
       nth_error ks (length ks0 + i)
       = Some (fld (t + c * h) (yadd y (yscale h (wsum yzero a (firstn (length ks0 + i) ks)))))) as G.
  { induction rows as [|[a c] rows IH]; intros ks0 ks.
    - subst ks. simpl. rewrite Nat.add_0_r, firstn_all. repeat split.
      intros [|i] a c H; discriminate H.
    - subst ks. simpl fold_left.
      set (k1 := fld (t + c * h) (yadd y (yscale h (lincomb yzero yadd yscale a ks0)))).
      specialize (IH (ks0 ++ [k1])). cbv zeta in IH.
      set (ks := fold_left _ rows (ks0 ++ [k1])) in *.
      rewrite app_length in IH. simpl length in IH. destruct IH as [A [B C]].
      assert (firstn (length ks0) ks = ks0) as F.
      { transitivity (firstn (length ks0) (firstn (length ks0 + 1) ks)).
        - rewrite firstn_firstn. f_equal. lia.
        - rewrite B, firstn_app, Nat.sub_diag, firstn_all, firstn_O, app_nil_r. reflexivity. }
      split; [simpl length; lia|]. split; [exact F|].
      intros [|i] a' c' H; simpl in H.
      + inversion H; subst. rewrite Nat.add_0_r, F.
        assert (nth_error ks (length ks0) = nth_error (firstn (length ks0 + 1) ks) (length ks0)) as ->.
        { rewrite <- (firstn_skipn (length ks0 + 1) ks) at 1. rewrite nth_error_app1; [reflexivity|].
          rewrite firstn_length. lia. }
        rewrite B, nth_error_app2, Nat.sub_diag; [|lia]. simpl. unfold k1.
        rewrite lincomb_wsum. reflexivity.
      + specialize (C i a' c' H). rewrite <- Nat.add_assoc in C. exact C. }
  specialize (G (combine tabA tabC) [fld t y]). cbv zeta in G. simpl length in G.
  set (ks := fold_left _ _ _) in *. destruct G as [A [B C]].
  rewrite combine_length in A. split; [exact A|]. split.
  - destruct ks; [discriminate A|]. simpl in B. inversion B. reflexivity.
  - intros i a c Ha Hc. simpl in C. apply C. clear -Ha Hc. revert i tabC Ha Hc.
    induction tabA as [|x l IH]; intros [|i] [|z m] Ha Hc; simpl in *; try discriminate.
    + congruence.
    + apply IH; assumption.
Qed.
Lemma reference_spec t y h : rk_spec t y h (rk_reference t y h).
Proof.
  exists (stages yzero yadd yscale fld tabA tabC t y h (fld t y)). split; [apply stages_spec|].
  unfold rk_reference, rk_step. simpl. rewrite lincomb_wsum. reflexivity.
Qed.

(** Each state arises from its predecessor by a Runge-Kutta step. *)
Fixpoint rk_chain (s : state (@pay Y E)) (tr : list (state (@pay Y E))) : Prop :=
  match tr with
  | [] => True
  | s' :: tr' =>
      rk_spec (st_t s) (p_y (st_x s)) (st_t s' - st_t s) (p_y (st_x s'))
      /\ rk_chain s' tr'
  end.

Lemma rk_full_step_accept fi w s dt w' s' dt' :
  (forall n, acc n = true) ->
  w_f w = fld (st_t s) (p_y (st_x s)) ->
  full_step rks fi w s dt = Ok (w', s', dt') ->
  p_y (st_x s') = rk_reference (st_t s) (p_y (st_x s)) (st_t s' - st_t s)
  /\ w_f w' = fld (st_t s') (p_y (st_x s')).
Proof.
  intros Hacc Hf. destruct fi as [|fi]; simpl; [discriminate|].
  destruct (sug dt _) as [sg|]; [|discriminate]. rewrite Hacc.
  intros H; inversion H; subst; clear H. simpl.
  replace (st_t s + dt - st_t s) with dt by ring.
  unfold rk_reference. rewrite Hf. simpl. auto.
Qed.

Lemma rk_loop_chain fuel : forall fi w s dt tr z,
  (forall n, acc n = true) ->
  w_f w = fld (st_t s) (p_y (st_x s)) ->
  loop rks fuel fi [] w s dt None = (tr, z) -> rk_chain s tr.
Proof.
  induction fuel as [|fuel IH]; intros fi w s dt tr z Hacc Hf El.
  - rewrite loop_0 in El. destruct (Rltb _ _); inversion El; exact I.
  - rewrite loop_S in El. destruct (Rltb _ _); [|inversion El; exact I].
    cbn [adjust] in El.
    destruct (full_step rks fi w s dt) as [[[w' s'] dt']| |] eqn:Ef;
      [|inversion El; exact I|inversion El; exact I].
    destruct (rk_full_step_accept _ _ _ _ _ _ _ Hacc Hf Ef) as [A B].
    cbn [run_callbacks fold_left] in El.
    destruct (loop rks fuel fi [] w' s' dt' None) as [tr' z'] eqn:E2.
    inversion El; subst. simpl. split; [rewrite A; apply reference_spec|]. eapply IH; eauto.
Qed.

(** ** Perturbed steps *)
Variable noise : nat -> R -> R.
Notation perts := (pert_solver yzero yadd yscale fld tabA tabB tabC est nrm acc sug noise d h0).

(** Bookkeeping of interpolants and scales against the reported times. *)
Fixpoint aligned (t : R) (ts scales : list R) (ds : list (@dense Y)) : Prop :=
  match ts, scales, ds with
  | [], [], [] => True
  | t' :: ts', c :: scales', d :: ds' =>
      d_told d = t /\ d_t d = t + (t' - t) * c /\ aligned t' ts' scales' ds'
  | _, _, _ => False
  end.

Lemma pert_full_step fi w s dt w' s' dt' :
  (forall n, acc n = true) -> dt <> 0 ->
  full_step perts fi w s dt = Ok (w', s', dt') ->
  exists c D, wp_scales w' = wp_scales w ++ [c]
    /\ w_interp (wp_rk w') = w_interp (wp_rk w) ++ [D]
    /\ d_told D = st_t s /\ d_t D = st_t s + (st_t s' - st_t s) * c
    /\ st_tmax s' = st_tmax s /\ st_t s' = st_t s + dt
    /\ exists sg n, sug dt n = Some sg /\ dt' = Rmin sg (st_tmax s - st_t s').
Proof.
  intros Hacc Hdt. destruct fi as [|fi]; simpl; [discriminate|].
  destruct (sug dt _) as [sg|] eqn:Es; [|discriminate]. rewrite Hacc.
  intros H; inversion H; subst; clear H. simpl.
  do 2 eexists. split; [reflexivity|]. split; [reflexivity|]. simpl.
  split; [reflexivity|]. split; [|split; [reflexivity|split; [reflexivity|eauto]]].
  field. assumption.
Qed.

Lemma aligned_app ts : forall t scales ds t' c D,
  aligned t ts scales ds -> d_told D = last (t :: ts) 0 ->
  d_t D = last (t :: ts) 0 + (t' - last (t :: ts) 0) * c ->
  aligned t (ts ++ [t']) (scales ++ [c]) (ds ++ [D]).
Proof.
  induction ts as [|t1 ts IH]; intros t scales ds t' c D Ha H1 H2;
    destruct scales as [|c1 scales], ds as [|d1 ds]; simpl in Ha; try tauto.
  - simpl in *. auto.
  - destruct Ha as (A & B & C). simpl. repeat split; auto.
Qed.

(** [pre]: the times reported so far, [s] the current one. *)
Lemma pert_loop fuel : forall fi w s dt tr z t0 pre,
  (forall n, acc n = true) -> (forall dt n sg, sug dt n = Some sg -> 0 < sg) ->
  (st_t s < st_tmax s -> 0 < dt) ->
  aligned t0 pre (wp_scales w) (w_interp (wp_rk w)) -> last (t0 :: pre) 0 = st_t s ->
  loop perts fuel fi [] w s dt None = (tr, z) ->
  let w' := final perts fuel fi [] w s dt None in
  aligned t0 (pre ++ times tr) (wp_scales w') (w_interp (wp_rk w')).
Proof.
  induction fuel as [|fuel IH]; intros fi w s dt tr z t0 pre Hacc Hsg Hdt Ha Hl El.
  - rewrite loop_0 in El. simpl.
    destruct (Rltb _ _); inversion El; subst; simpl; rewrite app_nil_r; assumption.
  - rewrite loop_S in El. cbn [final adjust].
    destruct (Rltb_spec (st_t s) (st_tmax s)) as [Hlt|Hge];
      [|inversion El; subst; simpl; rewrite app_nil_r; assumption].
    specialize (Hdt Hlt). cbn [adjust] in El.
    destruct (full_step perts fi w s dt) as [[[w' s'] dt']| |] eqn:Ef;
      [|inversion El; subst; simpl; rewrite app_nil_r; assumption
       |inversion El; subst; simpl; rewrite app_nil_r; assumption].
    apply pert_full_step in Ef as (c & D & A & B & C & D1 & F & G & sg & n & Hs & Hd'); auto; [|lra].
    cbn [run_callbacks fold_left] in *.
    destruct (loop perts fuel fi [] w' s' dt' None) as [tr' z'] eqn:E2.
    inversion El; subst tr z; clear El.
    replace (pre ++ times (s' :: tr')) with ((pre ++ [st_t s']) ++ times tr')
      by (rewrite <- app_assoc; reflexivity).
    refine (IH fi w' s' dt' tr' z' t0 (pre ++ [st_t s']) Hacc Hsg _ _ _ E2).
    + intros H. rewrite Hd'. pose proof (Hsg _ _ _ Hs). apply Rmin_glb_lt; lra.
    + rewrite A, B. apply aligned_app; [assumption|congruence|].
      rewrite Hl. assumption.
    + change (t0 :: pre ++ [st_t s']) with ((t0 :: pre) ++ [st_t s']). apply last_last.
Qed.

Lemma aligned_eval ts : forall t scales ds i l l' D,
  aligned t ts scales ds ->
  nth_error (t :: ts) i = Some l -> nth_error (t :: ts) (S i) = Some l' ->
  nth_error ds i = Some D ->
  d_told D = l
  /\ pert_eval_point (t :: ts) scales i l = Some (d_told D)
  /\ pert_eval_point (t :: ts) scales i l' = Some (d_t D).
Proof.
  induction ts as [|t1 ts IH]; intros t scales ds i l l' D Ha H1 H2 H3.
  - simpl in H2. destruct i; discriminate.
  - destruct scales as [|c scales], ds as [|d1 ds]; simpl in Ha; try tauto.
    destruct Ha as (A & B & C). destruct i as [|i].
    + simpl in *. injection H1 as <-. injection H2 as <-. injection H3 as <-.
      unfold pert_eval_point; simpl. rewrite A, B.
      split; [reflexivity|]. split; f_equal; ring.
    + apply (IH t1 scales ds i l l' D C H1 H2 H3).
Qed.
End RK.
