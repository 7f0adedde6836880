From Coq Require Import List ZArith QArith Bool Lia.
From Verif Require Import M_Args.
Import ListNotations.

(** ** as_shape: specification *)
(** The integers an argument stands for. *)
Definition items (x : shapelike) : option (list item) :=
  match x with
  | Scalar i => Some [i]
  | Tuple l | Container l | Iterator l => Some l
  | NotIterable => None
  end.
Definition reusable (x : shapelike) : Prop := match x with Iterator _ => False | _ => True end.
Definition is_integer (i : item) (z : Z) : Prop :=
  match i with
  | PyInt w | NpInt w => z = w
  | PyBool b => z = if b then 1%Z else 0%Z
  | NonInt => False
  end.

Lemma integral_ok l : forallb integral l = true <-> exists zs, Forall2 is_integer l zs.
Proof.
  induction l as [|i l IH]; simpl.
  - split; eauto.
  - rewrite andb_true_iff, IH. split.
    + intros [Hi [zs Hzs]]. exists (to_int i :: zs). constructor; auto.
      destruct i; simpl in *; auto. discriminate.
    + intros [zs H]. inversion H; subst. split; [|eauto]. destruct i; simpl in *; auto.
Qed.

Lemma to_int_ok l zs : Forall2 is_integer l zs -> map to_int l = zs.
Proof.
  induction 1 as [|i z l zs H _ IH]; simpl; [reflexivity|]. f_equal; auto.
  destruct i; simpl in *; subst; auto. destruct H.
Qed.

Lemma pyint_integral l : forallb pyint l = true -> forallb integral l = true.
Proof.
  induction l as [|i l IH]; simpl; auto. rewrite !andb_true_iff. intros [H1 H2]. split; auto.
  destruct i; auto; discriminate.
Qed.

Lemma as_shape_spec x ndim zs : reusable x ->
  (as_shape x ndim = Some zs <->
   exists l, items x = Some l /\ Forall2 is_integer l zs
     /\ (forall n, ndim = Some n -> Z.of_nat (length zs) = n)).
Proof.
  intros Hr.
  assert (forall l, (if forallb integral l then Some (map to_int l) else None) = 
     (if forallb pyint l then Some (map to_int l)
      else if forallb integral l then Some (map to_int l) else None)) as Hp.
  { intros l. destruct (forallb pyint l) eqn:E; auto. rewrite (pyint_integral _ E). auto. }
  assert (forall l, 
    match (if forallb integral l then Some (map to_int l) else None) with
    | None => None
    | Some s => match ndim with None => Some s
       | Some n => if Z.eqb (Z.of_nat (length s)) n then Some s else None end
    end = Some zs <->
    Forall2 is_integer l zs /\ (forall n, ndim = Some n -> Z.of_nat (length zs) = n)) as H.
  { intros l. destruct (forallb integral l) eqn:E.
    - apply integral_ok in E. destruct E as [ws Hw]. rewrite (to_int_ok _ _ Hw). split.
      + destruct ndim as [n|].
        * destruct (Z.eqb_spec (Z.of_nat (length ws)) n); [|discriminate].
          intros [= ->]. split; auto. intros m [= <-]. assumption.
        * intros [= ->]. split; auto. discriminate.
      + intros [H1 H2]. apply to_int_ok in H1. apply to_int_ok in Hw. assert (ws = zs) by congruence.
        rewrite H. clear H. destruct ndim as [n|]; auto.
        pose proof (H2 n eq_refl) as H3. rewrite H3, Z.eqb_refl. auto.
    - split; [discriminate|]. intros [H1 _]. exfalso.
      assert (forallb integral l = true) by (apply integral_ok; eauto). congruence. }
  destruct x as [i|l|l|l|]; simpl in Hr; try contradiction; unfold as_shape; simpl items.
  - specialize (H [i]). simpl in H. rewrite andb_true_r in H. rewrite H.
    split; [intros [? ?]; eauto|intros (l & [= <-] & ? & ?); auto].
  - rewrite <- Hp, H. split; [intros [? ?]; eauto|intros (l' & [= <-] & ? & ?); auto].
  - rewrite H. split; [intros [? ?]; eauto|intros (l' & [= <-] & ? & ?); auto].
  - split; [discriminate|]. intros (l & ? & _). discriminate.
Qed.

Lemma as_shape_iterator l ndim : ndim = None \/ ndim = Some 0%Z ->
  as_shape (Iterator l) ndim = if forallb integral l then Some [] else None.
Proof. intros [->| ->]; unfold as_shape; destruct (forallb integral l); reflexivity. Qed.

(** ** as_domain *)
Lemma all_lt_ok a : forall b, length a = length b ->
  (all_lt a b = true <-> Forall2 Qlt a b).
Proof.
  unfold all_lt. induction a as [|x a IH]; intros [|y b] E; simpl in *; try discriminate.
  - split; auto.
  - rewrite andb_true_iff, IH by lia. rewrite negb_true_iff. split.
    + intros [H1 H2]. constructor; auto. apply Qnot_le_lt. intros H.
      apply Qle_bool_iff in H. congruence.
    + intros H. inversion H; subst. split; auto. destruct (Qle_bool y x) eqn:F; auto.
      apply Qle_bool_iff in F. exfalso. apply Qlt_not_le in H3. auto.
Qed.

(** The box described by the arguments. *)
Definition describes (domain : list bound) (input_dim : option Z) (a b : list Q) (d : Z) : Prop :=
  exists ba bb, domain = [ba; bb] /\ np_size ba = np_size bb /\
    match input_dim with
    | None => a = b_data ba /\ b = b_data bb /\ d = Z.of_nat (np_size ba)
              /\ (b_ndim ba <= 1)%nat /\ (b_ndim bb <= 1)%nat
    | Some n => d = n /\ (1 <= n)%Z /\
        ((np_size ba = 1%nat /\ exists x y, b_data ba = [x] /\ b_data bb = [y]
            /\ a = repeat x (Z.to_nat n) /\ b = repeat y (Z.to_nat n))
         \/ (np_size ba <> 1%nat /\ Z.of_nat (np_size ba) = n /\ a = b_data ba /\ b = b_data bb
              /\ (b_ndim ba <= 1)%nat /\ (b_ndim bb <= 1)%nat))
    end.

Lemma as_domain_spec domain input_dim a b d :
  as_domain domain input_dim = Some (a, b, d) <->
  describes domain input_dim a b d /\ Forall2 Qlt a b.
Proof.
  assert (forall da db (X : Z), length (b_data da) = length (b_data db) ->
    ((if (Nat.ltb 1 (b_ndim (atleast_1d da)) || Nat.ltb 1 (b_ndim (atleast_1d db)))%bool then None
     else if all_lt (b_data (atleast_1d da)) (b_data (atleast_1d db))
          then Some (b_data (atleast_1d da), b_data (atleast_1d db), X) else None)
    = Some (a, b, d) <->
    (b_ndim da <= 1)%nat /\ (b_ndim db <= 1)%nat /\ a = b_data da /\ b = b_data db /\ d = X
      /\ Forall2 Qlt a b)) as F.
  { intros da db X Hl. unfold atleast_1d; cbn [b_ndim b_data].
    destruct (Nat.ltb_spec 1 (Nat.max 1 (b_ndim da))); cbn [orb].
    { split; [discriminate|lia]. }
    destruct (Nat.ltb_spec 1 (Nat.max 1 (b_ndim db))).
    { split; [discriminate|lia]. }
    destruct (all_lt (b_data da) (b_data db)) eqn:E.
    - apply all_lt_ok in E; [|assumption]. split.
      + intros [= <- <- <-]. repeat split; auto; lia.
      + intros (_ & _ & -> & -> & -> & _). reflexivity.
    - split; [discriminate|]. intros (_ & _ & -> & -> & _ & H').
      apply all_lt_ok in H'; [congruence|assumption]. }
  assert (forall (x y : bound) (Hs : np_size x = np_size y), length (b_data x) = length (b_data y))
    as HS by (intros; exact Hs).
  unfold as_domain, describes.
  destruct input_dim as [n|].
  - destruct (Z.ltb_spec n 1) as [Hn|Hn].
    { split; [discriminate|]. intros [(? & ? & _ & _ & _ & ? & _) _]. lia. }
    destruct domain as [|ba [|bb [|? ?]]];
      try (split; [discriminate|intros [(? & ? & ? & _) _]; discriminate]).
    destruct (Nat.eqb_spec (np_size ba) (np_size bb)) as [Hs|Hs]; cbn [negb].
    2:{ split; [discriminate|]. intros [(? & ? & [= <- <-] & ? & _) _]. contradiction. }
    destruct (Nat.eqb_spec (np_size ba) 1) as [H1|H1].
    + pose proof H1 as H1a. pose proof H1 as H1b. rewrite Hs in H1b.
      unfold np_size in H1a, H1b.
      destruct (b_data ba) as [|x [|? ?]] eqn:Ea; simpl in H1a; try discriminate.
      destruct (b_data bb) as [|y [|? ?]] eqn:Eb; simpl in H1b; try discriminate.
      rewrite F.
      2:{ unfold np_full; cbn [b_data]. rewrite !repeat_length. reflexivity. }
      unfold np_full; cbn [b_data b_ndim]. rewrite Ea, Eb; cbn [hd].
      split.
      * intros (_ & _ & -> & -> & -> & HF). split; auto.
        exists ba, bb. repeat split; auto. left. split; auto. exists x, y. auto.
      * intros [(? & ? & [= <- <-] & _ & -> & _ & [(_ & x' & y' & Ex & Ey & -> & ->)|(? & _)]) HF].
        2: contradiction. rewrite Ea in Ex. rewrite Eb in Ey. injection Ex as <-. injection Ey as <-.
        repeat split; auto.
    + destruct (Z.eqb_spec n (Z.of_nat (np_size ba))) as [Hd|Hd]; cbn [negb].
      * rewrite F by (apply HS; assumption). split.
        -- intros (? & ? & -> & -> & -> & HF). split; auto. exists ba, bb.
           repeat split; auto. right. repeat split; auto.
        -- intros [(? & ? & [= <- <-] & _ & -> & _ & [(? & _)|(_ & _ & -> & -> & ? & ?)]) HF];
             [contradiction|]. repeat split; auto.
      * split; [discriminate|].
        intros [(? & ? & [= <- <-] & _ & _ & _ & [(? & _)|(_ & Hq & _)]) _]; [contradiction|].
        symmetry in Hq. contradiction.
  - destruct domain as [|ba [|bb [|? ?]]];
      try (split; [discriminate|intros [(? & ? & ? & _) _]; discriminate]).
    destruct (Nat.eqb_spec (np_size ba) (np_size bb)) as [Hs|Hs]; cbn [negb].
    2:{ split; [discriminate|]. intros [(? & ? & [= <- <-] & ? & _) _]. contradiction. }
    rewrite F by (apply HS; assumption). split.
    + intros (? & ? & -> & -> & -> & HF). split; auto. exists ba, bb. repeat split; auto.
    + intros [(? & ? & [= <- <-] & _ & -> & -> & -> & ? & ?) HF]. repeat split; auto.
Qed.

Lemma Forall2_len {A B} (R : A -> B -> Prop) l l' : Forall2 R l l' -> length l = length l'.
Proof. induction 1; simpl; congruence. Qed.

Lemma as_domain_dims domain input_dim a b d :
  as_domain domain input_dim = Some (a, b, d) ->
  Z.of_nat (length a) = d /\ Z.of_nat (length b) = d.
Proof.
  intros H. apply as_domain_spec in H. destruct H as [(ba & bb & -> & Hs & H) HF].
  pose proof (Forall2_len _ _ _ HF) as HL. unfold np_size in *.
  destruct input_dim as [n|].
  - destruct H as (-> & Hn & [(_ & x & y & _ & _ & -> & ->)|(_ & <- & -> & -> & _)]).
    + rewrite !repeat_length. lia.
    + lia.
  - destruct H as (-> & -> & -> & _). lia.
Qed.
