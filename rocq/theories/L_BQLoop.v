From Coq Require Import List Bool Arith QArith Qabs Lia.
From Verif Require Import M_BQLoop.
Import ListNotations.
Open Scope nat_scope.

Section L.
Context {X V Bel : Type}.
Variable posterior : list X -> list V -> Bel.
Notation bqstate := (bqstate X V Bel).
Notation policy := (policy X V Bel).

(** The policy returns as many nodes as it announces. *)
Definition full_batches (p : policy) := forall s, length (pol_call p s) = pol_batch p.

(** What a run has to look like: [start] the data before the loop; yield [k]
    is iteration [k], its data are the starting data extended by the chosen
    nodes and the integrand at them, the counter counts the data, earlier
    beliefs are recorded, and exactly the last yield is flagged. *)
Fixpoint good_run (p : policy) (f : X -> V) (k : nat) (prev : list Bel)
         (s : bqstate) (l : list (bqstate * info)) : Prop :=
  match l with
  | [] => True
  | (s', i) :: l' =>
      s' = s /\ i_iter i = k /\ i_nevals i = length (bq_evals s)
      /\ length (bq_nodes s) = length (bq_evals s)
      /\ bq_prev s = prev
      /\ match l' with
         | [] => True
         | (t, _) :: _ =>
             i_conv i = false
             /\ exists xs, length xs = pol_batch p /\ xs = pol_call p s
                /\ bq_nodes t = bq_nodes s ++ xs /\ bq_evals t = bq_evals s ++ map f xs
                /\ bq_belief t = posterior (bq_nodes t) (bq_evals t)
                /\ good_run p f (S k) (prev ++ [bq_belief s]) t l'
         end
  end.

Lemma iterator_good stop p f : full_batches p -> forall fuel s i,
  i_nevals i = length (bq_evals s) -> length (bq_nodes s) = length (bq_evals s) ->
  good_run p f (i_iter i) (bq_prev s) s (fst (bq_iterator posterior fuel stop p f s i)).
Proof.
  intros Hp. induction fuel as [|fuel IH]; intros s i Hn Hl; simpl; [trivial|].
  destruct (stop (s, i)) eqn:Ec; simpl; [repeat split; auto|].
  set (xs := pol_call p s). set (s' := update posterior s xs (map f xs)).
  specialize (IH s' (mk_info (S (i_iter i)) (i_nevals i + pol_batch p) false)).
  destruct (bq_iterator posterior fuel stop p f s'
             (mk_info (S (i_iter i)) (i_nevals i + pol_batch p) false)) as [l e] eqn:El.
  simpl in *. repeat split; auto.
  destruct l as [|[t it] l]; [trivial|].
  assert (good_run p f (S (i_iter i)) (bq_prev s') s' ((t, it) :: l)) as G.
  { apply IH.
    - unfold s'; simpl. rewrite app_length, map_length. unfold xs. rewrite Hp. lia.
    - unfold s'; simpl. rewrite !app_length, map_length. lia. }
  assert (t = s') as -> by (destruct G; assumption).
  split; [reflexivity|]. exists xs. do 5 (split; [solve [auto | apply Hp]|]). exact G.
Qed.

(** Exactly the last yield of a finished run is flagged as converged, because
    the criterion holds there; it held nowhere before. *)
Lemma iterator_stops_first stop p f fuel : forall s i l,
  bq_iterator posterior fuel stop p f s i = (l, true) ->
  exists pre s' i', l = pre ++ [(s', i')]
    /\ i_conv i' = true
    /\ (exists j, stop (s', j) = true /\ i_nevals j = i_nevals i' /\ i_iter j = i_iter i')
    /\ Forall (fun si => i_conv (snd si) = false
         /\ exists j, stop (fst si, j) = false /\ i_nevals j = i_nevals (snd si)
              /\ i_iter j = i_iter (snd si)) pre.
Proof.
  induction fuel as [|fuel IH]; intros s i l; simpl; [discriminate|].
  destruct (stop (s, i)) eqn:Ec.
  - intros [= <-]. exists [], s, (mk_info (i_iter i) (i_nevals i) true). simpl.
    repeat split; eauto.
  - destruct (bq_iterator posterior fuel stop p f _ _) as [l' e] eqn:El.
    intros [= <- ->]. destruct (IH _ _ _ El) as (pre & s' & i' & -> & A & B & C).
    exists ((s, mk_info (i_iter i) (i_nevals i) false) :: pre), s', i'. simpl.
    repeat split; auto. constructor; auto. simpl. split; eauto.
Qed.

(** Criterion that is met as soon as [M] evaluations are reached. *)
Definition stops_at (M : nat) (stop : crit (X := X) (V := V) (Bel := Bel)) :=
  forall s i, M <= i_nevals i -> stop (s, i) = true.

Lemma iterator_budget stop p f M : full_batches p -> 1 <= pol_batch p -> stops_at M stop ->
  forall fuel s i, M - i_nevals i < fuel ->
  exists pre s' i', bq_iterator posterior fuel stop p f s i = (pre ++ [(s', i')], true)
    /\ i_nevals i' = i_nevals i + length pre * pol_batch p
    /\ (pre <> [] -> i_nevals i' < M + pol_batch p).
Proof.
  intros Hp Hb HM. induction fuel as [|fuel IH]; intros s i Hf; [lia|]. simpl.
  destruct (stop (s, i)) eqn:Ec.
  - exists [], s, (mk_info (i_iter i) (i_nevals i) true). simpl. repeat split; auto; try lia.
    congruence.
  - assert (i_nevals i < M) as Hlt.
    { destruct (le_lt_dec M (i_nevals i)) as [H|H]; auto. rewrite (HM s i H) in Ec. discriminate. }
    set (xs := pol_call p s). set (s' := update posterior s xs (map f xs)).
    destruct (IH s' (mk_info (S (i_iter i)) (i_nevals i + pol_batch p) false))
      as (pre & t & it & E & E1 & E2); [simpl; lia|].
    rewrite E. exists ((s, mk_info (i_iter i) (i_nevals i) false) :: pre), t, it.
    split; [reflexivity|]. simpl in E1 |- *. split; [lia|]. intros _.
    destruct pre as [|x pre]; [simpl in E1; lia|]. apply E2. discriminate.
Qed.

Lemma select_budget (mean var : Bel -> Q) d m vt rt :
  stops_at m (select_criterion mean var true d (Some m) vt rt).
Proof.
  intros s i H. unfold select_criterion.
  assert (max_nevals m (s, i) = true) as E by (unfold max_nevals; simpl; apply Nat.leb_le; auto).
  destruct vt, rt; simpl; unfold crit_or; rewrite ?E; reflexivity.
Qed.

Lemma select_default (mean var : Bel -> Q) d :
  stops_at (d * 25) (select_criterion mean var true d None None None).
Proof.
  intros s i H. unfold select_criterion, crit_or, max_nevals. simpl.
  apply Nat.leb_le in H. rewrite H. apply orb_true_r.
Qed.

(** The selected criterion is the disjunction of the requested ones. *)
Lemma select_any (mean var : Bel -> Q) d me vt rt (s : bqstate) i :
  me <> None \/ vt <> None \/ rt <> None ->
  (select_criterion mean var true d me vt rt (s, i) = true <->
   (exists m, me = Some m /\ m <= i_nevals i)
   \/ (exists v, vt = Some v /\ (var (bq_belief s) <= v)%Q)
   \/ (exists r, rt = Some r /\ relative_mean_change mean r (s, i) = true)).
Proof.
  intros H. unfold select_criterion.
  assert (forall v, var_tolerance var v (s, i) = true <-> (var (bq_belief s) <= v)%Q) as Hv
    by (intros; apply Qle_bool_iff).
  assert (forall m, max_nevals m (s, i) = true <-> m <= i_nevals i) as Hm
    by (intros; apply Nat.leb_le).
  destruct me as [m|], vt as [v|], rt as [r|]; simpl; unfold crit_or;
    rewrite ?orb_true_iff, ?Hv, ?Hm; split;
    try (intuition eauto; fail);
    try (intros [(? & [= <-] & ?)|[(? & [= <-] & ?)|(? & [= <-] & ?)]]; auto; fail);
    intuition congruence.
Qed.
End L.

(** ** Relative mean change on a zero integrand *)
(** Beliefs are (mean, variance); with all evaluations zero every posterior
    mean is zero (a linear function of the evaluations). *)
Section Zero.
Definition zpost (xs : list nat) (vs : list Q) : Q * Q := (0, 1)%Q.
Lemma zero_never_stops tol fuel : forall (s : bqstate nat Q (Q * Q)) i p,
  fst (bq_belief s) = 0%Q ->
  snd (bq_iterator zpost fuel (relative_mean_change fst tol) p (fun _ => 0%Q) s i) = false.
Proof.
  induction fuel as [|fuel IH]; intros s i p E; simpl; [reflexivity|].
  assert (relative_mean_change (fst : Q * Q -> Q) tol (s, i) = false) as ->.
  { unfold relative_mean_change. simpl. destruct (rev (bq_prev s)); [reflexivity|].
    rewrite E. reflexivity. }
  match goal with |- context [bq_iterator zpost fuel ?a ?b ?c ?d ?e] =>
    specialize (IH d e p); destruct (bq_iterator zpost fuel a b c d e) as [l z] end.
  simpl in *. apply IH. reflexivity.
Qed.
End Zero.
