From Coq Require Import List Bool Lia.
From Verif Require Import M_StopCrit.
Import ListNotations.

(** Specification: the formula over decisions, and the left-to-right list of
    basic criteria that have to be consulted. *)
Fixpoint formula (d : nat -> bool) (e : expr) : bool :=
  match e with
  | Base i => d i
  | And e f => formula d e && formula d f
  | Or e f => formula d e || formula d f
  | Not e => negb (formula d e)
  end.

Fixpoint consulted (d : nat -> bool) (e : expr) : list nat :=
  match e with
  | Base i => [i]
  | And e f => consulted d e ++ (if formula d e then consulted d f else [])
  | Or e f => consulted d e ++ (if formula d e then [] else consulted d f)
  | Not e => consulted d e
  end.

Fixpoint leaves (e : expr) : list nat :=
  match e with
  | Base i => [i]
  | And e f | Or e f => leaves e ++ leaves f
  | Not e => leaves e
  end.

Section Sem.
Context {A S : Type}.

(** Basic criteria that decide without raising, depending on the arguments only. *)
Definition decides (basic : nat -> criterion A S) (d : A -> nat -> bool) :=
  forall i a s, fst (basic i a s) = Val (d a i).

Lemma build_formula basic d : decides basic d -> forall e a s,
  fst (build basic e a s) = Val (formula (d a) e).
Proof.
  intros H. induction e as [i|e IHe f IHf|e IHe f IHf|e IHe]; intros a s; simpl.
  - apply H.
  - unfold c_lambda, c_and. specialize (IHe a s). destruct (build basic e a s) as [o s'].
    simpl in IHe. subst o. destruct (formula (d a) e); simpl; auto.
  - unfold c_lambda, c_or. specialize (IHe a s). destruct (build basic e a s) as [o s'].
    simpl in IHe. subst o. destruct (formula (d a) e); simpl; auto.
  - unfold c_lambda, c_not. specialize (IHe a s). destruct (build basic e a s) as [o s'].
    simpl in IHe. subst o. reflexivity.
Qed.

(** State after the calls: that of calling the consulted criteria in order. *)
Definition calls (basic : nat -> criterion A S) (a : A) (is : list nat) (s : S) : S :=
  fold_left (fun s i => snd (basic i a s)) is s.

Lemma build_calls basic d : decides basic d -> forall e a s,
  snd (build basic e a s) = calls basic a (consulted (d a) e) s.
Proof.
  intros H. unfold calls.
  induction e as [i|e IHe f IHf|e IHe f IHf|e IHe]; intros a s; simpl; auto.
  - unfold c_lambda, c_and. pose proof (build_formula basic d H e a s) as F.
    specialize (IHe a s). destruct (build basic e a s) as [o s'].
    simpl in *. subst o. rewrite fold_left_app, <- IHe.
    destruct (formula (d a) e); simpl; auto.
  - unfold c_lambda, c_or. pose proof (build_formula basic d H e a s) as F.
    specialize (IHe a s). destruct (build basic e a s) as [o s'].
    simpl in *. subst o. rewrite fold_left_app, <- IHe.
    destruct (formula (d a) e); simpl; auto.
  - unfold c_lambda, c_not. pose proof (build_formula basic d H e a s) as F.
    specialize (IHe a s). destruct (build basic e a s) as [o s'].
    simpl in *. subst o. simpl. auto.
Qed.

(** Without any assumption on the basic criteria (effects, exceptions). *)
Lemma and_assoc (c1 c2 c3 : criterion A S) a s :
  c_and (c_and c1 c2) c3 a s = c_and c1 (c_and c2 c3) a s.
Proof. unfold c_and. destruct (c1 a s) as [[[|]|] s']; reflexivity. Qed.

Lemma or_assoc (c1 c2 c3 : criterion A S) a s :
  c_or (c_or c1 c2) c3 a s = c_or c1 (c_or c2 c3) a s.
Proof. unfold c_or. destruct (c1 a s) as [[[|]|] s']; reflexivity. Qed.

Lemma not_not (c : criterion A S) a s : c_not (c_not c) a s = c a s.
Proof. unfold c_not. destruct (c a s) as [[[|]|] s']; reflexivity. Qed.

Lemma not_and (c1 c2 : criterion A S) a s :
  c_not (c_and c1 c2) a s = c_or (c_not c1) (c_not c2) a s.
Proof. unfold c_not, c_and, c_or. destruct (c1 a s) as [[[|]|] s']; reflexivity. Qed.

Lemma not_or (c1 c2 : criterion A S) a s :
  c_not (c_or c1 c2) a s = c_and (c_not c1) (c_not c2) a s.
Proof. unfold c_not, c_and, c_or. destruct (c1 a s) as [[[|]|] s']; reflexivity. Qed.

(** Flattened chains. *)
Fixpoint all_of (cs : list (criterion A S)) : criterion A S :=
  match cs with
  | [] => fun _ s => (Val true, s)
  | c :: cs => c_and c (all_of cs)
  end.

Fixpoint any_of (cs : list (criterion A S)) : criterion A S :=
  match cs with
  | [] => fun _ s => (Val false, s)
  | c :: cs => c_or c (any_of cs)
  end.

Inductive and_tree : expr -> Prop :=
| AT_base i : and_tree (Base i)
| AT_and e f : and_tree e -> and_tree f -> and_tree (And e f).
Inductive or_tree : expr -> Prop :=
| OT_base i : or_tree (Base i)
| OT_or e f : or_tree e -> or_tree f -> or_tree (Or e f).

Lemma all_of_app l1 l2 a : forall s,
  all_of (l1 ++ l2) a s = c_and (all_of l1) (all_of l2) a s.
Proof.
  induction l1 as [|c l1 IH]; intros s; simpl; [reflexivity|].
  rewrite and_assoc. unfold c_and at 1 2. destruct (c a s) as [[[|]|] s']; auto.
Qed.

Lemma any_of_app l1 l2 a : forall s,
  any_of (l1 ++ l2) a s = c_or (any_of l1) (any_of l2) a s.
Proof.
  induction l1 as [|c l1 IH]; intros s; simpl; [reflexivity|].
  rewrite or_assoc. unfold c_or at 1 2. destruct (c a s) as [[[|]|] s']; auto.
Qed.

Lemma and_tree_flat (basic : nat -> criterion A S) e : and_tree e -> forall a s,
  build basic e a s = all_of (map basic (leaves e)) a s.
Proof.
  induction 1 as [i|e f He IHe Hf IHf]; intros a s; simpl.
  - unfold c_and. destruct (basic i a s) as [[[|]|] s']; reflexivity.
  - rewrite map_app, all_of_app. unfold c_lambda, c_and. rewrite IHe.
    destruct (all_of _ a s) as [[[|]|] s']; auto.
Qed.

Lemma or_tree_flat (basic : nat -> criterion A S) e : or_tree e -> forall a s,
  build basic e a s = any_of (map basic (leaves e)) a s.
Proof.
  induction 1 as [i|e f He IHe Hf IHf]; intros a s; simpl.
  - unfold c_or. destruct (basic i a s) as [[[|]|] s']; reflexivity.
  - rewrite map_app, any_of_app. unfold c_lambda, c_or. rewrite IHe.
    destruct (any_of _ a s) as [[[|]|] s']; auto.
Qed.

(** Re-association: any two trees with the same leaves in the same order. *)
Lemma and_reassoc (basic : nat -> criterion A S) e f : and_tree e -> and_tree f -> leaves e = leaves f ->
  forall a s, build basic e a s = build basic f a s.
Proof. intros He Hf E a s. rewrite !and_tree_flat by assumption. rewrite E. reflexivity. Qed.

Lemma or_reassoc (basic : nat -> criterion A S) e f : or_tree e -> or_tree f -> leaves e = leaves f ->
  forall a s, build basic e a s = build basic f a s.
Proof. intros He Hf E a s. rewrite !or_tree_flat by assumption. rewrite E. reflexivity. Qed.

Lemma consulted_sublist d e : forall i, In i (consulted d e) -> In i (leaves e).
Proof.
  induction e as [j|e IHe f IHf|e IHe f IHf|e IHe]; intros i; simpl; auto;
    rewrite !in_app_iff; intros [H|H]; auto; destruct (formula d e); auto; destruct H.
Qed.

(** Exceptions: an exception of the whole is an exception of a consulted basic
    criterion, i.e. if no basic criterion raises the combination does not. *)
Lemma no_raise (basic : nat -> criterion A S) e :
  (forall i, In i (leaves e) -> forall a s, fst (basic i a s) <> Exn) ->
  forall a s, fst (build basic e a s) <> Exn.
Proof.
  induction e as [i|e IHe f IHf|e IHe f IHf|e IHe]; simpl; intros H a s.
  - apply H. auto.
  - unfold c_lambda, c_and.
    assert (fst (build basic e a s) <> Exn) as He.
    { apply IHe. intros; apply H, in_or_app; auto. }
    destruct (build basic e a s) as [[[|]|] s']; simpl in *; try congruence.
    apply IHf. intros; apply H, in_or_app; auto.
  - unfold c_lambda, c_or.
    assert (fst (build basic e a s) <> Exn) as He.
    { apply IHe. intros; apply H, in_or_app; auto. }
    destruct (build basic e a s) as [[[|]|] s']; simpl in *; try congruence.
    apply IHf. intros; apply H, in_or_app; auto.
  - unfold c_lambda, c_not.
    assert (fst (build basic e a s) <> Exn) as He by (apply IHe; auto).
    destruct (build basic e a s) as [[[|]|] s']; simpl in *; congruence.
Qed.
End Sem.
