(** C01: configuration with-blocks. *)
From Coq Require Import List String Bool.
From Verif Require Import M_Config L_Config.
Import ListNotations.
Open Scope string_scope.

(** A with-block naming registered options: the body starts with exactly the
    named options changed; afterwards the named options have their previous
    values, the others those the body left; exceptions of the body propagate. *)
Theorem C01_with_restores : forall V (kw : list (string * V)) body (r : registry V),
  NoDup (map fst kw) ->
  (forall k, In k (map fst kw) -> get r k <> None) ->
  exists r1,
    (forall k v, In (k, v) kw -> get r1 k = Some v)
    /\ (forall k, ~ In k (map fst kw) -> get r1 k = get r k)
    /\ snd (exec (CWith kw body) r) = snd (execs body r1)
    /\ (forall k, In k (map fst kw) -> get (fst (exec (CWith kw body) r)) k = get r k)
    /\ (forall k, ~ In k (map fst kw) ->
        get (fst (exec (CWith kw body) r)) k = get (fst (execs body r1)) k).
Proof. intros V. exact with_ok. Qed.
Print Assumptions C01_with_restores.

(** Any program (arbitrarily nested, with exceptions and handlers) that
    changes options by with-blocks only leaves every option unchanged. *)
Theorem C01_scoped_programs_change_nothing :
  forall V (dom : string -> Prop) (p : list (cmd V)) (r : registry V),
  Forall scoped p -> Forall (names_in dom) p ->
  (forall k, dom k -> get r k <> None) ->
  forall k, get (fst (execs p r)) k = get r k.
Proof. intros V dom p r H1 H2. exact (execs_scoped dom p H1 H2 r). Qed.
Print Assumptions C01_scoped_programs_change_nothing.

(** Naming an unknown option raises ... *)
Theorem C01_unknown_option_raises : forall V (kw : list (string * V)) body r k0,
  NoDup (map fst kw) -> In k0 (map fst kw) -> get r k0 = None ->
  snd (exec (CWith kw body) r) = true.
Proof. intros V. exact unknown_raises. Qed.
Print Assumptions C01_unknown_option_raises.

(** ... and changes nothing provided it is named first ... *)
Theorem C01_unknown_option_unchanged_partial : forall V (kw0 : list (string * V)) k0 v0 body r,
  get r k0 = None -> exec (CWith ((k0, v0) :: kw0) body) r = (r, true).
Proof. intros V. exact unknown_first. Qed.
Print Assumptions C01_unknown_option_unchanged_partial.

(** ... but not in general: [config(a=1, z=0)] with [z] unknown leaves [a]
    changed for good. *)
Theorem C01_unknown_option_unchanged_refuted :
  exists (kw : list (string * nat)) body r k,
    NoDup (map fst kw) /\ snd (exec (CWith kw body) r) = true
    /\ get r k = Some 0 /\ get (fst (exec (CWith kw body) r)) k = Some 1.
Proof.
  exists [("a", 1); ("z", 0)], [], [("a", 0)], "a".
  split; [|repeat split]. repeat constructor; simpl; intuition discriminate.
Qed.
Print Assumptions C01_unknown_option_unchanged_refuted.

(** The hypotheses can be met by a non-trivial program: nested blocks naming
    the same option, an exception in the inner one, caught outside. *)
Definition ex_reg : registry nat := [("a", 0); ("b", 5)].
Definition ex_prog : list (cmd nat) :=
  [CTry [CWith [("a", 1); ("b", 6)] [CWith [("a", 2)] [CRaise]]]].
Example ex_scoped : Forall scoped ex_prog.
Proof.
  repeat constructor; simpl; intuition discriminate.
Qed.
Example ex_names : Forall (names_in (fun k => get ex_reg k <> None)) ex_prog.
Proof.
  repeat constructor; intros k H; simpl in H;
  repeat (destruct H as [<-|H]; [discriminate|]); destruct H.
Qed.
Example ex_run : execs ex_prog ex_reg = (ex_reg, false).
Proof. reflexivity. Qed.
Example ex_inner_sees :
  fst (execs [CSet "a" 9] (fst (fst (enter ex_reg [] [("b", 7)])))) = [("a", 9); ("b", 7)].
Proof. reflexivity. Qed.
