(** Helper: a decision procedure for equalities in abelian groups, and a
    normalisation tactic for matrix expressions. *)
From mathcomp Require Import all_ssreflect all_algebra.
Set Implicit Arguments.
Unset Strict Implicit.
Import GRing.Theory.
Local Open Scope ring_scope.

Inductive zexp := ZAtom of nat | ZZero | ZAdd of zexp & zexp | ZOpp of zexp.

Section Eval.
Variable V : zmodType.
Fixpoint zeval (env : seq V) (e : zexp) : V :=
  match e with
  | ZAtom n => nth 0 env n
  | ZZero => 0
  | ZAdd a b => zeval env a + zeval env b
  | ZOpp a => - zeval env a
  end.

(** Coefficients, as differences of natural numbers (positive, negative). *)
Fixpoint zcoef (e : zexp) (n : nat) : nat * nat :=
  match e with
  | ZAtom m => if m == n then (1, 0)%N else (0, 0)%N
  | ZZero => (0, 0)%N
  | ZAdd a b => ((zcoef a n).1 + (zcoef b n).1, (zcoef a n).2 + (zcoef b n).2)%N
  | ZOpp a => ((zcoef a n).2, (zcoef a n).1)
  end.

Fixpoint zbound (e : zexp) : nat :=
  match e with
  | ZAtom n => n.+1
  | ZZero => 0
  | ZAdd a b => maxn (zbound a) (zbound b)
  | ZOpp a => zbound a
  end.

Lemma zeval_coef env e k : (zbound e <= k)%N ->
  zeval env e = \sum_(i < k) (nth 0 env i *+ (zcoef e i).1 - nth 0 env i *+ (zcoef e i).2).
Proof.
elim: e => [n||a IHa b IHb|a IHa] /=.
- move=> lt_nk; rewrite (bigD1 (Ordinal lt_nk)) //= eqxx mulr1n mulr0n subr0 big1 ?addr0 //.
  move=> i; rewrite -val_eqE /= eq_sym => /negbTE ->.
  by rewrite subrr.
- by rewrite big1 // => i _; rewrite mulr0n subr0.
- rewrite geq_max => /andP[la lb]; rewrite (IHa la) (IHb lb) -big_split /=.
  apply: eq_bigr => i _; rewrite !mulrnDr opprD !addrA.
  by congr (_ - _); rewrite addrAC.
- move=> la; rewrite (IHa la) -sumrN; apply: eq_bigr => i _.
  by rewrite opprB.
Qed.

Definition zeqb (e f : zexp) : bool :=
  all (fun i => ((zcoef e i).1 + (zcoef f i).2 == (zcoef f i).1 + (zcoef e i).2)%N)
      (iota 0 (maxn (zbound e) (zbound f))).

Lemma zeqb_sound env e f : zeqb e f -> zeval env e = zeval env f.
Proof.
move=> H; set k := maxn (zbound e) (zbound f).
rewrite (@zeval_coef env e k) ?leq_maxl // (@zeval_coef env f k) ?leq_maxr //.
apply: eq_bigr => i _.
have /eqP E : ((zcoef e i).1 + (zcoef f i).2 == (zcoef f i).1 + (zcoef e i).2)%N.
  by apply: (allP H); rewrite mem_iota add0n /=; apply: ltn_ord.
by apply/eqP; rewrite subr_eq addrAC -mulrnDr -E mulrnDr addrK.
Qed.
End Eval.

(** Syntactic equality up to the types of the entries of matrices. *)
Ltac z_same x y :=
  lazymatch x with
  | @mulmx _ _ _ _ ?a ?b =>
      lazymatch y with @mulmx _ _ _ _ ?c ?d => z_same a c; z_same b d end
  | @trmx _ _ _ ?a => lazymatch y with @trmx _ _ _ ?c => z_same a c end
  | @invmx _ _ ?a => lazymatch y with @invmx _ _ ?c => z_same a c end
  | @GRing.add _ ?a ?b =>
      lazymatch y with @GRing.add _ ?c ?d => z_same a c; z_same b d end
  | @GRing.opp _ ?a => lazymatch y with @GRing.opp _ ?c => z_same a c end
  | @GRing.scale _ _ ?a ?b =>
      lazymatch y with @GRing.scale _ _ ?c ?d => z_same a c; z_same b d end
  | @GRing.mul _ ?a ?b =>
      lazymatch y with @GRing.mul _ ?c ?d => z_same a c; z_same b d end
  | _ => constr_eq x y
  end.
Ltac z_mem x l :=
  lazymatch l with
  | nil => constr:(false)
  | cons ?y ?l' =>
      match goal with
      | _ => let _ := match goal with _ => z_same x y end in constr:(true)
      | _ => z_mem x l'
      end
  end.
Ltac z_add x l :=
  let b := z_mem x l in
  match b with true => l | false => constr:(cons x l) end.
Ltac z_atoms e l :=
  lazymatch e with
  | GRing.add ?a ?b => let l := z_atoms a l in z_atoms b l
  | GRing.opp ?a => z_atoms a l
  | GRing.zero _ => l
  | _ => z_add e l
  end.
Ltac z_index x l :=
  lazymatch l with
  | cons ?y ?l' =>
      match goal with
      | _ => let _ := match goal with _ => z_same x y end in constr:(0%N)
      | _ => let n := z_index x l' in constr:(S n)
      end
  end.
Ltac z_quote e l :=
  lazymatch e with
  | GRing.add ?a ?b => let x := z_quote a l in let y := z_quote b l in constr:(ZAdd x y)
  | GRing.opp ?a => let x := z_quote a l in constr:(ZOpp x)
  | GRing.zero _ => constr:(ZZero)
  | _ => let n := z_index e l in constr:(ZAtom n)
  end.
(** Proves equalities that hold in every abelian group. *)
Ltac zmod_eq :=
  lazymatch goal with
  | |- @eq ?T ?a ?b =>
      let l := z_atoms a (@nil T) in
      let l := z_atoms b l in
      let x := z_quote a l in
      let y := z_quote b l in
      exact (@zeqb_sound _ l x y isT)
  end.

Section Test.
Variable V : zmodType.
Lemma z_test (a b c : V) : a + b - (c - b) = - c + b + (b + a) + 0.
Proof. zmod_eq. Qed.
Lemma z_test_mx (R : ringType) n (a b c : 'M[R]_n) : a + b - (c - b) = - c + b + (b + a) + 0.
Proof. zmod_eq. Qed.
End Test.

Section TrMx.
Variable R : ringType.
Lemma trmxD m n (A B : 'M[R]_(m, n)) : (A + B)^T = A^T + B^T. Proof. exact: linearD. Qed.
Lemma trmxB m n (A B : 'M[R]_(m, n)) : (A - B)^T = A^T - B^T. Proof. exact: linearB. Qed.
Lemma trmxN m n (A : 'M[R]_(m, n)) : (- A)^T = - A^T. Proof. exact: linearN. Qed.
Lemma trmxZ m n a (A : 'M[R]_(m, n)) : (a *: A)^T = a *: A^T. Proof. exact: linearZ. Qed.
End TrMx.

(** Expands products and transposes; products are left-associated. *)
Ltac mx_expand :=
  rewrite ?(trmx_mul, trmxD, trmxB, trmxN, trmxK, trmx1, trmx0);
  rewrite ?(mulmxDl, mulmxDr, mulmxBl, mulmxBr, mulNmx, mulmxN);
  rewrite ?(mulmxA, mulmx1, mul1mx, mulmx0, mul0mx).
Ltac mx_ring := mx_expand; zmod_eq.

Section Test2.
Lemma mx_test (R : comRingType) m n (A B : 'M[R]_(m, n)) (C : 'M[R]_(n, m)) :
  (A - B) *m (C *m (A + B)) = A *m C *m A - B *m C *m (B + A) - (- (A *m (C *m B))).
Proof. mx_ring. Qed.
Lemma mx_test2 (R : comRingType) m n (A B : 'M[R]_(m, n)) (C : 'M[R]_(m, n)) :
  ((A - B) *m C^T)^T = - (C *m B^T) + C *m A^T.
Proof. mx_ring. Qed.
End Test2.
