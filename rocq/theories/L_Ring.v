(** Helper: tactics [mring] and [mfield] for equalities in commutative rings and fields of
    mathcomp. Ring expressions are decided by the normalisation of the standard library
    ([Ring_polynom], integer coefficients); [mfield] cross-multiplies and leaves the
    conditions that denominators are not zero. *)
From mathcomp Require Import all_ssreflect all_algebra.
From Coq Require Import Ring_polynom InitialRing Ring_theory ZArith.
From Verif Require Import L_Zmod.
Set Implicit Arguments.
Unset Strict Implicit.
Unset Printing Implicit Defensive.
Import GRing.Theory.
Local Open Scope ring_scope.

Inductive rexp :=
| RAtom of nat | RZero | ROne | RAdd of rexp & rexp | ROpp of rexp | RMul of rexp & rexp
| RPow of rexp & nat | RNat of nat | RMulN of rexp & nat | RInv of rexp.

Section Ring.
Variable R : comRingType.
(** The value of an expression, with a given inverse. *)
Variable inv : R -> R.
Fixpoint rev_ (env : seq R) (e : rexp) : R :=
  match e with
  | RAtom n => nth 0 env n
  | RZero => 0
  | ROne => 1
  | RAdd a b => rev_ env a + rev_ env b
  | ROpp a => - rev_ env a
  | RMul a b => rev_ env a * rev_ env b
  | RPow a n => rev_ env a ^+ n
  | RNat n => n%:R
  | RMulN a n => rev_ env a *+ n
  | RInv a => inv (rev_ env a)
  end.
Fixpoint has_inv (e : rexp) : bool :=
  match e with
  | RInv _ => true
  | RAdd a b | RMul a b => has_inv a || has_inv b
  | ROpp a | RPow a _ | RMulN a _ => has_inv a
  | _ => false
  end.
Fixpoint nat_pe (n : nat) : PExpr Z := if n is n'.+1 then PEadd PEI (nat_pe n') else PEO.
Fixpoint pow_pe (e : PExpr Z) (n : nat) : PExpr Z := if n is n'.+1 then PEmul e (pow_pe e n') else PEI.
Fixpoint pe (e : rexp) : PExpr Z :=
  match e with
  | RAtom n => PEX _ (Pos.of_succ_nat n)
  | RZero => PEO
  | ROne => PEI
  | RAdd a b => PEadd (pe a) (pe b)
  | ROpp a => PEopp (pe a)
  | RMul a b => PEmul (pe a) (pe b)
  | RPow a n => pow_pe (pe a) n
  | RNat n => nat_pe n
  | RMulN a n => PEmul (nat_pe n) (pe a)
  | RInv a => PEO
  end.
Definition mc_ring : ring_theory (0 : R) 1 +%R *%R (fun a b => a - b) -%R eq.
Proof.
split => //; [exact: add0r | exact: addrC | exact: addrA | exact: mul1r | exact: mulrC
             | exact: mulrA | exact: mulrDl | exact: subrr].
Qed.
Local Notation phi := (gen_phiZ 0 1 +%R *%R -%R).
Definition pev (env : seq R) (e : PExpr Z) : R :=
  PEeval 0 1 +%R *%R (fun a b => a - b) -%R phi id_phi_N (pow_N 1 *%R) env e.
Lemma bin_nth n (l : seq R) : BinList.nth 0 (Pos.of_succ_nat n) l = nth 0 l n.
Proof.
elim: n l => [[]//|n IH] l /=.
have -> : BinList.nth 0 (Pos.succ (Pos.of_succ_nat n)) l
        = BinList.nth 0 (Pos.of_succ_nat n) (List.tl l).
  rewrite -[l in LHS]/(List.tl (0 :: l)) !BinList.nth_jump BinList.jump_succ.
  by rewrite /= BinList.jump_tl.
by rewrite IH; case: l => //=; rewrite nth_nil.
Qed.
Lemma pev_nat env n : pev env (nat_pe n) = n%:R.
Proof. by elim: n => //= n IH; rewrite mulrS -IH. Qed.
Lemma pev_pow env e n : pev env (pow_pe e n) = pev env e ^+ n.
Proof. by elim: n => //= n IH; rewrite exprS -IH. Qed.
Lemma pevP env e : ~~ has_inv e -> rev_ env e = pev env (pe e).
Proof.
elim: e => [n||| a IHa b IHb|a IHa|a IHa b IHb|a IHa n|n|a IHa n|a IHa] //=.
- by rewrite /pev /= bin_nth.
- by rewrite negb_or => /andP[/IHa -> /IHb ->].
- by move/IHa ->.
- by rewrite negb_or => /andP[/IHa -> /IHb ->].
- by move/IHa ->; rewrite pev_pow.
- by rewrite pev_nat.
- by move/IHa ->; rewrite -mulr_natl -(pev_nat env n).
Qed.
Definition req (e f : rexp) : bool :=
  [&& ~~ has_inv e, ~~ has_inv f &
    Peq Zeq_bool
      (norm_subst 0%Z 1%Z Z.add Z.mul Z.sub Z.opp Zeq_bool (triv_div 0%Z 1%Z Zeq_bool) 0 nil (pe e))
      (norm_subst 0%Z 1%Z Z.add Z.mul Z.sub Z.opp Zeq_bool (triv_div 0%Z 1%Z Zeq_bool) 0 nil (pe f))].
Lemma req_sound env e f : req e f -> rev_ env e = rev_ env f.
Proof.
case/and3P=> ne nf H; rewrite !pevP //.
have st := @Eqsth R; have ex := @Eq_ext R +%R *%R -%R.
have ar := Rth_ARth st ex mc_ring; have mo := gen_phiZ_morph st ex mc_ring.
exact: (ring_correct st ex ar mo (pow_N_th _ _ st) (triv_div_th st ex ar mo)
  0 env nil (pe e) (pe f) I H).
Qed.
End Ring.

Section Field.
Variable R : fieldType.
Local Notation ev := (@rev_ R GRing.inv).
Definition rmul (a b : rexp) : rexp :=
  match a, b with ROne, _ => b | _, ROne => a | _, _ => RMul a b end.
Lemma rmulE env a b : ev env (rmul a b) = ev env a * ev env b.
Proof. by case: a; case: b => *; rewrite /= ?mul1r ?mulr1. Qed.
Definition rpow (a : rexp) (n : nat) : rexp := match a with ROne => ROne | _ => RPow a n end.
Lemma rpowE env a n : ev env (rpow a n) = ev env a ^+ n.
Proof. by case: a => *; rewrite /= ?expr1n. Qed.
(** Numerator and denominator, without inverses. *)
Fixpoint fr (e : rexp) : rexp * rexp :=
  match e with
  | RAdd a b => let (n, d) := fr a in let (m, c) := fr b in
                (RAdd (rmul n c) (rmul m d), rmul d c)
  | ROpp a => let (n, d) := fr a in (ROpp n, d)
  | RMul a b => let (n, d) := fr a in let (m, c) := fr b in (rmul n m, rmul d c)
  | RPow a k => let (n, d) := fr a in (RPow n k, rpow d k)
  | RMulN a k => let (n, d) := fr a in (RMulN n k, d)
  | RInv a => let (n, d) := fr a in (d, n)
  | e => (e, ROne)
  end.
(** Conditions under which a product is not zero, and under which the fraction is right. *)
Fixpoint nz (env : seq R) (e : rexp) : Prop :=
  match e with
  | ROne => True
  | RMul a b => nz env a /\ nz env b
  | ROpp a | RPow a _ => nz env a
  | e => ev env e != 0
  end.
Fixpoint cond (env : seq R) (e : rexp) : Prop :=
  match e with
  | RAdd a b | RMul a b => cond env a /\ cond env b
  | ROpp a | RPow a _ | RMulN a _ => cond env a
  | RInv a => cond env a /\ nz env (fr a).1
  | _ => True
  end.
Lemma nzP env e : nz env e -> ev env e != 0.
Proof.
elim: e => //= [_|a IHa|a IHa b IHb|a IHa n]; rewrite ?oner_eq0 //.
- by move/IHa; rewrite oppr_eq0.
- by case=> /IHa na /IHb nb; rewrite mulf_neq0.
- by move/IHa => na; rewrite expf_neq0.
Qed.
Lemma frP env e : cond env e -> ev env (fr e).2 != 0 /\ ev env e = ev env (fr e).1 / ev env (fr e).2.
Proof.
elim: e => [n||| a IHa b IHb|a IHa|a IHa b IHb|a IHa n|n|a IHa n|a IHa] /=;
  rewrite ?oner_eq0 ?divr1 //.
- case=> /IHa + /IHb; case: (fr a) => n d; case: (fr b) => m c /= [nd ->] [nc ->].
  by rewrite !rmulE; split; [rewrite mulf_neq0 | rewrite addf_div].
- by move/IHa; case: (fr a) => n d /= [nd ->]; rewrite mulNr.
- case=> /IHa + /IHb; case: (fr a) => n d; case: (fr b) => m c /= [nd ->] [nc ->].
  by rewrite !rmulE; split; [rewrite mulf_neq0 | rewrite mulf_div].
- by move/IHa; case: (fr a) => m d /= [nd ->]; rewrite rpowE expf_neq0 // expr_div_n.
- by move/IHa; case: (fr a) => m d /= [nd ->]; rewrite mulrnAl.
- by case=> /IHa; case: (fr a) => m d /= [nd ->] /nzP nm; rewrite nm invf_div.
Qed.
Definition feq (e f : rexp) : bool :=
  req (RMul (fr e).1 (fr f).2) (RMul (fr f).1 (fr e).2).
Lemma feq_sound env e f : feq e f -> cond env e -> cond env f -> ev env e = ev env f.
Proof.
move=> /(@req_sound R GRing.inv env) /= H /frP[n1 ->] /frP[n2 ->].
by apply/eqP; rewrite eqr_div //; apply/eqP.
Qed.
End Field.

Ltac r_atoms e l :=
  lazymatch e with
  | @GRing.add _ ?a ?b => let l := r_atoms a l in r_atoms b l
  | @GRing.opp _ ?a => r_atoms a l
  | @GRing.mul _ ?a ?b => let l := r_atoms a l in r_atoms b l
  | @GRing.inv _ ?a => r_atoms a l
  | @GRing.exp _ ?a ?n => r_atoms a l
  | @GRing.natmul _ (GRing.one _) ?n => l
  | @GRing.natmul _ ?a ?n => r_atoms a l
  | GRing.zero _ => l
  | GRing.one _ => l
  | _ => z_add e l
  end.
Ltac r_quote e l :=
  lazymatch e with
  | @GRing.add _ ?a ?b => let x := r_quote a l in let y := r_quote b l in constr:(RAdd x y)
  | @GRing.opp _ ?a => let x := r_quote a l in constr:(ROpp x)
  | @GRing.mul _ ?a ?b => let x := r_quote a l in let y := r_quote b l in constr:(RMul x y)
  | @GRing.inv _ ?a => let x := r_quote a l in constr:(RInv x)
  | @GRing.exp _ ?a ?n => let x := r_quote a l in constr:(RPow x n)
  | @GRing.natmul _ (GRing.one _) ?n => constr:(RNat n)
  | @GRing.natmul _ ?a ?n => let x := r_quote a l in constr:(RMulN x n)
  | GRing.zero _ => constr:(RZero)
  | GRing.one _ => constr:(ROne)
  | _ => let n := z_index e l in constr:(RAtom n)
  end.
(** Equalities that hold in every commutative ring. *)
Ltac mring :=
  lazymatch goal with
  | |- @eq ?T ?a ?b =>
      let l := r_atoms a (@nil T) in
      let l := r_atoms b l in
      let x := r_quote a l in
      let y := r_quote b l in
      exact (@req_sound _ (fun z => z) l x y isT)
  end.
(** Equalities that hold in every field, up to conditions. *)
Ltac mfield :=
  lazymatch goal with
  | |- @eq ?T ?a ?b =>
      let l := r_atoms a (@nil T) in
      let l := r_atoms b l in
      let x := r_quote a l in
      let y := r_quote b l in
      apply: (@feq_sound _ l x y isT); rewrite /cond /nz /rev_ /=; repeat split; try done
  end.
Section Test.
Variable R : fieldType.
Lemma r_test (a b c : R) : (a + b) * (a - b) + 2%:R * c = a ^+ 2 - b * b + c *+ 2.
Proof. mring. Qed.
Lemma f_test (a b c : R) : a != 0 -> b + c != 0 -> (b / a + c * a^-1) / (b + c) ^+ 2 = (a * (b + c))^-1.
Proof. move=> a0 bc; mfield. Qed.
End Test.
From mathcomp Require Import all_ssreflect all_algebra.
Section Test2.
Variable R : rcfType.
Lemma r_test2 (a b c : R) : (a + b) * (a - b) + 2%:R * c = a ^+ 2 - b * b + c *+ 2.
Proof. mring. Qed.
Lemma f_test2 (a b c : R) : a != 0 -> b + c != 0 -> (b / a + c * a^-1) / (b + c) ^+ 2 = (a * (b + c))^-1.
Proof. move=> a0 bc; mfield. Qed.
End Test2.
