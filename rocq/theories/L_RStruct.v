(** The real numbers of the standard library as a real closed field of mathcomp.  Uses the axioms of the reals and,
    for the choice operator, [epsilon] of the standard library. *)
From Coq Require Import Reals Epsilon FunctionalExtensionality Lra.
From Coquelicot Require Import Coquelicot.
From mathcomp Require Import all_ssreflect all_algebra.
Set Implicit Arguments.
Unset Strict Implicit.
Unset Printing Implicit Defensive.
Local Open Scope R_scope.

Definition eqr (x y : R) : bool := if Req_EM_T x y is left _ then true else false.
Lemma eqrP : Equality.axiom eqr.
Proof. by move=> x y; rewrite /eqr; case: Req_EM_T => h; constructor. Qed.
Canonical R_eqMixin := EqMixin eqrP.
Canonical R_eqType := Eval hnf in EqType R R_eqMixin.

Fact inhR : inhabited R. Proof. exact: (inhabits 0). Qed.
Definition pickR (P : pred R) (n : nat) : option R := let x := epsilon inhR P in if P x then Some x else None.
Fact pickR_some P n x : pickR P n = Some x -> P x.
Proof. by rewrite /pickR; case: ifP => // h [<-]. Qed.
Fact pickR_ex (P : pred R) : (exists x, P x) -> exists n, pickR P n.
Proof. by move=> h; exists 0%nat; rewrite /pickR (epsilon_spec inhR (fun x => P x) h). Qed.
Fact pickR_ext P Q : P =1 Q -> pickR P =1 pickR Q.
Proof. by move=> h n; have -> : P = Q by apply: functional_extensionality. Qed.
Definition R_choiceMixin := Choice.Mixin pickR_some pickR_ex pickR_ext.
Canonical R_choiceType := Eval hnf in ChoiceType R R_choiceMixin.

Fact RplusA : associative Rplus. Proof. by move=> x y z; lra. Qed.
Fact RplusC : commutative Rplus. Proof. by move=> x y; lra. Qed.
Fact Rplus0 : left_id 0 Rplus. Proof. by move=> x; lra. Qed.
Fact RplusN : left_inverse 0 Ropp Rplus. Proof. by move=> x; lra. Qed.
Definition R_zmodMixin := ZmodMixin RplusA RplusC Rplus0 RplusN.
Canonical R_zmodType := Eval hnf in ZmodType R R_zmodMixin.
Fact RmultA : associative Rmult. Proof. by move=> x y z; ring. Qed.
Fact RmultC : commutative Rmult. Proof. by move=> x y; ring. Qed.
Fact Rmult1 : left_id 1 Rmult. Proof. by move=> x; ring. Qed.
Fact Rmult_dist : left_distributive Rmult Rplus. Proof. by move=> x y z; ring. Qed.
Fact R1_neq0 : 1 != 0 :> R. Proof. by apply/eqP; exact: R1_neq_R0. Qed.
Definition R_ringMixin := ComRingMixin RmultA RmultC Rmult1 Rmult_dist R1_neq0.
Canonical R_ringType := Eval hnf in RingType R R_ringMixin.
Canonical R_comRingType := Eval hnf in ComRingType R RmultC.
Definition Rinvx (x : R) : R := if x != 0 then / x else 0.
Fact RmulV (x : R) : x != 0 -> Rinvx x * x = 1.
Proof. by move=> h; rewrite /Rinvx h; apply: Rinv_l; exact/eqP. Qed.
Fact Rinv0 : Rinvx 0 = 0. Proof. by rewrite /Rinvx eqxx. Qed.
Definition R_unitRingMixin := FieldUnitMixin RmulV Rinv0.
Canonical R_unitRingType := Eval hnf in UnitRingType R R_unitRingMixin.
Canonical R_comUnitRingType := Eval hnf in [comUnitRingType of R].
Fact R_field : GRing.Field.mixin_of R_unitRingType. Proof. by []. Qed.
Definition R_idomainMixin := FieldIdomainMixin R_field.
Canonical R_idomainType := Eval hnf in IdomainType R R_idomainMixin.
Canonical R_fieldType := Eval hnf in FieldType R R_field.

Definition Rleb (x y : R) : bool := if Rle_dec x y is left _ then true else false.
Definition Rltb (x y : R) : bool := if Rlt_dec x y is left _ then true else false.
Lemma RlebP x y : reflect (x <= y) (Rleb x y).
Proof. by rewrite /Rleb; case: Rle_dec => h; constructor. Qed.
Lemma RltbP x y : reflect (x < y) (Rltb x y).
Proof. by rewrite /Rltb; case: Rlt_dec => h; constructor. Qed.
Fact Rle0_add x y : Rleb 0 x -> Rleb 0 y -> Rleb 0 (x + y).
Proof. by move=> /RlebP h /RlebP k; apply/RlebP; lra. Qed.
Fact Rle0_mul x y : Rleb 0 x -> Rleb 0 y -> Rleb 0 (x * y).
Proof. by move=> /RlebP h /RlebP k; apply/RlebP; apply: Rmult_le_pos. Qed.
Fact Rle0_anti x : Rleb 0 x -> Rleb x 0 -> x = 0.
Proof. by move=> /RlebP h /RlebP k; lra. Qed.
Fact Rsub_ge0 x y : Rleb 0 (y - x) = Rleb x y.
Proof. by apply/RlebP/RlebP; lra. Qed.
Fact Rle0_total x : Rleb 0 x || Rleb x 0.
Proof. by apply/orP; case: (Rle_or_lt 0 x) => h; [left|right]; apply/RlebP; lra. Qed.
Fact RnormN (x : R) : Rabs (- x) = Rabs x. Proof. exact: Rabs_Ropp. Qed.
Fact Rge0_norm x : Rleb 0 x -> Rabs x = x.
Proof. by move=> /RlebP h; apply: Rabs_pos_eq. Qed.
Fact Rlt_def x y : Rltb x y = (y != x) && Rleb x y.
Proof.
apply/RltbP/andP => [h|[/eqP n /RlebP h]]; last by lra.
by split; [apply/eqP; lra|apply/RlebP; lra].
Qed.
Definition R_realMixin : realLeMixin R_idomainType :=
  RealLeMixin Rle0_add Rle0_mul Rle0_anti Rsub_ge0 Rle0_total RnormN Rge0_norm Rlt_def.
Canonical R_porderType := Eval hnf in POrderType ring_display R R_realMixin.
Canonical R_latticeType := Eval hnf in LatticeType R R_realMixin.
Canonical R_distrLatticeType := Eval hnf in DistrLatticeType R R_realMixin.
Canonical R_orderType := Eval hnf in OrderType R R_realMixin.
Canonical R_numDomainType := Eval hnf in NumDomainType R R_realMixin.
Canonical R_normedZmodType := Eval hnf in NormedZmodType R R R_realMixin.
Canonical R_numFieldType := Eval hnf in [numFieldType of R].
Canonical R_realDomainType := Eval hnf in [realDomainType of R].
Canonical R_realFieldType := Eval hnf in [realFieldType of R].

Import Order.Theory GRing.Theory Num.Theory.
Lemma leRP (x y : R) : reflect (Rle x y) (x <= y)%R.
Proof. exact: RlebP. Qed.
Lemma ltRP (x y : R) : reflect (Rlt x y) (x < y)%R.
Proof. exact: RltbP. Qed.
Lemma natRE n : (n%:R)%R = INR n.
Proof. by elim: n => // n IH; rewrite S_INR -IH -addn1 natrD. Qed.
Lemma horner_cont (p : {poly R}) x : continuity_pt (fun t => (p.[t])%R) x.
Proof.
elim/poly_ind: p => [|p c IH].
  apply: (continuity_pt_ext (fun=> 0)) => [t|]; first by rewrite horner0.
  exact: continuity_pt_const.
apply: (continuity_pt_ext (fun t => (p.[t])%R * t + c)) => [t|]; first by rewrite hornerD hornerM hornerX hornerC.
apply: continuity_pt_plus; last exact: continuity_pt_const.
by apply: continuity_pt_mult => //; exact: continuity_pt_id.
Qed.
Fact R_ivt : Num.real_closed_axiom R_numDomainType.
Proof.
move=> p a b /leRP ab /andP [/leRP pa /leRP pb].
have /IVT_cor : continuity (fun t => (p.[t])%R) by move=> x; exact: horner_cont.
move/(_ a b ab) => [|z [[h1 h2] h3]].
  by have := Rmult_le_pos _ _ (Ropp_0_ge_le_contravar _ (Rle_ge _ _ pa)) pb; move: pa pb; rewrite /=; set u := p.[a]%R; set v := p.[b]%R; lra.
by exists z; [apply/andP; split; apply/leRP|apply/eqP].
Qed.
Canonical R_rcfType := RcfType R R_ivt.
