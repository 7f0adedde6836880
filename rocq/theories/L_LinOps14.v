(** Ill-shaped sums and products of linear operators are rejected, unless broadcasting of
    matrices with a single row or column or the simplification of a Selection times an
    Embedding interfere. *)
From mathcomp Require Import all_ssreflect all_algebra.
From Verif Require Import M_DMx L_DMx M_LinOps L_LinOps L_LinOps2 L_LinOps3
  L_LinOps4 L_LinOps5 L_LinOps6 L_LinOps7 L_LinOps8.
Set Implicit Arguments.
Unset Strict Implicit.
Unset Printing Implicit Defensive.
Import Order.Theory GRing.Theory Num.Theory.
Local Open Scope ring_scope.

Section Ops.
Variable R : rcfType.
Local Notation dmx := (dmx R).
Local Notation op := (op R).
Variable trk : bool.
Local Notation ok := (@L_LinOps2.ok R trk).
Implicit Types (o a b : op) (l : seq op).

Definition wide1 o : bool :=
  match o with
  | Mat _ _ | ScC _ _ _ | ScV _ _ => (1 < rows o)%N && (1 < cols o)%N
  | Emb _ _ _ _ _ => false
  | _ => true
  end.
(** No Matrix or Scaling inside the operator has a single row or column, and there is no
    Embedding inside. *)
Definition wide o : bool := deep wide1 o.

Lemma bdim_wide m n p : (1 < m)%N -> (1 < n)%N -> bdim m n = Some p -> m = n.
Proof. by rewrite /bdim; case: eqP => // _ /gtn_eqF -> /gtn_eqF ->. Qed.
Lemma bcast_wide h (A B D : dmx) : (1 < drow A)%N -> (1 < drow B)%N -> (1 < dcol A)%N ->
  (1 < dcol B)%N -> bcast h A B = Some D -> dshape A = dshape B.
Proof.
move=> a1 b1 a2 b2; rewrite /bcast /dshape; case e1: (bdim (drow A) _) => [m|] //.
case e2: (bdim (dcol A) _) => [n|] // _.
by rewrite (bdim_wide a1 b1 e1) (bdim_wide a2 b2 e2).
Qed.
Lemma sum2_shape a b r : sum_ [:: a; b] = Some r -> shape a = shape b.
Proof. by rewrite /sum_ /= eqxx andbT /=; case: eqP. Qed.

Section Add.
Variable same : op -> op -> bool.
Hypothesis same_ok : forall a b, same a b -> a = b.
Lemma is_eq_shape a b : is_eq same a b = Some true -> shape a = shape b.
Proof.
rewrite /is_eq; case: ifP => [/same_ok ->|_] //.
have S (x y : op) : is_scaling x -> is_scaling y -> Some (factors x == factors y) = Some true -> shape x = shape y.
  move=> sx sy [] /eqP e; have : size (factors x) = size (factors y) by rewrite e.
  by case: x sx {e} => //= [f n c|f d] _; case: y sy => //= [g n' c'|g d'] _; rewrite ?size_nseq => ->.
case: a => [f A|f A|f n|f n c|f d|f m n|f n i|f m t q v|f a1 a2|f n a1|f a1 a2 i|f n|f a1
  |f a1|f c a1|f a1|f l|f l|f l]; case: b => [g B|g B|g n'|g n' c'|g d'|g m' n'|g n' i'|g m' t' q' v'|g b1 b2|g n' b1|g b1 b2 i'|g n'|g b1
  |g b1|g c' b1|g b1|g l'|g l'|g l'] //;
  try (by apply: S); rewrite /= ; try (by case: eqP); try (by move=> [] /deqP ->); by move=> [] /eqP ->.
Qed.
Definition arej (f : op -> op -> option op) a : Prop :=
  forall k b r, ok k a -> ok k b -> wide a -> wide b -> f a b = Some r -> shape a = shape b.
Lemma core_rej f h fb k a b r : ok k a -> ok k b ->
  (forall g A B, a = Kro g A B -> arej f A /\ arej f B) ->
  (forall g n B, a = IdK g n B -> arej f B) ->
  (forall r, fb = Some r -> shape a = shape b) ->
  wide a -> wide b -> core same f h fb a b = Some r -> shape a = shape b.
Proof.
move=> oa ob H1 H2 Hf wa wb; rewrite /core; case: ifP => [_|_].
  by rewrite /scaling2; case: eqP.
case: a oa H1 H2 Hf wa => [f' A|f' A|f' n|f' n c|f' d|f' m n|f' n i|f' m t q v|f' a1 a2|f' n a1|f' a1 a2 i|f' n|f' a1
  |f' a1|f' c a1|f' a1|f' l|f' l|f' l] oa H1 H2 Hf wa; try by move/Hf.
- case: b ob wb Hf => [g B|g B|g n'|g n' c'|g d'|g m' n'|g n' i'|g m' t' q' v'|g b1 b2|g n' b1|g b1 b2 i'|g n'|g b1
  |g b1|g c' b1|g b1|g l'|g l'|g l'] ob wb Hf; try by move/Hf.
  case e: (bcast h A B) => [D|] //= _; move: wa wb; rewrite /wide /= !andbT /rows /cols /= => /andP[a1 a2] /andP[b1 b2].
  exact: (bcast_wide a1 b1 a2 b2 e).
- case: b ob wb Hf => [g B|g B|g n'|g n' c'|g d'|g m' n'|g n' i'|g m' t' q' v'|g b1 b2|g n' b1|g b1 b2 i'|g n'|g b1
  |g b1|g c' b1|g b1|g l'|g l'|g l'] ob wb Hf; try by move/Hf.
  have [r1 r2] := H1 _ _ _ erefl; have [oa1 oa2] := ok_kro oa; have [ob1 ob2] := ok_kro ob; case/andP: wa => _ /andP[w1 w2]; case/andP: wb => _ /andP[v1 v2].
  rewrite /kro2; case e: (is_eq same a1 b1) => [[]|] //.
    have s1 := is_eq_shape e; case e2: (f a2 b2) => [x|] //= _.
    by rewrite s1 (r2 _ _ _ oa2 ob2 w2 v2 e2).
  case e2: (is_eq same a2 b2) => [[]|] //; last by move/Hf.
  have s2 := is_eq_shape e2; case e3: (f a1 b1) => [x|] //= _.
  by rewrite s2 (r1 _ _ _ oa1 ob1 w1 v1 e3).
- case: b ob wb Hf => [g B|g B|g n'|g n' c'|g d'|g m' n'|g n' i'|g m' t' q' v'|g b1 b2|g n' b1|g b1 b2 i'|g n'|g b1
  |g b1|g c' b1|g b1|g l'|g l'|g l'] ob wb Hf; try by move/Hf.
  case: eqP => [<-|_]; last by move/Hf.
  have r1 := H2 _ _ _ erefl; have [_ oa1] := ok_idk oa; have [_ ob1] := ok_idk ob; case e: (f a1 b1) => [x|] //= _.
  by case/andP: wa => _ w1; case/andP: wb => _ v1; rewrite (r1 _ _ _ oa1 ob1 w1 v1 e).
Qed.
Lemma zeros_rej a b za zb mid r :
  (mid = Some r -> shape a = shape b) -> zeros a b za zb mid = Some r -> shape a = shape b.
Proof. by rewrite /zeros => H; case: ifP => _; [case: eqP|case: ifP => _; [case: eqP|]]. Qed.
Lemma add_rejects a : arej (add same) a.
Proof.
elim/op_rect': a.
9: by move=> g A B IHA IHB k b r oa ob wa wb; rewrite addE; apply: zeros_rej; apply: (core_rej oa ob) => //;
   [move=> ? ? ? [_ <- <-]|move=> ?; exact: sum2_shape].
9: by move=> g n B IHB k b r oa ob wa wb; rewrite addE; apply: zeros_rej; apply: (core_rej oa ob) => //;
   [move=> ? ? ? [_ _ <-]|move=> ?; exact: sum2_shape].
all: move=> * k b r oa ob wa wb; rewrite addE; apply: zeros_rej; apply: (core_rej oa ob) => //;
   move=> ?; exact: sum2_shape.
Qed.
Lemma neg_sum2 k a b r : ok k b -> sum_ [:: a; neg b] = Some r -> shape a = shape b.
Proof. by move=> ob /sum2_shape ->; rewrite (neg_shape ob). Qed.
Lemma sub_rejects a : arej (sub same) a.
Proof.
elim/op_rect': a.
9: by move=> g A B IHA IHB k b r oa ob wa wb; rewrite L_LinOps7.subE; apply: zeros_rej; apply: (core_rej oa ob) => //;
   [move=> ? ? ? [_ <- <-]|move=> ?; exact: (neg_sum2 ob)].
9: by move=> g n B IHB k b r oa ob wa wb; rewrite L_LinOps7.subE; apply: zeros_rej; apply: (core_rej oa ob) => //;
   [move=> ? ? ? [_ _ <-]|move=> ?; exact: (neg_sum2 ob)].
all: move=> * k b r oa ob wa wb; rewrite L_LinOps7.subE; apply: zeros_rej; apply: (core_rej oa ob) => //;
   move=> ?; exact: (neg_sum2 ob).
Qed.
End Add.

Section Mul.
Variable lazy : bool.
Local Notation mm := (@mm R lazy).
Lemma prd2_shape a b r : prd_ [:: a; b] = Some r -> cols a = rows b.
Proof. by rewrite /prd_ /= andbT; case: eqP. Qed.
Definition mrej n : Prop := forall a b r, (osize a + osize b <= n)%N ->
  wide a -> wide b -> mm a b = Some r -> cols a = rows b.
Lemma zi_rej a b mid r : (mid = Some r -> cols a = rows b) -> zi a b mid = Some r -> cols a = rows b.
Proof.
rewrite /zi => H; case: ifP => _; first by case: eqP.
case: ifP => _; first by case: eqP.
case: ifP => _; first by case: eqP.
by case: ifP => _; first by case: eqP.
Qed.
Lemma arr_rej (x : dmx) b r : omap (@mat R) (arr_op x b) = Some r -> dcol x = rows b.
Proof. by rewrite /arr_op; case: eqP. Qed.
Lemma opa_rej (x : dmx) a r : omap (@mat R) (op_arr a x) = Some r -> cols a = drow x.
Proof. by rewrite /op_arr; case: eqP. Qed.
Lemma scal_rows a : is_scaling a -> rows a = cols a. Proof. by case: a. Qed.
Lemma mm2_rej n a b r : mrej n -> (osize a + osize b <= n.+1)%N -> wide a -> wide b ->
  mm2 lazy a b = Some r -> cols a = rows b.
Proof.
move=> IH sz wa wb.
case: a sz wa => [f' A|f' A|f' p|f' p c|f' d|f' m p|f' p i|f' m t q v|f' a1 a2|f' p a1|f' a1 a2 i|f' p|f' a1
  |f' a1|f' c a1|f' a1|f' l|f' l|f' l] sz wa //; try exact: prd2_shape.
- case: b wb {sz} => [g B|g B|g n'|g n' c'|g d'|g m' n'|g n' i'|g m' t' q' v'|g b1 b2|g n' b1|g b1 b2 i'|g n'|g b1
  |g b1|g c' b1|g b1|g l'|g l'|g l'] wb //; try exact: prd2_shape; rewrite /mm2; try exact: arr_rej;
  try by (case: ifP => _; [exact: prd2_shape|exact: arr_rej]).
  + by case: ifP => _; [exact: prd2_shape|case: eqP].
  + case e: (bcast _ _ _) => [D|] // _; move: e wa wb; rewrite /bcast /wide /= !andbT /rows /cols /=.
    case: (bdim _ 1%N) => // x; case e: (bdim _ _) => [y|] // _ /andP[_ a1] /andP[_ b1].
    by rewrite (bdim_wide a1 b1 e).
  + case e: (bcast _ _ _) => [D|] // _; move: e wa wb; rewrite /bcast /wide /= !andbT /rows /cols /=.
    case: (bdim _ 1%N) => // x; case e: (bdim _ _) => [y|] // _ /andP[_ a1] /andP[_ b1].
    by rewrite (bdim_wide a1 b1 e).
- case: b wb {sz} => [g B|g B|g n'|g n' c'|g d'|g m' n'|g n' i'|g m' t' q' v'|g b1 b2|g n' b1|g b1 b2 i'|g n'|g b1
  |g b1|g c' b1|g b1|g l'|g l'|g l'] wb //; try exact: prd2_shape; rewrite /mm2 ?/scaling2; try by case: eqP.
  + case e: (bcast _ _ _) => [D|] // _; move: e wa wb; rewrite /bcast /wide /= !andbT /rows /cols /=.
    case e: (bdim _ _) => [y|] // _ /andP[_ a1] /andP[b1 _].
    by rewrite (bdim_wide a1 b1 e).
  + by case: eqP => // [[]].
  + by case: eqP => // [[]].
- case: b wb {sz} => [g B|g B|g n'|g n' c'|g d'|g m' n'|g n' i'|g m' t' q' v'|g b1 b2|g n' b1|g b1 b2 i'|g n'|g b1
  |g b1|g c' b1|g b1|g l'|g l'|g l'] wb //; try exact: prd2_shape; rewrite /mm2 ?/scaling2; try by case: eqP.
  + case e: (bcast _ _ _) => [D|] // _; move: e wa wb; rewrite /bcast /wide /= !andbT /rows /cols /=.
    case e: (bdim _ _) => [y|] // _ /andP[_ a1] /andP[b1 _].
    by rewrite (bdim_wide a1 b1 e).
  + by case: eqP => // [[]].
  + by case: eqP => // [[]].
- case: b wb {sz} => [g B|g B|g n'|g n' c'|g d'|g m' n'|g n' i'|g m' t' q' v'|g b1 b2|g n' b1|g b1 b2 i'|g n'|g b1
  |g b1|g c' b1|g b1|g l'|g l'|g l'] wb //; try exact: prd2_shape; rewrite /mm2; exact: opa_rej.
- case: b wb {sz} => [g B|g B|g n'|g n' c'|g d'|g m' n'|g n' i'|g m' t' q' v'|g b1 b2|g n' b1|g b1 b2 i'|g n'|g b1
  |g b1|g c' b1|g b1|g l'|g l'|g l'] wb //; try exact: prd2_shape; rewrite /mm2; by case: eqP.
- case: b wb {sz} => [g B|g B|g n'|g n' c'|g d'|g m' n'|g n' i'|g m' t' q' v'|g b1 b2|g n' b1|g b1 b2 i'|g n'|g b1
  |g b1|g c' b1|g b1|g l'|g l'|g l'] wb //; try exact: prd2_shape; rewrite /mm2; by case: eqP.
- case: b wb {sz} => [g B|g B|g n'|g n' c'|g d'|g m' n'|g n' i'|g m' t' q' v'|g b1 b2|g n' b1|g b1 b2 i'|g n'|g b1
  |g b1|g c' b1|g b1|g l'|g l'|g l'] wb //; try exact: prd2_shape; rewrite /mm2.
  by case: ifP => _; [exact: prd2_shape|exact: opa_rej].
- case: b wb {sz} => [g B|g B|g n'|g n' c'|g d'|g m' n'|g n' i'|g m' t' q' v'|g b1 b2|g n' b1|g b1 b2 i'|g n'|g b1
  |g b1|g c' b1|g b1|g l'|g l'|g l'] wb //; try exact: prd2_shape; rewrite /mm2.
  by case: ifP => _; [exact: prd2_shape|exact: opa_rej].
- rewrite /mm2; case: ifP => _; last exact: prd2_shape.
  by case e: (L_LinOps8.mm _ _ _) => [x|] // _; case/andP: wa => _ wa; exact: (IH _ _ _ _ wa wb e).
- rewrite /mm2; case: ifP => _; last exact: prd2_shape.
  by case e: (L_LinOps8.mm _ _ _) => [x|] // _; case/andP: wa => _ wa; exact: (IH _ _ _ _ wa wb e).
Qed.
Lemma mm1_rej n a b r : mrej n -> (osize a + osize b <= n.+1)%N -> wide a -> wide b ->
  mm1 lazy a b = Some r -> cols a = rows b.
Proof.
move=> IH sz wa wb; have H2 := mm2_rej IH sz wa wb.
case: b sz wb H2 => [g B|g B|g p'|g p' c'|g d'|g p' m'|g p' i'|g m' t' q' v'|g b1 b2|g p' b1
  |g b1 b2 i'|g p'|g b1|g b1|g c' b1|g b1|g l'|g l'|g l'] sz wb H2; try exact: H2.
- have Hb r' : omap (mul c') (mm a b1) = Some r' -> cols a = rows (Sca g c' b1).
    case e: (L_LinOps8.mm _ _ _) => [x|] // _; case/andP: (wb) => _ wb'.
    by apply: (IH _ _ _ _ wa wb' e); move: sz; rewrite /= addnS ltnS.
  rewrite /mm1; case: a sz wa Hb {H2} => [f A|f A|f p|f p c|f d|f m p|f p i|f m t q v|f a1 a2|f p a1
    |f a1 a2 i|f p|f a1|f a1|f c a1|f a1|f l|f l|f l] sz wa Hb; try exact: Hb; try exact: prd2_shape.
  case e: (L_LinOps8.mm _ _ _) => [x|] // _; case/andP: (wa) => _ wa'.
  by apply: (IH _ _ _ _ wa' wb e).
- rewrite /mm1; case: ifP => _; last exact: prd2_shape.
  case e: (L_LinOps8.mm _ _ _) => [x|] // _; case/andP: (wb) => _ wb'.
  by apply: (IH _ _ _ _ wa wb' e); move: sz; rewrite /= addnS ltnS.
Qed.
Lemma mrej_all n : mrej n.
Proof.
elim: n => [|n IH] a b r sz wa wb.
  by move: sz; rewrite leqn0 addn_eq0 (gtn_eqF (osize_gt0 a)).
by rewrite mmE; apply: zi_rej; exact: (mm1_rej IH).
Qed.
Lemma matmul_rejects a b r : wide a -> wide b -> matmul lazy a b = Some r -> cols a = rows b.
Proof. by move=> wa wb; exact: (mrej_all (leqnn _) wa wb). Qed.
End Mul.
End Ops.
