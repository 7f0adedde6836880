(** C115: sums, products and non-negative multiples of positive semi-definite kernels give positive
    semi-definite covariance matrices; the kernels [Linear], [Polynomial] and [WhiteNoise]. *)
From mathcomp Require Import all_ssreflect all_algebra.
From Verif Require Import L_Ring M_CovFunc L_CovFunc P_CovFunc M_Kernels P_Kernels.
Set Implicit Arguments.
Unset Strict Implicit.
Unset Printing Implicit Defensive.
Import Order.Theory GRing.Theory Num.Theory.
Local Open Scope ring_scope.

(** ** The Schur product theorem *)
Section Schur.
Variable R : realFieldType.
Implicit Types (A B : nat -> nat -> R) (c v : nat -> R).
Definition quad n A c : R := \sum_(r < n) \sum_(s < n) c r * c s * A r s.
Definition semi n A : Prop :=
  (forall r s, (r < n)%N -> (s < n)%N -> A r s = A s r) /\ (forall c, 0 <= quad n A c).
Lemma quadS n A c : (forall r s, (r < n.+1)%N -> (s < n.+1)%N -> A r s = A s r) ->
  quad n.+1 A c = quad n A c + 2%:R * (c n * \sum_(r < n) c r * A r n) + c n ^+ 2 * A n n.
Proof.
move=> sA; rewrite /quad big_ord_recr /= big_ord_recr /=.
have -> : \sum_(r < n) \sum_(s < n.+1) c r * c s * A r s =
  \sum_(r < n) \sum_(s < n) c r * c s * A r s + c n * \sum_(r < n) c r * A r n.
  rewrite mulr_sumr -big_split /=; apply: eq_bigr => r _; rewrite big_ord_recr /=; congr (_ + _).
  by mring.
have -> : \sum_(s < n) c n * c s * A n s = c n * \sum_(r < n) c r * A r n.
  by rewrite mulr_sumr; apply: eq_bigr => r _; rewrite (sA n r) // ?mulrA // (ltn_trans (ltn_ord r)).
have E (a b d e : R) : a + d * b + (d * b + d * d * e) = a + 2%:R * (d * b) + d ^+ 2 * e by mring.
exact: E.
Qed.
Lemma quad_eq n A A' c c' : (forall r s, (r < n)%N -> (s < n)%N -> c r * c s * A r s = c' r * c' s * A' r s) -> quad n A c = quad n A' c'.
Proof. by move=> h; apply: eq_bigr => r _; apply: eq_bigr => s _; apply: h. Qed.
Lemma quadD n A B c : quad n (fun r s => A r s + B r s) c = quad n A c + quad n B c.
Proof.
rewrite /quad -big_split; apply: eq_bigr => r _; rewrite -big_split; apply: eq_bigr => s _.
by rewrite /= mulrDr.
Qed.
Lemma quadZ n a A c : quad n (fun r s => a * A r s) c = a * quad n A c.
Proof.
rewrite /quad mulr_sumr; apply: eq_bigr => r _; rewrite mulr_sumr; apply: eq_bigr => s _.
by rewrite mulrCA.
Qed.
(** A vanishing diagonal entry. *)
Lemma semi_diag0 n A r : semi n.+1 A -> A n n = 0 -> (r < n)%N -> A r n = 0.
Proof.
move=> [sA pA] a0 rn; apply/eqP/negPn/negP => b0.
pose s := - (A r r + 1) / (2%:R * A r n).
have := pA (fun j => if j == n then s else (j == r)%:R); rewrite quadS //.
have -> : quad n A (fun j => if j == n then s else (j == r)%:R) = A r r.
  rewrite /quad (bigD1 (Ordinal rn)) //= [X in _ + X]big1 => [|j jr].
    rewrite addr0 (bigD1 (Ordinal rn)) //= [X in _ + X]big1 => [|j jr].
      by rewrite addr0 (ltn_eqF rn) eqxx !mul1r.
    by rewrite (ltn_eqF (ltn_ord j)) -[(nat_of_ord j == r)]/(j == Ordinal rn) (negPf jr) mulr0 mul0r.
  rewrite big1 // => k _.
  by rewrite (ltn_eqF (ltn_ord j)) -[(nat_of_ord j == r)]/(j == Ordinal rn) (negPf jr) !mul0r.
have -> : \sum_(k < n) (if k == n :> nat then s else (k == r :> nat)%:R) * A k n = A r n.
  rewrite (bigD1 (Ordinal rn)) //= [X in _ + X]big1 => [|j jr].
    by rewrite addr0 (ltn_eqF rn) eqxx mul1r.
  by rewrite (ltn_eqF (ltn_ord j)) -[(nat_of_ord j == r)]/(j == Ordinal rn) (negPf jr) mul0r.
rewrite eqxx a0 mulr0 addr0 /s.
have n2 : 2%:R != 0 :> R by rewrite pnatr_eq0.
have -> : A r r + 2%:R * (- (A r r + 1) / (2%:R * A r n) * A r n) = - 1 by move: (A r r) (A r n) b0 => x y b0; mfield.
by rewrite oppr_ge0 ler10.
Qed.
(** The Schur complement of the last diagonal entry. *)
Definition schur n A : nat -> nat -> R := fun r s => A r s - A r n * A s n / A n n.
Lemma semi_last n A : semi n.+1 A -> 0 <= A n n.
Proof.
move=> [sA pA]; have := pA (fun j => (j == n)%:R); rewrite quadS //.
have z (r : 'I_n) : (nat_of_ord r == n) = false by rewrite ltn_eqF.
rewrite /quad big1 => [|r _]; last by rewrite big1 // => s _; rewrite z !mul0r.
by rewrite big1 => [|r _]; [rewrite eqxx mulr0 mulr0 !add0r expr1n mul1r|rewrite z mul0r].
Qed.
Lemma semi_schur n A : semi n.+1 A -> semi n (schur n A).
Proof.
move=> h; have [sA pA] := h; split=> [r s rn sn|c].
  by rewrite /schur (sA r s) ?ltnS ?(ltnW rn) ?(ltnW sn) //; congr (_ - _ / _); rewrite mulrC.
pose b := \sum_(r < n) c r * A r n.
have -> : quad n (schur n A) c = quad n A c - b ^+ 2 / A n n.
  have -> : b ^+ 2 / A n n = quad n (fun r s => A r n * A s n / A n n) c.
    rewrite expr2 /b mulr_suml mulr_suml; apply: eq_bigr => r _.
    rewrite mulr_sumr mulr_suml; apply: eq_bigr => s _; move: (_^-1) => z; by mring.
  rewrite -mulN1r -quadZ -quadD; apply: quad_eq => r s _ _; by rewrite /schur mulN1r.
have [a0|a0] := eqVneq (A n n) 0.
  rewrite a0 invr0 mulr0 subr0; have := pA (fun j => if j == n then 0 else c j); rewrite quadS // eqxx mul0r mulr0 addr0 expr0n mul0r addr0.
  by rewrite (@quad_eq n A A _ c) // => r s rn sn; rewrite !ltn_eqF.
have := pA (fun j => if j == n then - b / A n n else c j); rewrite quadS // eqxx.
rewrite (@quad_eq n A A _ c); last by move=> r s rn sn; rewrite !ltn_eqF.
have -> : \sum_(r < n) (if r == n :> nat then - b / A n n else c r) * A r n = b.
  by apply: eq_bigr => r _; rewrite ltn_eqF.
have E (x y : R) : y != 0 -> x + 2%:R * (- b / y * b) + (- b / y) ^+ 2 * y = x - b ^+ 2 / y by move=> ?; mfield.
by rewrite E.
Qed.
Theorem schur_product n A B : semi n A -> semi n B -> semi n (fun r s => A r s * B r s).
Proof.
move=> hA hB; split=> [r s rn sn|c]; first by rewrite hA.1 // hB.1.
elim: n A hA hB c => [|n IH] A hA hB c; first by rewrite /quad big_ord0.
have [sA pA] := hA; have [sB pB] := hB.
have hB' : semi n B.
  split=> [r s rn sn|d]; first by rewrite sB // ltnW.
  have := pB (fun j => if j == n then 0 else d j); rewrite quadS // eqxx mul0r mulr0 addr0 expr0n mul0r addr0.
  by rewrite (@quad_eq n B B _ d) // => r s rn sn; rewrite !ltn_eqF.
have z r : (r < n.+1)%N -> schur n A r n = 0.
  rewrite /schur ltnS leq_eqVlt => /orP[/eqP ->|rn].
    have [->|a0] := eqVneq (A n n) 0; first by rewrite mul0r mul0r subr0.
    by rewrite mulfK // subrr.
  have [a0|a0] := eqVneq (A n n) 0; last by rewrite mulfK // subrr.
  by rewrite (semi_diag0 hA a0 rn) !mul0r subrr.
have -> : quad n.+1 (fun r s => A r s * B r s) c =
  quad n (fun r s => schur n A r s * B r s) c + (A n n)^-1 * quad n.+1 B (fun r => c r * A r n).
  have -> : quad n (fun r s => schur n A r s * B r s) c = quad n.+1 (fun r s => schur n A r s * B r s) c.
    rewrite [RHS]quadS => [|r s rn sn]; last first.
      by rewrite (sB s r) //; congr (_ * _); rewrite /schur (sA s r) //; congr (_ - _ / _); rewrite mulrC.
    rewrite z // mul0r mulr0 addr0 big1 ?mulr0 ?addr0 // => r _.
    by rewrite z ?mul0r ?mulr0 // ltnS ltnW.
  rewrite -quadZ [X in _ + X](@quad_eq _ _ (fun r s => (A n n)^-1 * (A r n * A s n) * B r s) _ c); last by move=> r s _ _; move: (_^-1) => w; mring.
  rewrite -quadD; apply: quad_eq => r s _ _; rewrite -mulrDl /schur; congr (_ * (_ * _)).
  by rewrite [_^-1 * _]mulrC subrK.
by rewrite addr_ge0 ?IH ?mulr_ge0 ?invr_ge0 ?pB ?(semi_last hA) //; exact: semi_schur.
Qed.
End Schur.

(** ** Positive semi-definite kernels *)
Section Kernels.
Variable R : rcfType.
Implicit Types (f g : kfun R) (i o : seq nat).
(** For all finite families of points and output indices. *)
Definition sized i o n (u : nat -> seq R) (p : nat -> seq nat) : Prop :=
  forall r, (r < n)%N -> size (u r) = prodn i /\ valid o (p r).
Definition psdk i o f : Prop :=
  forall n u p, sized i o n u p -> semi n (fun r s => f (u r) (u s) (p r) (p s)).
Lemma psdkD i o f g : psdk i o f -> psdk i o g -> psdk i o (fun u v p q => f u v p q + g u v p q).
Proof.
move=> hf hg n u p h; have [s1 p1] := hf n u p h; have [s2 p2] := hg n u p h.
by split=> [r s rn sn|c]; [rewrite s1 // s2|rewrite quadD addr_ge0].
Qed.
Lemma psdkM i o f g : psdk i o f -> psdk i o g -> psdk i o (fun u v p q => f u v p q * g u v p q).
Proof. by move=> hf hg n u p h; apply: schur_product; [exact: hf|exact: hg]. Qed.
Lemma psdkZ i o a f : 0 <= a -> psdk i o f -> psdk i o (fun u v p q => a * f u v p q).
Proof.
move=> a0 hf n u p h; have [s1 p1] := hf n u p h.
by split=> [r s rn sn|c]; [rewrite s1|rewrite quadZ mulr_ge0].
Qed.
Lemma psdkC i o a : 0 <= a -> psdk i o (fun _ _ _ _ => a).
Proof.
move=> a0 n u p _; split=> // c; have -> : quad n (fun _ _ => a) c = a * (\sum_(r < n) c r) ^+ 2.
  rewrite expr2 /quad mulr_suml mulr_sumr; apply: eq_bigr => r _.
  by rewrite !mulr_sumr; apply: eq_bigr => s _; rewrite mulrC.
by rewrite mulr_ge0 ?sqr_ge0.
Qed.
Lemma psdk_ext i o f g : (forall u v p q, f u v p q = g u v p q) -> psdk i o f -> psdk i o g.
Proof.
move=> e hf n u p h; have [s1 p1] := hf n u p h; split=> [r s rn sn|c]; first by rewrite -!e s1.
by rewrite (@quad_eq _ n _ (fun r s => f (u r) (u s) (p r) (p s)) c c) // => r s _ _; rewrite e.
Qed.
Lemma psdkX i o n f : psdk i o f -> psdk i o (fun u v p q => f u v p q ^+ n).
Proof.
move=> hf; elim: n => [|n IH].
  by refine (psdk_ext _ (@psdkC i o _ ler01)) => *; rewrite expr0.
by refine (psdk_ext _ (psdkM hf IH)) => *; rewrite exprS.
Qed.
(** Sums of products of features. *)
Lemma psdk_feature i o (T : Type) (l : seq T) (w : T -> R) (h : T -> seq R -> seq nat -> R) : (forall t, 0 <= w t) ->
  psdk i o (fun u v p q => \sum_(t <- l) w t * (h t u p * h t v q)).
Proof.
move=> w0; elim: l => [|t l IH].
  by refine (psdk_ext _ (@psdkC i o _ (lexx 0))) => *; rewrite big_nil.
refine (@psdk_ext _ _ (fun u v p q => w t * (h t u p * h t v q) + \sum_(t <- l) w t * (h t u p * h t v q)) _ _ _).
  by move=> *; rewrite big_cons.
refine (psdkD _ IH) => n u p _; split=> [r s _ _|c]; first by congr (_ * _); rewrite mulrC.
rewrite quadZ mulr_ge0 //.
have -> : quad n (fun r s => h t (u r) (p r) * h t (u s) (p s)) c = (\sum_(r < n) c r * h t (u r) (p r)) ^+ 2.
  rewrite expr2 /quad mulr_suml; apply: eq_bigr => r _; rewrite mulr_sumr; apply: eq_bigr => s _.
  by mring.
exact: sqr_ge0.
Qed.
Lemma psdk_dot i : psdk i [::] (fun u v _ _ => dotf i u v).
Proof.
refine (psdk_ext _ (@psdk_feature i [::] _ (indices i) (fun=> 1) (fun j u _ => ent i u j) (fun=> ler01))) => u v _ _.
by apply: eq_bigr => j _; rewrite mul1r.
Qed.
Theorem C115_linear i (c : R) : 0 <= c -> psdk i [::] (fun u v _ _ => dotf i u v + c).
Proof. by move=> c0; exact (psdkD (@psdk_dot i) (@psdkC _ _ _ c0)). Qed.
Theorem C115_polynomial i (c : R) n : 0 <= c -> psdk i [::] (fun u v _ _ => (dotf i u v + c) ^+ n).
Proof. by move=> c0; apply: psdkX; exact: C115_linear. Qed.
Theorem C115_white_noise i (c : R) : 0 <= c -> psdk i [::] (fun u v _ _ => if u == v then c else 0).
Proof.
move=> c0 n u p h.
have F := @psdk_feature i [::] _ (undup [seq u r | r <- iota 0 n]) (fun=> c) (fun w u _ => (u == w)%:R) (fun=> c0).
have [s1 p1] := F n u p h; split=> [r s _ _|d]; first by rewrite eq_sym.
rewrite (@quad_eq _ n _ (fun r s => \sum_(t <- undup [seq u r | r <- iota 0 n]) c * ((u r == t)%:R * (u s == t)%:R)) d d) //.
move=> r s rn sn; congr (_ * _).
rewrite (bigD1_seq (u r)) ?undup_uniq ?mem_undup ?map_f ?mem_iota //= eqxx mul1r big1 => [|t tr].
  by rewrite addr0 eq_sym; case: eqP; rewrite ?mulr1 ?mulr0.
by rewrite eq_sym (negPf tr) mul0r mulr0.
Qed.

(** ** Covariance matrices *)
Fixpoint scalars (e : expr R) : seq R :=
  match e with Atom _ => [::] | EAdd e e' | EMul e e' => scalars e ++ scalars e' | EScale c e => c :: scalars e end.
Lemma value_psd den i o (e : expr R) : All (fun k => psdk i o (den k)) (atoms e) -> all (>= 0) (scalars e) ->
  psdk i o (value den e).
Proof.
elim: e => [k|e IH e' IH'|e IH e' IH'|c e IH] /=; first by case.
- by move=> /All_cat [h h']; rewrite all_cat => /andP[g g']; apply: psdkD; [exact: IH|exact: IH'].
- by move=> /All_cat [h h']; rewrite all_cat => /andP[g g']; apply: psdkM; [exact: IH|exact: IH'].
by move=> h /andP[c0 g]; apply: psdkZ => //; exact: IH.
Qed.
Theorem C115_matrix den i o (e : expr R) k x s : All (fun k => user i i o o (den k) k) (atoms e) ->
  All (fun k => psdk i o (den k)) (atoms e) -> all (>= 0) (scalars e) ->
  build e = Some k -> prodn i != 0%N -> wf x -> shp x = s ++ i ->
  exists M, [/\ matrix k x None = Some M, shp M = [:: prodn (o ++ s); prodn (o ++ s)] &
    semi (prodn (o ++ s)) (fun r s => get 0 M [:: r; s])].
Proof.
move=> h1 h2 h3 h4 i0 wx ex.
have [M [m1 m2 m3]] := C29_matrix (x1 := None) (s1 := s) h1 h4 i0 wx ex wx ex.
exists M; split=> //.
have P := value_psd h2 h3.
pose idx r := nth [::] (indices (o ++ s)) r.
pose p r := take (size o) (idx r); pose b r := drop (size o) (idx r).
have I r : (r < prodn (o ++ s))%N -> [/\ valid o (p r), valid s (b r) & ravel (o ++ s) (p r ++ b r) = r].
  move=> /ravel_onto [a va ra]; have : idx r = a by rewrite /idx -ra nth_indices.
  have [c [d [ea vc vd]]] := valid_cat_split va; rewrite /p /b => ->.
  by rewrite ea take_size_cat ?drop_size_cat ?(valid_size vc) // -ea.
have ok : sized i o (prodn (o ++ s)) (fun r => pt i x (ravel s (b r))) p.
  by move=> r /I [h5 h6 _]; split=> //; exact: pt_size wx ex h6.
have E r t : (r < prodn (o ++ s))%N -> (t < prodn (o ++ s))%N ->
  get 0 M [:: r; t] = value den e (pt i x (ravel s (b r))) (pt i x (ravel s (b t))) (p r) (p t).
  by move=> /I [h5 h6 h7] /I [h8 h9 h10]; rewrite -m3 // h7 h10.
have [s1 p1] := P _ _ _ ok; split=> [r t rn tn|c]; first by rewrite !E // s1.
by rewrite (quad_eq (c' := c) (A' := fun r t => value den e (pt i x (ravel s (b r))) (pt i x (ravel s (b t))) (p r) (p t))) // => r t rn tn; rewrite E.
Qed.
(** An example: [Linear((2,), 1) * (3 * Linear((2,), 1)) + Linear((2,), 1)] at two points. *)
Example C115_example : let k1 := Base [:: 2%N] [:: 2%N] [::] [::] (linear [:: 2%N] (1 : R)) in
  exists k M, [/\ build (EAdd (EMul (Atom k1) (EScale 3%:R (Atom k1))) (Atom k1)) = Some k,
    matrix k (pts R) None = Some M, shp M = [:: 2; 2]%N & semi 2 (fun r s => get 0 M [:: r; s])].
Proof.
move=> k1; pose e := EAdd (EMul (Atom k1) (EScale 3%:R (Atom k1))) (Atom k1).
pose f : kfun R := fun u v _ _ => dotf [:: 2%N] u v + 1.
have u1 : user [:: 2%N] [:: 2%N] [::] [::] f k1 by exists (linear [:: 2%N] 1); split=> //; exact: C114_linear.
have p1 : psdk [:: 2%N] [::] f by apply: C115_linear; exact: ler01.
have h1 : All (fun k => user [:: 2%N] [:: 2%N] [::] [::] f k) (atoms e) by [].
have h2 : All (fun k => psdk [:: 2%N] [::] f) (atoms e) by [].
have h3 : all (>= 0) (scalars e) by rewrite /= ler0n.
have [k [h4 _ _]] := C29_call h1.
have [M [h5 h6 h7]] := C115_matrix (x := pts R) (s := [:: 2%N]) h1 h2 h3 h4 isT isT erefl.
by exists k, M.
Qed.
End Kernels.
Print Assumptions C115_linear.
Print Assumptions C115_polynomial.
Print Assumptions C115_white_noise.
Print Assumptions C115_matrix.
