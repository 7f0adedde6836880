(** C15, C93: Gram-Schmidt orthogonalisation. *)
From mathcomp Require Import all_ssreflect all_algebra.
From mathcomp Require Import realalg.
From Verif Require Import M_Ortho.
Set Implicit Arguments.
Unset Strict Implicit.
Unset Printing Implicit Defensive.
Import Order.Theory GRing.Theory Num.Theory.
Local Open Scope ring_scope.

Section Ortho.
Variables (R : rcfType) (n : nat).
Local Notation vec := 'cV[R]_n.
Implicit Types (s : ipspec R n) (l : seq vec) (v w : vec).

(** The documented geometry: the product of the argument [inner_product]. *)
Definition geometry s (f : vec -> vec -> R) : Prop :=
  match s with
  | Default => forall v w, f v w = \sum_i v i 0 * w i 0
  | ByMatrix A => forall v w, f v w = \sum_i \sum_j v i 0 * A i j * w j 0
  | Callable g => forall v w, f v w = g v w
  end.
(** Linear in the second argument (what the algorithms need), symmetric, positive. *)
Definition linear2 (f : vec -> vec -> R) :=
  forall u a v w, f u (a *: v + w) = a * f u v + f u w.
Definition orthogonal_family (f : vec -> vec -> R) l :=
  (forall i j, (i < size l)%N -> (j < size l)%N -> i != j -> f l`_i l`_j = 0)
  /\ (forall i, (i < size l)%N -> f l`_i l`_i != 0).
(** [w] is the orthogonal part of [v]. *)
Definition residual_of (f : vec -> vec -> R) l v w :=
  (forall u, u \in l -> f u w = 0)
  /\ exists c : nat -> R, v - w = \sum_(i < size l) c i *: l`_i.

Lemma geometry_ip s f : geometry s f -> forall v w, f v w = ip_of s v w.
Proof.
case: s => [|A|g] H v w; rewrite H //= ?mxE.
  by apply: eq_bigr => i _; rewrite mxE.
apply: eq_bigr => i _; rewrite !mxE mulr_sumr; apply: eq_bigr => j _.
by rewrite mulrA.
Qed.
Lemma geometry_linear s f : geometry s f -> (if s is Callable g then linear2 g else True) -> linear2 f.
Proof.
move=> H L u a v w; case: s H L => [|A|g] H L; rewrite !H ?L // mulr_sumr -big_split /=.
  by apply: eq_bigr => i _; rewrite !mxE mulrDr mulrCA.
apply: eq_bigr => i _; rewrite mulr_sumr -big_split /=; apply: eq_bigr => j _.
by rewrite !mxE mulrDr mulrCA.
Qed.

Section Fixed.
Variable f : vec -> vec -> R.
Hypothesis fl : linear2 f.
Lemma f0 u : f u 0 = 0.
Proof.
have := fl u 1 0 0; rewrite scale1r addr0 mul1r => H.
by apply: (addrI (f u 0)); rewrite addr0 -H.
Qed.
Lemma fZ u a v : f u (a *: v) = a * f u v.
Proof. by have := fl u a v 0; rewrite addr0 f0 addr0. Qed.
Lemma fB u v a w : f u (v - a *: w) = f u v - a * f u w.
Proof. by rewrite -[v - _]addrC -scaleNr fl mulNr addrC. Qed.
Lemma fsum u l (c : nat -> R) k : f u (\sum_(i < k) c i *: l`_i) = \sum_(i < k) c i * f u l`_i.
Proof.
elim: k => [|k IH]; first by rewrite !big_ord0 f0.
by rewrite !big_ord_recr /= addrC fl IH addrC.
Qed.

(** The loops. *)
Lemma divideE x y : y != 0 -> divide x y = Some (x / y) :> option R.
Proof. by rewrite /divide => /negPf ->. Qed.
Definition coef v u := f u v / f u u.
Lemma classic_loop l : orthogonal_family f l -> forall v a,
  foldl (fun acc u => obind (fun a => omap (fun c => a - c *: u) (divide (f u v) (f u u))) acc)
    (Some a) l = Some (a - \sum_(i < size l) coef v l`_i *: l`_i).
Proof.
move=> [_ nz] v; elim: l nz => [|u l IH] nz a /=; first by rewrite big_ord0 subr0.
have n0 : f u u != 0 := nz 0%N isT; rewrite (divideE _ n0) /= IH => [|i il]; last by apply: (nz i.+1).
by rewrite big_ord_recl /= opprD addrA.
Qed.
Lemma modified_loop l : orthogonal_family f l -> forall v,
  foldl (fun acc u => obind (fun a => omap (fun c => a - c *: u) (divide (f u a) (f u u))) acc)
    (Some v) l = Some (v - \sum_(i < size l) coef v l`_i *: l`_i).
Proof.
elim: l => [|u l IH] [oth nz] v /=; first by rewrite big_ord0 subr0.
have H : orthogonal_family f l.
  split=> [i j il jl ij|i il]; last by apply: (nz i.+1).
  by apply: (oth i.+1 j.+1).
have n0 : f u u != 0 := nz 0%N isT; rewrite (divideE _ n0) /= IH // big_ord_recl /= opprD addrA; congr (Some (_ - _)).
apply: eq_bigr => i _; congr (_ *: _); rewrite /coef fB.
have z : f l`_i u = 0 := oth i.+1 0%N (ltn_ord i) isT isT.
by rewrite z mulr0 subr0.
Qed.
Definition part l v := v - \sum_(i < size l) coef v l`_i *: l`_i.
Lemma part_orth l v : orthogonal_family f l -> forall u, u \in l -> f u (part l v) = 0.
Proof.
move=> [oth nz] u ul; rewrite /part; set S := \sum_(_ < _) _.
have -> : v - S = v - 1 *: S by rewrite scale1r.
rewrite fB mul1r (fsum u l (fun i => coef v l`_i)).
have il : (index u l < size l)%N by rewrite index_mem.
rewrite (bigD1 (Ordinal il)) //= nth_index // big1 ?addr0 => [|j ji]; last first.
  have ne : index u l != j by move: ji; rewrite eq_sym -val_eqE.
  by have := oth _ _ il (ltn_ord j) ne; rewrite nth_index // => ->; rewrite mulr0.
have := nz _ il; rewrite nth_index // => u0; rewrite /coef.
by rewrite divfK ?subrr.
Qed.
Lemma part_span l v : v - part l v = \sum_(i < size l) coef v l`_i *: l`_i.
Proof. by rewrite /part opprB addrCA subrr addr0. Qed.
Lemma part_id l w : (forall u, u \in l -> f u w = 0) -> part l w = w.
Proof.
move=> H; rewrite /part big1 ?subr0 // => i _; rewrite /coef H ?mul0r ?scale0r //.
by rewrite mem_nth.
Qed.
Lemma part_unique l v w : orthogonal_family f l -> residual_of f l v w -> w = part l v.
Proof.
move=> [oth nz] [wo [c E]]; rewrite /part; apply/esym/subr0_eq.
have -> : v - \sum_(i < size l) coef v l`_i *: l`_i - w
    = (v - w) - \sum_(i < size l) coef v l`_i *: l`_i by rewrite addrAC.
rewrite E; apply/eqP; rewrite subr_eq0; apply/eqP; apply: eq_bigr => i _; congr (_ *: _).
have il := ltn_ord i; rewrite /coef.
have -> : f l`_i v = c i * f l`_i l`_i.
  have -> : v = \sum_(i < size l) c i *: l`_i - (-1) *: w by rewrite -E scaleN1r opprK subrK.
  rewrite fB (wo _ (mem_nth _ il)) mulr0 subr0 fsum (bigD1 i) //= big1 ?addr0 // => j ji.
  have ne : val i != j by move: ji; rewrite eq_sym -val_eqE.
  by rewrite (oth _ _ il (ltn_ord j) ne) mulr0.
by rewrite mulfK ?nz.
Qed.
End Fixed.

Lemma foldl_ext T U (g h : T -> U -> T) z (xs : seq U) :
  (forall a u, g a u = h a u) -> foldl g z xs = foldl h z xs.
Proof. by move=> H; elim: xs z => //= u xs IH z; rewrite H IH. Qed.

Section Run.
Variables (s : ipspec R n) (f : vec -> vec -> R) (b : basis R n) (l : seq vec).
Hypotheses (gs : geometry s f) (gl : if s is Callable g then linear2 g else True)
  (bl : vectors b = Some l) (ol : orthogonal_family f l).
Let fl := geometry_linear gs gl.
Lemma gs_run nrm v : gram_schmidt s nrm v b = finish s nrm (Some (part f l v)).
Proof.
rewrite /gram_schmidt bl /=; congr finish; rewrite -(classic_loop ol).
by apply: foldl_ext => a u; rewrite !(geometry_ip gs).
Qed.
Lemma mgs_run nrm v : modified_gram_schmidt s nrm v b = finish s nrm (Some (part f l v)).
Proof.
rewrite /modified_gram_schmidt bl /=; congr finish; rewrite -(modified_loop fl ol).
apply: foldl_ext => a u; case: a => //= a.
by rewrite !(geometry_ip gs).
Qed.
(** The norm of the geometry, when the product is bilinear. *)
Lemma norm_sqrt v : norm_of s v = sqrt_ (f v v).
Proof.
rewrite /norm_of; case: s gs => [|A|g] H /=; rewrite H //; congr sqrt_; apply: eq_bigr => i _.
by rewrite mxE mulr_sumr; apply: eq_bigr => j _; rewrite mulrA.
Qed.
End Run.
End Ortho.

(** All variants return the orthogonal part of the vector: orthogonal to every basis
    vector, different from the input by an element of the span; no other vector is. *)
Theorem C15_orthogonal_part :
  forall (R : rcfType) n (s : ipspec R n) f (b : basis R n) l v,
  geometry s f -> (if s is Callable g then linear2 g else True) ->
  vectors b = Some l -> orthogonal_family f l ->
  exists w,
    [/\ gram_schmidt s false v b = Some w, modified_gram_schmidt s false v b = Some w
      & forall m, double_gram_schmidt m s false v b = Some w]
    /\ residual_of f l v w
    /\ (forall w', residual_of f l v w' -> w' = w)
    /\ ((forall x y, f x y = f y x) -> forall u, u \in l -> f w u = 0).
Proof.
move=> R n s f b l v gs gl bl ol; have fl := geometry_linear gs gl.
have po := part_orth fl v ol.
exists (part f l v); split; [split|split; [|split]].
- by rewrite (gs_run gs bl ol).
- by rewrite (mgs_run gs gl bl ol).
- move=> m; rewrite /double_gram_schmidt; case: m.
    by rewrite (mgs_run gs gl bl ol) /= (mgs_run gs gl bl ol) /= part_id.
  by rewrite (gs_run gs bl ol) /= (gs_run gs bl ol) /= part_id.
- by split=> //; exists (fun i => coef f v l`_i); rewrite part_span.
- by move=> w' /(part_unique fl ol).
- by move=> sy u ul; rewrite sy po.
Qed.
Print Assumptions C15_orthogonal_part.

(** With [normalize]: the orthogonal part divided by its norm, provided its squared
    norm is positive (for a positive definite product: the vector is not in the span). *)
Theorem C15_normalised :
  forall (R : rcfType) n (s : ipspec R n) f (b : basis R n) l v w,
  geometry s f -> (if s is Callable g then linear2 g else True) ->
  (forall x y, f x y = f y x) ->
  vectors b = Some l -> orthogonal_family f l -> residual_of f l v w -> 0 < f w w ->
  exists w1,
    [/\ gram_schmidt s true v b = Some w1, modified_gram_schmidt s true v b = Some w1
      & forall m, double_gram_schmidt m s true v b = Some w1]
    /\ [/\ w1 = (Num.sqrt (f w w))^-1 *: w, f w1 w1 = 1 & forall u, u \in l -> f u w1 = 0].
Proof.
move=> R n s f b l v w gs gl sy bl ol rw w0; have fl := geometry_linear gs gl.
have E := part_unique fl ol rw.
have sw : Num.sqrt (f w w) != 0 by rewrite sqrtr_eq0 -ltNge.
have n1 x : 0 < f x x -> normalise s x = Some ((Num.sqrt (f x x))^-1 *: x).
  move=> x0; rewrite /normalise (norm_sqrt gs) /sqrt_ (ltW x0) /=.
  by rewrite sqrtr_eq0 leNgt x0.
pose w1 : 'cV[R]_n := (Num.sqrt (f w w))^-1 *: w.
have f1 : f w1 w1 = 1.
  rewrite /w1 (fZ fl) sy (fZ fl) mulrA -invfM -expr2 sqr_sqrtr ?ltW // mulVf //.
  by rewrite gt_eqF.
have o1 u : u \in l -> f u w1 = 0.
  by case: rw => wo _ ul; rewrite /w1 (fZ fl) (wo _ ul) mulr0.
have G x y : finish s true (Some (part f l x)) = Some y -> 
  gram_schmidt s true x b = Some y /\ modified_gram_schmidt s true x b = Some y.
  by move=> H; rewrite (gs_run gs bl ol) (mgs_run gs gl bl ol).
have [g1 g2] : gram_schmidt s true v b = Some w1 /\ modified_gram_schmidt s true v b = Some w1.
  by apply: G; rewrite -E /= n1.
have [g3 g4] : gram_schmidt s true w1 b = Some w1 /\ modified_gram_schmidt s true w1 b = Some w1.
  by apply: G; rewrite part_id //= n1 f1 ?ltr01 // sqrtr1 invr1 scale1r.
exists w1; split; split=> // m; rewrite /double_gram_schmidt.
by case: m; rewrite ?g2 ?g1 /= ?g3 ?g4.
Qed.
Print Assumptions C15_normalised.

(** C93: a basis given as an empty list makes every variant raise. *)
Theorem C93_empty_basis_refuted :
  forall (R : rcfType) n (s : ipspec R n) nrm m v,
  [/\ gram_schmidt s nrm v (AsList [::]) = None, modified_gram_schmidt s nrm v (AsList [::]) = None
    & double_gram_schmidt m s nrm v (AsList [::]) = None].
Proof. by move=> R n s nrm [] v. Qed.
Print Assumptions C93_empty_basis_refuted.
Theorem C93_empty_basis_partial :
  forall (R : rcfType) n (s : ipspec R n) m v,
  [/\ gram_schmidt s false v (AsArray [::]) = Some v,
      modified_gram_schmidt s false v (AsArray [::]) = Some v
    & double_gram_schmidt m s false v (AsArray [::]) = Some v].
Proof. by move=> R n s [] v. Qed.
Print Assumptions C93_empty_basis_partial.

Definition vec2 (R : rcfType) (a b : R) : 'cV[R]_2 := \col_i (if i == 0 then a else b).
(** Non-vacuity: an orthogonal family of the plane with a non-Euclidean product, and a
    vector outside its span. *)
Definition ex_A (R : rcfType) : 'M[R]_2 := \matrix_(i, j) (if i == j then 2%:R else 1).
Definition ex_f (R : rcfType) (v w : 'cV[R]_2) : R := \sum_i \sum_j v i 0 * ex_A R i j * w j 0.
Example ex_geometry (R : rcfType) : geometry (ByMatrix (ex_A R)) (@ex_f R).
Proof. by []. Qed.
Example ex_family (R : rcfType) : orthogonal_family (@ex_f R) [:: vec2 1 0].
Proof.
split=> [[|i] [|j]|[|i]] //= _.
by rewrite /ex_f !big_ord_recl !big_ord0 !mxE /= !mulr0 !mul0r !addr0 !mulr1 mul1r pnatr_eq0.
Qed.
