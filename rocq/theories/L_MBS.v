(** Lemmas for the matrix-based solver (M_MBS.v). *)
From mathcomp Require Import all_ssreflect all_algebra.
From Verif Require Import L_Zmod L_Ring L_Kalman M_LinSolve L_LinSolve L_CG M_MatUpd L_MatUpd M_MBS.
Set Implicit Arguments.
Unset Strict Implicit.
Unset Printing Implicit Defensive.
Import Order.Theory GRing.Theory Num.Theory.
Local Open Scope ring_scope.

Section View.
Variables (R : rcfType) (n : nat).
Local Notation vec := 'cV[R]_n.
Local Notation mat := 'M[R]_n.
Lemma dotpE (u v : vec) : dotp u v = dt u v. Proof. by []. Qed.

(** One update of a belief whose factor is the prior factor less the accumulated update. *)
Lemma bupdE iter cov0 (p q : bel R n) (s y : vec) :
  cov p = cov0 - term p -> (iter = 0%N -> term p = 0) -> bupd iter cov0 p s y = Some q ->
  let g := dt s (cov p *m s) in let u := g^-1 *: (cov p *m s) in
  [/\ g != 0, cov q = cov0 - term q, mean q = mean p + sup u s (y - mean p *m s)
    & cov q = cov p - cov p *m s *m u^T].
Proof.
move=> ec et; rewrite /bupd !dotpE; case: eqP => // /eqP g0 [<-] /=.
set u := _ *: _; set d := y - _; split=> //; last first.
  case: eqP => [i0|_]; first by rewrite [X in _ = X - _]ec (et i0) subr0.
  by rewrite [X in _ = X - _]ec opprD addrA.
congr (_ + _); rewrite /sup; move: (dt s d) => c; clearbody u d.
have -> : (d - (2%:R^-1 * c) *: u)^T = d^T - (2%:R^-1 * c) *: u^T by apply/matrixP => i j; rewrite !mxE.
rewrite mulmxBr mulmxBl -scalemxAr -scalemxAl.
have -> : c *: (u *m u^T) = (2%:R^-1 * c) *: (u *m u^T) + (2%:R^-1 * c) *: (u *m u^T).
  rewrite -scalerDl -mulrDl; congr (_ *: _).
  have n2 : 2%:R != 0 :> R by rewrite pnatr_eq0.
  by mfield.
by move: (_ *: (u *m _)) => z; zmod_eq.
Qed.

(** What a belief knows about actions [a] with observations [o]. *)
Definition view (p : bel R n) (k : nat) (a o : nat -> vec) : Prop :=
  [/\ (mean p)^T = mean p, (cov p)^T = cov p &
      forall j, (j < k)%N -> cov p *m a j = 0 /\ mean p *m a j = o j].
Lemma view_step iter cov0 (p q : bel R n) k (a o : nat -> vec) :
  cov p = cov0 - term p -> (iter = 0%N -> term p = 0) -> bupd iter cov0 p (a k) (o k) = Some q ->
  (forall j, (j < k)%N -> dt (o k) (a j) = dt (a k) (o j)) ->
  view p k a o -> view q k.+1 a o /\ cov q = cov0 - term q.
Proof.
move=> ec et e cmp [sM sV old]; have [g0 ec' em eV] := bupdE ec et e; split=> //.
set g := dt _ _ in g0 em eV *; set u := _ *: _ in em eV *; set d := o k - _ in em.
have symf (U : mat) x z : U^T = U -> dt x (U *m z) = dt (U *m x) z by move=> sU; rewrite dtMl sU.
have ua : dt u (a k) = 1 by rewrite /u dtZl dtC mulVf.
have uj j : (j < k)%N -> dt u (a j) = 0.
  by move=> /old [z _]; rewrite /u dtZl -symf // z dt0r mulr0.
have dj j : (j < k)%N -> dt d (a j) = 0.
  move=> lj; have [_ z] := old j lj.
  by rewrite /d dtC dtBr [dt (a j) (o k)]dtC cmp // symf // z [dt (o j) _]dtC subrr.
have symV : (cov p *m a k *m u^T)^T = cov p *m a k *m u^T.
  by rewrite /u trmx_mul trmxK -scalemxAl; apply/matrixP => i j; rewrite !mxE mulr_sumr;
     apply: eq_bigr => l _; rewrite !mxE mulrCA.
split.
- by rewrite em linearD /= sM sup_tr.
- by rewrite eV linearB /= sV symV.
move=> j; rewrite ltnS leq_eqVlt => /orP[/eqP ->|lj].
  split; first by rewrite eV mulmxBl outerE ua scale1r subrr.
  rewrite em mulmxDl /sup; clearbody u; move: ua => {uj symV eV em} ua.
  have f : d *m u^T *m a k + u *m d^T *m a k - dt (a k) d *: (u *m u^T) *m a k = d.
    by rewrite -scalemxAl !outerE ua !scale1r [dt d (a k)]dtC addrK.
  by rewrite mulmxBl mulmxDl f /d addrCA subrr addr0.
have [z1 z2] := old j lj; split; first by rewrite eV mulmxBl outerE uj // scale0r z1 subr0.
have {}uj := uj j lj; rewrite em mulmxDl /sup; clearbody u; have {}dj := dj j lj; clearbody d.
by rewrite mulmxBl mulmxDl !outerE -scalemxAl outerE uj dj !scale0r scaler0 z2 subr0 !addr0.
Qed.
Lemma cov_psd iter cov0 (p q : bel R n) (s y : vec) :
  cov p = cov0 - term p -> (iter = 0%N -> term p = 0) -> bupd iter cov0 p s y = Some q ->
  psd (cov p) -> psd (cov q) /\ loewner (cov q) (cov p).
Proof.
move=> ec et e pp; have [g0 _ _ ->] := bupdE ec et e.
set g := dt _ _ in g0 *.
have -> : cov p - cov p *m s *m (g^-1 *: (cov p *m s))^T = down (cov p) s.
  rewrite /down; congr (_ - _).
  have [[z _]|[_ ->]] := gainP s pp; first by rewrite /g z dt0r eqxx in g0.
  have -> : (g^-1 *: (cov p *m s))^T = g^-1 *: (cov p *m s)^T by apply/matrixP => i j; rewrite !mxE.
  by rewrite -scalemxAl -scalemxAr.
by split; [exact: down_psd | exact: down_le].
Qed.
End View.

Section Run.
Variables (R : rcfType) (n : nat) (sv : solver R n) (t0 : attrs R n).
Local Notation vec := 'cV[R]_n.
Local Notation mat := 'M[R]_n.
Local Notation A := (M_MBS.A sv).
Local Notation b := (M_MBS.b sv).

(** The variables after [k] iterations. *)
Fixpoint after (k : nat) : lvars R n := if k is k'.+1 then iterate sv k' (after k') else start sv t0.

Lemma loop_after left i atol rtol :
  forall c i' l o, loop sv left i (after i) (get_output sv i.-1 (after i)) atol rtol = (c, i', l, o) ->
  [/\ l = after i', o = get_output sv i'.-1 (after i'), (i <= i' <= left + i)%N
    & if c is Maxiter then i' = (left + i)%N
      else (i' < left + i)%N /\ converged sv (l_r l) (o_tr o) atol rtol = Some c]
  /\ forall j, (i <= j < i')%N -> converged sv (l_r (after j)) (o_tr (get_output sv j.-1 (after j))) atol rtol = None.
Proof.
elim: left i => [|left IH] i c i' l o /=.
  case=> <- <- <- <-; split; first by split; rewrite // add0n ?leqnn.
  by move=> j /andP[h1 h2]; have := leq_ltn_trans h1 h2; rewrite ltnn.
case E : (converged _ _ _ _ _) => [c'|].
  case=> <- <- <- <-; split; last first.
    by move=> j /andP[h1 h2]; have := leq_ltn_trans h1 h2; rewrite ltnn.
  split=> //; first by rewrite leqnn leq_addl.
  have lt : (i < left.+1 + i)%N by rewrite addSn ltnS leq_addl.
  suff : c' <> Maxiter by case: c' E => // *; split.
  by move: E; rewrite /converged; do 4 (case: ifP => _; first by case=> <-).
move=> /(IH i.+1) [[e1 e2 e3 e4] e5]; split.
  split=> //; last by move: e4; rewrite addSnnS.
  by move: e3; rewrite -addSnnS; case/andP => h1 ->; rewrite (ltnW h1).
move=> j /andP[]; rewrite leq_eqVlt => /orP[/eqP <-|h1] h2 //.
by apply: e5; rewrite h1.
Qed.
End Run.

Section Fresh.
Variables (R : rcfType) (n : nat) (sv : solver R n) (M0 H0 : 'M[R]_n) (x0 : option 'cV[R]_n).
Local Notation vec := 'cV[R]_n.
Local Notation mat := 'M[R]_n.
Local Notation A := (M_MBS.A sv).
Local Notation b := (M_MBS.b sv).
Local Notation t0 := (init M0 (V0 sv) H0 (W0 sv) b x0).
Local Notation after := (after sv t0).
Hypothesis sA : A^T = A.
Hypotheses (sM : M0^T = M0) (sV : (V0 sv)^T = V0 sv) (sH : H0^T = H0) (sW : (W0 sv)^T = W0 sv).

Lemma iterate_finite i (l : lvars R n) x' : a_x (l_at (iterate sv i l)) = Some x' ->
  exists h r x, let s := - (mean h *m r) in let y := A *m s in let c := - (dt s r / dt s y) in
  [/\ a_H (l_at l) = Some h, l_r l = Some r, a_x (l_at l) = Some x, dt s y != 0 & x' = x + c *: s] /\
  [/\ l_r (iterate sv i l) = Some (r + c *: y),
      a_S (l_at (iterate sv i l)) = rcons (a_S (l_at l)) (Some s),
      a_Y (l_at (iterate sv i l)) = rcons (a_Y (l_at l)) (Some y),
      a_A (l_at (iterate sv i l)) = obnd (fun p => bupd i (V0 sv) p s y) (a_A (l_at l)) &
      a_H (l_at (iterate sv i l)) = bupd i (W0 sv) h y s].
Proof.
case: l => [[x pA pH S Y] r tr]; case: x => [x|] //=; case: pH => [h|] //=; case: r => [r|] //=.
rewrite dotpE; case: eqP => // /eqP nz [<-]; exists h, r, x; split; first by split.
by split => //; case: pA.
Qed.

(** The state after [k] iterations, while the numbers are finite. *)
Definition good (k : nat) (l : lvars R n) : Prop := forall x, a_x (l_at l) = Some x ->
  exists2 S : seq vec, size S = k /\ l_r l = Some (A *m x - b) &
  let s := nth 0 S in
  [/\ a_S (l_at l) = map Some S, a_Y (l_at l) = map (fun s => Some (A *m s)) S,
      (forall i j, (i < j < k)%N -> dt (s i) (A *m s j) = 0) /\ (forall j, (j < k)%N -> dt (s j) (A *m s j) != 0),
      forall j, (j < k)%N -> dt (A *m x - b) (s j) = 0 &
      (forall p, a_A (l_at l) = Some p -> cov p = V0 sv - term p /\ (k = 0%N -> term p = 0) /\
         view p k s (fun j => A *m s j)) /\
      (forall p, a_H (l_at l) = Some p -> cov p = W0 sv - term p /\ (k = 0%N -> term p = 0) /\
         view p k (fun j => A *m s j) s)].
Lemma symA (u v : vec) : dt u (A *m v) = dt (A *m u) v.
Proof. by rewrite dtMl sA. Qed.
Lemma view_ext p k (a a' o o' : nat -> vec) : (forall j, (j < k)%N -> a j = a' j) ->
  (forall j, (j < k)%N -> o j = o' j) -> view p k a o -> view p k a' o'.
Proof. by move=> ea eo [h1 h2 h3]; split=> // j lj; rewrite -ea // -eo //; exact: h3. Qed.
Lemma after_good k : good k (after k).
Proof.
elim: k => [|k IH] x'.
  case=> <- /=; exists [::] => //=; split=> //; first by split=> // i j; rewrite andbF.
  by split=> p [<-] /=; rewrite subr0.
rewrite -[after k.+1]/(iterate sv k (after k)); move: (after k) IH => l IH ex.
have [h [r [x]]] := iterate_finite ex; cbv zeta => -[[eh er ex0 nz ex'] [e1 e2 e3 e4 e5]].
have [S [sz er']] := IH x ex0; cbv zeta => -[eS eY [cj nzs] rs [vA vH]].
have {}er : r = A *m x - b by move: er'; rewrite er => -[].
rewrite {}er in nz ex' e1 e2 e3 e4 e5 *.
set r0 := A *m x - b in nz ex' e1 e2 e3 e4 e5 rs *.
set s := - (mean h *m r0) in nz ex' e1 e2 e3 e4 e5 *.
set c := - (_ / _) in ex' e1.
exists (rcons S s); first by rewrite size_rcons sz e1 ex' mulmxDr -scalemxAr addrAC.
have [eh1 [eh2 vh]] := vH h eh; have [sh _ sec] := vh.
have nS j : (j < k)%N -> nth 0 (rcons S s) j = nth 0 S j by move=> lj; rewrite nth_rcons sz lj.
have nk : nth 0 (rcons S s) k = s by rewrite nth_rcons sz ltnn eqxx.
have cjs j : (j < k)%N -> dt (nth 0 S j) (A *m s) = 0.
  move=> lj; rewrite symA dtC /s.
  have -> : dt (- (mean h *m r0)) (A *m nth 0 S j) = - dt r0 (mean h *m (A *m nth 0 S j)).
    by rewrite -scaleN1r dtZl dtMl sh mulN1r.
  by rewrite (sec j lj).2 rs // oppr0.
split.
- by rewrite e2 eS map_rcons.
- by rewrite e3 eY map_rcons.
- split=> [i j /andP[lij]|j]; rewrite ltnS leq_eqVlt => /orP[/eqP ej|lj].
  + by rewrite ej in lij *; rewrite nk nS // cjs.
  + by rewrite !nS ?cj ?lij // (ltn_trans lij).
  + by rewrite ej nk.
  + by rewrite nS // nzs.
- have -> : A *m x' - b = r0 + c *: (A *m s) by rewrite ex' mulmxDr -scalemxAr addrAC.
  move=> j; rewrite ltnS leq_eqVlt dtC dtDr dtZr => /orP[/eqP ->|lj].
    by rewrite nk /c mulNr divfK // subrr.
  by rewrite nS // cjs // dtC rs // mulr0 addr0.
split=> p ep.
- rewrite e4 in ep; case eA : (a_A (l_at l)) ep => [pA|] //= ep.
  have [v1 [v2 v3]] := vA pA eA.
  have v3' : view pA k (nth 0 (rcons S s)) (fun j => A *m nth 0 (rcons S s) j).
    by apply: view_ext v3 => j lj; rewrite nS.
  have ep' : bupd k (V0 sv) pA (nth 0 (rcons S s) k) (A *m nth 0 (rcons S s) k) = Some p by rewrite nk.
  have [] := view_step v1 v2 ep' _ v3' => [j lj|vq cq]; first by rewrite -symA.
  by split=> //; split.
- have ep' : bupd k (W0 sv) h (A *m nth 0 (rcons S s) k) (nth 0 (rcons S s) k) = Some p by rewrite nk -e5.
  have v3' : view h k (fun j => A *m nth 0 (rcons S s) j) (nth 0 (rcons S s)).
    by apply: view_ext vh => j lj; rewrite nS.
  have [] := @view_step _ _ _ _ _ _ _ (fun j => A *m nth 0 (rcons S s) j) (nth 0 (rcons S s)) eh1 eh2 ep' _ v3'.
    by move=> j lj; rewrite -symA.
  by move=> vq cq; split=> //; split.
Qed.
End Fresh.

(** ** Conjugate directions *)
Section Conj.
Variables (R : rcfType) (n : nat) (A : 'M[R]_n) (s : nat -> 'cV[R]_n).
Local Notation vec := 'cV[R]_n.
Definition cols k : 'M[R]_(n, k) := \matrix_(i, j) s j i 0.
Lemma cols_col k (j : 'I_k) : col j (cols k) = s j.
Proof. by apply/matrixP => i z; rewrite !mxE ord1. Qed.
Lemma mul_cols m k (B : 'M[R]_(m, n)) (j : 'I_k) : col j (B *m cols k) = B *m s j.
Proof. by rewrite colE -mulmxA -colE cols_col. Qed.
Hypothesis sA : A^T = A.
Lemma conj_gram k : (forall i j, (i < j < k)%N -> dt (s i) (A *m s j) = 0) ->
  (forall j, (j < k)%N -> dt (s j) (A *m s j) != 0) -> (cols k)^T *m A *m cols k \in unitmx.
Proof.
move=> cj nz; have -> : (cols k)^T *m A *m cols k = diag_mx (\row_j dt (s j) (A *m s j)).
  apply/matrixP => i j; rewrite -mulmxA; transitivity (dt (s i) (A *m s j)).
    rewrite -mul_cols /dt /num [RHS]mxE mxE; apply: eq_bigr => l _.
    by rewrite [in RHS]mxE; congr (_ * _); rewrite !mxE.
  rewrite !mxE; case: eqP => [->|/eqP ij]; rewrite ?mulr1n // mulr0n.
  case: (ltngtP i j) => [lt|gt|E]; first by rewrite cj // lt ltn_ord.
    by rewrite dtC dtMl sA cj // gt ltn_ord.
  by rewrite (val_inj E) eqxx in ij.
by rewrite unitmxE det_diag unitfE; apply/prodf_neq0 => j _; rewrite mxE nz.
Qed.
Lemma conj_bound k : (forall i j, (i < j < k)%N -> dt (s i) (A *m s j) = 0) ->
  (forall j, (j < k)%N -> dt (s j) (A *m s j) != 0) -> (k <= n)%N.
Proof.
move=> cj nz; have u := conj_gram cj nz.
rewrite -(mxrank_unit u); apply: leq_trans (mxrankM_maxl _ _) _.
apply: leq_trans (mxrankM_maxl _ _) _; exact: rank_leq_col.
Qed.
Lemma conj_basis : (forall i j, (i < j < n)%N -> dt (s i) (A *m s j) = 0) ->
  (forall j, (j < n)%N -> dt (s j) (A *m s j) != 0) -> cols n \in unitmx /\ A \in unitmx.
Proof.
move=> cj nz; have := conj_gram cj nz; rewrite unitmx_mul => /andP[+ ->].
by rewrite unitmx_mul => /andP[_ ->].
Qed.
End Conj.
Lemma cols_eq (R : rcfType) (n : nat) (s : nat -> 'cV[R]_n) (P Q : 'M[R]_n) : cols s n \in unitmx ->
  (forall j, (j < n)%N -> P *m s j = Q *m s j) -> P = Q.
Proof.
move=> u e; suff E : P *m cols s n = Q *m cols s n by rewrite -[P](mulmxK u) E mulmxK.
apply/matrixP => i j; have := mul_cols s P j; have := mul_cols s Q j.
rewrite -(e j (ltn_ord j)) => <- /matrixP/(_ i 0); by rewrite !mxE.
Qed.

Section Fresh2.
Variables (R : rcfType) (n : nat) (sv : solver R n) (M0 H0 : 'M[R]_n) (x0 : option 'cV[R]_n).
Local Notation vec := 'cV[R]_n.
Local Notation A := (M_MBS.A sv).
Local Notation b := (M_MBS.b sv).
Local Notation t0 := (init M0 (V0 sv) H0 (W0 sv) b x0).

(** Residual and solution are finite together; for any attributes. *)
Lemma after_resid t k : l_r (after sv t k) = omap (fun x => A *m x - b) (a_x (l_at (after sv t k))).
Proof.
elim: k => [|k IH] //; rewrite -[after sv t k.+1]/(iterate sv k (after sv t k)).
move: (after sv t k) IH => [[x pA pH S Y] r tr] /= ->.
case: x => [x|] //=; case: pH => [h|] //=; case: eqP => //= _.
move: (- (mean h *m (A *m x - b))) => s; move: (- (_ / _)) => a.
by rewrite mulmxDr -[A *m (a *: s)]scalemxAr addrAC.
Qed.
(** Factors, for positive semidefinite priors; and the trace. *)
Lemma after_factors k : 
  (forall p, a_A (l_at (after sv t0 k)) = Some p -> cov p = V0 sv - term p /\ (k = 0%N -> term p = 0)) /\
  (forall p, a_H (l_at (after sv t0 k)) = Some p -> cov p = W0 sv - term p /\ (k = 0%N -> term p = 0)).
Proof.
elim: k => [|k [IH1 IH2]]; first by split=> p [<-] /=; rewrite subr0.
rewrite -[after sv t0 k.+1]/(iterate sv k (after sv t0 k)).
move: (after sv t0 k) IH1 IH2 => [[x pA pH S Y] r tr] /= IH1 IH2; split=> p.
  case: pA IH1 => [pA|] //= IH1; case: pH IH2 => [pH|] //= IH2; case: r => [r|] //=.
  by have [h1 h2] := IH1 _ erefl => /(bupdE h1 h2) [].
case: pH IH2 => [pH|] //= IH2; case: r => [r|] //=.
by have [h1 h2] := IH2 _ erefl => /(bupdE h1 h2) [].
Qed.
Lemma after_psd k : psd (V0 sv) -> psd (W0 sv) ->
  (forall p, a_A (l_at (after sv t0 k)) = Some p -> psd (cov p)) /\
  (forall p, a_H (l_at (after sv t0 k)) = Some p -> psd (cov p)).
Proof.
move=> pV pW; elim: k => [|k [IH1 IH2]]; first by split=> p [<-].
have [f1 f2] := after_factors k.
rewrite -[after sv t0 k.+1]/(iterate sv k (after sv t0 k)).
move: (after sv t0 k) f1 f2 IH1 IH2 => [[x pA pH S Y] r tr] /= f1 f2 IH1 IH2; split=> p.
  case: pA f1 IH1 => [pA|] //= f1 IH1; case: pH f2 IH2 => [pH|] //= f2 IH2; case: r => [r|] //=.
  by have [h1 h2] := f1 _ erefl => /(cov_psd h1 h2)/(_ (IH1 _ erefl)) [].
case: pH f2 IH2 => [pH|] //= f2 IH2; case: r => [r|] //=.
by have [h1 h2] := f2 _ erefl => /(cov_psd h1 h2)/(_ (IH2 _ erefl)) [].
Qed.
Lemma after_trace k p c : a_H (l_at (after sv t0 k)) = Some p -> l_tr (after sv t0 k) = Some c ->
  \tr (W0 sv) - c = \tr (cov p).
Proof.
elim: k p c => [|k IH] p c; first by case=> <- [<-] /=; rewrite subr0.
have [_ f2] := after_factors k.
rewrite -[after sv t0 k.+1]/(iterate sv k (after sv t0 k)).
move: (after sv t0 k) f2 IH => [[x pA pH S Y] r tr] /= f2 IH.
case: pH f2 IH => [pH|] //= f2 IH; case: r => [r|] //=; case: tr IH => [tr|] //= IH.
have [h1 h2] := f2 _ erefl => /(bupdE h1 h2) [g0 _ _ ->]; rewrite !dotpE (negbTE g0) => -[<-].
have := IH _ _ erefl erefl; move: (A *m _) g0 => y; set g := dt y _ => g0 e.
have -> : \tr (cov pH - cov pH *m y *m (g^-1 *: (cov pH *m y))^T) =
    \tr (cov pH) - \tr (cov pH *m y *m (g^-1 *: (cov pH *m y))^T) by rewrite linearB.
rewrite -e opprD addrA; congr (_ - _); rewrite mxtrace_mulC div1r -dtZl /dt /num.
by rewrite [(_^T *m _)]mx11_scalar mxtrace_scalar mxE eqxx !mulr1n.
Qed.
(** A finite belief about the inverse comes with a finite trace. *)
Lemma after_trace_some k p : a_H (l_at (after sv t0 k)) = Some p -> exists c, l_tr (after sv t0 k) = Some c.
Proof.
elim: k p => [|k IH] p; first by move=> _; exists 0.
rewrite -[after sv t0 k.+1]/(iterate sv k (after sv t0 k)).
move: (after sv t0 k) IH => [[x pA pH S Y] r tr] /= IH.
case: pH IH => [pH|] //= IH; case: r => [r|] //=; have [c ->] := IH _ erefl.
by rewrite /bupd /=; case: eqP => // _ _; eexists.
Qed.
End Fresh2.
