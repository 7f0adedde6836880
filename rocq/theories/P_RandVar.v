(** C26: arithmetic of normal random variables and constants gives the law of the result. *)
From mathcomp Require Import all_ssreflect all_algebra.
From Verif Require Import L_Ring M_CovFunc L_CovFunc M_RandVar L_RandVar.
Set Implicit Arguments.
Unset Strict Implicit.
Unset Printing Implicit Defensive.
Import Order.Theory GRing.Theory Num.Theory.
Local Open Scope ring_scope.

Section Arith.
Variables (R : rcfType) (K : nat).
Notation arr := (arr R).
Notation get := (get (0 : R)).
Notation op := (np_op (0 : R)).
Implicit Types (X Y : rarr R K) (n : normal R) (c : arr).

Lemma mk_normalP (m v : option arr) l n : mk_normal m v l = Some n ->
  [/\ m = Some (mean n), v = Some (cov n), chol n = l, (size (shp (mean n)) <= 2)%N & shp (cov n) = cov_shape (shp (mean n))].
Proof.
case: m v => [m|] [v|] //=; case: ifP => //= /andP[/andP[s2 /eqP e] _] [<-] //=.
Qed.
Lemma mk_normal_chol (m v : option arr) l n : mk_normal m v (Some l) = Some n ->
  shp (mean n) = [::] \/ shp l = shp (cov n).
Proof.
by case: m v => [m|] [v|] //=; case: ifP => //= /andP[_ /orP[/eqP ?|/eqP ?]] [<-] //=; [left|right].
Qed.
Lemma cov_shapeP s t : cov_shape s = cov_shape t -> prodn s = prodn t /\ (s == [::]) = (t == [::]).
Proof. by case: s t => [|a s] [|b t] //= []. Qed.
Lemma covf_bc n m l s t B a b : shp (cov n) = cov_shape s -> broadcast s t = Some B -> shp (mean n) = s -> shp m = B ->
  cov_shape B = cov_shape s -> valid B a -> valid B b ->
  covf (Normal m (cov n) l) a b = covf n (bidx s a) (bidx s b).
Proof.
move=> ev bc es em e va vb; have [p nl] := cov_shapeP e.
rewrite !covfE //= ?em ?es ?ev //; try exact: bidx_valid bc _.
by rewrite p (ravel_bidx bc va p) (ravel_bidx bc vb p).
Qed.


(** Lemmas for affine changes of the mean with the covariance of [n]. *)
Lemma law_shift s t X n c (f : R -> R -> R) (g : rsc R K -> rsc R K -> rsc R K) n' :
  law s X (Nrm n) -> shp c = t ->
  mk_normal (op f (mean n) c) (Some (cov n)) (chol n) = Some n' ->
  (forall u r, Ex (g u (cst K r)) = f (Ex u) r) ->
  (forall u v r q, Co (g u (cst K r)) (g v (cst K q)) = Co u v) ->
  exists2 B, broadcast s t = Some B & law B (fun b => g (X (bidx s b)) (cst K (get c (bidx t b)))) (Nrm n').
Proof.
move=> [[wm wv s2 ev] ck es [mX cX]] et E; move: (E) => /mk_normalP [/op_shape [B bc [eB wB gB]] [eV] eL s2' ev'] gE gC.
rewrite es et in bc gB; exists B => //; split=> //=.
- by split=> //; rewrite -eV.
- have cs : cov_shape (shp (mean n')) = cov_shape (shp (mean n)) by rewrite -ev' -eV ev.
  move: ck E; rewrite /chol_ok eL -eV (cov_shapeP cs).1; case: (chol n) => // l [h _] /mk_normal_chol; rewrite -eV.
  by split.
have cs : cov_shape B = cov_shape s by rewrite -eB -ev' -eV ev es.
split=> [a va|a b va vb]; first by rewrite gE gB // mX //; exact: bidx_valid bc va.
rewrite gC cX; [|exact: bidx_valid bc _..].
by rewrite -(@covf_bc n (mean n') (chol n') s t B a b _ bc es eB cs va vb) ?ev ?es // eV; case: (n').
Qed.
(** Sums of independent random variables. *)
Theorem C26_add s t X Y (x y z : rv R) : law s X x -> law t Y y -> indep s t X Y -> rv_add x y = Some z ->
  exists2 B, broadcast s t = Some B & law B (fun b => X (bidx s b) + Y (bidx t b)) z.
Proof.
case: x y => [x|c|] [y|d|] //= lx ly ind.
- case E : (add_normal x y) => [n|] //= [<-]; move: E; rewrite /add_normal; case: eqP => // e /mk_normalP.
  move: lx ly => [[wm wv s2 ev] ck es [mX cX]] [[wm' wv' s2' ev'] ck' es' [mY cY]].
  have {es'} es' : t = s by rewrite -es' e es.
  have [m' [-> em wm2 gm]] := op_same +%R (esym e).
  have ecv : shp (cov x) = shp (cov y) by rewrite ev ev' e.
  have [v' [-> evv wvv gv]] := op_same +%R ecv.
  move=> [[E1] [E2] E3 E4 E5]; exists s; first by rewrite es' broadcast_refl.
  rewrite es' in mY cY ind; split=> //=.
  + by split=> //; rewrite -?E1 -?E2.
  + by rewrite /chol_ok E3.
  + by rewrite -E1 em.
  split=> [a va|a b va vb]; rewrite !bidx_refl ?es' //.
    by rewrite ExD mX // mY // -E1 gm // es.
  rewrite !CoD !CoDr cX // cY // ind // CoC ind // addr0 add0r /covf -E1 -E2 em e es.
  case: (s) va vb es E5 ev => [|d s'] va vb es E5 ev; first by rewrite gv // ev es.
  by rewrite gv // ev es /cov_shape valid2 !ravel_lt.
- case E : (add_nc x d) => [n|] //= [<-]; case: ly => wd ed cY.
  have [||B bc [h1 h2 h3 [h4 h5]]] := law_shift (g := +%R) lx ed E.
  + by move=> u r; rewrite ExD Excst.
  + by move=> u v r q; rewrite CoD !CoDr !Cocst !Cocstr !addr0.
  exists B => //; split=> //; split=> [a va|a b va vb]; rewrite !cY; try exact: bidx_valid (etrans (broadcastC _ _) bc) _.
    exact: h4.
  exact: h5.
- case E : (add_nc y c) => [n|] //= [<-]; case: lx => wd ed cY.
  have [||B bc [h1 h2 h3 [h4 h5]]] := law_shift (g := +%R) ly ed E.
  + by move=> u r; rewrite ExD Excst.
  + by move=> u v r q; rewrite CoD !CoDr !Cocst !Cocstr !addr0.
  exists B; first by rewrite broadcastC.
  split=> //; split=> [a va|a b va vb]; rewrite !cY; try exact: bidx_valid (etrans (broadcastC _ _) bc) _.
    by rewrite addrC h4.
  by rewrite addrC [cst K _ + Y _]addrC h5.
- case E : (np_op _ _ _ _) => [r|] //= [<-]; case: lx ly => wc ec cX [wd ed cY].
  have [B bc [eB wB gB]] := op_shape E; rewrite ec ed in bc gB; exists B => //; split=> // a va.
  rewrite cX ?cY; [|exact: bidx_valid (etrans (broadcastC _ _) bc) _|exact: bidx_valid bc _].
  by rewrite gB // cstD.
Qed.

(** Differences of independent random variables, and negation. *)
Theorem C26_sub s t X Y (x y z : rv R) : law s X x -> law t Y y -> indep s t X Y -> rv_sub x y = Some z ->
  exists2 B, broadcast s t = Some B & law B (fun b => X (bidx s b) - Y (bidx t b)) z.
Proof.
case: x y => [x|c|] [y|d|] //= lx ly ind.
- case E : (sub_normal x y) => [n|] //= [<-]; move: E; rewrite /sub_normal; case: eqP => // e /mk_normalP.
  move: lx ly => [[wm wv s2 ev] ck es [mX cX]] [[wm' wv' s2' ev'] ck' es' [mY cY]].
  have {es'} es' : t = s by rewrite -es' e es.
  have [m' [-> em wm2 gm]] := op_same (@sub R) (esym e).
  have ecv : shp (cov x) = shp (cov y) by rewrite ev ev' e.
  have [v' [-> evv wvv gv]] := op_same +%R ecv.
  move=> [[E1] [E2] E3 E4 E5]; exists s; first by rewrite es' broadcast_refl.
  rewrite es' in mY cY ind; split=> //=.
  + by split=> //; rewrite -?E1 -?E2.
  + by rewrite /chol_ok E3.
  + by rewrite -E1 em.
  split=> [a va|a b va vb]; rewrite !bidx_refl ?es' //.
    by rewrite ExD ExN mX // mY // -E1 gm // es.
  rewrite !CoD !CoDr !CoN !CoNr cX // cY // opprK ind // CoC ind // oppr0 addr0 add0r /covf -E1 -E2 em e es.
  case: (s) va vb es E5 ev => [|d s'] va vb es E5 ev; first by rewrite gv // ev es.
  by rewrite gv // ev es /cov_shape valid2 !ravel_lt.
- case E : (sub_nc x d) => [n|] //= [<-]; case: ly => wd ed cY.
  have [||B bc [h1 h2 h3 [h4 h5]]] := law_shift (g := fun u v => u - v) lx ed E.
  + by move=> u r; rewrite ExD ExN Excst.
  + by move=> u v r q; rewrite CoD !CoDr !CoN !CoNr !Cocst !Cocstr !oppr0 !addr0.
  exists B => //; split=> //; split=> [a va|a b va vb]; rewrite !cY; try exact: bidx_valid (etrans (broadcastC _ _) bc) _.
    exact: h4.
  exact: h5.
- case E : (sub_cn c y) => [n|] //= [<-]; case: lx => wd ed cY; move: E; rewrite /sub_cn opC => E.
  have [||B bc [h1 h2 h3 [h4 h5]]] := law_shift (g := fun u v => v - u) ly ed E.
  + by move=> u r; rewrite ExD ExN Excst.
  + by move=> u v r q; rewrite CoD !CoDr !CoN !CoNr !Cocst !Cocstr opprK oppr0 !add0r.
  exists B; first by rewrite broadcastC.
  split=> //; split=> [a va|a b va vb]; rewrite !cY; try exact: bidx_valid (etrans (broadcastC _ _) bc) _.
    by rewrite h4.
  by rewrite h5.
- case E : (np_op _ _ _ _) => [r|] //= [<-]; case: lx ly => wc ec cX [wd ed cY].
  have [B bc [eB wB gB]] := op_shape E; rewrite ec ed in bc gB; exists B => //; split=> // a va.
  rewrite cX ?cY; [|exact: bidx_valid (etrans (broadcastC _ _) bc) _|exact: bidx_valid bc _].
  by rewrite gB // cstD cstN.
Qed.
Theorem C26_neg s X (x : rv R) : law s X x ->
  exists2 z, rv_neg x = Some z & law s (fun b => - X b) z.
Proof.
case: x => [n|c|] //= => [[[wm wv s2 ev] ck es [mX cX]]|[wc ec cX]].
  rewrite /neg_normal /mk_normal /= s2 ev eqxx orbT /=; eexists; first by [].
  split=> //=; first by split=> //=; exact: wf_map.
  split=> [a va|a b va vb]; first by rewrite ExN mX // get_map // es.
  by rewrite CoN CoNr opprK cX.
exists (Cst (np_map -%R c)) => //; split=> //; first exact: wf_map.
by move=> a va; rewrite get_map ?ec // cstN cX.
Qed.

(** Scaling. *)
Lemma law_scale s X n c r (m v : arr) l n' : law s X (Nrm n) -> prodn (shp c) = 1%N ->
  mk_normal (Some m) (Some v) l = Some n' -> broadcast s (shp c) = Some (shp m) -> wf m ->
  dat m = [seq u * r | u <- dat (mean n)] -> wf v -> dat v = [seq u * r ^+ 2 | u <- dat (cov n)] ->
  match chol n, l with
  | Some l0, Some l1 => [/\ wf l1, prodn (shp l1) = prodn (shp l0) & dat l1 = [seq u * r | u <- dat l0]]
  | None, None => True | _, _ => False end ->
  law (shp m) (fun b => r *: X (bidx s b)) (Nrm n').
Proof.
move=> [[/eqP wm wv s2 ev] ck es [mX cX]] c1 E0; move: (E0) => /mk_normalP [[Em] [Ev] El s2' ev'] bc wm' dm wv' dv hl.
rewrite -Em in s2' ev'; rewrite -Ev in ev'; have pB := bc_ones bc c1; have := wv => /eqP wvs.
have pv : prodn (shp (cov n)) = (prodn s * prodn s)%N by rewrite ev es; case: (s) => //= d s'; rewrite muln1.
split=> /=.
- by split; rewrite -?Em -?Ev.
- move: ck; rewrite /chol_ok El -Em -Ev pB es; case: l hl E0 {El} => [l1|] // + /mk_normal_chol; rewrite -Em -Ev => + hs; case: (chol n) => [l0|] // [wl pl dl] [ck _].
  by split=> //; exact: sqrt_scale ck pl dl dv.
- by rewrite Em.
split=> [a va|a b va vb].
  have va' := bidx_valid bc va.
  rewrite ExZ mX // /M_CovFunc.get -Em dm es -(ravel_bidx bc) // (nth_map 0); first exact: mulrC.
  by rewrite wm es ravel_lt.
have va' := bidx_valid bc va; have vb' := bidx_valid bc vb.
have E (p q : R) : p * (p * q) = q * p ^+ 2 by mring.
have ev2 : shp (cov n) = cov_shape s by rewrite ev es.
rewrite CoZ CoZr cX // (@covfE _ n) ?es // (@covfE _ n') -?Em -?Ev // dv (nth_map 0).
  by rewrite pB !(ravel_bidx bc).
by rewrite wvs pv -pB pair_lt // ravel_lt.
Qed.
Lemma dat_sq c : prodn (shp c) = 1%N -> wf c -> support0 (np_map (fun u : R => u ^+ 2) c) = support0 c ^+ 2.
Proof. by rewrite /wf => c1 /eqP wc; rewrite /support0 (nth_map 0) // wc c1. Qed.
Lemma map_mulC (l : seq R) r : [seq r * u | u <- l] = [seq u * r | u <- l].
Proof. by apply: eq_map => u; rewrite mulrC. Qed.
Theorem C26_mul s X n c z : law s X (Nrm n) -> wf c -> (support0 c = 0 -> (size (shp c) <= size s)%N) -> mul_nc n c = Some z -> z <> Generic R ->
  exists2 B, broadcast s (shp c) = Some B & law B (fun b => get c (bidx (shp c) b) *: X (bidx s b)) z.
Proof.
move=> lX wc z0; rewrite /mul_nc; case: eqP => [c1|_ [<-]] //.
have Z B : broadcast s (shp c) = Some B -> forall b, valid B b -> get c (bidx (shp c) b) = support0 c.
  by move=> bc b vb; apply: get1 => //; apply: bidx_valid vb; rewrite broadcastC; exact: bc.
case: lX (lX) => [[wm wv s2 ev] ck es [mX cX]] lX; case: eqP => [c0 [<-] _|_].
  have bc := bc_small c1 (z0 c0); exists s => //; split=> [|//|a va]; first exact: wf_map.
  by rewrite (Z _ bc) // get_map ?es // c0 scale0r cst0.
case El : (omul c (chol n)) => [l|] //; case E : (mk_normal _ _ _) => [n'|] //= [<-] _.
have [Em Ev _ _ _] := mk_normalP E; have [B bc [eB wB gB]] := op_shape Em.
rewrite opC in Em; have [pm dm] := op_flat wm c1 Em.
rewrite opC in Ev; have [pv dv] := op_flat wv (c1 : prodn (shp (np_map _ c)) = 1%N) Ev.
rewrite broadcastC es in bc; exists B => //.
have : law B (fun b => support0 c *: X (bidx s b)) (Nrm n').
  rewrite -eB; apply: (law_scale lX c1 (m := mean n') (v := cov n') (l := l)) => //.
  - by move: E; rewrite opC Em opC Ev.
  - by rewrite bc eB.
  - by rewrite dm map_mulC.
  - by have [] := op_shape Ev => ? _ [].
  - by rewrite dv dat_sq // map_mulC.
  move: El ck; rewrite /omul /chol_ok; case: (chol n) => [l0|] /=; last by move=> [<-].
  case El : (op _ _ _) => [l1|] // [<-] [[wl _ _] _].
  have [? _ [_ wl1 _]] := op_shape El; rewrite opC in El; have [pl dl] := op_flat wl c1 El.
  by split=> //; rewrite dl map_mulC.
case=> h1 h2 h3 [h4 h5]; split=> //; split=> [a va|a b va vb]; rewrite !(Z _ bc) //; [exact: h4|exact: h5].
Qed.
Theorem C26_div s X n c z : law s X (Nrm n) -> wf c -> div_nc n c = Some z -> z <> Generic R ->
  exists2 B, broadcast s (shp c) = Some B & law B (fun b => (get c (bidx (shp c) b))^-1 *: X (bidx s b)) z.
Proof.
move=> lX wc; rewrite /div_nc; case: eqP => [c1|_ [<-]] //.
have Z B : broadcast s (shp c) = Some B -> forall b, valid B b -> get c (bidx (shp c) b) = support0 c.
  by move=> bc b vb; apply: get1 => //; apply: bidx_valid vb; rewrite broadcastC; exact: bc.
case: lX (lX) => [[wm wv s2 ev] ck es [mX cX]] lX; case: eqP => [//|_].
case El : (odiv (chol n) c) => [l|] //; case E : (mk_normal _ _ _) => [n'|] //= [<-] _.
have [Em Ev _ _ _] := mk_normalP E; have [B bc [eB wB gB]] := op_shape Em.
have [pm dm] := op_flat wm c1 Em.
have [pv dv] := op_flat wv (c1 : prodn (shp (np_map _ c)) = 1%N) Ev.
rewrite es in bc; exists B => //.
have : law B (fun b => (support0 c)^-1 *: X (bidx s b)) (Nrm n').
  rewrite -eB; apply: (law_scale lX c1 (m := mean n') (v := cov n') (l := l)) => //.
  - by move: E; rewrite Em Ev.
  - by rewrite bc eB.
  - by have [] := op_shape Ev => ? _ [].
  - by rewrite dv dat_sq // /div exprVn.
  move: El ck; rewrite /odiv /chol_ok; case: (chol n) => [l0|] /=; last by move=> [<-].
  case El : (op _ _ _) => [l1|] // [<-] [[wl _ _] _].
  have [? _ [_ wl1 _]] := op_shape El; have [pl dl] := op_flat wl c1 El.
  by split.
case=> h1 h2 h3 [h4 h5]; split=> //; split=> [a va|a b va vb]; rewrite !(Z _ bc) //; [exact: h4|exact: h5].
Qed.
End Arith.
Print Assumptions C26_add.
Print Assumptions C26_sub.
Print Assumptions C26_neg.
Print Assumptions C26_mul.
Print Assumptions C26_div.
