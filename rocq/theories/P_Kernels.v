(** C114: the kernels compute their documented formulas, vectorised. C30: Matern polynomials. *)
From mathcomp Require Import all_ssreflect all_algebra.
From Verif Require Import L_Ring M_CovFunc L_CovFunc P_CovFunc M_Kernels.
Set Implicit Arguments.
Unset Strict Implicit.
Unset Printing Implicit Defensive.
Import Order.Theory GRing.Theory Num.Theory.
Local Open Scope ring_scope.

(** ** C30: the coefficients of the Matern polynomials *)
Section Coefficients.
Variable F : numFieldType.
(** The documented coefficient of degree [p - i]. *)
Definition matern_coeff (p i : nat) : F :=
  p`!%:R / (2 * p)`!%:R * ((p + i)`!%:R / (i`!%:R * (p - i)`!%:R)) * 2%:R ^+ (p - i).
Lemma fact_neq0 n : n`!%:R != 0 :> F.
Proof. by rewrite pnatr_eq0 -lt0n fact_gt0. Qed.
Lemma matern_coeff_p p : matern_coeff p p = 1.
Proof.
rewrite /matern_coeff subnn fact0 !mulr1 addnn -mul2n.
by rewrite mulrA divfK ?divff ?fact_neq0.
Qed.
Lemma matern_coeff_rec p i : (i < p)%N ->
  matern_coeff p i = matern_coeff p i.+1 * 2%:R * i.+1%:R / (p + i + 1)%:R / (p - i)%:R.
Proof.
move=> ip; rewrite /matern_coeff; have -> : (p - i)%N = (p - i.+1).+1 by rewrite -subSn.
have -> : (p + i.+1 = (p + i).+1)%N by rewrite addnS.
rewrite !factS exprS !natrM addn1.
have h1 := fact_neq0 i; have h2 := fact_neq0 (p - i.+1); have h3 := fact_neq0 (2 * p); have h4 := fact_neq0 (p + i).
have h5 : i.+1%:R != 0 :> F by rewrite pnatr_eq0.
have h6 : (p - i.+1).+1%:R != 0 :> F by rewrite pnatr_eq0.
have h7 : (p + i).+1%:R != 0 :> F by rewrite pnatr_eq0.
move: h1 h2 h3 h4 h5 h6 h7.
move: (p`!%:R) (i`!%:R) ((p - i.+1)`!%:R) ((2 * p)`!%:R) ((p + i)`!%:R) (i.+1%:R) ((p - i.+1).+1%:R) ((p + i).+1%:R) (2%:R) (2%:R ^+ _).
move=> P I J K L M N O T Q h1 h2 h3 h4 h5 h6 h7.
by mfield.
Qed.
Lemma coeff_loopE p m : (m <= p)%N -> coeff_loop p m [seq matern_coeff p (p - k) | k <- iota 0 (p - m).+1] =
  [seq matern_coeff p (p - k) | k <- iota 0 p.+1].
Proof.
elim: m => [|m IH] mp; first by rewrite subn0.
rewrite -IH ?(ltnW mp) //; set cs := [seq _ | k <- iota 0 (p - m.+1).+1].
rewrite -[LHS]/(coeff_loop p m (rcons cs (last 0 cs * 2%:R * m.+1%:R / (p + m + 1)%:R / (p - m)%:R))); congr coeff_loop.
have -> : last 0 cs = matern_coeff p m.+1.
  rewrite /cs (last_nth 0) size_map size_iota -[LHS]/(nth 0 [seq matern_coeff p (p - k) | k <- iota 0 (p - m.+1).+1] (p - m.+1)).
  by rewrite (nth_map 0%N) ?size_iota // nth_iota // add0n subKn.
rewrite -matern_coeff_rec // /cs subnSK // -[(p - m).+1]addn1 iotaD map_cat add0n.
by rewrite -cats1; congr (_ ++ _); rewrite /= subKn // ltnW.
Qed.

(** C30: the coefficients are the documented ones ... *)
Theorem C30_coefficients p : size (coefficients F p) = p.+1 /\
  forall i, (i <= p)%N -> nth 0 (coefficients F p) (p - i) = matern_coeff p i.
Proof.
have -> : coefficients F p = [seq matern_coeff p (p - k) | k <- iota 0 p.+1].
  by rewrite -(coeff_loopE (leqnn p)) subnn /= subn0 matern_coeff_p.
rewrite size_map size_iota; split=> // i ip.
by rewrite (nth_map 0%N) ?size_iota ?ltnS ?leq_subr // nth_iota ?ltnS ?leq_subr // add0n subKn.
Qed.
End Coefficients.
Print Assumptions C30_coefficients.

Section Matern.
Variables (R : rcfType) (ex : R -> R).
(** ... and Horner's method gives the documented polynomial times the exponential function. *)
Lemma horner_loopE (cs : seq R) d m res : horner_loop cs d m res = res * d ^+ m + \sum_(k < m) nth 0 cs k * d ^+ k.
Proof.
elim: m res => [|m IH] res /=; first by rewrite big_ord0 mulr1 addr0.
by rewrite IH big_ord_recr /= mulrDl exprS mulrA -addrA; congr (_ + _); rewrite addrC.
Qed.
Theorem C30_matern p d : matern_poly ex p d =
  ex (- d) * (p`!%:R / (2 * p)`!%:R) *
  \sum_(i < p.+1) (p + i)`!%:R / (i`!%:R * (p - i)`!%:R) * 2%:R ^+ (p - i) * d ^+ (p - i).
Proof.
have [_ C] := C30_coefficients R p.
rewrite /matern_poly horner_loopE addrC -(big_ord_recr p (fun k => nth 0 (coefficients R p) k * d ^+ k)) /=.
rewrite [LHS]mulrC -[RHS]mulrA; congr (_ * _); rewrite mulr_sumr.
rewrite (reindex_inj rev_ord_inj).
apply: eq_bigr => i _.
have ip : (i <= p)%N by rewrite -ltnS ltn_ord.
rewrite [nat_of_ord (rev_ord i)]/= subSS.
rewrite (C i ip).
rewrite /matern_coeff.
rewrite !mulrA.
reflexivity.
Qed.
End Matern.
Print Assumptions C30_matern.

(** ** C114: the formulas *)
Section Kernels.
Variable R : rcfType.
Variables (ex : R -> R) (pow : R -> R -> R).
Local Notation get := (get (0 : R)).
Local Notation op := (np_op (0 : R)).
Implicit Types (i s B : seq nat) (ls : arr R).

(** Entries of points and length scales. *)
Definition ent i (u : seq R) (j : seq nat) : R := nth 0 u (ravel i j).
Definition len ls (j : seq nat) : R := get ls (bidx (shp ls) j).
(** Length scales accepted by the constructors (_matern.py 117-131). *)
Definition scales i ls : Prop :=
  [/\ wf ls, broadcast i (shp ls) = Some i & forall j, valid i j -> 0 < len ls j].
Definition dotf i (u v : seq R) : R := \sum_(j <- indices i) ent i u j * ent i v j.
Definition sqf i ls (u v : seq R) : R := \sum_(j <- indices i) (ent i u j - ent i v j) ^+ 2 / len ls j ^+ 2.

(** *** Lemmas *)
Lemma pt_ent i (x : arr R) s a j : valid s a -> valid i j -> shp x = s ++ i ->
  get x (a ++ j) = ent i (pt i x (ravel s a)) j.
Proof.
move=> va vj sx; rewrite /M_CovFunc.get /ent /pt sx ravel_cat ?(valid_size va) //.
by rewrite nth_take ?ravel_lt // nth_drop.
Qed.
Lemma op_ent f i (x0 x1 : arr R) s0 s1 B : shp x0 = s0 ++ i -> shp x1 = s1 ++ i -> broadcast s0 s1 = Some B ->
  exists y, [/\ op f x0 x1 = Some y, wf y, shp y = B ++ i & forall b j, valid B b -> valid i j ->
    get y (b ++ j) = f (ent i (pt i x0 (ravel s0 (bidx s0 b))) j) (ent i (pt i x1 (ravel s1 (bidx s1 b))) j)].
Proof.
move=> e0 e1 bc; rewrite /np_op e0 e1 broadcast_cat bc /=; eexists; split; first by [].
- exact: wf_tab.
- by [].
move=> b j vb vj; rewrite get_tab; last by rewrite valid_cat ?(valid_size vb) // vb.
have v0 := bidx_valid bc vb; have v1 : valid s1 (bidx s1 b) by apply: (@bidx_valid s1 s0 B) vb; rewrite broadcastC.
have z0 : (size s0 <= size b)%N by rewrite (valid_size vb); exact: broadcast_size bc.
have z1 : (size s1 <= size b)%N by rewrite (valid_size vb); apply: (@broadcast_size s1 s0); rewrite broadcastC.
by rewrite !bidx_cat // (pt_ent v0 vj e0) (pt_ent v1 vj e1).
Qed.
(** Elementwise operations of arrays of equal shape. *)
Lemma op_same f (x y : arr R) : shp x = shp y ->
  exists z, [/\ op f x y = Some z, wf z, shp z = shp x & forall a, valid (shp x) a -> get z a = f (get x a) (get y a)].
Proof.
move=> e; rewrite /np_op -e broadcast_refl /=; eexists; split; first by [].
- exact: wf_tab.
- by [].
by move=> a va; rewrite get_tab // bidx_refl.
Qed.
Lemma bc_scales_rev s t u : bc_rev s t = Some s -> bc_rev (s ++ u) t = Some (s ++ u).
Proof.
elim: s t => [|d s IH] [|e t] //=; first by case: u.
case: ifP => _; first by case E : (bc_rev s t) => [C|] //= [EC]; rewrite IH // E EC.
by case: ifP => // /eqP d1; case E : (bc_rev s t) => [C|] //= [ed EC]; rewrite IH ?E ?EC //= ed.
Qed.
Lemma bc_scales B i ls : broadcast i (shp ls) = Some i -> broadcast (B ++ i) (shp ls) = Some (B ++ i).
Proof.
rewrite /broadcast rev_cat; case E : (bc_rev _ _) => [C|] //= [EC].
have {}E : bc_rev (rev i) (rev (shp ls)) = Some (rev i) by rewrite E -EC revK.
by rewrite (bc_scales_rev _ E) /= rev_cat !revK.
Qed.
Lemma op_scales f B i (x : arr R) ls : shp x = B ++ i -> broadcast i (shp ls) = Some i ->
  exists y, [/\ op f x ls = Some y, wf y, shp y = B ++ i & forall b j, valid B b -> valid i j ->
    get y (b ++ j) = f (get x (b ++ j)) (len ls j)].
Proof.
move=> e bc; rewrite /np_op e (bc_scales _ bc) /=; eexists; split; first by [].
- exact: wf_tab.
- by [].
move=> b j vb vj; have v : valid (B ++ i) (b ++ j) by rewrite valid_cat ?(valid_size vb) // vb.
rewrite get_tab // bidx_refl //; congr (f _ (get ls _)); rewrite /bidx; congr map; congr zip.
have sz : (size (shp ls) <= size j)%N.
  by rewrite (valid_size vj); apply: (@broadcast_size (shp ls) i); rewrite broadcastC.
by rewrite size_cat -addnBA // drop_cat ltnNge leq_addr /= addKn.
Qed.
Lemma len_map f ls j : wf ls -> valid (shp ls) (bidx (shp ls) j) -> len (np_map f ls) j = f (len ls j).
Proof. by move=> w v; rewrite /len get_map. Qed.
Lemma sum_lastE B i (x : arr R) : shp x = B ++ i ->
  [/\ wf (sum_last (size i) x), shp (sum_last (size i) x) = B &
   forall b, valid B b -> get (sum_last (size i) x) b = \sum_(j <- indices i) get x (b ++ j)].
Proof.
move=> e; rewrite /sum_last e size_cat addnK take_size_cat // drop_size_cat //.
by split=> // [|b vb]; [exact: wf_tab|rewrite get_tab].
Qed.
Lemma fullE B i (x : arr R) v : shp x = B ++ i ->
  [/\ wf (full i x v), shp (full i x v) = B & forall b, valid B b -> get (full i x v) b = v].
Proof.
move=> e; rewrite /full e size_cat addnK take_size_cat //.
by split=> // [|b vb]; [exact: wf_tab|rewrite get_tab].
Qed.
Lemma sum_valid i (f g : seq nat -> R) : (forall j, valid i j -> f j = g j) ->
  \sum_(j <- indices i) f j = \sum_(j <- indices i) g j.
Proof. by move=> h; apply: eq_big_seq => j; rewrite mem_indices; exact: h. Qed.

(** Scalar results, as arrays over the batch. *)
Definition sentries (r : option (arr R)) B (g : seq nat -> R) : Prop :=
  exists y, [/\ r = Some y, wf y, shp y = B & forall b, valid B b -> get y b = g b].
Lemma sentriesE r B g : sentries r B g -> entries r B [::] [::] (fun b _ _ => g b).
Proof.
case=> y [h1 h2 h3 h4]; exists y; split=> //; first by rewrite /= cats0.
by move=> b [|? ?] [|? ?] vb _ _ //=; rewrite cats0 h4.
Qed.
Lemma sentries_map f r B g : sentries r B g -> sentries (omap (np_map f) r) B (fun b => f (g b)).
Proof.
case=> y [-> h2 h3 h4]; exists (np_map f y); split=> //; first exact: wf_map.
by move=> b vb; rewrite get_map ?h4 // h3.
Qed.
Lemma sentries_ext r B g g' : (forall b, valid B b -> g b = g' b) -> sentries r B g -> sentries r B g'.
Proof. by move=> e [y [h1 h2 h3 h4]]; exists y; split=> // b vb; rewrite -e // h4. Qed.
(** Contracts of kernels with scalar values. *)
Definition scalar i (r : arr R -> option (arr R) -> option (arr R)) (f : seq R -> seq R -> R) : Prop :=
  (forall x0 x1 s0 s1 B, wf x0 -> wf x1 -> shp x0 = s0 ++ i -> shp x1 = s1 ++ i -> broadcast s0 s1 = Some B ->
     sentries (r x0 (Some x1)) B (fun b => f (pt i x0 (ravel s0 (bidx s0 b))) (pt i x1 (ravel s1 (bidx s1 b))))) /\
  (forall x0 s0, wf x0 -> shp x0 = s0 ++ i ->
     sentries (r x0 None) s0 (fun b => f (pt i x0 (ravel s0 b)) (pt i x0 (ravel s0 b)))).
Lemma scalarE i r f : scalar i r f -> pointwise i i [::] [::] r (fun u v _ _ => f u v).
Proof.
case=> h1 h2; split=> [x0 x1 s0 s1 B w0 w1 e0 e1 bc|_ x0 s0 w0 e0].
  exact: sentriesE (h1 _ _ _ _ _ w0 w1 e0 e1 bc).
exact: sentriesE (h2 _ _ w0 e0).
Qed.
Lemma scalar_map g i r f : scalar i r f -> scalar i (fun x0 x1 => omap (np_map g) (r x0 x1)) (fun u v => g (f u v)).
Proof.
case=> h1 h2; split=> [x0 x1 s0 s1 B w0 w1 e0 e1 bc|x0 s0 w0 e0].
  exact: sentries_map (h1 _ _ _ _ _ w0 w1 e0 e1 bc).
exact: sentries_map (h2 _ _ w0 e0).
Qed.
Lemma scalar_ext i r f f' : (forall u v, f u v = f' u v) -> scalar i r f -> scalar i r f'.
Proof.
move=> e [h1 h2]; split=> [x0 x1 s0 s1 B w0 w1 e0 e1 bc|x0 s0 w0 e0].
  by apply: sentries_ext (h1 _ _ _ _ _ w0 w1 e0 e1 bc).
by apply: sentries_ext (h2 _ _ w0 e0).
Qed.

Lemma inner_ok i : (size i <= 1)%N -> scalar i (inner i) (dotf i).
Proof.
move=> i1; split=> [x0 x1 s0 s1 B w0 w1 e0 e1 bc|x0 s0 w0 e0].
  have [y [h1 h2 h3 h4]] := op_ent *%R e0 e1 bc.
  have [h5 h6 h7] := sum_lastE h3.
  rewrite /inner h1; case: eqP => [i0|n0].
    subst i; exists y; split=> //; first by rewrite h3 cats0.
    by move=> b vb; have := h4 b [::] vb isT; rewrite cats0 /dotf /= big_seq1.
  have -> : size i == 1%N by case: (i) i1 n0 => [|? []].
  exists (sum_last (size i) y); split=> // b vb; rewrite h7 //; apply: sum_valid => j vj.
  by rewrite h4.
set y := np_map (fun z => z ^+ 2) x0.
have wy : wf y by exact: wf_map.
have sy : shp y = s0 ++ i by [].
have h4 b j : valid s0 b -> valid i j -> get y (b ++ j) = ent i (pt i x0 (ravel s0 b)) j * ent i (pt i x0 (ravel s0 b)) j.
  by move=> vb vj; rewrite get_map ?e0 ?valid_cat ?(valid_size vb) ?vb // (pt_ent vb vj e0) expr2.
have [h5 h6 h7] := sum_lastE sy.
rewrite /inner; case: eqP => [i0|n0].
  subst i; exists y; split=> //; first by rewrite sy cats0.
  by move=> b vb; have := h4 b [::] vb isT; rewrite cats0 /dotf /= big_seq1.
have -> : size i == 1%N by case: (i) i1 n0 => [|? []].
exists (sum_last (size i) y); split=> // b vb; rewrite h7 //; apply: sum_valid => j vj.
by rewrite h4.
Qed.
(** Squared distances with scale factors [sc]. *)
Lemma sqdist_ok i ls g : scales i ls -> scalar i (fun x0 x1 => sqdist i x0 x1 (Some (np_map g ls)))
  (fun u v => \sum_(j <- indices i) ((ent i u j - ent i v j) * g (len ls j)) ^+ 2).
Proof.
case=> wl bl pl; split=> [x0 x1 s0 s1 B w0 w1 e0 e1 bc|x0 s0 w0 e0]; last first.
  have [h5 h6 h7] := fullE 0 e0; exists (full i x0 0); split=> // b vb; rewrite h7 //.
  by rewrite big1 // => j _; rewrite subrr mul0r expr0n.
have [d [h1 h2 h3 h4]] := op_ent (fun a b => a - b) e0 e1 bc; rewrite /sqdist h1.
have [d' [k1 k2 k3 k4]] := op_scales *%R h3 (bl : broadcast i (shp (np_map g ls)) = Some i).
have ed : imul d (np_map g ls) = Some d' by rewrite /imul k1 k3 h3 eqxx.
have [q [q1 q2 q3 q4]] := op_same *%R (erefl (shp d')).
have eq : imul d' d' = Some q by rewrite /imul q1 q3 eqxx.
rewrite ed eq /=; rewrite k3 in q3 q4; have [h5 h6 h7] := sum_lastE q3.
exists (sum_last (size i) q); split=> // b vb; rewrite h7 //; apply: sum_valid => j vj.
have v : valid (B ++ i) (b ++ j) by rewrite valid_cat ?(valid_size vb) // vb.
rewrite q4 // k4 // h4 // -expr2 len_map //.
by apply: (@bidx_valid _ i i j) => //; rewrite broadcastC.
Qed.
Lemma sqdist_none_ok i : scalar i (fun x0 x1 => sqdist i x0 x1 None)
  (fun u v => \sum_(j <- indices i) (ent i u j - ent i v j) ^+ 2).
Proof.
split=> [x0 x1 s0 s1 B w0 w1 e0 e1 bc|x0 s0 w0 e0]; last first.
  have [h5 h6 h7] := fullE 0 e0; exists (full i x0 0); split=> // b vb; rewrite h7 //.
  by rewrite big1 // => j _; rewrite subrr expr0n.
have [d [h1 h2 h3 h4]] := op_ent (fun a b => a - b) e0 e1 bc; rewrite /sqdist h1.
have [q [q1 q2 q3 q4]] := op_same *%R (erefl (shp d)).
have eq : imul d d = Some q by rewrite /imul q1 q3 eqxx.
rewrite eq /=; rewrite h3 in q3 q4; have [h5 h6 h7] := sum_lastE q3.
exists (sum_last (size i) q); split=> // b vb; rewrite h7 //; apply: sum_valid => j vj.
have v : valid (B ++ i) (b ++ j) by rewrite valid_cat ?(valid_size vb) // vb.
by rewrite q4 // h4 // -expr2.
Qed.

(** [Linear] and [Polynomial]: points that are numbers or vectors. *)
Theorem C114_linear i c : (size i <= 1)%N -> pointwise i i [::] [::] (linear i c) (fun u v _ _ => dotf i u v + c).
Proof. by move=> i1; apply: scalarE; exact: (scalar_map (fun z => z + c) (inner_ok i1)). Qed.
Theorem C114_polynomial i c n : (size i <= 1)%N ->
  pointwise i i [::] [::] (polynomial i c n) (fun u v _ _ => (dotf i u v + c) ^+ n).
Proof. by move=> i1; apply: scalarE; exact: (scalar_map (fun z => (z + c) ^+ n) (inner_ok i1)). Qed.

(** [WhiteNoise]. *)
Lemma pt_eq i (u v : seq R) : size u = prodn i -> size v = prodn i ->
  (u == v) = all (fun j => ent i u j == ent i v j) (indices i).
Proof.
move=> su sv; apply/eqP/allP => [-> //|H].
apply: (@eq_from_nth _ 0) => [|k kl]; first by rewrite su sv.
rewrite su in kl; have [a va <-] := ravel_onto kl.
by apply/eqP/H; rewrite mem_indices.
Qed.
Lemma indices1 n : indices [:: n] = [seq [:: j] | j <- iota 0 n].
Proof. by rewrite /=; elim: (iota 0 n) => //= j l ->. Qed.
Lemma eqv1 (a b : R) : (eqv a b == 1) = (a == b).
Proof. by rewrite /eqv; case: (a == b); rewrite ?eqxx // eq_sym oner_eq0. Qed.
Theorem C114_white_noise i (c2 : R) : (size i <= 1)%N ->
  pointwise i i [::] [::] (white_noise i c2) (fun u v _ _ => if u == v then c2 else 0).
Proof.
move=> i1; apply: scalarE; split=> [x0 x1 s0 s1 B w0 w1 e0 e1 bc|x0 s0 w0 e0]; last first.
  by have [h5 h6 h7] := fullE c2 e0; exists (full i x0 c2); split=> // b vb; rewrite h7 // eqxx.
have [y [h1 h2 h3 h4]] := op_ent (@eqv R) e0 e1 bc.
have E b : valid B b -> c2 * (all (fun j => get y (b ++ j) == 1) (indices i))%:R =
    if pt i x0 (ravel s0 (bidx s0 b)) == pt i x1 (ravel s1 (bidx s1 b)) then c2 else 0.
  move=> vb; have v0 := bidx_valid bc vb.
  have v1 : valid s1 (bidx s1 b) by apply: (@bidx_valid s1 s0 B) vb; rewrite broadcastC.
  rewrite (@pt_eq i) ?(pt_size w0 e0) ?(pt_size w1 e1) //.
  have -> : all (fun j => get y (b ++ j) == 1) (indices i) =
    all (fun j => ent i (pt i x0 (ravel s0 (bidx s0 b))) j == ent i (pt i x1 (ravel s1 (bidx s1 b))) j) (indices i).
    apply: eq_in_all => j; rewrite mem_indices => vj; by rewrite h4 // eqv1.
  by case: (all _ _); rewrite ?mulr1 ?mulr0.
rewrite /white_noise h1; case: eqP => [i0|n0].
  subst i; rewrite cats0 in h3; apply: (sentries_ext E).
  apply: (@sentries_map ( *%R c2) (Some y) B (fun b => (all (fun j => get y (b ++ j) == 1) (indices [::]))%:R)).
  exists y; split=> // b vb; rewrite /= andbT cats0; have := h4 b [::] vb isT; rewrite cats0 => ->; by rewrite eqv1.
have [n en] : exists n, i = [:: n] by case: (i) i1 n0 => [|n []] // _ _; exists n.
subst i; apply: (sentries_ext E).
apply: (@sentries_map ( *%R c2) (Some (all_last y)) B (fun b => (all (fun j => get y (b ++ j) == 1) (indices [:: n]))%:R)).
have ta : take (size (shp y)).-1 (shp y) = B by rewrite h3 size_cat addn1 take_size_cat.
exists (all_last y); rewrite /all_last ta; split=> //; first exact: wf_tab.
move=> b vb; rewrite get_tab // h3 last_cat indices1 all_map; congr (_%:R); congr nat_of_bool.
by apply: eq_all => j /=; rewrite -cats1.
Qed.

(** [ExpQuad], [RatQuad] and [Matern]. *)
Lemma sqf_scale i ls c (u v : seq R) : \sum_(j <- indices i) ((ent i u j - ent i v j) * (c / len ls j)) ^+ 2 = c ^+ 2 * sqf i ls u v.
Proof.
rewrite /sqf mulr_sumr; apply: eq_bigr => j _.
by rewrite !exprMn exprVn mulrCA mulrA mulrA.
Qed.
Lemma sqf_ge0 i ls (u v : seq R) : 0 <= sqf i ls u v.
Proof. by apply: sumr_ge0 => j _; rewrite divr_ge0 ?sqr_ge0. Qed.
Theorem C114_exp_quad i ls : ex 0 = 1 -> scales i ls ->
  pointwise i i [::] [::] (exp_quad ex i ls) (fun u v _ _ => ex (- (sqf i ls u v / 2%:R))).
Proof.
move=> e0 sl; apply: scalarE.
have [h1 h2] := scalar_map (fun z => ex (- z)) (sqdist_ok (fun l => Num.sqrt (1 / 2%:R) / l) sl).
have E u v : ex (- \sum_(j <- indices i) ((ent i u j - ent i v j) * (Num.sqrt (1 / 2%:R) / len ls j)) ^+ 2) = ex (- (sqf i ls u v / 2%:R)).
  by rewrite sqf_scale sqr_sqrtr ?divr_ge0 ?ler0n ?ler01 // div1r mulrC.
split=> [x0 x1 s0 s1 B w0 w1 e0' e1 bc|x0 s0 w0 e0'].
  by apply: sentries_ext (h1 _ _ _ _ _ w0 w1 e0' e1 bc) => b vb; rewrite E.
have [h5 h6 h7] := fullE 1 e0'; exists (full i x0 1); split=> // b vb; rewrite h7 //.
rewrite /sqf big1 ?mul0r ?oppr0 ?e0 // => j _; by rewrite subrr expr0n mul0r.
Qed.
Theorem C114_rat_quad i (l al : R) : (forall a, pow 1 a = 1) ->
  pointwise i i [::] [::] (rat_quad pow i l al)
    (fun u v _ _ => pow (1 + (\sum_(j <- indices i) (ent i u j - ent i v j) ^+ 2) / (2%:R * al * l ^+ 2)) (- al)).
Proof.
move=> e0; apply: scalarE.
have [h1 h2] := scalar_map (fun z => pow (1 + z / (2%:R * al * l ^+ 2)) (- al)) (sqdist_none_ok i).
split=> [x0 x1 s0 s1 B w0 w1 e0' e1 bc|x0 s0 w0 e0'].
  exact: (h1 _ _ _ _ _ w0 w1 e0' e1 bc).
have [h5 h6 h7] := fullE 1 e0'; exists (full i x0 1); split=> // b vb; rewrite h7 //.
rewrite big1 ?mul0r ?addr0 ?e0 // => j _; by rewrite subrr expr0n.
Qed.
(** The scaled distance is [sqrt(2 nu)] times the norm with the squared length scales. *)
Definition mdist i p ls (u v : seq R) : R := Num.sqrt (2%:R * nu R p) * Num.sqrt (sqf i ls u v).
Lemma nu_ge0 p : 0 <= 2%:R * nu R p.
Proof. by rewrite mulr_ge0 ?ler0n // addr_ge0 ?ler0n // divr_ge0 ?ler0n ?ler01. Qed.
Lemma matern_scalar i p ls : scales i ls -> scalar i (matern ex i p ls) (fun u v => matern_poly ex p (mdist i p ls u v)).
Proof.
move=> sl; apply: (scalar_map (matern_poly ex p)).
have [h1 h2] := scalar_map Num.sqrt (sqdist_ok (fun l => Num.sqrt (2%:R * nu R p) / l) sl).
have E u v : Num.sqrt (\sum_(j <- indices i) ((ent i u j - ent i v j) * (Num.sqrt (2%:R * nu R p) / len ls j)) ^+ 2) = mdist i p ls u v.
  by rewrite sqf_scale sqr_sqrtr ?nu_ge0 // sqrtrM ?nu_ge0.
split=> [x0 x1 s0 s1 B w0 w1 e0 e1 bc|x0 s0 w0 e0].
  by apply: sentries_ext (h1 _ _ _ _ _ w0 w1 e0 e1 bc) => b vb; rewrite E.
have [h5 h6 h7] := fullE 0 e0; exists (full i x0 0); split=> // b vb; rewrite h7 //.
rewrite /mdist /sqf big1 ?sqrtr0 ?mulr0 // => j _; by rewrite subrr expr0n mul0r.
Qed.
(** The documented function of the scaled distance. *)
Definition matern_fn p (d : R) : R :=
  ex (- d) * (p`!%:R / (2 * p)`!%:R) *
  \sum_(k < p.+1) (p + k)`!%:R / (k`!%:R * (p - k)`!%:R) * 2%:R ^+ (p - k) * d ^+ (p - k).
Theorem C114_matern i p ls : scales i ls -> pointwise i i [::] [::] (matern ex i p ls)
  (fun u v _ _ => matern_fn p (Num.sqrt (2%:R * (p%:R + 1 / 2%:R)) * Num.sqrt (sqf i ls u v))).
Proof.
move=> sl; have := scalarE (matern_scalar p sl); apply: pointwise_ext => u v a b.
by rewrite C30_matern.
Qed.

(** [ProductMatern]: the product over the coordinates. *)
Lemma pointwise_scalar i r f : pointwise i i [::] [::] r f -> scalar i r (fun u v => f u v [::] [::]).
Proof.
case=> h1 h2; split=> [x0 x1 s0 s1 B w0 w1 e0 e1 bc|x0 s0 w0 e0].
  have [y [k1 k2 k3 k4]] := h1 _ _ _ _ _ w0 w1 e0 e1 bc; exists y; split=> //; first by rewrite k3 !cats0.
  by move=> b vb; have := k4 b [::] [::] vb isT isT; rewrite !cats0.
have [y [k1 k2 k3 k4]] := h2 erefl _ _ w0 e0; exists y; split=> //; first by rewrite k3 !cats0.
by move=> b vb; have := k4 b [::] [::] vb isT isT; rewrite !cats0.
Qed.
Definition unif p (l : R) (d : R) : R := matern_fn p (Num.sqrt (2%:R * (p%:R + 1 / 2%:R)) * (`|d| / l)).
Lemma univariate_ok p (l : R) : 0 < l ->
  scalar [::] (call (Base [::] [::] [::] [::] (matern ex [::] p (Arr [::] [:: l]))))
    (fun u v => unif p l (nth 0 u 0 - nth 0 v 0)).
Proof.
move=> lp; have sl : scales [::] (Arr [::] [:: l]) by split.
have := pointwise_scalar (@pointwise_checked _ (Base [::] [::] [::] [::] (matern ex [::] p (Arr [::] [:: l]))) _ _ (C114_matern p sl)).
apply: scalar_ext => u v; rewrite /unif /sqf big_seq1 /ent /len /M_CovFunc.get /=.
by congr (matern_fn _ (_ * _)); rewrite -expr_div_n sqrtr_sqr normrM normfV (gtr0_norm lp).
Qed.
Lemma slice_ok (x : arr R) s n d : shp x = rcons s n -> (d < n)%N ->
  [/\ wf (slice_last x d), shp (slice_last x d) = s ++ [::] &
   forall a, valid s a -> nth 0 (pt [::] (slice_last x d) (ravel s a)) 0 = nth 0 (pt [:: n] x (ravel s a)) d].
Proof.
move=> e dn; have e1 : take (size (shp x)).-1 (shp x) = s by rewrite e size_rcons /= -cats1 take_size_cat.
rewrite /slice_last e1; split; [exact: wf_tab|by rewrite cats0|move=> a va].
have -> : pt [::] (tab s (fun a : seq nat => get x (rcons a d))) (ravel s a) = [:: get (tab s (fun a : seq nat => get x (rcons a d))) a].
  rewrite /pt /M_CovFunc.get /= muln1; have sz : (ravel s a < size [seq nth (0%R : R) (dat x) (ravel (shp x) (rcons b d)) | b <- indices s])%N.
    by rewrite size_map size_indices ravel_lt.
  by rewrite (drop_nth 0 sz) /= take0.
rewrite get_tab //= -cats1 (pt_ent va (i := [:: n])) ?e ?cats1 //; last by rewrite /= dn.
by rewrite /ent /= muln1 addn0.
Qed.
Lemma sentries_mul r r' B g h : sentries r B g -> sentries r' B h -> sentries (olift *%R r r') B (fun b => g b * h b).
Proof.
case=> y [-> wy sy hy] [z [-> wz sz hz]] /=.
have [w [h1 h2 h3 h4]] := op_same *%R (etrans sy (esym sz)).
by exists w; split=> //; [rewrite h3|move=> b vb; rewrite h4 ?sy // hy // hz].
Qed.
Lemma sentries_one r B h : sentries r B h -> sentries (olift *%R (Some (Arr [::] [:: 1])) r) B h.
Proof.
case=> z [-> wz sz hz]; rewrite /= /np_op /broadcast /= sz revK /=; eexists; split; first by [].
- exact: wf_tab.
- by [].
by move=> b vb; rewrite get_tab // (bidx_refl vb) hz // /M_CovFunc.get /= mul1r.
Qed.
Lemma sentries_prod (k : nat -> option (arr R)) B h l r g : sentries r B g -> (forall d, d \in l -> sentries (k d) B (h d)) ->
  sentries (foldl (fun z d => olift *%R z (k d)) r l) B (fun b => g b * \prod_(d <- l) h d b).
Proof.
elim: l r g => [|d l IH] r g hr hk /=; first by apply: sentries_ext hr => b _; rewrite big_nil mulr1.
have hk' e : e \in l -> sentries (k e) B (h e) by move=> el; apply: hk; rewrite inE el orbT.
apply: sentries_ext (IH _ _ (sentries_mul hr (hk d (mem_head _ _))) hk') => b _.
by rewrite big_cons mulrA.
Qed.
Lemma sentries_prod1 n (k : nat -> option (arr R)) B h : (forall d, (d < n.+1)%N -> sentries (k d) B (h d)) ->
  sentries (foldl (fun z d => olift *%R z (k d)) (Some (Arr [::] [:: 1])) (iota 0 n.+1)) B (fun b => \prod_(d < n.+1) h d b).
Proof.
move=> hk; rewrite /=; apply: sentries_ext (sentries_prod (sentries_one (hk 0%N isT)) _) => [b _|d].
  by rewrite big_ord_recl -[1%N]addn0 iotaDl big_map -/(iota 0 n) -[in iota 0 n](subn0 n) big_mkord.
by rewrite mem_iota => /andP[_ dn]; apply: hk.
Qed.
Theorem C114_product_matern n ps (lens : seq R) : (forall d, (d < n.+1)%N -> 0 < nth 0 lens d) ->
  pointwise [:: n.+1] [:: n.+1] [::] [::] (product_matern ex [:: n.+1] ps lens)
    (fun u v _ _ => \prod_(d < n.+1) unif (nth 0%N ps d) (nth 0 lens d) (nth 0 u d - nth 0 v d)).
Proof.
move=> lp; apply: scalarE; split=> [x0 x1 s0 s1 B w0 w1 e0 e1 bc|x0 s0 w0 e0].
  apply: (@sentries_prod1 n (fun d => call (Base [::] [::] [::] [::] (matern ex [::] (nth 0%N ps d) (Arr [::] [:: nth 0 lens d]))) (slice_last x0 d) (Some (slice_last x1 d)))
    B (fun d b => unif (nth 0%N ps d) (nth 0 lens d) (nth 0 (pt [:: n.+1] x0 (ravel s0 (bidx s0 b))) d - nth 0 (pt [:: n.+1] x1 (ravel s1 (bidx s1 b))) d))) => d dn.
  have [h1 _] := univariate_ok (nth 0%N ps d) (lp d dn).
  have [a1 a2 a3] := slice_ok (etrans e0 (cats1 _ _)) dn.
  have [b1 b2 b3] := slice_ok (etrans e1 (cats1 _ _)) dn.
  apply: sentries_ext (h1 _ _ _ _ _ a1 b1 a2 b2 bc) => b vb.
  rewrite a3 ?b3 //; last exact: bidx_valid bc vb.
  by apply: (@bidx_valid s1 s0 B) vb; rewrite broadcastC.
apply: (@sentries_prod1 n (fun d => call (Base [::] [::] [::] [::] (matern ex [::] (nth 0%N ps d) (Arr [::] [:: nth 0 lens d]))) (slice_last x0 d) None)
  s0 (fun d b => unif (nth 0%N ps d) (nth 0 lens d) (nth 0 (pt [:: n.+1] x0 (ravel s0 b)) d - nth 0 (pt [:: n.+1] x0 (ravel s0 b)) d))) => d dn.
have [_ h2] := univariate_ok (nth 0%N ps d) (lp d dn).
have [a1 a2 a3] := slice_ok (etrans e0 (cats1 _ _)) dn.
by apply: sentries_ext (h2 _ _ a1 a2) => b vb; rewrite a3.
Qed.
End Kernels.
Print Assumptions C114_linear.
Print Assumptions C114_polynomial.
Print Assumptions C114_white_noise.
Print Assumptions C114_exp_quad.
Print Assumptions C114_rat_quad.
Print Assumptions C114_matern.
Print Assumptions C114_product_matern.

(** Examples: the kernel [Linear((2,), 1) + 3 * WhiteNoise((2,), 1)], at the points [(1, 2)] and [(0, 1)]. *)
Section Examples.
Variable R : rcfType.
Definition k1 : kern R := Base [:: 2%N] [:: 2%N] [::] [::] (linear [:: 2%N] 1).
Definition k2 : kern R := Base [:: 2%N] [:: 2%N] [::] [::] (white_noise [:: 2%N] 1).
Definition e12 := EAdd (Atom k1) (EScale 3%:R (Atom k2)).
Definition f12 : kfun R := fun u v _ _ => dotf [:: 2%N] u v + 1 + 3%:R * (if u == v then 1 else 0).
Definition pts : arr R := Arr [:: 2; 2]%N [:: 1; 2%:R; 0; 1].
Lemma call1 i r f : pointwise i i [::] [::] r f -> pointwise i i [::] [::] (@call R (Base i i [::] [::] r)) f.
Proof. exact: (@pointwise_checked _ (Base i i [::] [::] r)). Qed.
Lemma user1 i r f : pointwise i i [::] [::] r f -> user i i [::] [::] (@single R i i r) (Base i i [::] [::] r).
Proof. by move=> h; exists r; split=> //; exact: single_pointwise h. Qed.
Lemma single1 i r f (u v : seq R) : pointwise i i [::] [::] r f -> size u = prodn i -> size v = prodn i ->
  single i i r u v [::] [::] = f u v [::] [::].
Proof. by move=> h su sv; rewrite (singleE h). Qed.
Definition den12 (k : kern R) : kfun R := if k is Base _ _ _ _ ev then single [:: 2%N] [:: 2%N] ev else fun _ _ _ _ => 0.
Example C29_example : exists k, build e12 = Some k /\
  exists M, [/\ matrix k pts None = Some M, shp M = [:: 2; 2]%N, get 0 M [:: 0; 0]%N = 9%:R,
    get 0 M [:: 0; 1]%N = 3%:R & get 0 M [:: 1; 1]%N = 5%:R].
Proof.
have p1 := @C114_linear R [:: 2%N] 1 isT; have p2 := @C114_white_noise R [:: 2%N] 1 isT.
have ok : All (fun k => user [:: 2%N] [:: 2%N] [::] [::] (den12 k) k) (atoms e12).
  by split; [exact: user1 p1|split; [exact: user1 p2|]].
have [k [h1 _ _]] := C29_call ok; exists k; split=> //.
have [M [h2 h3 h4]] := C29_matrix (x0 := pts) (s0 := [:: 2%N]) (x1 := None) (s1 := [:: 2%N]) ok h1 isT isT erefl isT erefl.
have V u v : size u = 2%N -> size v = 2%N -> value den12 e12 u v [::] [::] = f12 u v [::] [::].
  by move=> su sv; rewrite /= (single1 p1) // (single1 p2).
have g := h4 [::] _ [::] _ isT; exists M; split=> //.
- have := g [:: 0%N] [:: 0%N] isT isT isT; rewrite V //= => ->; rewrite /f12 eqxx /dotf /= !big_cons big_nil /ent /=.
  by mring.
- have := g [:: 0%N] [:: 1%N] isT isT isT; rewrite V //= => ->; rewrite /f12 ifF /dotf /= ?big_cons ?big_nil /ent /=.
    by mring.
  by apply/negP => /eqP [/eqP]; rewrite oner_eq0.
have := g [:: 1%N] [:: 1%N] isT isT isT; rewrite V //= => ->; rewrite /f12 eqxx /dotf /= !big_cons big_nil /ent /=.
by mring.
Qed.
(** The documented functions for smoothness 3/2 and 5/2, and admissible length scales. *)
Variable ex : R -> R.
Example C30_example d : matern_poly ex 1 d = (1 + d) * ex (- d) /\ matern_poly ex 2 d = (1 + d + d ^+ 2 / 3%:R) * ex (- d).
Proof.
have n3 : 3%:R != 0 :> R by rewrite pnatr_eq0.
have n2 : 2%:R != 0 :> R by rewrite pnatr_eq0.
have n4 : 4%:R != 0 :> R by rewrite pnatr_eq0.
split; rewrite /matern_poly /coefficients /= ?expr0; move: (ex _) => z.
  rewrite -[(1 + 0 + 1)%N]/2%N -[(1 - 0)%N]/1%N divr1 -/(1%:R); mfield.
by rewrite -[(2 + 1 + 1)%N]/4%N -[(2 + 0 + 1)%N]/3%N -[(2 - 0)%N]/2%N -[(2 - 1)%N]/1%N !divr1; mfield.
Qed.
Example C114_example : scales [:: 2%N] (Arr [::] [:: 1 / 2%:R : R]) /\ scales [:: 2%N] (Arr [:: 2%N] [:: 1; 2%:R : R]).
Proof. by split; split=> // -[|[|[|j]] [|? ?]] //= _; rewrite /len /get /= ?divr_gt0 ?ltr0n ?ltr01. Qed.
End Examples.
