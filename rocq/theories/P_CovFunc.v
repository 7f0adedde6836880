(** C29: covariance functions are vectorised pointwise, and so is their algebra; the matrices contain
    the pairwise values in the documented order. *)
From mathcomp Require Import all_ssreflect all_algebra.
From Verif Require Import M_CovFunc L_CovFunc.
Set Implicit Arguments.
Unset Strict Implicit.
Unset Printing Implicit Defensive.
Import GRing.Theory.
Local Open Scope ring_scope.
Local Opaque moveaxis.

Section Pointwise.
Variable R : fieldType.
Implicit Types (k : kern R) (e : expr R) (s i o b p q B : seq nat).
Local Notation get := (get (0 : R)).

(** ** Specification *)
(** A kernel as a function of two points (their entries in C order) and two output indices. *)
Definition kfun : Type := seq R -> seq R -> seq nat -> seq nat -> R.
(** The point number [r] (in C order of the batch) of an array of points of shape [i]. *)
Definition pt (i : seq nat) (x : arr R) (r : nat) : seq R := take (prodn i) (drop (r * prodn i) (dat x)).
Definition entries (r : option (arr R)) (B o0 o1 : seq nat) (g : seq nat -> seq nat -> seq nat -> R) : Prop :=
  exists y, [/\ r = Some y, wf y, shp y = B ++ o0 ++ o1 &
    forall b p q, valid B b -> valid o0 p -> valid o1 q -> get y (b ++ p ++ q) = g b p q].
(** The contract of [__call__] and [_evaluate]: inputs with batch shapes that can be broadcast give
    the values of the kernel at the broadcast points; without second argument, at equal points. *)
Definition pointwise i0 i1 o0 o1 (r : arr R -> option (arr R) -> option (arr R)) (f : kfun) : Prop :=
  (forall x0 x1 s0 s1 B, wf x0 -> wf x1 -> shp x0 = s0 ++ i0 -> shp x1 = s1 ++ i1 -> broadcast s0 s1 = Some B ->
     entries (r x0 (Some x1)) B o0 o1
       (fun b p q => f (pt i0 x0 (ravel s0 (bidx s0 b))) (pt i1 x1 (ravel s1 (bidx s1 b))) p q)) /\
  (i0 = i1 -> forall x0 s0, wf x0 -> shp x0 = s0 ++ i0 ->
     entries (r x0 None) s0 o0 o1 (fun b p q => f (pt i0 x0 (ravel s0 b)) (pt i1 x0 (ravel s0 b)) p q)).
Fixpoint value (den : kern R -> kfun) (e : expr R) : kfun :=
  match e with
  | Atom k => den k
  | EAdd e e' => fun u v p q => value den e u v p q + value den e' u v p q
  | EMul e e' => fun u v p q => value den e u v p q * value den e' u v p q
  | EScale c e => fun u v p q => c * value den e u v p q
  end.
Fixpoint atoms (e : expr R) : seq (kern R) :=
  match e with Atom k => [:: k] | EAdd e e' | EMul e e' => atoms e ++ atoms e' | EScale _ e => atoms e end.
(** A user kernel whose [_evaluate] computes [f]. *)
Definition user i0 i1 o0 o1 (f : kfun) k : Prop :=
  exists ev, k = Base i0 i1 o0 o1 ev /\ pointwise i0 i1 o0 o1 ev f.
Fixpoint All (P : kern R -> Prop) (l : seq (kern R)) : Prop := if l is k :: l then P k /\ All P l else True.
Definition shapes k := (in0 k, in1 k, out0 k, out1 k).

(** ** Lemmas *)
Lemma split_shapeE s i : split_shape (s ++ i) i = Some s.
Proof. by rewrite /split_shape size_cat addnK drop_size_cat // eqxx take_size_cat. Qed.
Lemma split_shapeP s i b : split_shape s i = Some b -> s = b ++ i.
Proof. by rewrite /split_shape; case: eqP => // e [<-]; rewrite -{1}(cat_take_drop (size s - size i) s) e. Qed.
Lemma entries_op f r r' B o0 o1 g g' : entries r B o0 o1 g -> entries r' B o0 o1 g' ->
  entries (olift f r r') B o0 o1 (fun b p q => f (g b p q) (g' b p q)).
Proof.
case=> x [-> wx sx hx] [y [-> wy sy hy]]; rewrite /= /np_op sx sy broadcast_refl /=.
exists (tab (B ++ o0 ++ o1) (fun a => f (get x (bidx (B ++ o0 ++ o1) a)) (get y (bidx (B ++ o0 ++ o1) a)))).
split=> //; first exact: wf_tab.
move=> b p q vb vp vq; have v : valid (B ++ o0 ++ o1) (b ++ p ++ q).
  by rewrite !valid_cat ?vb ?vp ?vq // ?(valid_size vb) ?(valid_size vp).
by rewrite get_tab // bidx_refl // hx // hy.
Qed.
Lemma entries_map f r B o0 o1 g : entries r B o0 o1 g ->
  entries (omap (np_map f) r) B o0 o1 (fun b p q => f (g b p q)).
Proof.
case=> x [-> wx sx hx]; exists (np_map f x); split=> //; first exact: wf_map.
move=> b p q vb vp vq; rewrite get_map // ?hx // sx !valid_cat ?vb ?vp ?vq // ?(valid_size vb) ?(valid_size vp) //.
Qed.
Lemma entries_ext r B o0 o1 g g' : (forall b p q, g b p q = g' b p q) -> entries r B o0 o1 g -> entries r B o0 o1 g'.
Proof. by move=> e [y [h1 h2 h3 h4]]; exists y; split=> // b p q *; rewrite -e h4. Qed.
Lemma entries_checked k x0 (x1 : option (arr R)) B r g : check_shapes (in0 k) (in1 k) (shp x0) (omap shp x1) = Some B ->
  entries r B (out0 k) (out1 k) g -> entries (checked k x0 x1 r) B (out0 k) (out1 k) g.
Proof. by move=> c [y [-> wy sy hy]]; rewrite /checked c sy eqxx; exists y. Qed.
(** Checks around a pointwise evaluation. *)
Lemma pointwise_checked k r f : pointwise (in0 k) (in1 k) (out0 k) (out1 k) r f ->
  pointwise (in0 k) (in1 k) (out0 k) (out1 k) (fun x0 x1 => checked k x0 x1 (r x0 x1)) f.
Proof.
case=> h1 h2; split=> [x0 x1 s0 s1 B w0 w1 e0 e1 bc|e x0 s0 w0 e0].
  apply: entries_checked; last exact: h1.
  by rewrite /check_shapes /= e0 e1 !split_shapeE.
apply: entries_checked; last exact: h2.
by rewrite /check_shapes /= e0 split_shapeE.
Qed.

(** ** Matrices *)
Definition mentries (r : option (arr R)) s0 s1 o0 o1 (g : seq nat -> seq nat -> seq nat -> seq nat -> R) : Prop :=
  exists M, [/\ r = Some M, wf M, shp M = [:: prodn (o0 ++ s0); prodn (o1 ++ s1)] &
    forall p b q c, valid o0 p -> valid s0 b -> valid o1 q -> valid s1 c ->
      get M [:: ravel (o0 ++ s0) (p ++ b); ravel (o1 ++ s1) (q ++ c)] = g p b q c].
Lemma bcast2 n m : broadcast [:: n; 1%N] [:: 1%N; m] = Some [:: n; m].
Proof.
rewrite /broadcast /=; case: m => [|[|m]] /=; case: n => [|[|n]] //=; by rewrite orbT.
Qed.
Lemma matrix_some k i o0 o1 f x0 s0 x1 s1 : shapes k = (i, i, o0, o1) -> pointwise i i o0 o1 (call k) f ->
  prodn i != 0%N -> wf x0 -> shp x0 = s0 ++ i -> wf x1 -> shp x1 = s1 ++ i ->
  mentries (matrix k x0 (Some x1)) s0 s1 o0 o1 (fun p b q c => f (pt i x0 (ravel s0 b)) (pt i x1 (ravel s1 c)) p q).
Proof.
case=> e1 e2 e3 e4 [h _] i0 w0 sh0 w1 sh1.
rewrite /matrix /preprocess e1 e2 /input_shape e1 e2 eqxx sh0 sh1 !split_shapeE (negbTE i0) /evaluate_matrix /= e3 e4.
set n := prodn s0; set m := prodn s1.
have [||y [-> wy sy hy]] := h (Arr [:: n, 1 & i]%N (dat x0)) (Arr [:: 1, m & i]%N (dat x1)) [:: n; 1]%N [:: 1; m]%N [:: n; m] _ _ erefl erefl (bcast2 n m).
- by move: w0; rewrite /wf sh0 /= prodn_cat mul1n.
- by move: w1; rewrite /wf sh1 /= prodn_cat mul1n.
have sy' : shp y = [:: n, m & o0 ++ o1] by rewrite sy.
have [s1' _ g1] := moveaxis_last 0 sy'.
rewrite -catA in s1'; have [s2' w2 g2] := moveaxis_first 0 s1'.
have -> : (size (shp y)).-1 = (size (o0 ++ o1)).+1 by rewrite sy'.
set z := moveaxis _ _ 0 _ in s2' w2 g2 *; clearbody z.
eexists; split; first by [].
- by move: w2; rewrite /wf s2' /= !prodn_cat /= prodn_cat /= !muln1 !mulnA.
- by rewrite /= !prodn_cat.
move=> p b q c vp vb vq vc.
have lb := ravel_lt vb; have lc := ravel_lt vc.
have e1n (t r : nat) : (r < t)%N -> (if t == 1%N then 0%N else r) = r by case: eqP => // ->; case: r.
have := hy [:: ravel s0 b; ravel s1 c] p q; rewrite /= lb lc => /(_ isT vp vq).
rewrite (e1n n) // (e1n m) // !muln1 mul0n !addn0 add0n => E.
rewrite -[RHS]E -[RHS](g1 (ravel s0 b) (ravel s1 c) (p ++ q)) //; last by rewrite valid_cat ?(valid_size vp) // vp.
have vq' : valid (o1 ++ [:: m]) (q ++ [:: ravel s1 c]) by rewrite valid_cat ?(valid_size vq) // vq /= lc.
rewrite -[in RHS]catA -[RHS](g2 p (ravel s0 b) (q ++ [:: ravel s1 c])) //.
rewrite /M_CovFunc.get s2' /=; congr nth.
rewrite !ravel_cat ?(valid_size vp) ?(valid_size vq) //= ravel_cat ?(valid_size vq) //= !prodn_cat /= !muln1 !addn0.
by rewrite -/n -/m mulnDl !mulnA !addnA.
Qed.
Lemma matrix_none k x : matrix k x None = matrix k x (Some x).
Proof.
rewrite /matrix /preprocess /input_shape; case: (in0 k =P in1 k) => [<-|_]; last by case: (split_shape _ _).
by case: (split_shape _ _) => // b; case: eqP.
Qed.
Lemma matrix_ok k i o0 o1 f x0 s0 (x1 : option (arr R)) s1 : shapes k = (i, i, o0, o1) -> pointwise i i o0 o1 (call k) f ->
  prodn i != 0%N -> wf x0 -> shp x0 = s0 ++ i -> wf (odflt x0 x1) -> shp (odflt x0 x1) = s1 ++ i ->
  mentries (matrix k x0 x1) s0 s1 o0 o1 (fun p b q c => f (pt i x0 (ravel s0 b)) (pt i (odflt x0 x1) (ravel s1 c)) p q).
Proof.
move=> sk pk i0 w0 e0 w1 e1; have -> : matrix k x0 x1 = matrix k x0 (Some (odflt x0 x1)) by case: (x1) => //; rewrite matrix_none.
exact: matrix_some.
Qed.
Lemma valid2 s t a b c d : valid s a -> valid t b -> valid c d -> forall u v, valid u v ->
  valid [:: prodn (s ++ t); prodn (c ++ u)] [:: ravel (s ++ t) (a ++ b); ravel (c ++ u) (d ++ v)].
Proof.
move=> va vb vd u v vv; rewrite /= !ravel_lt // valid_cat ?va ?vb ?vd ?vv // ?(valid_size va) ?(valid_size vd) //.
Qed.
Lemma mentries_op f r r' s0 s1 o0 o1 g g' : mentries r s0 s1 o0 o1 g -> mentries r' s0 s1 o0 o1 g' ->
  mentries (olift f r r') s0 s1 o0 o1 (fun p b q c => f (g p b q c) (g' p b q c)).
Proof.
case=> x [-> wx sx hx] [y [-> wy sy hy]]; rewrite /= /np_op sx sy broadcast_refl /=; eexists; split; first by [].
- exact: wf_tab.
- by [].
move=> p b q c vp vb vq vc; have v := valid2 vp vb vq vc.
by rewrite get_tab // bidx_refl // hx // hy.
Qed.
Lemma mentries_map f r s0 s1 o0 o1 g : mentries r s0 s1 o0 o1 g ->
  mentries (omap (np_map f) r) s0 s1 o0 o1 (fun p b q c => f (g p b q c)).
Proof.
case=> x [-> wx sx hx]; exists (np_map f x); split=> //; first exact: wf_map.
by move=> p b q c vp vb vq vc; rewrite get_map // ?hx // sx; exact: valid2.
Qed.
Lemma mentries_ext r s0 s1 o0 o1 g g' : (forall p b q c, g p b q c = g' p b q c) ->
  mentries r s0 s1 o0 o1 g -> mentries r s0 s1 o0 o1 g'.
Proof. by move=> e [y [h1 h2 h3 h4]]; exists y; split=> // p b q c *; rewrite -e h4. Qed.
(** Every row and column belongs to an output index and a point. *)
Lemma ravel_onto s r : (r < prodn s)%N -> exists2 a, valid s a & ravel s a = r.
Proof.
elim: s r => [|d s IH] r /=; first by rewrite ltnS leqn0 => /eqP ->; exists [::].
move=> h; have p0 : (0 < prodn s)%N by case: (prodn s) h; rewrite ?muln0.
have [a va ea] := IH (r %% prodn s)%N (ltn_pmod _ p0).
exists (r %/ prodn s :: a)%N => /=; last by rewrite ea -divn_eq.
by rewrite ltn_divLR // h.
Qed.
Lemma mentries_inj r r' s0 s1 o0 o1 g : mentries r s0 s1 o0 o1 g -> mentries r' s0 s1 o0 o1 g -> r = r'.
Proof.
case=> x [-> wx sx hx] [y [-> wy sy hy]]; congr Some; apply: (@arr_eq _ (0 : R)) => //; first by rewrite sx sy.
rewrite sx => -[|u [|v [|w a]]] //; first by rewrite /= andbF.
  rewrite /= andbT => /andP[/ravel_onto [a va <-] /ravel_onto [c vc <-]].
  have [p [b [-> vp vb]]] := valid_cat_split va; have [q [d [-> vq vd]]] := valid_cat_split vc.
  by rewrite hx // hy.
by rewrite /= !andbF.
Qed.

(** Kernels of given shapes that evaluate to [f]. *)
Definition lin i o0 o1 (r : arr R -> option (arr R) -> option (arr R)) (f : kfun) : Prop :=
  forall x0 s0 (x1 : option (arr R)) s1, prodn i != 0%N -> wf x0 -> shp x0 = s0 ++ i ->
  wf (odflt x0 x1) -> shp (odflt x0 x1) = s1 ++ i ->
  mentries (r x0 x1) s0 s1 o0 o1 (fun p b q c => f (pt i x0 (ravel s0 b)) (pt i (odflt x0 x1) (ravel s1 c)) p q).
Definition okk i o0 o1 k (f : kfun) : Prop :=
  [/\ shapes k = (i, i, o0, o1), pointwise i i o0 o1 (call k) f & lin i o0 o1 (linop k) f].
Fixpoint members i o0 o1 (l : seq (kern R)) (ds : seq kfun) : Prop :=
  match l, ds with
  | [::], [::] => True
  | k :: l, d :: ds => okk i o0 o1 k d /\ members i o0 o1 l ds
  | _, _ => False
  end.
Definition sumf (ds : seq kfun) : kfun := fun u v p q => \sum_(d <- ds) d u v p q.
Definition prodf (ds : seq kfun) : kfun := fun u v p q => \prod_(d <- ds) d u v p q.
Definition strong i o0 o1 k (f : kfun) : Prop :=
  okk i o0 o1 k f /\
  match k with
  | KSum _ _ _ l => exists ds, [/\ ~~ nilp l, members i o0 o1 l ds & forall u v p q, f u v p q = sumf ds u v p q]
  | KProd _ _ _ l => exists ds, [/\ ~~ nilp l, members i o0 o1 l ds & forall u v p q, f u v p q = prodf ds u v p q]
  | _ => True
  end.
Lemma members_cat i o0 o1 l m ds es : members i o0 o1 l ds -> members i o0 o1 m es ->
  members i o0 o1 (l ++ m) (ds ++ es).
Proof. by elim: l ds => [|k l IH] [|d ds] //= [h1 h2] h3; split=> //; exact: IH. Qed.
Lemma pointwise_ext i0 i1 o0 o1 r f f' : (forall u v p q, f u v p q = f' u v p q) ->
  pointwise i0 i1 o0 o1 r f -> pointwise i0 i1 o0 o1 r f'.
Proof.
by move=> e [h1 h2]; split=> [x0 x1 s0 s1 B w0 w1 e0 e1 bc|ei x0 s0 w0 e0];
  [apply: entries_ext (h1 _ _ _ _ _ w0 w1 e0 e1 bc)|apply: entries_ext (h2 ei _ _ w0 e0)].
Qed.
Lemma fold_ok op i o0 o1 (acc : arr R -> option (arr R) -> option (arr R)) a l ds :
  pointwise i i o0 o1 acc a -> members i o0 o1 l ds ->
  pointwise i i o0 o1 (fun x0 x1 => foldl (fun z k => olift op z (call k x0 x1)) (acc x0 x1) l)
    (fun u v p q => foldl (fun z (d : kfun) => op z (d u v p q)) (a u v p q) ds).
Proof.
elim: l acc a ds => [|k l IH] acc a [|d ds] //= h [[sk [hk1 hk2] _] hm].
apply: (IH (fun x0 x1 => olift op (acc x0 x1) (call k x0 x1)) (fun u v p q => op (a u v p q) (d u v p q))) => //.
case: h => h1 h2; split=> [x0 x1 s0 s1 B w0 w1 e0 e1 bc|ei x0 s0 w0 e0].
  exact: (entries_op op (h1 _ _ _ _ _ w0 w1 e0 e1 bc) (hk1 _ _ _ _ _ w0 w1 e0 e1 bc)).
exact: (entries_op op (h2 ei _ _ w0 e0) (hk2 ei _ _ w0 e0)).
Qed.
Lemma lin_ext i o0 o1 r f f' : (forall u v p q, f u v p q = f' u v p q) -> lin i o0 o1 r f -> lin i o0 o1 r f'.
Proof. by move=> e h x0 s0 x1 s1 i0 w0 e0 w1 e1; apply: mentries_ext (h _ _ _ _ i0 w0 e0 w1 e1). Qed.
Lemma fold_lin op i o0 o1 (acc : arr R -> option (arr R) -> option (arr R)) a l ds :
  lin i o0 o1 acc a -> members i o0 o1 l ds ->
  lin i o0 o1 (fun x0 x1 => foldl (fun z k => olift op z (linop k x0 x1)) (acc x0 x1) l)
    (fun u v p q => foldl (fun z (d : kfun) => op z (d u v p q)) (a u v p q) ds).
Proof.
elim: l acc a ds => [|k l IH] acc a [|d ds] //= h [[sk _ hk] hm].
apply: (IH (fun x0 x1 => olift op (acc x0 x1) (linop k x0 x1)) (fun u v p q => op (a u v p q) (d u v p q))) => //.
move=> x0 s0 x1 s1 i0 w0 e0 w1 e1.
exact: (mentries_op op (h _ _ _ _ i0 w0 e0 w1 e1) (hk _ _ _ _ i0 w0 e0 w1 e1)).
Qed.
Lemma ksum_ok i o0 o1 l ds : ~~ nilp l -> members i o0 o1 l ds -> okk i o0 o1 (KSum i o0 o1 l) (sumf ds).
Proof.
case: l ds => // k l [|d ds] // _ [[sk hk lk] hm].
have E u v p q : foldl (fun z (d : kfun) => z + d u v p q) (d u v p q) ds = sumf (d :: ds) u v p q.
  rewrite /sumf big_cons; elim: (ds) (d u v p q) => [|d' ds' IH] z /=; first by rewrite big_nil addr0.
  by rewrite IH big_cons addrA.
split=> //; last by apply: lin_ext E _; exact: fold_lin lk hm.
by have := fold_ok +%R hk hm; move=> /(@pointwise_checked (KSum i o0 o1 (k :: l))); exact: pointwise_ext.
Qed.
Lemma kprod_ok i o0 o1 l ds : ~~ nilp l -> members i o0 o1 l ds -> okk i o0 o1 (KProd i o0 o1 l) (prodf ds).
Proof.
case: l ds => // k l [|d ds] // _ [[sk hk lk] hm].
have P : pointwise i i o0 o1 (call (KProd i o0 o1 (k :: l))) (prodf (d :: ds)).
  have := fold_ok *%R hk hm; move=> /(@pointwise_checked (KProd i o0 o1 (k :: l))); apply: pointwise_ext => u v p q.
  rewrite /prodf big_cons; elim: (ds) (d u v p q) => [|d' ds' IH] z /=; first by rewrite big_nil mulr1.
  by rewrite IH big_cons mulrA.
by split=> // x0 s0 x1 s1 *; exact: matrix_ok.
Qed.
Lemma same_ok i o0 o1 k k' f f' : okk i o0 o1 k f -> okk i o0 o1 k' f' -> same k k && same k k'.
Proof. by case=> -[e1 e2 e3 e4] _ _ [[e1' e2' e3' e4'] _ _]; rewrite /same /input_shape e1 e2 e3 e4 e1' e2' e3' e4' !eqxx. Qed.
Lemma sum_parts i o0 o1 k f : strong i o0 o1 k f -> exists ds, [/\ ~~ nilp (if k is KSum _ _ _ m then m else [:: k]),
  members i o0 o1 (if k is KSum _ _ _ m then m else [:: k]) ds & forall u v p q, f u v p q = sumf ds u v p q].
Proof.
case: k => [i0 i1 a b ev|c k|j a b l|j a b l] [h] //.
all: by exists [:: f]; split=> // u v p q; rewrite /sumf big_seq1.
Qed.
Lemma prod_parts i o0 o1 k f : strong i o0 o1 k f -> exists ds, [/\ ~~ nilp (if k is KProd _ _ _ m then m else [:: k]),
  members i o0 o1 (if k is KProd _ _ _ m then m else [:: k]) ds & forall u v p q, f u v p q = prodf ds u v p q].
Proof.
case: k => [i0 i1 a b ev|c k|j a b l|j a b l] [h] //.
all: by exists [:: f]; split=> // u v p q; rewrite /prodf big_seq1.
Qed.
Lemma add_ok i o0 o1 k k' f f' : strong i o0 o1 k f -> strong i o0 o1 k' f' ->
  exists h, add k k' = Some h /\ strong i o0 o1 h (fun u v p q => f u v p q + f' u v p q).
Proof.
move=> sk sk'; have [ds [n1 m1 e1]] := sum_parts sk; have [es [n2 m2 e2]] := sum_parts sk'.
case: sk sk' => ok1 _ [ok2 _]; rewrite /add (same_ok ok1 ok2) /expand_sum /= cats0.
case: (ok1) => -[-> _ -> ->] _ _; eexists; split; first by [].
set l := _ ++ _; have nl : ~~ nilp l by move: n1; rewrite /l /nilp size_cat addn_eq0 negb_and => ->.
have ml : members i o0 o1 l (ds ++ es) by exact: members_cat.
have E u v p q : f u v p q + f' u v p q = sumf (ds ++ es) u v p q by rewrite /sumf big_cat e1 e2.
split; last by exists (ds ++ es).
have [h1 h2 h3] := ksum_ok nl ml; split=> //.
  by apply: pointwise_ext h2 => u v p q; rewrite E.
by apply: lin_ext h3 => u v p q; rewrite E.
Qed.
Lemma mul_ok i o0 o1 k k' f f' : strong i o0 o1 k f -> strong i o0 o1 k' f' ->
  exists h, mul k k' = Some h /\ strong i o0 o1 h (fun u v p q => f u v p q * f' u v p q).
Proof.
move=> sk sk'; have [ds [n1 m1 e1]] := prod_parts sk; have [es [n2 m2 e2]] := prod_parts sk'.
case: sk sk' => ok1 _ [ok2 _]; rewrite /mul (same_ok ok1 ok2) /expand_prod /= cats0.
case: (ok1) => -[-> _ -> ->] _ _; eexists; split; first by [].
set l := _ ++ _; have nl : ~~ nilp l by move: n1; rewrite /l /nilp size_cat addn_eq0 negb_and => ->.
have ml : members i o0 o1 l (ds ++ es) by exact: members_cat.
have E u v p q : f u v p q * f' u v p q = prodf (ds ++ es) u v p q by rewrite /prodf big_cat e1 e2.
split; last by exists (ds ++ es).
have [h1 h2 h3] := kprod_ok nl ml; split=> //.
  by apply: pointwise_ext h2 => u v p q; rewrite E.
by apply: lin_ext h3 => u v p q; rewrite E.
Qed.
Lemma scale_ok i o0 o1 c k f : strong i o0 o1 k f ->
  exists h, mk_scaled c k = Some h /\ strong i o0 o1 h (fun u v p q => c * f u v p q).
Proof.
case=> -[[e1 e2 e3 e4] [h1 h2] h3] _; exists (KScaled c k); rewrite /mk_scaled /input_shape e1 e2 eqxx; split=> //.
split=> //; split; first by rewrite /shapes /= e1 e2 e3 e4.
  2: by move=> x0 s0 x1 s1 i0 w0 e0 w1 e1'; exact: (mentries_map ( *%R c) (h3 _ _ _ _ i0 w0 e0 w1 e1')).
have := @pointwise_checked (KScaled c k) (fun x0 x1 => omap (np_map ( *%R c)) (call k x0 x1)) (fun u v p q => c * f u v p q).
rewrite /= e1 e2 e3 e4; apply; split=> [x0 x1 s0 s1 B w0 w1 e0 e1' bc|ei x0 s0 w0 e0].
  exact: (entries_map ( *%R c) (h1 _ _ _ _ _ w0 w1 e0 e1' bc)).
exact: (entries_map ( *%R c) (h2 ei _ _ w0 e0)).
Qed.
Lemma All_cat P l m : All P (l ++ m) -> All P l /\ All P m.
Proof. by elim: l => //= k l IH [h /IH [h1 h2]]. Qed.
Lemma build_ok den i o0 o1 e : All (fun k => user i i o0 o1 (den k) k) (atoms e) ->
  exists k, build e = Some k /\ strong i o0 o1 k (value den e).
Proof.
elim: e => [k|e IH e' IH'|e IH e' IH'|c e IH] /=.
- case=> -[ev [ek pk]] _; exists k; split=> //; rewrite ek in pk *; split=> //.
  have P := @pointwise_checked (Base i i o0 o1 ev) ev _ pk.
  by split=> // x0 s0 x1 s1 *; exact: matrix_ok.
- by move=> /All_cat [/IH [k [-> sk]] /IH' [k' [-> sk']]]; exact: add_ok.
- by move=> /All_cat [/IH [k [-> sk]] /IH' [k' [-> sk']]]; exact: mul_ok.
by move=> /IH [k [-> sk]] /=; exact: scale_ok.
Qed.

(** C29: every expression in kernels of equal shapes builds a kernel of these shapes, and its values
    are the operations applied to the values of the kernels ... *)
Theorem C29_call den i o0 o1 e : All (fun k => user i i o0 o1 (den k) k) (atoms e) ->
  exists k, [/\ build e = Some k, shapes k = (i, i, o0, o1) & pointwise i i o0 o1 (call k) (value den e)].
Proof. by move=> /build_ok [k [h1 [[h2 h3 _] _]]]; exists k. Qed.

(** ... calls only succeed for inputs of the right shapes, which can be broadcast; the result has the
    documented shape ... *)
Lemma call_checked k x0 (x1 : option (arr R)) : exists r, call k x0 x1 = checked k x0 x1 r.
Proof. by case: k => *; eexists. Qed.
Theorem C29_call_raises k x0 x1 y : call k x0 (Some x1) = Some y ->
  exists s0 s1 B, [/\ shp x0 = s0 ++ in0 k, shp x1 = s1 ++ in1 k, broadcast s0 s1 = Some B & shp y = B ++ out0 k ++ out1 k].
Proof.
have [r ->] := call_checked k x0 (Some x1); rewrite /checked /check_shapes /=.
case E0 : (split_shape _ _) => [s0|] //; case E1 : (split_shape _ _) => [s1|] //.
case EB : (broadcast s0 s1) => [B|] //; case: r => // z; case: eqP => // ez [<-].
by exists s0, s1, B; split=> //; exact: split_shapeP.
Qed.

(** ... and kernels of different shapes can neither be added nor multiplied. *)
Theorem C29_raises k k' : shapes k <> shapes k' -> add k k' = None /\ mul k k' = None.
Proof.
move=> ne; rewrite /add /mul; case E : (same k k && same k k') => //; case: ne.
move: E => /andP[_ /and4P[]]; rewrite /input_shape; case: (in0 k' =P in1 k') => [e'|] // _; case: (in0 k =P in1 k) => [e|] //.
by move=> /eqP [e1] /eqP e2 /eqP e3; rewrite /shapes -e -e' e1 e2 e3.
Qed.


(** [matrix] contains the values at all pairs of points: the rows and columns are numbered in C order
    by output index and batch index. Leaving out the second argument means the first one. *)
Theorem C29_matrix den i o0 o1 e k x0 s0 (x1 : option (arr R)) s1 : All (fun k => user i i o0 o1 (den k) k) (atoms e) ->
  build e = Some k -> prodn i != 0%N -> wf x0 -> shp x0 = s0 ++ i -> wf (odflt x0 x1) -> shp (odflt x0 x1) = s1 ++ i ->
  exists M, [/\ matrix k x0 x1 = Some M, shp M = [:: prodn (o0 ++ s0); prodn (o1 ++ s1)] &
    forall p b q c, valid o0 p -> valid s0 b -> valid o1 q -> valid s1 c ->
      get M [:: ravel (o0 ++ s0) (p ++ b); ravel (o1 ++ s1) (q ++ c)] =
      value den e (pt i x0 (ravel s0 b)) (pt i (odflt x0 x1) (ravel s1 c)) p q].
Proof.
move=> /build_ok [k' [-> [[h1 h2 _] _]]] [<-] i0 w0 e0 w1 e1.
by have [M [h3 _ h4 h5]] := matrix_ok h1 h2 i0 w0 e0 w1 e1; exists M.
Qed.

(** The matrix of [linop] is [matrix]. *)
Theorem C29_linop den i o0 o1 e k x0 s0 (x1 : option (arr R)) s1 : All (fun k => user i i o0 o1 (den k) k) (atoms e) ->
  build e = Some k -> prodn i != 0%N -> wf x0 -> shp x0 = s0 ++ i -> wf (odflt x0 x1) -> shp (odflt x0 x1) = s1 ++ i ->
  linop k x0 x1 = matrix k x0 x1.
Proof.
move=> /build_ok [k' [-> [[h1 h2 h3] _]]] [<-] i0 w0 e0 w1 e1.
exact: mentries_inj (h3 _ _ _ _ i0 w0 e0 w1 e1) (matrix_ok h1 h2 i0 w0 e0 w1 e1).
Qed.

(** ... so the values of a call with arrays of points are those of calls with single points. *)
Definition single i0 i1 (r : arr R -> option (arr R) -> option (arr R)) : kfun :=
  fun u v p q => if r (Arr i0 u) (Some (Arr i1 v)) is Some y then get y (p ++ q) else 0.
Lemma pt_size i (x : arr R) s a : wf x -> shp x = s ++ i -> valid s a -> size (pt i x (ravel s a)) = prodn i.
Proof.
move=> /eqP w e va; rewrite /pt size_takel // size_drop w e prodn_cat -mulnBl.
by rewrite -{1}[prodn i]mul1n leq_mul2r subn_gt0 ravel_lt ?orbT.
Qed.
Lemma pt_single i (u : seq R) : size u = prodn i -> pt i (Arr i u) 0 = u.
Proof. by move=> su; rewrite /pt mul0n drop0 /= take_oversize ?su. Qed.
Lemma singleE i0 i1 o0 o1 r f u v p q : pointwise i0 i1 o0 o1 r f -> size u = prodn i0 -> size v = prodn i1 ->
  valid o0 p -> valid o1 q -> single i0 i1 r u v p q = f u v p q.
Proof.
move=> [h _] su sv vp vq; rewrite /single.
have w0 : wf (Arr i0 u) by apply/eqP. have w1 : wf (Arr i1 v) by apply/eqP.
have [y [-> _ _ h4]] := h (Arr i0 u) (Arr i1 v) [::] [::] [::] w0 w1 erefl erefl erefl.
by rewrite (h4 [::] p q) // /= !pt_single.
Qed.
Lemma single_pointwise i0 i1 o0 o1 r f : pointwise i0 i1 o0 o1 r f -> pointwise i0 i1 o0 o1 r (single i0 i1 r).
Proof.
move=> h; have [h1 h2] := h; split=> [x0 x1 s0 s1 B w0 w1 e0 e1 bc|e x0 s0 w0 e0].
  have [y [k1 k2 k3 k4]] := h1 _ _ _ _ _ w0 w1 e0 e1 bc; exists y; split=> // b p q vb vp vq.
  have v1 : valid s1 (bidx s1 b) by apply: (@bidx_valid s1 s0 B) vb; rewrite broadcastC.
  by rewrite k4 // (singleE h) // (pt_size _ _ (s := s0), pt_size _ _ (s := s1)) //; exact: bidx_valid bc vb.
have [y [k1 k2 k3 k4]] := h2 e _ _ w0 e0; exists y; split=> // b p q vb vp vq.
by rewrite k4 // (singleE h) // -?e (pt_size w0 e0).
Qed.
Theorem C29_single den i o0 o1 e k : All (fun k => user i i o0 o1 (den k) k) (atoms e) -> build e = Some k ->
  pointwise i i o0 o1 (call k) (single i i (call k)).
Proof. by move=> /C29_call [k' [-> _ h]] [<-]; exact: single_pointwise h. Qed.
End Pointwise.
Print Assumptions C29_single.
Print Assumptions C29_call.
Print Assumptions C29_call_raises.
Print Assumptions C29_raises.
Print Assumptions C29_matrix.
Print Assumptions C29_linop.

