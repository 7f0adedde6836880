(** Linear operators: sums, products, negation and block diagonals keep operators
    consistent. *)
From mathcomp Require Import all_ssreflect all_algebra.
From Verif Require Import L_Kalman L_Chol M_DMx L_DMx M_LinOps L_LinOps L_LinOps2 L_LinOps3.
Set Implicit Arguments.
Unset Strict Implicit.
Unset Printing Implicit Defensive.
Import Order.Theory GRing.Theory Num.Theory.
Local Open Scope ring_scope.

Section Ops.
Variable R : rcfType.
Local Notation dmx := (dmx R).
Local Notation op := (op R).
Variable trk : bool.
Local Notation ok := (@L_LinOps2.ok R trk).
Local Notation node_ok := (@L_LinOps2.node_ok R trk).
Implicit Types (o a b : op) (l : seq op).
Local Arguments expand_sum : simpl never.
Local Arguments expand_prd : simpl never.
Local Notation radd := (reduce (dzero R 0 0) (@dadd R)).

(** ** Sums *)
Lemma ok_all k l : all (ok k) l = all (wf k) l && all (deep node_ok) l.
Proof. by rewrite -all_predI; apply: eq_all. Qed.
Lemma all_flag_sub (p q : flags -> option bool) k l :
  (forall a, ok k a -> p (flags_of a) == Some true -> q (flags_of a) == Some true) ->
  all (ok k) l -> all_flag p l -> all_flag q l.
Proof. by move=> H; elim: l => //= a l IH /andP[oa ol] /andP[/(H _ oa) -> /IH ->]. Qed.
Lemma low_upp k a : ok k a -> sym_true a -> f_low (flags_of a) = f_upp (flags_of a).
Proof. by move/ok_cons => /and4P[_ _ /implyP H _] /H /eqP. Qed.
Lemma dense_shapes k l m n : all (ok k) l -> all (fun s => shape s == (m, n)) l ->
  all (fun e => dshape e == (m, n)) (map (@dense R) l).
Proof.
by elim: l => //= a l IH /andP[oa ol] /andP[sa sl]; rewrite (dense_shape (ok_wf oa)) sa IH.
Qed.
Lemma head_shape l m n : (0 < size l)%N -> all (fun s => shape s == (m, n)) l ->
  head (0, 0)%N (map (@shape R) l) = (m, n).
Proof. by case: l => //= a l _ /andP[/eqP]. Qed.
Lemma sum_wf k f l m n : (0 < size l)%N -> all (ok k) l -> all (fun s => shape s == (m, n)) l ->
  wf k (Sum f l).
Proof.
move=> l0 ol sl; move: (ol); rewrite ok_all => /andP[wl _].
by rewrite /= l0 wl (head_shape l0 sl).
Qed.
Lemma radd_pred (p : pred dmx) (s : seq dmx) m n : (0 < size s)%N ->
  (forall A B, dshape A = dshape B -> p A -> p B -> p (dadd A B)) ->
  all (fun e => dshape e == (m, n)) s -> all p s -> p (radd s).
Proof.
move=> + cl; case: s => //= d s _ /andP[/eqP dd ss] /andP[pd ps].
elim: s d dd pd ss ps => //= e s IH d dd pd /andP[/eqP de ss] /andP[pe ps].
by apply: IH => //; apply: cl; rewrite // dd de.
Qed.
Lemma dlow_add (A B : dmx) : dshape A = dshape B -> dlow A -> dlow B -> dlow (dadd A B).
Proof.
case=> e1 e2 /dlowP HA /dlowP HB; apply/dlowP=> i j /= im jn ij.
by rewrite get_mk // HA // HB -?e1 -?e2 // addr0.
Qed.
Lemma dupp_add (A B : dmx) : dshape A = dshape B -> dupp A -> dupp B -> dupp (dadd A B).
Proof. by move=> e; rewrite /dupp dtrD //; apply: dlow_add; case: e => e1 e2; rewrite /dshape /= e1 e2. Qed.
Lemma dpd_add (A B : dmx) : dshape A = dshape B -> dpd A -> dpd B -> dpd (dadd A B).
Proof.
case=> e1 e2 /andP[/eqP a /pdbP [sA pA]] /andP[_ /pdbP]; rewrite -e1 => -[sB pB].
apply/andP; split; first by rewrite /= a.
apply/pdbP; have -> : sq (drow (dadd A B)) (dadd A B) = sq (drow A) A + sq (drow A) B.
  by apply/matrixP=> i j; rewrite !mxE get_mk //= -a.
split=> [|x nx]; first by rewrite linearD /= sA sB.
by rewrite qformD addr_gt0 ?pA ?pB.
Qed.
Lemma all_ok_flag (p : flags -> option bool) (q : pred dmx) k l : trk ->
  (forall f (D : dmx), tflags f D -> p f == Some true -> q D) ->
  all (ok k) l -> all_flag p l -> all q (map (@dense R) l).
Proof.
move=> ht H; elim: l => //= a l IH /andP[oa ol] /andP[pa pl]; rewrite IH // andbT.
exact: (H _ _ (ok_tflags oa ht) pa).
Qed.
Lemma tflags_low f (D : dmx) : tflags f D -> f_low f == Some true -> dlow D.
Proof. by case/and3P=> /implyP. Qed.
Lemma tflags_upp f (D : dmx) : tflags f D -> f_upp f == Some true -> dupp D.
Proof. by case/and3P=> _ /implyP. Qed.
Lemma tflags_pd f (D : dmx) : tflags f D -> f_pd f == Some true -> dpd D.
Proof. by case/and3P=> _ _ /implyP. Qed.
Lemma tflags_sum k l m n : trk -> (0 < size l)%N -> all (ok k) l ->
  all (fun s => shape s == (m, n)) l -> tflags (sum_flags l) (radd (map (@dense R) l)).
Proof.
move=> ht l0 ol sl; have dl := dense_shapes ol sl.
have d0 : (0 < size (map (@dense R) l))%N by rewrite size_map.
apply/and3P; split; apply/implyP => /=; case: ifP => // pl _.
- exact: (radd_pred d0 dlow_add dl (all_ok_flag ht tflags_low ol pl)).
- exact: (radd_pred d0 dupp_add dl (all_ok_flag ht tflags_upp ol pl)).
- exact: (radd_pred d0 dpd_add dl (all_ok_flag ht tflags_pd ol pl)).
Qed.
Lemma sum_node k l m n : (0 < size l)%N -> all (ok k) l ->
  all (fun s => shape s == (m, n)) l -> ok k (Sum (sum_flags l) l).
Proof.
move=> l0 ol sl; rewrite /L_LinOps2.ok (sum_wf _ l0 ol sl) [X in _ && X]/=.
move: (ol); rewrite ok_all => /andP[wl ->]; rewrite andbT node_okI //; last exact: (fun h => tflags_sum h l0 ol sl).
rewrite /consistent /sym_true.
have e : (f_sym (sum_flags l) == Some true) = all_flag f_sym l.
  by rewrite /sum_flags /=; case: ifP => // _; exact: base_sym.
have ps : all_flag f_pd l -> all_flag f_sym l by apply: all_flag_sub ol => a; exact: pd_sym.
have sqr : all_flag f_sym l -> m = n.
  case: (l) l0 sl ol => //= a l' _ /andP[/eqP sa _] /andP[oa _] /andP[ya _].
  by have := sym_square oa ya; rewrite /is_square /rows /cols sa => /eqP.
rewrite [ctor _]/= flef_refl [flags_of _]/= e /=; apply/andP; split; last first.
  apply/implyP=> yl; apply/deqP; have mn := sqr yl.
  have dl := dense_shapes ol sl; have d0 : (0 < size (map (@dense R) l))%N by rewrite size_map.
  have [r c] := reduce_add_shape d0 dl.
  apply: dmx_ext; rewrite /= ?r ?c // => i j im jn; rewrite get_mk ?r ?c //.
  rewrite !(get_reduce_add d0 dl) // -?mn // ?mn //.
  rewrite !big_map; elim: (l) ol yl sl => [|a l' IH]; rewrite ?big_nil ?big_cons //=.
  case/andP=> oa ol /andP[ya yl] /andP[/eqP sa sl]; rewrite (IH ol yl sl); congr (_ + _).
  by rewrite -{1}(ok_sym oa ya) get_mk // (dcol_dense (ok_wf oa), drow_dense (ok_wf oa)) /cols /rows sa /= ?mn // -mn.
apply/and3P; split.
- by apply/implyP; case: ifP => // /ps.
- apply/implyP=> yl; suff -> : all_flag f_low l = all_flag f_upp l by [].
  elim: (l) ol yl {e ps sqr wl sl l0} => //= a l' IH /andP[oa ol] /andP[ya yl].
  by rewrite (IH ol yl) (low_upp oa ya).
- apply/implyP=> /andP[ns _]; case: ifP => // /ps /sqr mn; case/negP: ns.
  by rewrite /is_square /rows /cols /= (head_shape l0 sl) /= mn.
Qed.
Definition unsum a : seq op := if a is Sum _ l then l else [:: a].
Lemma unsum_ok k a : ok k a ->
  [/\ (0 < size (unsum a))%N, all (ok k) (unsum a),
      all (fun s => shape s == shape a) (unsum a) & radd (map (@dense R) (unsum a)) = dense a].
Proof.
case: a => [f A|f A|f n|f n c|f d|f m n|f n i|f m t q v|f a b|f n b|f a b i|f n|f a
  |f a|f c a|f a|f l|f l|f l] H; try by split; rewrite //= ?H ?eqxx.
by case/andP: (H) => /and3P[l0 wl sl] /andP[_ dl]; rewrite /= ok_all wl dl.
Qed.
Lemma expand_cons a l : expand_sum (a :: l) = unsum a ++ expand_sum l.
Proof. by []. Qed.
Lemma expand_ok k l m n : (0 < size l)%N -> all (ok k) l -> all (fun s => shape s == (m, n)) l ->
  [/\ (0 < size (expand_sum l))%N, all (ok k) (expand_sum l),
      all (fun s => shape s == (m, n)) (expand_sum l) &
      radd (map (@dense R) (expand_sum l)) = radd (map (@dense R) l)].
Proof.
move=> l0 ol sl; have H : [/\ (0 < size (expand_sum l))%N, all (ok k) (expand_sum l) &
      all (fun s => shape s == (m, n)) (expand_sum l)].
  case: l l0 ol sl => // a l _; elim: l a => [|b l IH] a.
    rewrite /= !andbT => oa /eqP sa; have [u0 ou su _] := unsum_ok oa.
    by rewrite /expand_sum /= cats0 -/(unsum a) -sa.
  rewrite /= => /andP[oa H] /andP[/eqP sa sl]; have [u0 ou su _] := unsum_ok oa.
  rewrite sa in su; have [r0 orr sr] := IH b H sl.
  by rewrite (expand_cons a) size_cat addn_gt0 u0 2!(all_cat _ (unsum a)) ou orr su sr.
case: H => e0 oe se; split=> //.
apply: (@reduce_add_ext _ _ _ m n); rewrite ?size_map //; try exact: (@dense_shapes k).
move=> i j im jn; rewrite /expand_sum map_flatten -!map_comp big_flatten !big_map /=.
elim: (l) ol sl => [|a l' IH]; first by rewrite !big_nil.
rewrite /= => /andP[oa ol] /andP[/eqP sa sl]; rewrite !big_cons (IH ol sl); congr (_ + _).
have [u0 ou su <-] := unsum_ok oa; rewrite sa in su.
rewrite (@get_reduce_add _ _ m n) ?size_map //; exact: (@dense_shapes k).
Qed.
Lemma sum_ok k l m n : (0 < size l)%N -> all (ok k) l -> all (fun s => shape s == (m, n)) l ->
  exists r, [/\ sum_ l = Some r, ok k r, shape r = (m, n) & dense r = radd (map (@dense R) l)].
Proof.
move=> l0 ol sl; rewrite /sum_ (head_shape l0 sl) sl; have [e0 oe se de] := expand_ok l0 ol sl.
exists (Sum (sum_flags (expand_sum l)) (expand_sum l)); split=> //.
- exact: (sum_node e0 oe se).
- exact: (head_shape e0 se).
Qed.
Lemma sum2_ok k a b : ok k a -> ok k b -> shape a = shape b ->
  exists r, [/\ sum_ [:: a; b] = Some r, ok k r, shape r = shape a & dense r = dadd (dense a) (dense b)].
Proof.
move=> oa ob sab; case e: (shape a) => [m n].
have [|||r [er okr sr dr]] := @sum_ok k [:: a; b] m n; rewrite ?/= ?oa ?ob -?sab ?e ?eqxx //.
by exists r.
Qed.

Lemma map_on (T : Type) (f g : op -> T) (p : pred op) l :
  (forall a, p a -> f a = g a) -> all p l -> map f l = map g l.
Proof. by move=> H; elim: l => //= a l IH /andP[/H -> /IH ->]. Qed.
Lemma all_on (p q : pred op) l : (forall a, p a -> q a) -> all p l -> all q l.
Proof. by move=> H; apply: sub_all. Qed.

(** ** Products *)
Definition link a b := cols a == rows b.
Lemma chainE l : chain l = sorted link l.
Proof. by elim: l => //= a [|b l] //= ->. Qed.
Lemma link_dense k l : all (ok k) l -> sorted link l -> sorted (@linked R) (map (@dense R) l).
Proof.
case: l => //= a l /andP[oa ol]; elim: l a oa ol => //= b l IH a oa /andP[ob ol] /andP[ab p].
by rewrite IH // /linked (dcol_dense (ok_wf oa)) (drow_dense (ok_wf ob)) (eqP ab) eqxx.
Qed.
Lemma Prd_shape f l a : (0 < size l)%N -> shape (Prd f l) = (rows (head a l), cols (last a l)).
Proof. by case: l => //= b l _; rewrite (last_map (@shape R)). Qed.
Lemma prd_node k l : (0 < size l)%N -> all (ok k) l -> sorted link l ->
  ok k (Prd (base_flags (head (0, 0)%N (map (@shape R) l)).1 (last (0, 0)%N (map (@shape R) l)).2) l).
Proof.
move=> l0 ol cl; move: (ol); rewrite ok_all => /andP[wl dl].
rewrite /L_LinOps2.ok /= l0 wl dl chainE cl andbT /= node_okI //.
rewrite /consistent /sym_true /= flef_refl base_sym /=.
by rewrite implybT.
Qed.
Definition unprd a : seq op := if a is Prd _ l then l else [:: a].
Lemma unprd_ok k a : ok k a ->
  [/\ (0 < size (unprd a))%N, all (ok k) (unprd a), sorted link (unprd a),
      rmul (map (@dense R) (unprd a)) = dense a &
      rows (head a (unprd a)) = rows a /\ cols (last a (unprd a)) = cols a].
Proof.
case: a => [f A|f A|f n|f n c|f d|f m n|f n i|f m t q v|f a b|f n b|f a b i|f n|f a
  |f a|f c a|f a|f l|f l|f l] H; try by split; rewrite //= ?H.
case/andP: (H) => /and3P[l0 wl sl] /andP[_ dl]; rewrite /= ok_all wl dl; split=> //.
  by rewrite -chainE.
by have := Prd_shape f (Prd f l) l0; rewrite /rows /cols => ->.
Qed.
Lemma sorted_cat (T : Type) (e : rel T) x s t : (0 < size s)%N -> (0 < size t)%N ->
  sorted e (s ++ t) = [&& sorted e s, e (last x s) (head x t) & sorted e t].
Proof. by case: s => //= y s _; case: t => //= z t _; rewrite cat_path /= andbA. Qed.
Lemma expandp_cons a l : expand_prd (a :: l) = unprd a ++ expand_prd l.
Proof. by []. Qed.
Lemma expandp_ok k l x : (0 < size l)%N -> all (ok k) l -> sorted link l ->
  [/\ (0 < size (expand_prd l))%N, all (ok k) (expand_prd l), sorted link (expand_prd l) &
      rows (head x (expand_prd l)) = rows (head x l) /\ cols (last x (expand_prd l)) = cols (last x l)].
Proof.
have ch (a y : op) s : (0 < size s)%N -> head a s = head y s by case: s.
have cl (a y : op) s : (0 < size s)%N -> last a s = last y s by case: s.
case: l => // a l _; elim: l a => [|b l IH] a.
  rewrite /= !andbT => oa _; have [u0 ou su _ [r c]] := unprd_ok oa.
  rewrite /expand_prd /= cats0 -/(unprd a); split=> //.
  by rewrite (ch x a) // (cl x a).
rewrite /= => /andP[oa H] /andP[ab sl]; have [u0 ou su _ [r c]] := unprd_ok oa.
have [e0 oe se [re ce]] := IH b H sl.
rewrite (expandp_cons a) size_cat addn_gt0 u0 (all_cat _ (unprd a)) ou oe (@sorted_cat _ _ x) // su se /link; split=> //.
  by rewrite (cl x a) // c re (eqP ab) eqxx.
by rewrite last_cat (cl _ x) // ce; case: (unprd a) u0 r.
Qed.
Lemma prd_ok k l x : (0 < size l)%N -> all (ok k) l -> sorted link l ->
  exists r, [/\ prd_ l = Some r, ok k r, shape r = (rows (head x l), cols (last x l)) &
                dense r = rmul (map (@dense R) l)].
Proof.
move=> l0 ol sl; rewrite /prd_ chainE sl; have [e0 oe se [re ce]] := expandp_ok x l0 ol sl.
eexists; split; first reflexivity; first exact: prd_node.
- by rewrite (Prd_shape _ x) // re ce.
- rewrite /= -/(rmul _) /expand_prd map_flatten -map_comp rmul_flatten ?size_map //.
  + rewrite -map_comp; congr rmul; apply: map_on ol => a oa; rewrite /= -/(unprd a).
    by have [] := unprd_ok oa.
  + rewrite all_map; apply: all_on ol => a oa; rewrite /= size_map -/(unprd a).
    by have [] := unprd_ok oa.
  + by have := link_dense oe se; rewrite /expand_prd map_flatten -map_comp.
Qed.
Lemma prd2_ok k a b : ok k a -> ok k b -> cols a = rows b ->
  exists r, [/\ prd_ [:: a; b] = Some r, ok k r, shape r = (rows a, cols b) &
                dense r = dmul (dense a) (dense b)].
Proof.
move=> oa ob ab.
by have [|||r [er okr sr dr]] := @prd_ok k [:: a; b] a; rewrite ?/= ?oa ?ob ?/link ?ab ?eqxx //; exists r.
Qed.
End Ops.
