(** C20-C25 and C78-C84: linear operators. *)
From mathcomp Require Import all_ssreflect all_algebra.
From Verif Require Import L_Kalman L_Chol M_DMx L_DMx M_LinOps M_LinOps2 L_LinOps L_LinOps2 L_LinOps3
  L_LinOps4 L_LinOps5 L_LinOps6 L_LinOps7 L_LinOps8 L_LinOps9 L_LinOps10 L_LinOps11 L_LinOps12
  L_LinOps13 L_LinOps14 L_LinExp.
Set Implicit Arguments.
Unset Strict Implicit.
Unset Printing Implicit Defensive.
Import Order.Theory GRing.Theory Num.Theory.
Local Open Scope ring_scope.

Section Claims.
Variable R : rcfType.
Variable same : op R -> op R -> bool.
Hypothesis same_ok : forall a b, same a b -> a = b.
Variable lazy : bool.
Local Notation run := (@run R same lazy).

(** ** C20: the library evaluates every well-shaped expression to an operator whose dense
    form and action are those of the matrix expression. Only inverses can fail. *)
Theorem C20_operator_arithmetic (e : lexp R) (D : dmx R) :
  lamok false e -> denote false e = Some D ->
  if run e is Some o then
    [/\ dense o = D, shape o = dshape D & forall x, drow x = dcol D -> apply o x = dmul D x]
  else invs e.
Proof.
move=> le de; have := (eval_ok lazy same_ok false).1 e false D le de; rewrite /good.
case: (L_LinExp.run _ _ _) => // o [oo <-]; split=> //; first exact: ok_shape oo.
by move=> x ex; rewrite (apply_dense (ok_wf oo)) // (ok_cols oo).
Qed.

(** ** C79: sums, differences and products of ill-shaped operands raise, if no Matrix or
    Scaling inside has a single row or column and there are no Embeddings. *)
Theorem C79_ill_shaped_partial (e1 e2 : lexp R) (A B : dmx R) a b :
  lamok false e1 -> denote false e1 = Some A -> run e1 = Some a -> wide a ->
  lamok false e2 -> denote false e2 = Some B -> run e2 = Some b -> wide b ->
  (dshape A <> dshape B -> add same a b = None /\ sub same a b = None) /\
  (dcol A <> drow B -> matmul lazy a b = None).
Proof.
move=> l1 d1 r1 w1 l2 d2 r2 w2.
have := (eval_ok lazy same_ok false).1 e1 false A l1 d1; rewrite /good r1 => -[oa da].
have := (eval_ok lazy same_ok false).1 e2 false B l2 d2; rewrite /good r2 => -[ob db].
rewrite -da -db; split=> ne.
  rewrite -(ok_shape oa) -(ok_shape ob) in ne; split.
    by case e: (add same a b) => [r|] //; case: ne; exact: (add_rejects same_ok oa ob w1 w2 e).
  by case e: (sub same a b) => [r|] //; case: ne; exact: (sub_rejects same_ok oa ob w1 w2 e).
rewrite -(ok_cols oa) -(ok_rows ob) in ne.
by case e: (matmul lazy a b) => [r|] //; case: ne; exact: (matmul_rejects w1 w2 e).
Qed.

(** ** C21: flags that are True are right, if the blocks of block diagonal operators are
    square. *)
Theorem C21_true_flags (e : lexp R) (D : dmx R) o :
  lamok false e -> denote true e = Some D -> run e = Some o ->
  [/\ f_sym (flags_of o) = Some true -> dtr D = D,
      f_low (flags_of o) = Some true ->
        forall i j, (i < drow D)%N -> (j < dcol D)%N -> (i < j)%N -> get D i j = 0,
      f_upp (flags_of o) = Some true ->
        forall i j, (i < drow D)%N -> (j < dcol D)%N -> (j < i)%N -> get D i j = 0
    & f_pd (flags_of o) = Some true -> drow D = dcol D /\ pd (sq (drow D) D)].
Proof.
move=> le de re; have := (eval_ok lazy same_ok true).1 e false D le de; rewrite /good re => -[oo <-].
have /and3P[/implyP tl /implyP tu /implyP tp] := ok_tflags oo isT; split.
- by move=> s; apply: (ok_sym oo); rewrite /sym_true s.
- by move=> s; have /dlowP := tl (introT eqP s).
- by move=> s; have /duppP := tu (introT eqP s).
- by move=> s; have /andP[/eqP q /pdbP p] := tp (introT eqP s).
Qed.

(** ** C78: traces, diagonals, determinants, inverses and Cholesky factors. Determinants
    and inverses can fail for products of rectangular matrices only. *)
Theorem C78_derived_quantities (e : lexp R) (D : dmx R) o :
  lamok false e -> denote false e = Some D -> run e = Some o -> drow D = dcol D ->
  [/\ trace o = Some (dtrace D), diagonal o = [seq get D i i | i <- iota 0 (drow D)],
      (if det o is Some x then x = ddet D else ~~ sqprd o),
      (dunit D -> if inv o is Some r then dense r = dinv D else ~~ sqprd o)
    & forall lower L, cholesky lower o = Some L ->
        let F := if lower then dense L else dtr (dense L) in
        [/\ drow F = drow D, dcol F = drow D,
            forall i j, (i < drow D)%N -> (j < drow D)%N -> (i < j)%N -> get F i j = 0,
            forall i, (i < drow D)%N -> 0 < get F i i & dmul F (dtr F) = D]].
Proof.
move=> le de re q; have := (eval_ok lazy same_ok false).1 e false D le de; rewrite /good re => -[oo dd].
have so : is_square o by rewrite (ok_square_wf oo) dd q eqxx.
split.
- by rewrite (trace_ok oo so) dd.
- by rewrite (diagonal_ok oo) dd /ddiagl -q minnn.
- by have := det_ok oo so; rewrite /dprop dd.
- by move=> u; have := inv_ok oo; rewrite dd => /(_ u); rewrite /iprop; case: (inv o) => // r [_]; rewrite dd.
- move=> lower L ch /=; have [[qF lF pF mF] _] := cholesky_ok oo ch; rewrite dd in mF.
  set F := if lower then _ else _ in qF lF pF mF *.
  have rF : drow F = drow D by rewrite -mF.
  have cF : dcol F = drow D by rewrite -(eqP qF).
  split=> //; last by move=> i im; apply: pF; rewrite rF.
  by move=> i j im jm ij; apply: (dlowP _ lF); rewrite ?rF ?cF.
Qed.
End Claims.

(** ** C22: flags are write-once. *)
Section Flags.
Implicit Types (f g : flags) (p q : prop) (v : option bool).
Theorem C22_write_once (square : bool) f :
  [/\ (* a known flag survives every later assignment *)
      forall p b l, read p f = Some b -> read p (try_all square f l) = Some b,
      (* an assignment raises exactly if it contradicts what is known or the shape *)
      forall p v, assign square f p v = None <->
        [\/ exists b, read p f = Some b /\ v <> Some b,
            [/\ p = Symmetric, v = Some true & square = false]
          | [/\ p = PositiveDefinite, v = Some true & f_sym f <> Some true]]
    & (* one that does not raise sets its flag and no other *)
      forall p v g, assign square f p v = Some g ->
        read p g = v /\ forall q, q <> p -> read q g = read q f].
Proof.
have set_propP c v x : set_prop c v = Some x -> x = v.
  by rewrite /set_prop; case: eqP => [-> [<-]|_] //; case: c => // -[<-].
have K p v g : assign square f p v = Some g ->
    read p g = v /\ forall q, q <> p -> read q g = read q f.
  by case: p => /=; do ?[case: ifP => // _]; case E: (set_prop _ _) => [x|] //= [<-] /=;
    rewrite (set_propP _ _ _ E); split=> // -[].
split=> //.
- move=> p b l; elim: l f {K} => [|[q v] l IH] f //= E.
  apply: IH; case A: (assign square f q v) => [g|] //=; move: A.
  have S c y x : c = Some b -> set_prop c y = Some x -> x = Some b.
    by move=> ->; rewrite /set_prop; case: ifP => // _ [<-].
  case: q => /=; do ?[case: ifP => // _]; case W: (set_prop _ _) => [x|] //= [<-];
    by case: p E => //= /S; apply; exact: W.
- move=> p v; split.
    have S c : omap c (set_prop (read p f) v) = None :> option flags ->
        exists b, read p f = Some b /\ v <> Some b.
      rewrite /set_prop; case: eqP => //= ne; case E: (read p f) => [b|] //= _; exists b; split=> // ev.
      by apply: ne; rewrite E ev.
    case: p S => /= S; do ?[case: ifP => [/andP[/eqP -> H] _|_]]; do ?[by move=> /S ?; apply: Or31].
      by apply: Or32; split=> //; apply/negbTE.
    by apply: Or33; split=> //; apply/eqP.
  case=> [[b [E ne]]|[-> -> /= ->] //|[-> -> /= /eqP ->] //].
  have nb : (Some b == v) = false by apply/eqP => ev; apply: ne.
  by case: p E => /= E; do ?[case: ifP => // _]; rewrite /set_prop E nb.
Qed.

(** From a fresh operator, no sequence of assignments flags a non-symmetric operator as
    positive definite or a non-square operator as symmetric. *)
Theorem C22_reachable_flags (m n : nat) l : let f := try_all (m == n) (base_flags m n) l in
  (f_pd f = Some true -> f_sym f = Some true) /\ (f_sym f = Some true -> m = n).
Proof.
rewrite /=; set f0 := base_flags m n.
have : (f_pd f0 = Some true -> f_sym f0 = Some true) /\ (f_sym f0 = Some true -> m = n).
  by rewrite /f0 /base_flags /=; case: eqP.
elim: l f0 => [|[p v] l IH] f //= [H1 H2]; apply: IH.
case: p => /=.
- case: ifP => //= H; rewrite /set_prop; case: eqP => [_|ne] //=.
  case E: (f_sym f) => [b|] //=; split; first by move=> /H1; rewrite E.
  by move=> ev; move: H; rewrite ev /=; case: eqP.
- by rewrite /set_prop; case: ifP => // _; case: (f_low f).
- by rewrite /set_prop; case: ifP => // _; case: (f_upp f).
- case: ifP => //= H; rewrite /set_prop; case: eqP => [_|ne] //=.
  case E: (f_pd f) => [b|] //=; split=> //.
  by move=> ev; move: H; rewrite ev /=; case: eqP.
Qed.
End Flags.

Section Claims2.
Variable R : rcfType.
Variable same : op R -> op R -> bool.
Hypothesis same_ok : forall a b, same a b -> a = b.
Variable lazy : bool.
Local Notation run := (@run R same lazy).

(** ** C23: Kronecker products. *)
(** Row-major vectorisation. *)
Definition vec (X : dmx R) : dmx R :=
  mk (drow X * dcol X) 1 (fun i _ => get X (i %/ dcol X) (i %% dcol X)).
Lemma dkron_vec (A B X : dmx R) : drow X = dcol A -> dcol X = dcol B -> (0 < drow B)%N -> (0 < dcol B)%N ->
  dmul (dkron A B) (vec X) = vec (dmul A (dmul X (dtr B))).
Proof.
move=> e1 e2 b0 c0; apply: dmx_ext => //= i j im jn; rewrite get_mk //= /vec [RHS]get_mk //=.
have i1 : (i %/ drow B < drow A)%N by rewrite ltn_divLR.
have i2 : (i %% drow B < drow B)%N by rewrite ltn_mod.
rewrite [RHS]get_mk //=.
transitivity (\sum_(k < dcol A * dcol B) get A (i %/ drow B) (k %/ dcol B) *
    get B (i %% drow B) (k %% dcol B) * get X (k %/ dcol B) (k %% dcol B)).
  by apply: eq_bigr => k _; rewrite get_kronE // get_mk ?e1 ?e2.
rewrite (@sum_pair _ _ _ (fun a b => get A (i %/ drow B) a * get B (i %% drow B) b * get X a b)).
apply: eq_bigr => k _; rewrite get_mk ?e1 //= mulr_sumr e2; apply: eq_bigr => l _.
by rewrite get_mk // [X in _ = _ * X]mulrC mulrA.
Qed.

Theorem C23_kronecker (a b : lexp R) (A B : dmx R) :
  lamok true a -> denote false a = Some A -> run a <> None ->
  lamok true b -> denote false b = Some B -> run b <> None ->
  exists o, [/\ run (EKro a b) = Some o, dense o = dkron A B,
    (* action *)
    forall X, drow X = dcol A -> dcol X = dcol B ->
      apply o (vec X) = vec (dmul A (dmul X (dtr B))),
    (* transpose *)
    exists t, transpose o = Some t /\ dense t = dkron (dtr A) (dtr B)
  & [/\ (* mixed product *)
    forall c d C D q, lamok true c -> denote false c = Some C -> lamok true d -> denote false d = Some D ->
      run (EKro c d) = Some q -> dcol A = drow C -> dcol B = drow D ->
      exists p, matmul lazy o q = Some p /\ dense p = dkron (dmul A C) (dmul B D),
    (* trace, determinant *)
    drow A = dcol A -> drow B = dcol B -> trace o = Some (dtrace A * dtrace B),
    drow A = dcol A -> drow B = dcol B ->
      (if det o is Some x then x = ddet A ^+ drow B * ddet B ^+ drow A else ~~ sqprd o)
  & (* inverse *)
    dunit A -> dunit B ->
      (if inv o is Some r then dense r = dkron (dinv A) (dinv B) else ~~ sqprd o)]].
Proof.
move=> la da ra lb db rb.
have := (eval_ok lazy same_ok false).1 a true A la da; rewrite /good.
case ea: (L_LinExp.run _ _ a) ra => [x|] // _ [ox dx].
have := (eval_ok lazy same_ok false).1 b true B lb db; rewrite /good.
case eb: (L_LinExp.run _ _ b) rb => [y|] // _ [oy dy].
have oo : ok false false (kro x y) by exact: kro_ok.
have dd : dense (kro x y) = dkron A B by rewrite /= dx dy.
have [b0 c0] := ok_pos oy; have [a0 _] := ok_pos ox; rewrite dx dy in a0 b0 c0.
exists (kro x y); split=> //.
- by rewrite -[LHS]/(obind2 (run a) (run b) (fun a b => Some (kro a b))) ea eb.
- move=> X e1 e2; rewrite (apply_dense (ok_wf oo)) ?dd ?dkron_vec //.
  by rewrite (ok_cols oo) dd /= e1 e2.
- by have [t [e1 _ dt _]] := transpose_ok oo; exists t; split=> //; rewrite dt dd dkron_tr.
split.
- move=> c d C D q lc dc ld dd2 rq e1 e2.
  have d3 : denote false (EKro c d) = Some (dkron C D) by rewrite -[denote _ _]/(get2 (denote false c) (denote false d) (fun _ _ => true) (@dkron R)) dc dd2.
  have := (eval_ok lazy same_ok false).1 (EKro c d) false (dkron C D); rewrite /good rq => /(_ _ d3).
  case=> [|oq dq]; first by rewrite -[lamok _ _]/(lamok true c && lamok true d) lc ld.
  have [|p [ep _ dp]] := matmul_ok lazy oo oq.
    by rewrite (ok_cols oo) (ok_rows oq) dd dq /= e1 e2.
  by exists p; split=> //; rewrite dp dd dq dkronM.
- move=> qA qB; rewrite (trace_ok oo) ?(ok_square_wf oo) ?dd /= ?qA ?qB //.
  by rewrite dtrace_kron // /dsq ?qA ?qB.
- move=> qA qB; have := det_ok oo; rewrite (ok_square_wf oo) dd /= qA qB => /(_ (eqxx _)).
  by rewrite /dprop dd -qA -qB ddet_kron // /dsq ?qA ?qB.
- move=> uA uB; have := inv_ok oo; rewrite dd dunit_kron ?uA ?uB //; last 2 first.
  + by case/andP: uA.
  + by case/andP: uB.
  by move=> /(_ isT); rewrite /iprop; case: (inv _) => // r [_ ->]; rewrite dd dinv_kron.
Qed.

(** ** C24: block diagonal operators act blockwise. *)
(** Stacking arrays with [c] columns. *)
Definition stack (c : nat) (s : seq (dmx R)) : dmx R := foldr (@dvcat R) (dzero R 0 c) s.
Lemma dblock2_vcat (A B x y : dmx R) : drow x = dcol A -> drow y = dcol B -> dcol x = dcol y ->
  dmul (dblock2 A B) (dvcat x y) = dvcat (dmul A x) (dmul B y).
Proof.
move=> e1 e2 e3; apply: dmx_ext => //= i j im jn; rewrite get_mk // [RHS]get_mk //= big_split_ord /=.
case: (ltnP i (drow A)) => ia.
  rewrite get_mk // [X in _ + X]big1 ?addr0.
    apply: eq_bigr => k _; rewrite get_block2 //=; last exact: leq_trans (ltn_ord k) (leq_addr _ _).
    rewrite ia ltn_ord /= get_mk ?e1 ?ltn_ord //; exact: leq_trans (ltn_ord k) (leq_addr _ _).
  move=> k _; rewrite get_block2 //= ?ltn_add2l //.
  by rewrite ia /= [(_ + _ < _)%N]ltnNge leq_addr /= leqNgt ia /= mul0r.
rewrite get_mk ?ltn_subLR -?e3 // big1 ?add0r.
  apply: eq_bigr => k _; rewrite get_block2 //= ?ltn_add2l //.
  by rewrite ltnNge ia /= leq_addr addKn get_mk ?e1 ?e2 ?ltn_add2l //= ltnNge leq_addr addKn.
move=> k _; rewrite get_block2 //=; last exact: leq_trans (ltn_ord k) (leq_addr _ _).
by rewrite ltnNge ia /= [(dcol A <= _)%N]leqNgt ltn_ord /= mul0r.
Qed.
Lemma dblock_stack c (s t : seq (dmx R)) : map (@dcol R) s = map (@drow R) t ->
  all (fun x => dcol x == c) t ->
  dmul (dblock s) (stack c t) = stack c (map (fun p => dmul p.1 p.2) (zip s t)).
Proof.
elim: s t => [|a s IH] [|x t] //=; first by move=> _ _; apply: dmx_ext.
move=> [e es] /andP[/eqP cx ct].
have S : forall u : seq (dmx R), drow (stack c u) = sumn (map (@drow R) u) by elim=> //= u v ->.
have T : forall u : seq (dmx R), all (fun x => dcol x == c) u -> dcol (stack c u) = c.
  by case=> //= u v /andP[/eqP].
rewrite dblock2_vcat ?IH //; last by rewrite T.
by rewrite S -es; have [_ ->] := dblock_shape s.
Qed.

Theorem C24_block_diagonal (l : lexps R) (s : seq (dmx R)) :
  lamoks false l -> denotes false l = Some s -> runs same lazy l <> None ->
  exists o, [/\ run (EBlk l) = Some o, dense o = dblock s,
    (* action *)
    forall c t, map (@drow R) t = map (@dcol R) s -> all (fun x => dcol x == c) t ->
      apply o (stack c t) = stack c (map (fun p => dmul p.1 p.2) (zip s t)),
    (* transpose *)
    exists t, transpose o = Some t /\ dense t = dblock (map (@dtr R) s)
  & all (fun d => drow d == dcol d) s ->
    [/\ trace o = Some (\sum_(d <- s) dtrace d),
        (if det o is Some x then x = \prod_(d <- s) ddet d else ~~ sqprd o)
      & all (@dunit R) s ->
        (if inv o is Some r then dense r = dblock (map (@dinv R) s) else ~~ sqprd o)]].
Proof.
move=> ll dl rl; have := (eval_ok lazy same_ok false).2 l false s ll dl; rewrite /goods.
case el: (runs same lazy l) rl => [t|] // _ [ot st dt].
have dd : dense (blk t) = dblock s by rewrite /= dt.
have oo : ok false false (blk t) by apply: blk_ok.
exists (blk t); split=> //.
- by rewrite -[LHS]/(omap (@blk R) (runs same lazy l)) el.
- move=> c u eu cu; rewrite (apply_dense (ok_wf oo)) ?dd ?dblock_stack //.
  rewrite (ok_cols oo) dd; have [_ ->] := dblock_shape s; rewrite -eu.
  by elim: u {eu cu} => //= u v ->.
- by have [r [e1 _ dr _]] := transpose_ok oo; exists r; split=> //; rewrite dr dd dblock_tr.
move=> qs; have qd : is_square (blk t).
  rewrite (ok_square_wf oo) dd; have [-> ->] := dblock_shape s.
  by apply/eqP; elim: s qs {ll dl dt dd} => //= d s IH /andP[/eqP -> /IH ->].
split.
- by rewrite (trace_ok oo qd) dd dtrace_block.
- by have := det_ok oo qd; rewrite /dprop dd ddet_block.
- move=> us; have := inv_ok oo; rewrite dd dunit_block // => /(_ us).
  by rewrite /iprop; case: (inv _) => // r [_ ->]; rewrite dd dinv_block.
Qed.

(** ** C25: selections and embeddings. *)
Theorem C25_selection_embedding n (idx : seq nat) : idx_ok n idx ->
  let S := sel R n idx in let E := emb n (iota 0 (size idx)) idx (0 : R) in
  [/\ (* the selection picks entries *)
      forall x, drow x = n -> [/\ drow (apply S x) = size idx, dcol (apply S x) = dcol x &
        forall i j, (i < size idx)%N -> (j < dcol x)%N ->
          get (apply S x) i j = get x (nth 0%N idx i) j],
      (* the embedding puts them back and fills the rest with zeros *)
      forall y, drow y = size idx -> [/\ drow (apply E y) = n, dcol (apply E y) = dcol y,
        forall i j, (i < size idx)%N -> (j < dcol y)%N ->
          get (apply E y) (nth 0%N idx i) j = get y i j &
        forall k j, (k < n)%N -> (j < dcol y)%N -> k \notin idx -> get (apply E y) k j = 0],
      (* they are transposes of each other *)
      exists t, transpose S = Some t /\ dense t = dtr (dense S),
      exists t, transpose E = Some t /\ dense t = dense S
    & [/\ dense E = dtr (dense S),
          exists p, matmul lazy S E = Some p /\ dense p = did R (size idx)
        & exists p, matmul lazy E S = Some p /\ dense p = dmul (dtr (dense S)) (dense S)]].
Proof.
move=> ix S E; have /and4P[s0 sn un lt] := ix.
have oS : ok false false S by exact: sel_ok.
have oE : ok false false E by exact: emb_ok.
have dE : dense E = dtr (dense S).
  by rewrite dense_emb // dense_sel //; apply: dmx_ext => //= i j im jn; rewrite !get_mk.
have nl i : (i < size idx)%N -> (nth 0%N idx i < n)%N by move=> im; exact: (all_nthP 0%N lt).
split=> //.
- by move=> x ex; split=> //= i j im jx; rewrite get_mk.
- move=> y ey; rewrite (apply_dense (ok_wf oE)) ?(ok_cols oE) dE //=; split=> // [i j im jy|k j kn jy nk].
    rewrite get_mk ?nl //= (bigD1 (Ordinal im)) //= big1 ?addr0.
      by rewrite get_mk ?nl // get_mk ?nl // get_id ?nl // eqxx mul1r.
    move=> k ne; rewrite get_mk ?nl // get_mk ?nl // get_id ?nl // nth_uniq //.
    by rewrite -val_eqE /= in ne; rewrite (negbTE ne) mul0r.
  rewrite get_mk //= big1 // => i _; rewrite get_mk // get_mk // get_id ?nl //.
  by case: eqP => [e|_]; rewrite ?mul0r //; rewrite -e mem_nth in nk.
- by have [t [-> _ dt _]] := transpose_ok oS; exists t.
- by have [t [-> _ dt _]] := transpose_ok oE; exists t; rewrite dt dE dtrK.
split=> //.
- have [|p [ep _ dp]] := matmul_ok lazy oS oE; first by rewrite (ok_cols oS) (ok_rows oE) dE.
  exists p; split=> //; rewrite dp dE dense_sel //; apply: dmx_ext => //= i j im jn.
  rewrite get_mk //= (bigD1 (Ordinal (nl _ im))) //= big1 ?addr0.
    by rewrite get_mk ?nl // eqxx mul1r get_mk ?nl //= get_mk ?nl // get_id // nth_uniq // eq_sym.
  by move=> k ne; rewrite get_mk //= -[_ == k :> nat]/(Ordinal (nl _ im) == k) eq_sym (negbTE ne) mul0r.
- have [|p [ep _ dp]] := matmul_ok lazy oE oS; first by rewrite (ok_cols oE) (ok_rows oS) dE.
  by exists p; rewrite dp dE.
Qed.
End Claims2.
