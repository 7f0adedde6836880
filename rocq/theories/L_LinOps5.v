(** Linear operators: negation, block diagonals and transposition. *)
From mathcomp Require Import all_ssreflect all_algebra.
From Verif Require Import L_Kalman L_Chol M_DMx L_DMx M_LinOps L_LinOps L_LinOps2 L_LinOps3 L_LinOps4.
Set Implicit Arguments.
Unset Strict Implicit.
Unset Printing Implicit Defensive.
Import Order.Theory GRing.Theory Num.Theory.
Local Open Scope ring_scope.

Section Ops.
Variable R : rcfType.
Local Notation dmx := (dmx R).
Local Notation op := (op R).
Variable trk : bool.
Local Notation ok := (@L_LinOps2.ok R trk).
Local Notation node_ok := (@L_LinOps2.node_ok R trk).
Implicit Types (o a b : op) (l : seq op).
Local Arguments expand_sum : simpl never.
Local Arguments expand_prd : simpl never.
Local Notation radd := (reduce (dzero R 0 0) (@dadd R)).

(** Successful results. *)
Definition res (k : bool) (r : option op) (D : dmx) : Prop :=
  exists t, [/\ r = Some t, ok k t & dense t = D].
Lemma res_some k t D : ok k t -> dense t = D -> res k (Some t) D.
Proof. by exists t. Qed.
Lemma ok_shape k o : ok k o -> shape o = dshape (dense o).
Proof. by move/ok_wf/dense_shape. Qed.
Lemma ok_rows k o : ok k o -> rows o = drow (dense o).
Proof. by move/ok_wf/drow_dense. Qed.
Lemma ok_cols k o : ok k o -> cols o = dcol (dense o).
Proof. by move/ok_wf/dcol_dense. Qed.
Lemma res_sum2 k a b : ok k a -> ok k b -> shape a = shape b ->
  res k (sum_ [:: a; b]) (dadd (dense a) (dense b)).
Proof. by move=> oa ob sab; have [r [e okr _ dr]] := sum2_ok oa ob sab; exists r. Qed.
Lemma res_prd2 k a b : ok k a -> ok k b -> cols a = rows b ->
  res k (prd_ [:: a; b]) (dmul (dense a) (dense b)).
Proof. by move=> oa ob sab; have [r [e okr _ dr]] := prd2_ok oa ob sab; exists r. Qed.

(** ** Negation *)
Lemma neg_okD k o : ok k o -> ok k (neg_ o) /\ dense (neg_ o) = dopp (dense o).
Proof. by move=> oo; split; [exact: neg__ok|rewrite /= dscaleN]. Qed.
Lemma each_mp (k : bool) (Q : op -> Prop) l : eachP (fun a => ok k a -> Q a) l ->
  all (ok k) l -> eachP Q l.
Proof. by elim=> [|a l' Ha _ IH] /=; [constructor|case/andP=> /Ha ? /IH ?; constructor]. Qed.
Lemma each_pred (Q : op -> Prop) (p : pred op) l : eachP Q l -> (forall a, Q a -> p a) -> all p l.
Proof. by move=> H HQ; elim: H => //= a l' /HQ -> _ ->. Qed.
Lemma each_map (T : Type) (Q : op -> Prop) (f g : op -> T) l : eachP Q l ->
  (forall a, Q a -> f a = g a) -> map f l = map g l.
Proof. by move=> H HQ; elim: H => //= a l' /HQ -> _ ->. Qed.
Lemma ok_list_sum k f l : ok k (Sum f l) ->
  [/\ (0 < size l)%N, all (ok k) l & all (fun s => shape s == shape (Sum f l)) l].
Proof. by case/andP=> /and3P[l0 wl sl] /andP[_ dl]; rewrite ok_all wl dl. Qed.
Lemma ok_list_prd k f l : ok k (Prd f l) -> [/\ (0 < size l)%N, all (ok k) l & sorted (@link R) l].
Proof. by case/andP=> /and3P[l0 wl sl] /andP[_ dl]; rewrite ok_all wl dl -chainE. Qed.
Lemma ok_list_blk k f l : ok k (Blk f l) -> (0 < size l)%N /\ all (ok k) l.
Proof. by case/andP=> /andP[l0 wl] /andP[_ dl]; rewrite ok_all wl dl. Qed.
Lemma radd_opp (s : seq dmx) m n : (0 < size s)%N -> all (fun e => dshape e == (m, n)) s ->
  radd (map (@dopp R) s) = dopp (radd s).
Proof.
move=> s0 H; have [r c] := reduce_add_shape s0 H.
have H' : all (fun e => dshape e == (m, n)) (map (@dopp R) s) by rewrite all_map.
have s0' : (0 < size (map (@dopp R) s))%N by rewrite size_map.
have [r' c'] := reduce_add_shape s0' H'.
apply: dmx_ext; rewrite /= ?r ?c // => i j; rewrite r' c' => im jn.
rewrite get_mk ?r ?c // (get_reduce_add s0' H') // (get_reduce_add s0 H) // big_map.
elim: (s) H => [|e s' IH]; first by rewrite !big_nil oppr0.
rewrite /= => /andP[/eqP [e1 e2] H]; rewrite !big_cons opprD IH // get_mk //; by rewrite ?e1 ?e2.
Qed.
Lemma radd_tr (s : seq dmx) m n : (0 < size s)%N -> all (fun e => dshape e == (m, n)) s ->
  radd (map (@dtr R) s) = dtr (radd s).
Proof.
move=> s0 H; have [r c] := reduce_add_shape s0 H.
have H' : all (fun e => dshape e == (n, m)) (map (@dtr R) s).
  by rewrite all_map; apply: sub_all H => e /= /eqP [<- <-].
have s0' : (0 < size (map (@dtr R) s))%N by rewrite size_map.
have [r' c'] := reduce_add_shape s0' H'.
apply: dmx_ext; rewrite /= ?r ?c // => i j; rewrite r' c' => im jn.
rewrite get_mk ?r ?c // (get_reduce_add s0' H') // (get_reduce_add s0 H) // big_map.
elim: (s) H => [|e s' IH]; first by rewrite !big_nil.
rewrite /= => /andP[/eqP [e1 e2] H]; rewrite !big_cons IH // get_mk //; by rewrite ?e1 ?e2.
Qed.
Lemma neg_ok k o : ok k o -> ok k (neg o) /\ dense (neg o) = dopp (dense o).
Proof.
elim/op_rect': o => /=.
2-15: by move=> *; exact: neg_okD.
- by move=> f A /ok_wf /= /andP[m0 n0]; split; first exact: mat_ok.
- move=> f a _ /andP[wa /andP[_ da]]; split; first by apply/andP.
  by rewrite /= dscaleN doppK.
- move=> f l IH oo; have [l0 ol sl] := ok_list_sum oo; have {}IH := each_mp IH ol.
  have ol' : all (ok k) (map (@neg R) l) by rewrite all_map; apply: each_pred IH _ => a [].
  have dl : map (@dense R) (map (@neg R) l) = map (@dopp R) (map (@dense R) l).
    by rewrite -!map_comp; apply: each_map IH _ => a [].
  have sl' : all (fun s => shape s == shape (Sum f l)) (map (@neg R) l).
    rewrite -[all _ _](all_map (@shape R) (fun s => s == _)).
    have -> : map (@shape R) (map (@neg R) l) = map (@dshape R) (map (@dense R) (map (@neg R) l)).
      by rewrite -[RHS]map_comp; apply: map_on ol' => a /ok_shape.
    rewrite dl -!map_comp; have -> : map (@dshape R \o (@dopp R \o @dense R)) l = map (@shape R) l.
      by apply: map_on ol => a /ok_shape.
    by rewrite all_map.
  case e: (shape (Sum f l)) => [m n]; rewrite e in sl sl'.
  have l0' : (0 < size (map (@neg R) l))%N by rewrite size_map.
  have [e0 oe se de] := expand_ok l0' ol' sl'; split; first exact: (sum_node e0 oe se).
  rewrite /= de dl (@radd_opp _ m n) ?size_map //; exact: dense_shapes ol sl.
- by move=> *; exact: neg_okD.
- by move=> *; exact: neg_okD.
Qed.
Lemma neg_shape k o : ok k o -> shape (neg o) = shape o.
Proof. by move=> oo; have [on dn] := neg_ok oo; rewrite (ok_shape on) (ok_shape oo) dn. Qed.

(** ** Block diagonals *)
Lemma infer_sub (p : flags -> option bool) l : (infer p l == Some true) = all_flag p l.
Proof. by rewrite /infer; case: ifP => // _; case: ifP. Qed.
Lemma dblock_shape (s : seq dmx) : dshape (dblock s) = (sumn (map (@drow R) s), sumn (map (@dcol R) s)).
Proof. by elim: s => //= e s; rewrite /dshape /= => -[-> ->]. Qed.
Lemma dblock2_tr (A B : dmx) : dtr (dblock2 A B) = dblock2 (dtr A) (dtr B).
Proof.
apply: dmx_ext => //= i j im jn; rewrite get_mk // get_mk // get_mk // (andbC (j < _)%N) (andbC (_ <= j)%N).
case: ifP => [/andP[i1 j1]|_]; first by rewrite get_mk.
case: ifP => [/andP[i1 j1]|_] //; rewrite get_mk // ltn_subLR //.
Qed.
Lemma dblock_tr (s : seq dmx) : dtr (dblock s) = dblock (map (@dtr R) s).
Proof. by elim: s => [|e s IH] /=; rewrite ?dtr0 // dblock2_tr IH. Qed.
Definition dsq (D : dmx) : bool := drow D == dcol D.
Lemma dlow_block2 (A B : dmx) : dsq A -> dlow A -> dlow B -> dlow (dblock2 A B).
Proof.
move/eqP=> e /dlowP HA /dlowP HB; apply/dlowP=> i j /= im jn ij; rewrite get_mk //.
case: ifP => [/andP[i1 j1]|_]; first exact: HA.
case: ifP => // /andP[i1 j1]; apply: HB; rewrite ?ltn_subLR //.
by rewrite e subnKC.
Qed.
Lemma dpd_block2 (A B : dmx) : dpd A -> dpd B -> dpd (dblock2 A B).
Proof.
case/andP=> /eqP a /pdbP [sA pA] /andP[/eqP b /pdbP [sB pB]].
apply/andP; split; first by rewrite /= a b.
apply/pdbP; have -> : sq (drow (dblock2 A B)) (dblock2 A B) = block_mx (sq (drow A) A) 0 0 (sq (drow B) B).
  rewrite /=; apply/matrixP=> i j.
  case: (split_ordP i) => i' ->; case: (split_ordP j) => j' ->;
    rewrite ?block_mxEul ?block_mxEur ?block_mxEdl ?block_mxEdr !mxE /= get_mk /= -?a -?b;
    rewrite ?ltn_add2l ?ltn_ord ?(leq_trans (ltn_ord _) (leq_addr _ _)) //=.
  - by rewrite [(_ + _ < _)%N]ltnNge leq_addr /= leqNgt ltn_ord.
  - by rewrite [(_ + _ < _)%N]ltnNge leq_addr /= [(_ <= j')%N]leqNgt ltn_ord.
  - by rewrite !ltnNge !leq_addr /= !addKn.
split=> [|x nx]; first by rewrite tr_block_mx !trmx0 sA sB.
rewrite -[x]vsubmxK /qform tr_col_mx mul_row_block !mulmx0 addr0 add0r mul_row_col mxE.
have p0 n (M : 'M[R]_n) y : M^T = M -> (forall y : 'cV_n, y != 0 -> 0 < qform M y) -> 0 <= qform M y.
  move=> sM pM; case: (y =P 0) => [->|/eqP /pM /ltW //].
  by rewrite /qform mulmx0 mxE.
case: (usubmx x =P 0) => [u0|/eqP u0]; last first.
  by apply: ltr_paddr; [apply: (p0 _ _ _ sB pB)|apply: (pA _ u0)].
apply: ltr_paddl; first exact: (p0 _ _ _ sA pA).
apply: pB; apply: contra nx => /eqP d0; by rewrite -[x]vsubmxK u0 d0 col_mx0.
Qed.
Lemma dlow_block (s : seq dmx) : all dsq s -> all (@dlow R) s -> dlow (dblock s).
Proof.
elim: s => [|d s IH] /=; first by rewrite dlow0.
by case/andP=> q qs /andP[l ls]; rewrite dlow_block2 // IH.
Qed.
Lemma dupp_block (s : seq dmx) : all dsq s -> all (@dupp R) s -> dupp (dblock s).
Proof.
move=> q l; rewrite /dupp dblock_tr dlow_block ?all_map //.
by apply: sub_all q => d; rewrite /dsq /= eq_sym.
Qed.
Lemma dpd_block (s : seq dmx) : all (@dpd R) s -> dpd (dblock s).
Proof.
elim: s => [|d s IH] /=; last by case/andP=> p /IH; exact: dpd_block2.
move=> _; apply/andP; split=> //; apply/pdbP; split=> [|x nx]; first by apply/matrixP=> -[].
by case/eqP: nx; apply/matrixP=> -[].
Qed.
Lemma tflags_blk k l : trk -> all (ok k) l -> all (@is_square R) l -> tflags (flags_of (blk l)) (dense (blk l)).
Proof.
move=> ht ol ql.
have qd : all dsq (map (@dense R) l).
  elim: (l) ol ql => //= a l' IH /andP[oa ol] /andP[qa ql].
  by rewrite /dsq -(ok_square_wf oa) qa IH.
apply/and3P; split; apply/implyP; rewrite [flags_of _]/= infer_sub => pl.
- exact: (dlow_block qd (all_ok_flag ht (@tflags_low R) ol pl)).
- exact: (dupp_block qd (all_ok_flag ht (@tflags_upp R) ol pl)).
- exact: (dpd_block (all_ok_flag ht (@tflags_pd R) ol pl)).
Qed.
Lemma blk_ok k l : (0 < size l)%N -> all (ok k) l -> (trk -> all (@is_square R) l) -> ok k (blk l).
Proof.
move=> l0 ol ql; move: (ol); rewrite ok_all => /andP[wl dl]; rewrite /L_LinOps2.ok /= l0 wl dl /= andbT.
rewrite node_okI //; last by move=> h; apply: (tflags_blk h ol); exact: ql.
rewrite /consistent /sym_true /= flef_refl !infer_sub andbF /=; apply/andP; split; last first.
  apply/implyP=> yl; apply/deqP; rewrite dblock_tr -map_comp; congr dblock.
  elim: (l) ol yl => //= a l' IH /andP[oa ol] /andP[ya yl]; by rewrite (ok_sym oa ya) IH.
rewrite andbT; apply/andP; split.
  by apply/implyP; apply: all_flag_sub ol => a; exact: pd_sym.
apply/implyP=> yl; suff -> : infer f_low l = infer f_upp l by [].
have [e1 e2] : all_flag f_low l = all_flag f_upp l /\
    has (fun b => f_low (flags_of b) == Some false) l = has (fun b => f_upp (flags_of b) == Some false) l.
  elim: (l) ol yl => //= a l' IH /andP[oa ol] /andP[ya yl].
  by have [-> ->] := IH ol yl; rewrite (low_upp oa ya).
by rewrite /infer e1 e2.
Qed.

(** ** Flags of scalar multiples *)
Lemma cons_ctor k o : ok k o -> flef (ctor o) (flags_of o).
Proof. by move/ok_cons/and4P=> []. Qed.
Lemma ctor_sym k o : ok k o -> f_sym (ctor o) = Some true -> sym_true o.
Proof. by move/cons_ctor/and4P=> [+ _ _ _] e; rewrite e => /fle_true ee; apply/eqP. Qed.
Lemma mul_sym k (c : R) o : ok k o -> sym_true (mul c o) -> sym_true o.
Proof.
elim/op_rect': o k c => /=; try by move=> *.
- by move=> f A k c _; rewrite /sym_true base_sym.
- by move=> f n d k c /ctor_sym ->.
- by move=> f d k c /ctor_sym ->.
- move=> f a b IHa IHb k c oo; case: ifP => // _; apply: contraLR => no.
  have [oa ob] : ok true a /\ ok true b.
    by case/andP: oo => /= /andP[wa wb] /andP[_ /andP[da db]]; rewrite /L_LinOps2.ok wa wb.
  rewrite /sym_true /= both_symP ?base_sym //; apply: contra no => /andP[ya yb].
  apply: (ctor_sym oo); apply/eqP; rewrite /= both_symP ?base_sym //.
  by rewrite (IHa _ _ oa ya) (IHb _ _ ob yb).
- move=> f n b IHb k c oo; apply: contraLR => no.
  have ob : ok true b by case/andP: oo => /= /andP[_ wb] /andP[_ db]; rewrite /L_LinOps2.ok wb.
  rewrite /sym_true /= both_symP ?base_sym //; apply: contra no => /andP[yb _].
  apply: (ctor_sym oo); apply/eqP; rewrite /= both_symP ?base_sym //.
  by rewrite (IHb _ _ ob yb).
Qed.
End Ops.
