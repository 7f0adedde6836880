(** Diagonals, traces and determinants of linear operators. *)
From mathcomp Require Import all_ssreflect all_algebra.
From Verif Require Import L_Kalman L_Chol M_DMx L_DMx M_LinOps M_LinOps2 L_LinOps L_LinOps2 L_LinOps3
  L_LinOps4 L_LinOps5 L_LinOps6 L_LinOps9.
Set Implicit Arguments.
Unset Strict Implicit.
Unset Printing Implicit Defensive.
Import Order.Theory GRing.Theory Num.Theory.
Local Open Scope ring_scope.

Section Ops.
Variable R : rcfType.
Local Notation dmx := (dmx R).
Local Notation op := (op R).
Variable trk : bool.
Local Notation ok := (@L_LinOps2.ok R trk).
Local Notation node_ok := (@L_LinOps2.node_ok R trk).
Local Notation radd := (reduce (dzero R 0 0) (@dadd R)).
Implicit Types (o a b : op) (l : seq op).

(** ** Diagonals *)
Definition ddiagl (D : dmx) : seq R := [seq get D i i | i <- iota 0 (minn (drow D) (dcol D))].
Lemma eq_iota (T : Type) (f g : nat -> T) n :
  (forall i, (i < n)%N -> f i = g i) -> map f (iota 0 n) = map g (iota 0 n).
Proof. by move=> H; apply/eq_in_map=> i; rewrite mem_iota => /H. Qed.
Lemma loop_ok k o : ok k o -> diag_loop o = ddiagl (dense o).
Proof.
move=> oo; rewrite /diag_loop /ddiagl (ok_rows oo) (ok_cols oo); apply: eq_iota => i.
rewrite leq_min => /andP[ir ic]; rewrite (apply_dense (ok_wf oo)); last by rewrite /= (ok_cols oo).
rewrite get_mk //= (bigD1 (Ordinal ic)) //= get_mk // eqxx mulr1 big1 ?addr0 // => j nj.
by rewrite get_mk //; move: nj; rewrite -val_eqE /= => /negbTE ->; rewrite mulr0.
Qed.
Lemma allpairs_iota (f : nat -> nat -> R) m n :
  [seq f i j | i <- iota 0 m, j <- iota 0 n] = [seq f (k %/ n)%N (k %% n)%N | k <- iota 0 (m * n)].
Proof.
elim: m => [|m IH] //; rewrite -addn1 iotaD map_cat flatten_cat IH mulnDl mul1n iotaD map_cat; congr (_ ++ _).
rewrite /= cats0 !add0n -[(m * n)%N]addn0 iotaDl -map_comp; apply: eq_iota => j jn /=.
have n0 : (0 < n)%N by apply: leq_ltn_trans jn.
by case: (divmod_pair m jn) => -> ->.
Qed.
Lemma ddiagl_kron (A B : dmx) : dsq B ->
  ddiagl (dkron A B) = [seq x * y | x <- ddiagl A, y <- ddiagl B].
Proof.
move/eqP=> e; rewrite /ddiagl /= -e minnn -minnMl.
transitivity [seq get A i i * get B j j | i <- iota 0 (minn (drow A) (dcol A)), j <- iota 0 (drow B)].
  rewrite (allpairs_iota (fun i j => get A i i * get B j j)); apply: eq_iota => i il.
  have := il; rewrite minnMl leq_min => /andP[ia ib]; by rewrite get_mk -?e.
by rewrite -map_comp; congr flatten; apply: eq_map => i /=; rewrite -map_comp.
Qed.
Lemma ddiagl_block2 (A B : dmx) : dsq A -> ddiagl (dblock2 A B) = ddiagl A ++ ddiagl B.
Proof.
move/eqP=> e; rewrite /ddiagl /= -e -addn_minr minnn iotaD map_cat; congr (_ ++ _).
  apply: eq_iota => i il; rewrite get_block2 -?e; first by rewrite il.
    exact: leq_trans il (leq_addr _ _).
  exact: leq_trans il (leq_addr _ _).
rewrite add0n -{1}[drow A]addn0 iotaDl -map_comp; apply: eq_iota => i /=; rewrite leq_min => /andP[ir ic].
rewrite get_block2 -?e ?ltn_add2l // ltnNge leq_addr /= addKn.
by [].
Qed.
Lemma ddiagl_block (s : seq dmx) : all (@dsq R) s -> ddiagl (dblock s) = flatten (map ddiagl s).
Proof. by elim: s => //= d s IH /andP[q qs]; rewrite ddiagl_block2 // IH. Qed.
Lemma ddiagl_add (A B : dmx) : dshape A = dshape B -> ddiagl (dadd A B) = zipadd (ddiagl A) (ddiagl B).
Proof.
case=> e1 e2; rewrite /ddiagl /zipadd /= -e1 -e2 zip_map -map_comp; apply: eq_iota => i.
by rewrite leq_min => /andP[ir ic]; rewrite get_mk.
Qed.
Lemma dsq_dense k o : ok k o -> dsq (dense o) = is_square o.
Proof. by move=> oo; rewrite (ok_square_wf oo). Qed.
Lemma dsq_all k l : all (ok k) l -> all (@dsq R) (map (@dense R) l) = all (@is_square R) l.
Proof. by elim: l => //= a l IH /andP[oa /IH ->]; rewrite (dsq_dense oa). Qed.
Lemma ddiaglP (s : seq R) (D : dmx) : size s = minn (drow D) (dcol D) ->
  (forall i, (i < drow D)%N -> (i < dcol D)%N -> s`_i = get D i i) -> s = ddiagl D.
Proof.
move=> e H; rewrite -[s](mkseq_nth 0) /mkseq e; apply: eq_iota => i.
by rewrite leq_min => /andP[]; exact: H.
Qed.
Lemma diagonal_ok k o : ok k o -> diagonal o = ddiagl (dense o).
Proof.
elim/op_rect': o k => /=.
- by [].
- by move=> f A k oo; rewrite (loop_ok oo).
- move=> f n k _; apply: ddiaglP => [|i /= im _]; first by rewrite size_nseq minnn.
  by rewrite nth_nseq im get_mk // eqxx.
- move=> f n c k _; apply: ddiaglP => [|i /= im _]; first by rewrite size_nseq minnn.
  by rewrite nth_nseq im get_mk // eqxx.
- move=> f d k _; apply: ddiaglP => [|i /= im _]; first by rewrite minnn.
  by rewrite get_mk // eqxx.
- move=> f m n k _; apply: ddiaglP => [|i /= im jm]; first by rewrite size_nseq.
  by rewrite nth_nseq leq_min im jm get_mk.
- by move=> f n i k oo; rewrite (loop_ok oo).
- by move=> f m t q v k oo; rewrite (loop_ok oo).
- move=> f a b IHa IHb k oo; have [oa ob] := ok_kro oo; case: ifP => sb; last by rewrite (loop_ok oo).
  by rewrite ddiagl_kron ?(dsq_dense ob) // (IHa _ oa) (IHb _ ob).
- move=> f n b IHb k oo; have [n0 ob] := ok_idk oo; case: ifP => sb; last by rewrite (loop_ok oo).
  rewrite ddiagl_kron ?(dsq_dense ob) // (IHb _ ob); congr flatten; congr map.
  apply: ddiaglP => [|i /= im _]; first by rewrite size_nseq minnn.
  by rewrite nth_nseq im get_mk // eqxx.
- by move=> f a b i _ _ k oo; rewrite (loop_ok oo).
- by move=> f n k oo; rewrite (loop_ok oo).
- move=> f a IH k oo; rewrite (IH _ (ok_tra oo)) /ddiagl /= minnC; apply: eq_iota => i.
  by rewrite leq_min => /andP[i1 i2]; rewrite get_mk.
- by move=> f a _ k oo; rewrite (loop_ok oo).
- move=> f c a IH k oo; rewrite (IH _ (ok_sca oo)) /ddiagl /= -map_comp; apply: eq_iota => i.
  by rewrite leq_min => /andP[i1 i2]; rewrite get_mk.
- move=> f a IH k oo; rewrite (IH _ (ok_neg oo)) /ddiagl /= -map_comp; apply: eq_iota => i.
  by rewrite leq_min => /andP[i1 i2]; rewrite get_mk.
- move=> f l IH k oo; have [l0 ol sl] := ok_list_sum oo.
  have {}IH : eachP (fun a => diagonal a = ddiagl (dense a)) l.
    by apply: (each_mp _ ol); apply: each_impl IH _ => a Ha; exact: Ha.
  rewrite (each_map (g := ddiagl \o @dense R) IH) //.
  case e: (shape (Sum f l)) => [m n]; rewrite e in sl; have := dense_shapes ol sl.
  rewrite (map_comp ddiagl); case: (map (@dense R) l) => [|d s] //= /andP[/eqP dd].
  elim: s d dd => //= d' s IHs d dd /andP[/eqP dd' H]; rewrite -ddiagl_add ?dd ?dd' // IHs //.
- by move=> f l _ k oo; rewrite (loop_ok oo).
- move=> f l IH k oo; have [l0 ol] := ok_list_blk oo; case: ifP => sl; last by rewrite (loop_ok oo).
  have {}IH : eachP (fun a => diagonal a = ddiagl (dense a)) l.
    by apply: (each_mp _ ol); apply: each_impl IH _ => a Ha; exact: Ha.
  by rewrite (each_map (g := ddiagl \o @dense R) IH) // map_comp ddiagl_block // (dsq_all ol).
Qed.
Lemma dtrace_diagl (D : dmx) : dsq D -> dtrace D = \sum_(x <- ddiagl D) x.
Proof.
move/eqP=> e; rewrite /ddiagl -e minnn big_map /dtrace -(big_mkord xpredT (fun i => get D i i)).
by rewrite /index_iota subn0.
Qed.

(** ** Traces *)
Lemma sequence_each (T : Type) (f : op -> option T) (g : op -> T) l :
  eachP (fun a => f a = Some (g a)) l -> sequence (map f l) = Some (map g l).
Proof. by elim=> //= a l' -> _ ->. Qed.
Lemma sq_same l s : s.1 = s.2 -> all (fun a : op => shape a == s) l -> all (@is_square R) l.
Proof.
move=> e; elim: l => //= a l IH /andP[/eqP sa sl]; rewrite IH // andbT.
by rewrite /is_square /rows /cols sa e.
Qed.
Lemma trace_ok k o : ok k o -> is_square o -> trace o = Some (dtrace (dense o)).
Proof.
have dflt k' o' : ok k' o' -> is_square o' ->
    Some (\sum_(x <- diagonal o') x) = Some (dtrace (dense o')).
  by move=> oo' qo; rewrite (diagonal_ok oo') dtrace_diagl // (dsq_dense oo').
elim/op_rect': o k => /=.
- by move=> f A k oo ->.
- by move=> f A k oo qo; rewrite qo /= -(dflt _ _ oo qo).
- move=> f n k oo ->; rewrite /dtrace /= (eq_bigr (fun=> 1)); last by move=> i _; rewrite get_mk // eqxx.
  by rewrite sumr_const card_ord.
- move=> f n c k oo ->; rewrite /dtrace /= (eq_bigr (fun=> c)); last by move=> i _; rewrite get_mk // eqxx.
  by rewrite sumr_const card_ord mulr_natl.
- move=> f d k oo ->; rewrite /dtrace /= (big_nth 0) big_mkord; congr Some.
  by apply: eq_bigr => i _; rewrite get_mk // eqxx.
- move=> f m n k oo qo; rewrite qo /dtrace /= big1 // => i _; rewrite get_mk //.
  by move: qo => /eqP; rewrite /rows /cols /= => <-.
- by move=> f n i k oo qo; rewrite qo /= -(dflt _ _ oo qo).
- by move=> f m t q v k oo qo; rewrite qo /= -(dflt _ _ oo qo).
- move=> f a b IHa IHb k oo qo; rewrite qo /=; have [oa ob] := ok_kro oo.
  case: ifP => [/andP[qa qb]|_]; last by rewrite -(dflt _ _ oo qo).
  by rewrite (IHa _ oa) // (IHb _ ob) // dtrace_kron ?(dsq_dense oa) ?(dsq_dense ob).
- move=> f n b IHb k oo qo; rewrite qo /=; have [n0 ob] := ok_idk oo.
  case: ifP => qb; last by rewrite -(dflt _ _ oo qo).
  rewrite (IHb _ ob) //= dtrace_kron ?(dsq_dense ob) //; last exact: eqxx.
  congr (Some (_ * _)); rewrite /dtrace /= (eq_bigr (fun=> 1)); last by move=> i _; rewrite get_mk // eqxx.
  by rewrite sumr_const card_ord.
- move=> f a b i IHa IHb k oo qo; rewrite qo /=; have [oa ob qa sab iab] := ok_syk oo.
  have qb : is_square b by move: qa; rewrite /is_square /rows /cols sab.
  rewrite (IHa _ oa qa) (IHb _ ob qb); have da := qa; have db := qb.
  rewrite -(dsq_dense oa) in da; rewrite -(dsq_dense ob) in db.
  case: i iab oo qo => [/(_ isT) [e _]|_] oo qo; first by rewrite dtrace_kron // -e.
  have sd : dshape (dense a) = dshape (dense b) by rewrite -(ok_shape oa) -(ok_shape ob).
  have [s1 s2] := sd; have sk : dshape (dkron (dense a) (dense b)) = dshape (dkron (dense b) (dense a)).
    by rewrite /dshape /= s1 s2.
  have qk : dsq (dkron (dense a) (dense b)) by rewrite /dsq /= (eqP da) (eqP db).
  rewrite dtrace_scale //.
  rewrite dtrace_add // !dtrace_kron // [dtrace (dense b) * _]mulrC.
  by rewrite mul1r mulrDr ![2%:R^-1 * _]mulrC -splitr.
- by move=> f n k oo qo; rewrite qo /= -(dflt _ _ oo qo).
- move=> f a IH k oo qo; have oa := ok_tra oo; rewrite qo /=.
  have qa : is_square a by move: qo; rewrite /is_square /rows /cols /= eq_sym.
  by rewrite (IH _ oa qa) dtrace_tr // (dsq_dense oa).
- by move=> f a _ k oo qo; rewrite qo /= -(dflt _ _ oo qo).
- move=> f c a IH k oo qo; rewrite qo /= (IH _ (ok_sca oo)) //= dtrace_scale //.
  by rewrite (dsq_dense (ok_sca oo)).
- move=> f a IH k oo qo; rewrite qo /= (IH _ (ok_neg oo)) //= dtrace_scale //.
  by rewrite (dsq_dense (ok_neg oo)).
- move=> f l IH k oo qo; have [l0 ol sl] := ok_list_sum oo; rewrite qo /=.
  have ql := sq_same (eqP qo) sl.
  have {}IH : eachP (fun a => trace a = Some (dtrace (dense a))) l.
    elim: IH ol ql {sl l0 oo qo} => [|a l' Ha _ IHl] /=; first by constructor.
    by case/andP=> oa ol /andP[qa ql]; constructor; [exact: Ha oa qa|exact: IHl].
  rewrite (sequence_each IH) /=; congr Some; rewrite -(dsq_all ol) in ql.
  case e: (shape (Sum f l)) => [m n]; rewrite e in sl; have := dense_shapes ol sl; move: ql.
  rewrite (map_comp (@dtrace R)) /=.
  case: (map (@dense R) l) => [|d s] /=; first by rewrite /dtrace big_ord0.
  case/andP=> qd qs /andP[/eqP dd].
  elim: s d dd qd qs => //= d' s IHs d dd qd /andP[qd' qs] /andP[/eqP dd' H].
  by rewrite -dtrace_add ?dd ?dd' // IHs.
- by move=> f l _ k oo qo; rewrite qo /= -(dflt _ _ oo qo).
- move=> f l IH k oo qo; have [l0 ol] := ok_list_blk oo; rewrite qo /=.
  case: ifP => ql; last by rewrite -(dflt _ _ oo qo).
  have {}IH : eachP (fun a => trace a = Some (dtrace (dense a))) l.
    elim: IH ol ql {l0 oo qo} => [|a l' Ha _ IHl] /=; first by constructor.
    by case/andP=> oa ol /andP[qa ql]; constructor; [exact: Ha oa qa|exact: IHl].
  by rewrite (sequence_each IH) /= dtrace_block ?(dsq_all ol) // !big_map.
Qed.
End Ops.
