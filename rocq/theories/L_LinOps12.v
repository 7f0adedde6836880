(** Inverses of linear operators. *)
From mathcomp Require Import all_ssreflect all_algebra.
From Verif Require Import L_Kalman L_Chol M_DMx L_DMx M_LinOps M_LinOps2 L_LinOps L_LinOps2 L_LinOps3
  L_LinOps4 L_LinOps5 L_LinOps6 L_LinOps9 L_LinOps10 L_LinOps11.
Set Implicit Arguments.
Unset Strict Implicit.
Unset Printing Implicit Defensive.
Import Order.Theory GRing.Theory Num.Theory.
Local Open Scope ring_scope.

Section Ops.
Variable R : rcfType.
Local Notation dmx := (dmx R).
Local Notation op := (op R).
Variable trk : bool.
Local Notation ok := (@L_LinOps2.ok R trk).
Local Notation node_ok := (@L_LinOps2.node_ok R trk).
Local Notation iprop := (@L_LinOps11.iprop R trk).
Implicit Types (o a b : op) (l : seq op).

Lemma dinv_diag (d : seq R) : all (fun x : R => x != 0) d ->
  dinv (ddiag d) = ddiag [seq 1 / x | x <- d].
Proof.
move=> d0; have M : dmul (ddiag d) (ddiag [seq 1 / x | x <- d]) = did R (drow (ddiag d)).
  apply: dmx_ext => //= [|i j im jn]; first by rewrite size_map.
  have jn2 := jn; rewrite size_map in jn2; rewrite [LHS]get_mk // [RHS]get_mk // (bigD1 (Ordinal im)) //= big1 => [|k ki].
    rewrite addr0 !get_mk ?size_map // eqxx; case: (i =P j) => [ij|_]; last by rewrite mulr0.
    rewrite -?ij in jn jn2 *; by rewrite (nth_map 0) // mul1r divff // (all_nthP 0 d0).
  rewrite get_mk // [i == k]eq_sym (_ : (k == i :> nat) = false) ?mul0r //.
  by apply: contraNF ki => /eqP ki; apply/eqP/val_inj.
by have [||| _ ->] // := dinv_uniq _ _ _ M; rewrite /= size_map.
Qed.
Lemma dunit_diag (d : seq R) : dunit (ddiag d) = all (fun x : R => x != 0) d.
Proof.
rewrite dunit_det /dsq eqxx /= ddet_diag; elim: d => [|a d IH]; first by rewrite big_nil oner_eq0.
by rewrite big_cons mulf_eq0 negb_or IH.
Qed.
Lemma unit_rmul n (s : seq dmx) : (0 < size s)%N -> all (fun d => dshape d == (n, n)) s ->
  dunit (rmul s) -> all (@dunit R) s.
Proof.
move=> s0 H; rewrite dunit_det (ddet_rmul s0 H) => /andP[_].
elim: s H {s0} => //= d s IH /andP[/dshape_n[d1 d2] ss]; rewrite big_cons mulf_eq0 negb_or => /andP[d0 s0].
by rewrite IH // dunit_det d0 /dsq d1 d2 eqxx.
Qed.
Lemma dunit_square k o : ok k o -> dunit (dense o) -> is_square o.
Proof. by move=> oo /andP[q _]; rewrite -(dsq_dense oo). Qed.
Lemma dinv_id n : dinv (did R n) = did R n.
Proof. have M : dmul (did R n) (did R n) = did R (drow (did R n)) by rewrite dmul1l.
by have [||| _ ->] // := dinv_uniq _ _ _ M. Qed.
Lemma doppE (A : dmx) : dopp A = dscale (-1) A.
Proof. by apply: dmx_ext => //= i j im jn; rewrite !get_mk // mulN1r. Qed.
Lemma inv_ok k o : ok k o -> dunit (dense o) -> iprop k o.
Proof.
elim/op_rect': o k => /=.
- by move=> f A k oo u; rewrite /iprop /= (dunit_square oo u); exact: (inv_dflt oo u).
- by move=> f A k oo u; rewrite /iprop /= (dunit_square oo u); exact: (inv_dflt oo u).
- by move=> f n k oo u; rewrite /iprop /= (dunit_square oo u) /= dinv_id.
- move=> f n c k oo u; rewrite /iprop /= (dunit_square oo u) /=.
  rewrite ScC_diag -ddiag_nseq in u *; rewrite dunit_diag all_nseq in u.
  have n0 : (0 < n)%N by exact: (ok_wf oo).
  rewrite -leqn0 leqNgt n0 /= in u; rewrite (negbTE u) dinv_diag ?all_nseq ?u ?orbT //.
  case: eqP => [c1|_]; first by split=> //=; rewrite c1 map_nseq divr1 ScC_diag -ddiag_nseq.
  by split; [exact: scC_ok|rewrite /= ScC_diag -ddiag_nseq map_nseq].
- move=> f d k oo u; rewrite /iprop /= (dunit_square oo u) /= -dunit_diag u.
  split; first by apply: scV_ok; rewrite size_map; exact: (ok_wf oo).
  by rewrite /= dinv_diag // -dunit_diag.
- by move=> f m n k oo u; rewrite /iprop /= (dunit_square oo u); exact: (inv_dflt oo u).
- by move=> f n i k oo u; rewrite /iprop /= (dunit_square oo u); exact: (inv_dflt oo u).
- by move=> f m t q v k oo u; rewrite /iprop /= (dunit_square oo u); exact: (inv_dflt oo u).
- move=> f a b IHa IHb k oo u; rewrite /iprop /= (dunit_square oo u) /=; have [oa ob] := ok_kro oo.
  case: ifP => [/andP[qa qb]|_]; last exact: (inv_dflt oo u).
  have [a0 _] := ok_pos oa; have [b0 _] := ok_pos ob.
  rewrite dunit_kron ?(dsq_dense oa) ?(dsq_dense ob) // in u; case/andP: u => ua ub.
  have := IHa _ oa ua; have := IHb _ ob ub; rewrite /iprop.
  case: (inv a) => [x|] /=; last by rewrite /sqprd /= => _ /negbTE ->.
  case: (inv b) => [y|] /=; last by rewrite /sqprd /= => /negbTE -> _; rewrite andbF.
  by move=> [oy dy] [ox dx]; split; [exact: kro_ok|rewrite /= dx dy dinv_kron].
- move=> f n b IHb k oo u; rewrite /iprop /= (dunit_square oo u) /=; have [n0 ob] := ok_idk oo.
  have qb : is_square b by move: (dunit_square oo u); rewrite /is_square /rows /cols /= eqn_pmul2l.
  have [b0 _] := ok_pos ob.
  rewrite dunit_kron ?(dsq_dense ob) // in u; last by rewrite /dsq /= eqxx.
  case/andP: u => un ub; have := IHb _ ob ub; rewrite /iprop; case: (inv b) => [y|] //= [oy dy].
  by split; [exact: idk_ok|rewrite /= dy dinv_kron ?dinv_id].
- move=> f a b i IHa IHb k oo u; rewrite /iprop /= (dunit_square oo u) /=.
  have [oa ob qa sab iab] := ok_syk oo.
  case: i iab oo u => [/(_ isT) [e ef]|_] oo u; last exact: (inv_dflt oo u).
  have [a0 _] := ok_pos oa; rewrite dunit_kron ?(dsq_dense oa) // in u; case/andP: u => ua _.
  have := IHa _ oa ua; rewrite /iprop; case: (inv a) => [x|] /=; last by rewrite /sqprd /= => /negbTE ->.
  move=> [ox dx]; split; last by rewrite /= dx dinv_kron.
  by apply: syk_ok => //; rewrite (ok_square_wf ox) dx.
- by move=> f n k oo u; rewrite /iprop /= (dunit_square oo u); exact: (inv_dflt oo u).
- move=> f a IH k oo u; rewrite /iprop /= (dunit_square oo u) /=; have oa := ok_tra oo.
  have qa : dsq (dense a) by rewrite /dsq; move: (dunit_sq u) => /= ->.
  rewrite dunit_tr // in u; have := IH _ oa u; rewrite /iprop; case: (inv a) => [x|] //= [ox dx].
  by have [t [-> ot dt _]] := transpose_ok ox; rewrite dinv_tr // -dx.
- move=> f a IH k oo u; rewrite /iprop /= (dunit_square oo u) /=; have [oa qa ua] := ok_inv oo.
  by rewrite dinvK.
- move=> f c a IH k oo u; rewrite /iprop /= (dunit_square oo u) /=; have oa := ok_sca oo.
  have [a0 _] := ok_pos oa; rewrite dunit_scale // in u; case/andP: u => c0 ua; rewrite (negbTE c0).
  have := IH _ oa ua; rewrite /iprop; case: (inv a) => [x|] //= [ox dx].
  by split; [exact: sca_ok|rewrite dinv_scale // dx].
- move=> f a IH k oo u; rewrite /iprop /= (dunit_square oo u) /=; have oa := ok_neg oo.
  have [a0 _] := ok_pos oa; rewrite dunit_scale // in u; case/andP: u => c0 ua.
  have := IH _ oa ua; rewrite /iprop; case: (inv a) => [x|] //= [ox dx].
  by split; [exact: sca_ok|rewrite dinv_scale // dx].
- by move=> f l IH k oo u; rewrite /iprop /= (dunit_square oo u); exact: (inv_dflt oo u).
- move=> f l IH k oo u; rewrite /iprop /= (dunit_square oo u) /=; have [l0 ol sl] := ok_list_prd oo.
  case: (boolP (all (@is_square R) l)) => ql; last first.
    rewrite sequence_rev (_ : sequence _ = None) /sqprd /= ?(negbTE ql) //.
    elim: (l) ql => //= a l' IHl; rewrite negb_and => /orP[/negbTE/inv_square ->|/IHl ->] //.
    by case: (inv a).
  set n := rows (Prd f l).
  have := @chain_square _ l n sl ql.
  have -> : rows (head (idn R n) l) = n by rewrite /n; case: (l) l0.
  move/(_ erefl) => sl'; have H := dense_shapes ol sl'.
  have ul := unit_rmul _ H u; rewrite size_map in ul; have {}ul := ul l0.
  have {}IH : eachP (iprop k) l.
    have {}IH : eachP (fun a => dunit (dense a) -> iprop k a) l.
      by apply: (each_mp _ ol); apply: each_impl IH _ => a Ha; exact: Ha.
    elim: IH ul {sl l0 oo u n sl' H ol ql} => [|a l' Ha _ IHl] /=; first by constructor.
    by case/andP=> qa ql; constructor; [exact: Ha|exact: IHl].
  have := inv_list ol IH; rewrite sequence_rev; case: (sequence _) => [s|] /=; last by rewrite /sqprd /= ql => ->.
  move=> [os ds]; have ss : all (fun a => shape a == (n, n)) (rev s).
    rewrite all_rev; elim: (s) (l) os ds sl' ol {IH ul H ql sl l0 oo u} => [|x s' IHs] [|a l'] //=.
    move=> /andP[ox os] [dx ds] /andP[/eqP sa sl'] /andP[oa ol]; rewrite (IHs l') // andbT.
    by rewrite (ok_shape ox) dx /= /dinv /= -(ok_rows oa) /rows sa eqxx.
  have s0 : (0 < size (rev s))%N by rewrite size_rev -(size_map (@dense R)) ds !size_map.
  have lk : sorted (@link R) (rev s).
    case: (rev s) ss s0 => //= a t + _; elim: t a => //= b t IHt a /and3P[sa sb st].
    by rewrite /link /rows /cols (eqP sa) (eqP sb) eqxx /= IHt // sb.
  have [r [-> okr _ dr]] := @prd_ok _ _ k (rev s) (idn R n) s0 (etrans (all_rev _ _) os) lk.
  by split=> //; rewrite dr map_rev ds -(dinv_rmul _ H) ?size_map.
- move=> f l IH k oo u; rewrite /iprop /= (dunit_square oo u) /=; have [l0 ol] := ok_list_blk oo.
  case: ifP => ql; last exact: (inv_dflt oo u).
  rewrite dunit_block ?(dsq_all ol) // in u.
  have {}IH : eachP (iprop k) l.
    have {}IH : eachP (fun a => dunit (dense a) -> iprop k a) l.
      by apply: (each_mp _ ol); apply: each_impl IH _ => a Ha; exact: Ha.
    elim: IH u {l0 oo ol ql} => [|a l' Ha _ IHl] /=; first by constructor.
    by case/andP=> qa ql; constructor; [exact: Ha|exact: IHl].
  have := inv_list ol IH; case: (sequence _) => [s|] /=; last by rewrite /sqprd /= => ->.
  move=> [os ds]; split; last by rewrite /= ds dinv_block.
  apply: blk_ok => // [|_]; first by rewrite -(size_map (@dense R)) ds !size_map.
  by rewrite -(dsq_all os) ds all_map; elim: (map _ _) => //= x t ->; rewrite /dsq /= eqxx.
Qed.
End Ops.
