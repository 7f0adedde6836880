(** Determinants and inverses of linear operators. *)
From mathcomp Require Import all_ssreflect all_algebra.
From Verif Require Import L_Kalman L_Chol M_DMx L_DMx M_LinOps M_LinOps2 L_LinOps L_LinOps2 L_LinOps3
  L_LinOps4 L_LinOps5 L_LinOps6 L_LinOps9 L_LinOps10.
Set Implicit Arguments.
Unset Strict Implicit.
Unset Printing Implicit Defensive.
Import Order.Theory GRing.Theory Num.Theory.
Local Open Scope ring_scope.

Section Ops.
Variable R : rcfType.
Local Notation dmx := (dmx R).
Local Notation op := (op R).
Variable trk : bool.
Local Notation ok := (@L_LinOps2.ok R trk).
Local Notation node_ok := (@L_LinOps2.node_ok R trk).
Implicit Types (o a b : op) (l : seq op).

(** Every product inside the operator has square factors only. *)
Definition sqprd1 o : bool := if o is Prd _ l then all (@is_square R) l else true.
Definition sqprd o : bool := deep sqprd1 o.

(** ** Determinants *)
Lemma ddet_rmul n (s : seq dmx) : (0 < size s)%N -> all (fun d => dshape d == (n, n)) s ->
  ddet (rmul s) = \prod_(d <- s) ddet d.
Proof.
case: s => //= d s _ /andP[/eqP dd ss]; rewrite /rmul /= big_cons.
elim: s d dd ss => [|e s IH] d dd /=; first by rewrite big_nil mulr1.
case/andP=> /eqP ee ss; have [d1 d2] := dd; have [e1 e2] := ee.
by rewrite IH ?big_cons ?(@ddet_mul _ n) ?mulrA // /dshape /= d1 e2.
Qed.
Lemma chain_square l n : sorted (@link R) l -> all (@is_square R) l -> rows (head (idn R n) l) = n ->
  all (fun a => shape a == (n, n)) l.
Proof.
elim: l => //= a l IH p /andP[/eqP qa ql] ra; rewrite {1}[shape a]surjective_pairing -/(rows a) -/(cols a) -qa ra eqxx.
apply: IH; rewrite ?(path_sorted p) //; case: l p {ql} => //= b l /andP[/eqP <- _].
by rewrite -qa.
Qed.
Definition dprop o : Prop :=
  if det o is Some x then x = ddet (dense o) else ~~ sqprd o.
Lemma det_square o x : det o = Some x -> is_square o.
Proof.
have guard (q : bool) (y : option R) : (if ~~ q then None else y) = Some x -> q by case: q.
by case: o => [f A|f A|f n|f n c|f d|f m n|f n i|f m t q v|f a b|f n b|f a b i|f n|f a
  |f a|f c a|f a|f l|f l|f l] /guard.
Qed.
Lemma det_list l : eachP dprop l ->
  if sequence (map (@det R) l) is Some s
  then s = map (fun a => ddet (dense a)) l /\ all (@is_square R) l else ~~ all sqprd l.
Proof.
elim=> //= a l' Ha _ IH; move: Ha; rewrite /dprop; case e: (det a) => [x|]; last by move/negbTE->.
move=> ->; case: (sequence _) IH => [s [-> ->]|]; first by rewrite (det_square e).
by rewrite negb_and orbC => ->.
Qed.
Lemma each_sq (P : op -> Prop) k l : eachP (fun a => forall k, ok k a -> is_square a -> P a) l ->
  all (ok k) l -> all (@is_square R) l -> eachP P l.
Proof.
elim=> [|a l' Ha _ IH] /=; first by constructor.
by case/andP=> oa ol /andP[qa ql]; constructor; [exact: Ha oa qa|exact: IH].
Qed.
Lemma prod_foldl (s : seq R) : reduce 1 *%R s = \prod_(x <- s) x.
Proof.
case: s => [|x s] /=; first by rewrite big_nil.
by rewrite big_cons; elim: s x => [|y s IH] x /=; rewrite ?big_nil ?mulr1 // IH big_cons mulrA.
Qed.
Lemma det_ok k o : ok k o -> is_square o -> dprop o.
Proof.
elim/op_rect': o k => /=; rewrite /dprop /=.
- by move=> f A k oo ->.
- by move=> f A k oo ->.
- by move=> f n k oo ->; rewrite ddet_id.
- move=> f n c k oo ->.
  have -> : ddet (mk n n (fun i j => if i == j then c else 0)) = c ^+ n.
    rewrite ScC_diag -ddiag_nseq ddet_diag; elim: n {oo} => [|n IH]; first by rewrite big_nil expr0.
    by rewrite big_cons IH exprS.
  by case: eqP => [->|_] //=; rewrite expr1n.
- by move=> f d k oo ->; rewrite ddet_diag.
- move=> f m n k oo qo; rewrite qo /=; have /andP[m0 n0] := ok_wf oo.
  rewrite /ddet /= (_ : sq _ _ = 0); last by apply/matrixP=> i j; rewrite !mxE get_mk //; move: qo => /eqP; rewrite /rows /cols /= => <-.
  by case: m m0 {qo oo} => // m _; rewrite det0.
- by move=> f n i k oo ->.
- by move=> f m t q v k oo ->.
- move=> f a b IHa IHb k oo qo; rewrite qo /=; have [oa ob] := ok_kro oo.
  case: ifP => [/andP[qa qb]|_] //.
  have := IHa _ oa qa; have := IHb _ ob qb; case: (det a) => [x|] /=; last first.
    by rewrite /sqprd /= => _ /negbTE ->.
  case: (det b) => [y|] /=; last by rewrite /sqprd /= => /negbTE -> _; rewrite andbF.
  by move=> -> ->; rewrite ddet_kron ?(dsq_dense oa) ?(dsq_dense ob) // (ok_rows oa) (ok_rows ob).
- move=> f n b IHb k oo qo; rewrite qo /=; have [n0 ob] := ok_idk oo.
  case: ifP => qb //; have := IHb _ ob qb; case: (det b) => [y|] //= ->.
  by rewrite ddet_kron ?(dsq_dense ob) ?ddet_id ?expr1n // /dsq.
- move=> f a b i IHa IHb k oo qo; rewrite qo /=; have [oa ob qa sab iab] := ok_syk oo.
  case: i iab oo qo => [/(_ isT) [e _]|_] oo qo //.
  have := IHa _ oa qa; case: (det a) => [x|] /=; last by rewrite /sqprd /= => /negbTE ->.
  move=> ->; rewrite ddet_kron ?(dsq_dense oa) // (ok_rows oa) -exprD addnn mul2n.
  by [].
- by move=> f n k oo ->.
- move=> f a IH k oo qo; have oa := ok_tra oo; rewrite qo /=.
  have qa : is_square a by move: qo; rewrite /is_square /rows /cols /= eq_sym.
  by have := IH _ oa qa; case: (det a) => [x|] //; rewrite ddet_tr // (dsq_dense oa).
- move=> f a IH k oo qo; rewrite qo /=; have [oa qa u] := ok_inv oo.
  by have := IH _ oa qa; case: (det a) => [x ->|] //=; rewrite ddet_inv mul1r.
- by move=> f c a IH k oo ->.
- by move=> f a IH k oo ->.
- by move=> f l IH k oo ->.
- move=> f l IH k oo qo; have [l0 ol sl] := ok_list_prd oo; rewrite qo /=.
  have {}IH : eachP (fun a => is_square a -> dprop a) l.
    by apply: (each_mp _ ol); apply: each_impl IH _ => a Ha; exact: Ha.
  case: (boolP (all (@is_square R) l)) => ql; last first.
    have -> : sequence (map (@det R) l) = None; last by rewrite /sqprd /= (negbTE ql).
    elim: (l) ql => //= a l' IHl; rewrite negb_and => /orP[na|/IHl ->]; last by case: (det a).
    by case e: (det a) => [x|] //; rewrite (det_square e) in na.
  have {}IH : eachP dprop l.
    elim: IH ql {sl l0 oo qo ol} => [|a l' Ha _ IHl] /=; first by constructor.
    by case/andP=> qa ql; constructor; [exact: Ha|exact: IHl].
  have := det_list IH; case: (sequence _) => [s [-> _]|] /=; last by rewrite /sqprd /= ql => ->.
  rewrite prod_foldl big_map; have := @chain_square l (rows (Prd f l)) sl ql.
  have -> : rows (head (idn R (rows (Prd f l))) l) = rows (Prd f l) by case: (l) l0.
  move/(_ erefl) => sl'; rewrite -/(rmul _) (@ddet_rmul (rows (Prd f l))) ?size_map ?big_map //.
  exact: dense_shapes ol sl'.
- move=> f l IH k oo qo; have [l0 ol] := ok_list_blk oo; rewrite qo /=.
  case: ifP => ql //; have {}IH := each_sq IH ol ql.
  have := det_list IH; case: (sequence _) => [s [-> _]|] /=; last by rewrite /sqprd /= => ->.
  by rewrite ddet_block ?(dsq_all ol) // !big_map.
Qed.

(** ** Inverses *)
Lemma dunit_sq (D : dmx) : dunit D -> drow D = dcol D. Proof. by case/andP=> /eqP. Qed.
Lemma dinvE (A B : dmx) : dunit A -> drow B = drow A -> dcol B = drow A ->
  dmul A B = did R (drow A) -> dinv A = B.
Proof. by move=> /dunit_sq e r c m; have [] := dinv_uniq e r c m. Qed.
Lemma dunit_inv (A : dmx) : dunit A -> dunit (dinv A).
Proof. by rewrite !dunit_det ddet_inv => /andP[_ d]; rewrite invr_eq0 d andbT /dsq. Qed.
Lemma dinvK (A : dmx) : dunit A -> dinv (dinv A) = A.
Proof.
move=> u; apply: dinvE; rewrite ?dunit_inv ?dmulVl //; last by rewrite -(dunit_sq u).
Qed.
Lemma dunit_kron (A B : dmx) : dsq A -> dsq B -> (0 < drow A)%N -> (0 < drow B)%N ->
  dunit (dkron A B) = dunit A && dunit B.
Proof.
move=> a b a0 b0; rewrite !dunit_det ddet_kron // a b mulf_eq0 !expf_eq0 a0 b0 /= negb_or.
by rewrite /dsq /= (eqP a) (eqP b) eqxx.
Qed.
Lemma dinv_kron (A B : dmx) : dunit A -> dunit B -> (0 < drow A)%N -> (0 < drow B)%N ->
  dinv (dkron A B) = dkron (dinv A) (dinv B).
Proof.
move=> a b a0 b0; have ea := dunit_sq a; have eb := dunit_sq b.
apply: dinvE => //; first by rewrite dunit_kron ?a ?b // /dsq ?ea ?eb.
by rewrite dkronM ?dmulV ?dkron1 //= -?ea -?eb.
Qed.
Lemma dunit_block (s : seq dmx) : all (@dsq R) s -> dunit (dblock s) = all (@dunit R) s.
Proof.
elim: s => [|d s IH] /=; first by rewrite /dunit unitmxE det_mx00 unitr1.
by case/andP=> q qs; rewrite dunit_det ddet_block2 ?dsq_block // mulf_eq0 negb_or -IH // !dunit_det
  dsq_block // q /dsq /= (eqP q) (eqP (dsq_block qs)) eqxx.
Qed.
Lemma dblock2_mul (A B C D : dmx) : dcol A = drow C -> dcol B = drow D ->
  dmul (dblock2 A B) (dblock2 C D) = dblock2 (dmul A C) (dmul B D).
Proof.
move=> e1 e2; apply: dmx_ext => //= i j im jn; rewrite get_mk // get_block2 //=.
rewrite big_split_ord /=.
have E1 : \sum_(k < dcol A) get (dblock2 A B) i (lshift (dcol B) k) * get (dblock2 C D) (lshift (dcol B) k) j
   = if (i < drow A)%N && (j < dcol C)%N then get (dmul A C) i j else 0.
  case: ifP => [/andP[ia jc]|H].
    rewrite get_mk //; apply: eq_bigr => k _ /=.
    have kl : (k < dcol A + dcol B)%N by exact: leq_trans (ltn_ord k) (leq_addr _ _).
    by rewrite !get_block2 -?e1 -?e2 //= ltn_ord ia jc.
  rewrite big1 // => k _ /=.
  have kl : (k < dcol A + dcol B)%N by exact: leq_trans (ltn_ord k) (leq_addr _ _).
  rewrite !get_block2 -?e1 -?e2 //= ltn_ord andbT (leqNgt _ k) ltn_ord andbF /=.
  by move: H; case: (i < drow A)%N => /= [->|_]; rewrite ?mul0r ?mulr0.
have E2 : \sum_(k < dcol B) get (dblock2 A B) i (rshift (dcol A) k) * get (dblock2 C D) (rshift (dcol A) k) j
   = if (drow A <= i)%N && (dcol C <= j)%N then get (dmul B D) (i - drow A) (j - dcol C) else 0.
  case: ifP => [/andP[ia jc]|H].
    rewrite get_mk ?ltn_subLR //; apply: eq_bigr => k _ /=.
    have kl : (dcol A + k < dcol A + dcol B)%N by rewrite ltn_add2l.
    rewrite !get_block2 -?e1 -?e2 //= ![(dcol A + k < _)%N]ltnNge leq_addr /= andbF ia jc /= ?addKn.
    by [].
  rewrite big1 // => k _ /=.
  have kl : (dcol A + k < dcol A + dcol B)%N by rewrite ltn_add2l.
  rewrite !get_block2 -?e1 -?e2 //= [(_ + _ < _)%N]ltnNge leq_addr andbF andbT /=.
  by move: H; case: (drow A <= i)%N => /= [->|_]; rewrite ?mul0r ?mulr0.
rewrite E1 E2; case: (ltnP i (drow A)) => ia; case: (ltnP j (dcol C)) => jc /=; rewrite ?addr0 ?add0r //.
Qed.
Lemma dblock_mul (s t : seq dmx) : map (@dcol R) s = map (@drow R) t ->
  dmul (dblock s) (dblock t) = dblock (map (fun p => dmul p.1 p.2) (zip s t)).
Proof.
elim: s t => [|a s IH] [|b t] //=; first by move=> _; apply: dmx_ext.
move=> [e es]; rewrite dblock2_mul ?IH //.
by have [_ ->] := dblock_shape s; have [-> _] := dblock_shape t; rewrite es.
Qed.
Lemma dblock_id (s : seq nat) : dblock (map (@did R) s) = did R (sumn s).
Proof.
elim: s => [|n s IH] /=; first by apply: dmx_ext.
rewrite IH; apply: dmx_ext => //= i j im jn.
rewrite get_block2 // [RHS]get_id //=; case: (ltnP i n) => ia; case: (ltnP j n) => ja /=.
- by rewrite get_id.
- by rewrite (ltn_eqF (leq_trans ia ja)).
- by rewrite eq_sym (ltn_eqF (leq_trans ja ia)).
- by rewrite get_id ?ltn_subLR // -(eqn_add2l n) !subnKC.
Qed.
Lemma dinv_block (s : seq dmx) : all (@dunit R) s -> dinv (dblock s) = dblock (map (@dinv R) s).
Proof.
move=> us; have qs : all (@dsq R) s by apply: sub_all us => d /andP[].
have [r c] := dblock_shape s.
have e : map (@dcol R) s = map (@drow R) s.
  by elim: (s) qs => //= d s' IH /andP[/eqP -> /IH ->].
have [r' c'] := dblock_shape (map (@dinv R) s); rewrite -!map_comp in r' c'.
apply: dinvE; rewrite ?dunit_block ?r ?r' ?c' //.
rewrite dblock_mul; last by rewrite -map_comp e.
rewrite -dblock_id; congr dblock; elim: (s) us => //= d s' IH /andP[u us].
by rewrite dmulV // IH.
Qed.
Lemma dinv_scale (c : R) (A : dmx) : c != 0 -> dunit A -> dinv (dscale c A) = dscale (1 / c) (dinv A).
Proof.
move=> c0 u; have e := dunit_sq u.
have M : dmul (dscale c A) (dscale (1 / c) (dinv A)) = did R (drow A).
  rewrite -dmulV //; apply: dmx_ext => //= i j im jn; rewrite !get_mk //.
  apply: eq_bigr => k _; rewrite get_mk // get_mk -?e //; last by rewrite e.
  by rewrite mul1r mulrACA divff ?mul1r.
have [_ ->] // := @dinv_uniq R (dscale c A) (dscale (1 / c) (dinv A)) e erefl erefl M.
Qed.
Lemma dunit_scale (c : R) (A : dmx) : (0 < drow A)%N -> dunit (dscale c A) = (c != 0) && dunit A.
Proof.
move=> a0; rewrite !dunit_det /dsq /=; case: eqP => e //=; last by rewrite andbF.
have -> : ddet (dscale c A) = c ^+ drow A * ddet A.
  rewrite /ddet /= -detZ; congr (\det _); apply/matrixP=> i j; rewrite !mxE get_mk //.
  by rewrite -e.
by rewrite mulf_eq0 expf_eq0 a0 /= negb_or.
Qed.
Lemma dinv_tr (A : dmx) : dunit A -> dinv (dtr A) = dtr (dinv A).
Proof.
move=> u; have e := dunit_sq u.
have M : dmul (dtr A) (dtr (dinv A)) = did R (drow A) by rewrite -dtrM ?dmulVl ?dtr1.
by have [_ ->] := @dinv_uniq R (dtr A) (dtr (dinv A)) (esym e) e e (etrans M (congr1 (did R) e)).
Qed.
Lemma dunit_tr (A : dmx) : dsq A -> dunit (dtr A) = dunit A.
Proof. by move=> q; rewrite !dunit_det ddet_tr // /dsq /= eq_sym. Qed.
Definition iprop k o : Prop :=
  if inv o is Some r then ok k r /\ dense r = dinv (dense o) else ~~ sqprd o.
Lemma inv_dflt k o : ok k o -> dunit (dense o) ->
  ok k (inv_ o) /\ dense (inv_ o) = dinv (dense o).
Proof.
by move=> oo u; split=> //; apply: inv__ok => //; rewrite (ok_square_wf oo) (dunit_sq u).
Qed.
Lemma inv_square o : is_square o = false -> inv o = None.
Proof. by case: o => /= *; rewrite ifT //; apply/negbT. Qed.
Lemma inv_list k l : all (ok k) l -> eachP (iprop k) l ->
  if sequence (map (@inv R) l) is Some ts
  then all (ok k) ts /\ map (@dense R) ts = map (@dinv R) (map (@dense R) l) else ~~ all sqprd l.
Proof.
move=> + H; elim: H => //= a l' Ha _ IH /andP[oa ol]; move: Ha; rewrite /iprop.
case: (inv a) => [x|]; last by move/negbTE->.
move=> [ox dx]; case: (sequence _) (IH ol) => [s [os ds]|]; first by rewrite /= ox os dx ds.
by rewrite negb_and orbC => ->.
Qed.
Lemma dshape_n (n : nat) (d : dmx) : dshape d == (n, n) -> drow d = n /\ dcol d = n.
Proof. by move/eqP=> [-> ->]. Qed.
Lemma dinv_rmul n (s : seq dmx) : (0 < size s)%N -> all (fun d => dshape d == (n, n)) s ->
  all (@dunit R) s -> dinv (rmul s) = rmul (rev (map (@dinv R) s)).
Proof.
have P s' : all (fun d : dmx => dshape d == (n, n)) s' -> sorted (@linked R) s'.
  case: s' => //= d s'; elim: s' d => //= e s' IH d /and3P[/dshape_n[_ d2] e1 H].
  by rewrite IH ?e1 // /linked d2; have [-> _] := dshape_n e1; rewrite eqxx.
case: s => //= d s _; elim: s d => [|e s IH] d /=; first by move=> _ _; rewrite /rmul.
case/andP=> dd /andP[ee ss] /andP[ud us]; have H : all (fun d => dshape d == (n, n)) [:: e & s] by rewrite /= ee.
have [d1 d2] := dshape_n dd; have [e1 e2] := dshape_n ee.
have nn : all (fun d : dmx => dshape d == (n, n)) (rev (map (@dinv R) [:: d, e & s])).
  have : all (fun d : dmx => dshape d == (n, n)) [:: d, e & s] by rewrite /= dd.
  rewrite all_rev; elim: [:: d, e & s] => //= x y IHy /andP[/dshape_n[x1 x2] /IHy ->].
  by rewrite /dshape /= x1 eqxx.
have [re ce] := rmul_shape e s.
have ce' : dcol (last e s) = n.
  by move: H {IH us re ce P nn}; clear; elim: s e => [|f s IH] e /=; [case/andP=> /dshape_n[]|case/andP=> _ /IH].
rewrite ce' e1 in re ce.
have ue : dunit (rmul (e :: s)).
  rewrite dunit_det /dsq re ce eqxx (ddet_rmul _ H) //=; move: (us : all (@dunit R) (e :: s)); clear.
  elim: (e :: s) => [|f t IH] /=.
    by rewrite big_nil oner_eq0.
  case/andP=> uf ut; rewrite big_cons mulf_neq0 ?IH //; by move: uf; rewrite dunit_det => /andP[].
rewrite rev_cons -cats1 rmul_cat ?size_rev //; last by rewrite cats1 -rev_cons; exact: P.
rewrite -IH // -/(rmul (e :: s)) -[foldl _ (dmul d e) s]/(rmul [:: d, e & s]).
rewrite [rmul [:: d, e & s]]rmul_cons //; last by have := P [:: d, e & s]; rewrite /= dd ee ss => /(_ isT).
rewrite -[foldl _ e s]/(rmul (e :: s)) in re ce; rewrite -[rmul [:: dinv d]]/(dinv d).
have M : dmul (dmul d (rmul (e :: s))) (dmul (dinv (rmul (e :: s))) (dinv d)) = did R (drow (dmul d (rmul (e :: s)))).
  have E : dcol d = drow (rmul (e :: s)) by rewrite d2 re.
  have F : dcol (rmul (e :: s)) = drow (dinv (rmul (e :: s))) by rewrite /= re ce.
  rewrite -(dmulA (A := d)) //.
  rewrite (dmulA (A := rmul _)) //; last by rewrite /= re d1.
  by rewrite dmulV // re dmul1l ?dmulV //= d1.
by have [||| _ ->] // := dinv_uniq _ _ _ M; rewrite /= ?re ?ce ?d1.
Qed.
Lemma ok_pos k o : ok k o -> (0 < drow (dense o))%N /\ (0 < dcol (dense o))%N.
Proof.
by move=> oo; have /andP[] := shape_gt0 (ok_wf oo); rewrite (ok_rows oo) (ok_cols oo).
Qed.
Lemma sequence_rev T (s : seq (option T)) : sequence (rev s) = omap rev (sequence s).
Proof.
have C (u v : seq (option T)) : sequence (u ++ v) =
    if sequence u is Some x then (if sequence v is Some y then Some (x ++ y) else None) else None.
  by elim: u => [|[x|] u IH] //=; [case: (sequence v)|rewrite IH; case: (sequence u); case: (sequence v)].
elim: s => //= a s IH; rewrite rev_cons -cats1 C IH /=; case: a => [x|] /=; case: (sequence s) => //= t.
by rewrite cats1 rev_cons.
Qed.
End Ops.
