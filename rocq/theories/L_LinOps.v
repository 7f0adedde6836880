(** Linear operators: well-formed operators and agreement of [@] with the dense form. *)
From mathcomp Require Import all_ssreflect all_algebra.
From Verif Require Import M_DMx L_DMx M_LinOps.
Set Implicit Arguments.
Unset Strict Implicit.
Unset Printing Implicit Defensive.
Import Order.Theory GRing.Theory Num.Theory.
Local Open Scope ring_scope.

Section Ops.
Variable R : rcfType.
Local Notation dmx := (dmx R).
Local Notation op := (op R).
Implicit Types (o a b : op) (l : seq op).

(** Induction over operators with lists of operands. *)
Inductive eachP (P : op -> Prop) : seq op -> Prop :=
| all_nil : eachP P [::]
| all_cons a l : P a -> eachP P l -> eachP P (a :: l).
Section Ind.
Variable P : op -> Prop.
Hypotheses (HMat : forall f A, P (Mat f A)) (HLam : forall f A, P (Lam f A))
  (HIdn : forall f n, P (Idn _ f n)) (HScC : forall f n c, P (ScC f n c))
  (HScV : forall f d, P (ScV f d)) (HZer : forall f m n, P (Zer _ f m n))
  (HSel : forall f n i, P (Sel _ f n i)) (HEmb : forall f m t p v, P (Emb f m t p v))
  (HKro : forall f a b, P a -> P b -> P (Kro f a b)) (HIdK : forall f k b, P b -> P (IdK f k b))
  (HSyK : forall f a b i, P a -> P b -> P (SyK f a b i)) (HSyz : forall f n, P (Syz _ f n))
  (HTra : forall f a, P a -> P (Tra f a)) (HInv : forall f a, P a -> P (Inv f a))
  (HSca : forall f c a, P a -> P (Sca f c a)) (HNeg : forall f a, P a -> P (Neg f a))
  (HSum : forall f l, eachP P l -> P (Sum f l)) (HPrd : forall f l, eachP P l -> P (Prd f l))
  (HBlk : forall f l, eachP P l -> P (Blk f l)).
Fixpoint op_rect' o : P o :=
  let list := fix list l : eachP P l :=
    match l with [::] => all_nil P | a :: l' => all_cons (op_rect' a) (list l') end in
  match o with
  | Mat f A => HMat f A | Lam f A => HLam f A | Idn f n => HIdn f n | ScC f n c => HScC f n c
  | ScV f d => HScV f d | Zer f m n => HZer f m n | Sel f n i => HSel f n i
  | Emb f m t p v => HEmb f m t p v | Kro f a b => HKro f (op_rect' a) (op_rect' b)
  | IdK f k b => HIdK f k (op_rect' b) | SyK f a b i => HSyK f i (op_rect' a) (op_rect' b)
  | Syz f n => HSyz f n | Tra f a => HTra f (op_rect' a) | Inv f a => HInv f (op_rect' a)
  | Sca f c a => HSca f c (op_rect' a) | Neg f a => HNeg f (op_rect' a)
  | Sum f l => HSum f (list l) | Prd f l => HPrd f (list l) | Blk f l => HBlk f (list l)
  end.
End Ind.

(** Well-formed operators: what the constructors check, non-empty shapes, selections
    without repeated indices, embeddings that are transposed selections, invertible
    operands of inverses. [k] forbids plain [LambdaLinearOperator]s (inside Kronecker
    factors, see [is_eq]). *)
Definition idx_ok (n : nat) (idx : seq nat) : bool :=
  [&& (0 < size idx)%N, (size idx <= n)%N, uniq idx & all (fun i => i < n)%N idx].
Fixpoint wf (k : bool) (o : op) {struct o} : bool :=
  match o with
  | Mat _ A => (0 < drow A)%N && (0 < dcol A)%N
  | Lam _ A => [&& ~~ k, (0 < drow A)%N & (0 < dcol A)%N]
  | Idn _ n | ScC _ n _ | Syz _ n => (0 < n)%N
  | ScV _ d => (0 < size d)%N
  | Zer _ m n => (0 < m)%N && (0 < n)%N
  | Sel _ n idx => idx_ok n idx
  | Emb _ m take put v => [&& idx_ok m put, take == iota 0 (size put) & v == 0]
  | Kro _ A B => wf true A && wf true B
  | IdK _ n B => (0 < n)%N && wf true B
  | SyK _ A B i =>
      [&& wf k A, wf k B, is_square A, shape A == shape B
        & i ==> (deq (dense A) (dense B) && (f_sym (flags_of A) == f_sym (flags_of B)))]
  | Tra _ A | Sca _ _ A | Neg _ A => wf k A
  | Inv _ A => [&& wf k A, is_square A & dunit (dense A)]
  | Sum _ l => [&& (0 < size l)%N, all (wf k) l & all (fun s => shape s == head (0, 0)%N (map (@shape R) l)) l]
  | Prd _ l => [&& (0 < size l)%N, all (wf k) l & chain l]
  | Blk _ l => (0 < size l)%N && all (wf k) l
  end.
Lemma each_all (P : op -> Prop) l : eachP P l -> forall p q : pred op,
  (forall a, P a -> p a -> q a) -> all p l -> all q l.
Proof. by move=> Hl p q H; elim: Hl => //= a {}l Pa _ IH /andP[/(H _ Pa) -> /IH]. Qed.
Lemma wf_weak k o : wf true o -> wf k o.
Proof.
elim/op_rect': o => //= [f a b i|f a IH|f l IH|f l IH|f l IH].
- by move=> IHa IHb /and5P[/IHa -> /IHb -> -> -> ->].
- by case/and3P=> /IH -> -> ->.
- by case/and3P=> -> H ->; rewrite (each_all IH _ H).
- by case/and3P=> -> H ->; rewrite (each_all IH _ H).
- by case/andP=> -> H; rewrite (each_all IH _ H).
Qed.

(** ** Shapes *)
Lemma foldl_add_shape (a : dmx) s : dshape (foldl (@dadd R) a s) = dshape a.
Proof. by elim: s a => //= b s IH a; rewrite IH. Qed.
Lemma foldl_mul_shape (a : dmx) s :
  dshape (foldl (@dmul R) a s) = (drow a, last (dcol a) (map (@dcol R) s)).
Proof. by elim: s a => //= b s IH a; rewrite IH. Qed.

Lemma dense_shape k o : wf k o -> dshape (dense o) = shape o.
Proof.
elim/op_rect': o k => //=.
- by move=> f a b IHa IHb k /andP[/IHa <- /IHb <-].
- by move=> f n b IH k /andP[_ /IH <-].
- move=> f a b i IHa IHb k /and5P[/IHa + /IHb]; rewrite /is_square /rows /cols => <- <- /= /eqP sq.
  by case/eqP=> e1 e2 _; case: i; rewrite /dshape /= -?e1 -?e2 -?sq.
- by move=> f a IH k /IH <-.
- by move=> f a IH k /and3P[/IH + /eqP]; rewrite /rows /cols => <- /= sq _; rewrite /dshape /= -sq.
- move=> f l Hl k /and3P[ne wl _]; case: Hl ne wl => //= a l' IHa _ _ /andP[/IHa wa _].
  by rewrite foldl_add_shape.
- move=> f l Hl k /and3P[ne wl _]; case: Hl ne wl => //= a l' IHa Hl _ /andP[/IHa wa wl].
  rewrite foldl_mul_shape -wa; congr (_, _); case: Hl wl wa => //= b l2 IHb Hl /andP[wb wl] _.
  have := IHb _ wb; elim: Hl b wl {IHb wb IHa} => [|c l3 IHc Hl IH] b /=; first by move=> _ <-.
  by case/andP=> wc wl _; apply: IH => //; apply: IHc wc.
- move=> f l Hl k /andP[_ wl]; elim: Hl wl => //= a l' IHa _ IH /andP[/IHa wa /IH].
  by rewrite /dshape /= => -[-> ->]; move: wa; rewrite /dshape => <-.
Qed.
Lemma drow_dense k o : wf k o -> drow (dense o) = rows o.
Proof. by move/dense_shape; rewrite /rows => <-. Qed.
Lemma dcol_dense k o : wf k o -> dcol (dense o) = cols o.
Proof. by move/dense_shape; rewrite /cols => <-. Qed.

Lemma shape_gt0 k o : wf k o -> (0 < rows o)%N && (0 < cols o)%N.
Proof.
rewrite /rows /cols; elim/op_rect': o k => //=.
- by move=> f A k /and3P[_ -> ->].
- by move=> f n k ->.
- by move=> f n c k ->.
- by move=> f d k ->.
- by move=> f n i k /and4P[s0 sn _ _]; rewrite s0 (leq_trans s0).
- by move=> f n t i v k /andP[/and4P[s0 sn _ _] _]; rewrite s0 (leq_trans s0).
- by move=> f a b IHa IHb k /andP[/IHa /andP[? ?] /IHb /andP[? ?]]; rewrite !muln_gt0; do !(apply/andP; split).
- by move=> f n b IH k /andP[? /IH /andP[? ?]]; rewrite !muln_gt0; do !(apply/andP; split).
- by move=> f a b i IHa _ k /andP[/IHa /andP[? _] _]; rewrite !muln_gt0; do !(apply/andP; split).
- by move=> f n k ?; rewrite !muln_gt0; do !(apply/andP; split).
- by move=> f a IH k /IH /andP[-> ->].
- by move=> f a IH k /andP[/IH].
- by move=> f l Hl k /and3P[ne wl _]; case: Hl ne wl => //= a l' IHa _ _ /andP[/IHa].
- move=> f l Hl k /and3P[ne wl _]; case: Hl ne wl => //= a l' IHa Hl _ /andP[/IHa wa wl].
  case/andP: wa => -> ca; case: Hl wl ca {IHa} => //= b l2 IHb Hl /andP[/IHb wb wl] _.
  case/andP: wb => _; elim: Hl b wl {IHb} => //= c l3 IHc Hl IH b /andP[/IHc /andP[_ wc] wl] _.
  exact: IH.
- move=> f l Hl k /andP[ne wl]; case: Hl ne wl => //= a l' IHa _ _ /andP[/IHa /andP[? ?] _].
  by rewrite !addn_gt0; apply/andP; split; apply/orP; left.
Qed.

(** ** Matrix products *)
Lemma dmul_diag (d : seq R) (x : dmx) : size d = drow x ->
  dmul (ddiag d) x = mk (drow x) (dcol x) (fun i j => d`_i * get x i j).
Proof.
move=> e; apply: dmx_ext => //= i j im jn; rewrite !get_mk -?e //.
rewrite (bigD1 (Ordinal im)) //= get_mk // eqxx big1 ?addr0 // => k ki.
rewrite get_mk // (_ : (i == k) = false) ?mul0r //.
by apply: contra_neqF ki => /eqP ik; apply/val_inj.
Qed.
Lemma ScC_diag n (c : R) : mk n n (fun i j : nat => if i == j then c else 0) = dscale c (did R n).
Proof.
by apply: dmx_ext => //= i j im jn; rewrite !get_mk //; case: eqP => _; rewrite ?mulr1 ?mulr0.
Qed.
Lemma ddiag_nseq n (c : R) : ddiag (nseq n c) = dscale c (did R n).
Proof.
rewrite -ScC_diag; apply: dmx_ext; rewrite /= ?size_nseq // => i j im jn.
by rewrite !get_mk ?size_nseq //; case: eqP => // e; rewrite nth_nseq im.
Qed.
Lemma dtake_mul idx n (x : dmx) : all (fun i => i < n)%N idx -> drow x = n ->
  dmul (dtake idx (did R n)) x = dtake idx x.
Proof.
move=> H e; apply: dmx_ext => //= i j im jn; rewrite !get_mk //.
have ni : (nth 0%N idx i < n)%N by apply: (allP H); rewrite mem_nth.
rewrite -(@sum_delta _ n (fun k => get x k j) _ ni); apply: eq_bigr => k _.
by rewrite !get_mk // !get_mk.
Qed.
Lemma filter_zip_iota (put : seq nat) i k : uniq put ->
  [seq p.2 | p <- zip put (iota k (size put)) & p.1 == i]
  = if i \in put then [:: k + index i put]%N else [::].
Proof.
elim: put k => //= a put IH k /andP[na u]; rewrite in_cons [i == a]eq_sym.
case: (a =P i) => [e|ne] /=; rewrite IH //; first by rewrite -e (negbTE na) addn0.
by rewrite addSnnS.
Qed.
Lemma embed_mul m (put : seq nat) (x : dmx) :
  uniq put -> all (fun i => i < m)%N put -> drow x = size put ->
  embed m (iota 0 (size put)) put 0 x = dmul (dtr (dtake put (did R m))) x.
Proof.
move=> u H e; apply: dmx_ext => //= i j im jn; rewrite !get_mk //= filter_zip_iota //.
transitivity (\sum_(k < size put) (i == nth 0%N put k)%:R * get x k j); last first.
  apply: eq_bigr => k _; have ni : (nth 0%N put k < m)%N by apply: (allP H); rewrite mem_nth.
  by rewrite get_mk //= get_mk // get_mk // eq_sym.
case: ifP => [ip|nip].
  have ii : (index i put < size put)%N by rewrite index_mem.
  rewrite add0n /= -(@sum_delta _ _ (fun k => get x k j) _ ii); apply: eq_bigr => k _.
  congr ((nat_of_bool _)%:R * _); apply/idP/idP => /eqP => [<-|->]; first by rewrite nth_index.
  by rewrite index_uniq.
rewrite big1 // => k _; rewrite (_ : (i == _) = false) ?mul0r //.
by apply: contraFF nip => /eqP ->; rewrite mem_nth.
Qed.
Lemma kron_matmulE (fA fB : dmx -> dmx) (A B x : dmx) :
  (forall y, drow y = dcol A -> fA y = dmul A y) ->
  (forall y, drow y = dcol B -> fB y = dmul B y) ->
  drow x = (dcol A * dcol B)%N ->
  kron_matmul (drow A) (dcol A) (drow B) (dcol B) fA fB x = dmul (dkron A B) x.
Proof.
move=> HA HB ex; apply: dmx_ext => //= i j im jn; rewrite !get_mk //.
have [i1 i2] := divmod_lt im.
rewrite /kron_col HB // HA //= get_mk //.
transitivity (\sum_(p < dcol A) \sum_(q < dcol B)
  get A (i %/ drow B) p * get B (i %% drow B) q * get x (p * dcol B + q) j).
  apply: eq_bigr => p _; rewrite get_mk //= get_mk //= mulr_sumr.
  by apply: eq_bigr => q _; rewrite get_mk //= get_mk // mulrA.
rewrite -(@sum_pair _ _ _ (fun p q => get A (i %/ drow B) p * get B (i %% drow B) q
  * get x (p * dcol B + q) j)).
by apply: eq_bigr => k _; rewrite get_mk //= -divn_eq.
Qed.
Lemma symz_mul n (x : dmx) : (0 < n)%N -> drow x = (n * n)%N ->
  symz_matmul n x = dmul (symz_matmul n (did R (n * n))) x.
Proof.
move=> n0 e; apply: dmx_ext => //= i j im jn; rewrite !get_mk //.
have [i1 i2] := divmod_lt im; have p1 := pair_lt i1 i2; have p2 := pair_lt i2 i1.
rewrite -(@sum_delta _ _ (fun k => get x k j) _ p1) -(@sum_delta _ _ (fun k => get x k j) _ p2).
rewrite -big_split /= mulr_sumr; apply: eq_bigr => k _.
by rewrite get_mk // get_mk // get_mk // -mulrDl mulrA.
Qed.

Lemma foldl_add_mul (s : seq dmx) (d x : dmx) : all (fun e => dshape e == dshape d) s ->
  dmul (foldl (@dadd R) d s) x = foldl (@dadd R) (dmul d x) [seq dmul e x | e <- s].
Proof.
elim: s d => //= e s IH d /andP[/eqP [e1 e2] H]; rewrite IH ?dmulDl //.
Qed.
Lemma dblock_mul (s : seq dmx) k (x : dmx) : drow x = (k + sumn (map (@dcol R) s))%N ->
  dmul (dblock s) (drows k (sumn (map (@dcol R) s)) x)
  = (fix go (s : seq dmx) (k : nat) : dmx :=
       match s with
       | [::] => dzero R 0 (dcol x)
       | e :: s' => dvcat (dmul e (drows k (dcol e) x)) (go s' (k + dcol e)%N)
       end) s k.
Proof.
elim: s k => [|e s IH] k ex /=; first by apply: dmx_ext => //= i j; rewrite ltn0.
rewrite -IH; last by rewrite ex /= addnA.
have db : dcol (dblock s) = sumn (map (@dcol R) s) by elim: s {IH ex} => //= e' s ->.
apply: dmx_ext => //= i j im jn; rewrite get_mk // [RHS]get_mk //=.
rewrite big_split_ord /=; case: ifP => ie.
  rewrite [X in _ + X]big1 ?addr0 => [|p _]; last first.
    by rewrite get_mk ?ltn_add2l ?db // ie ltnNge leq_addr /= leqNgt ie /= mul0r.
  rewrite get_mk //; apply: eq_bigr => p _.
  rewrite get_mk ?ltn_addr ?db // ie ltn_ord /= get_mk ?ltn_addr // get_mk //.
rewrite [X in X + _]big1 ?add0r => [|p _]; last first.
  rewrite get_mk //; last exact: ltn_addr.
  by rewrite ie /= [(dcol e <= p)%N]leqNgt ltn_ord andbF mul0r.
have i2 : (i - drow e < drow (dblock s))%N.
  by rewrite ltn_subLR // leqNgt ie.
rewrite get_mk //; apply: eq_bigr => p _; have pd : (p < sumn [seq dcol i | i <- s])%N by rewrite -db.
rewrite get_mk //; last by rewrite ltn_add2l.
rewrite ie /= leqNgt ie /= leq_addr addKn; congr (_ * _).
by rewrite get_mk ?ltn_add2l // get_mk // addnA.
Qed.
Definition app_ok (k : bool) (o : op) := forall x, wf k o -> drow x = cols o ->
  apply o x = dmul (dense o) x.
Lemma prd_apply k l (x : dmx) : eachP (app_ok k) l -> all (wf k) l -> chain l ->
  drow x = last (drow x) (map (@cols R) l) ->
  drow (foldr (fun g y => apply g y) x l) = head (drow x) (map (@rows R) l)
  /\ forall D : dmx, dcol D = head (drow x) (map (@rows R) l) ->
     dmul (foldl (@dmul R) D (map (@dense R) l)) x
     = dmul D (foldr (fun g y => apply g y) x l).
Proof.
elim=> //= a l' Ha Hl IH /andP[wa wl] cl e.
have cl' : chain l' by case: l' cl {IH Hl wl e} => //= b l2 /andP[].
have el : drow x = last (drow x) (map (@cols R) l') by case: l' e {IH Hl wl cl cl'}.
have ca : cols a = head (drow x) (map (@rows R) l').
  by case: l' cl e {IH Hl wl cl' el} => //= b l2 /andP[/eqP -> _].
have [r1 IH1] := IH wl cl' el; rewrite Ha //= ?r1 // (drow_dense wa); split=> // D eD.
rewrite IH1 /=; last by rewrite (dcol_dense wa).
by rewrite dmulA // ?eD ?(drow_dense wa) // (dcol_dense wa) r1.
Qed.
(** [A @ x] computed by the class of [A] is the product with the dense matrix of [A]. *)
Lemma apply_dense k o x : wf k o -> drow x = cols o -> apply o x = dmul (dense o) x.
Proof.
elim/op_rect': o k x => //=.
- by move=> f A k x _ _; rewrite dmul1r.
- by move=> f n k x _ e; rewrite dmul1l.
- by move=> f n c k x _ e; rewrite ScC_diag dmulZl dmul1l.
- by move=> f d k x _ e; rewrite dmul_diag.
- by move=> f m n k x _ e; rewrite dmul0l.
- by move=> f n i k x /and4P[_ _ _ H] e; rewrite dtake_mul.
- by move=> f m t p v k x /and3P[/and4P[_ _ u H] /eqP -> /eqP ->] e; rewrite embed_mul.
- move=> f a b IHa IHb k x /andP[wa wb] e.
  rewrite -(drow_dense wa) -(dcol_dense wa) -(drow_dense wb) -(dcol_dense wb).
  apply: kron_matmulE => [y ey|y ey|].
  + by rewrite (IHa _ _ wa) // ey (dcol_dense wa).
  + by rewrite (IHb _ _ wb) // ey (dcol_dense wb).
  + by rewrite (dcol_dense wa) (dcol_dense wb).
- move=> f n b IHb k x /andP[n0 wb] e.
  rewrite -(drow_dense wb) -(dcol_dense wb).
  apply: (@kron_matmulE id _ (did R n) (dense b)) => [y ey|y ey|].
  + by rewrite dmul1l.
  + by rewrite (IHb _ _ wb) // ey (dcol_dense wb).
  + by rewrite (dcol_dense wb).
- move=> f a b i IHa IHb k x /and5P[wa wb /eqP sa /eqP sab ib] e.
  have [ra ca] : drow (dense a) = rows a /\ dcol (dense a) = rows a.
    by rewrite (drow_dense wa) (dcol_dense wa) sa.
  have [rb cb] : drow (dense b) = rows a /\ dcol (dense b) = rows a.
    by rewrite (drow_dense wb) (dcol_dense wb) sa /rows /cols -sab -/(rows a) -/(cols a) -sa.
  have Ha y : drow y = rows a -> apply a y = dmul (dense a) y.
    by move=> ey; rewrite (IHa _ _ wa) // ey sa.
  have Hb y : drow y = rows a -> apply b y = dmul (dense b) y.
    by move=> ey; rewrite (IHb _ _ wb) // ey -rb (drow_dense wb) /rows /cols -sab -/(rows a) sa.
  have aa : kron_matmul (rows a) (rows a) (rows a) (rows a) (apply a) (apply a) x
          = dmul (dkron (dense a) (dense a)) x.
    by have := @kron_matmulE (apply a) (apply a) (dense a) (dense a) x; rewrite ra ca; apply.
  have ab : kron_matmul (rows a) (rows a) (rows a) (rows a) (apply a) (apply b) x
          = dmul (dkron (dense a) (dense b)) x.
    by have := @kron_matmulE (apply a) (apply b) (dense a) (dense b) x; rewrite ra ca rb cb; apply.
  have ba : kron_matmul (rows a) (rows a) (rows a) (rows a) (apply b) (apply a) x
          = dmul (dkron (dense b) (dense a)) x.
    by have := @kron_matmulE (apply b) (apply a) (dense b) (dense a) x; rewrite ra ca rb cb; apply.
  case: i {ib e} => //.
  by rewrite ab ba dmulZl dmulDl //= ?ra ?ca ?rb ?cb.
- by move=> f n k x n0 e; apply: symz_mul.
- by move=> f c a IH k x wa e; rewrite (IH _ _ wa) // dmulZl.
- by move=> f a IH k x wa e; rewrite (IH _ _ wa) // dmulZl.
- move=> f l Hl k x /and3P[s0 wl sl] e; case: Hl s0 wl sl e => //= a l' IHa Hl _ /andP[wa wl].
  case/andP=> _ sl e; rewrite foldl_add_mul; last first.
    elim: Hl wl sl => //= b l2 _ _ IH /andP[wb wl] /andP[/eqP sb sl].
    by rewrite (dense_shape wb) sb -(dense_shape wa) eqxx IH.
  rewrite (IHa _ _ wa) //; congr (foldl _ _ _); rewrite -map_comp /=.
  elim: Hl wl sl => //= b l2 IHb _ IH /andP[wb wl] /andP[/eqP sb sl].
  by rewrite (IHb _ _ wb) ?IH // e /cols /= sb.
- move=> f l Hl k x /and3P[s0 wl cl] e.
  have {}Hl : eachP (app_ok k) l.
    by elim: Hl {s0 wl cl e} => [|a l' Ha _ IH]; constructor=> // y; apply: Ha.
  have el : drow x = last (drow x) (map (@cols R) l).
    by rewrite e /cols /=; case: (l) s0 => //= a l' _; elim: l' a => /=.
  have [] := prd_apply Hl wl cl el.
  case: Hl s0 wl cl e el => //= a l' Ha Hl _ /andP[wa wl] cl e el r H.
  by have := H (did R (rows a)) erefl; rewrite !dmul1l ?(drow_dense wa) ?r.
- move=> f l Hl k x /andP[_ wl] e.
  have dc : sumn (map (@dcol R) (map (@dense R) l)) = cols (Blk f l).
    by rewrite /cols /=; elim: (l) wl => //= a l' IH /andP[wa /IH ->]; rewrite (dcol_dense wa).
  have := @dblock_mul (map (@dense R) l) 0%N x; rewrite dc => /(_ e).
  have -> : drows 0 (cols (Blk f l)) x = x.
    by apply: dmx_ext => // i j im jn; rewrite get_mk.
  move=> ->; pose goA := fix go (l : seq op) (p : nat) : dmx :=
    match l with
    | [::] => dzero R 0 (dcol x)
    | b :: l' => dvcat (apply b (drows p (cols b) x)) (go l' (p + cols b)%N)
    end.
  pose goD := fix go (s : seq dmx) (p : nat) : dmx :=
    match s with
    | [::] => dzero R 0 (dcol x)
    | e :: s' => dvcat (dmul e (drows p (dcol e) x)) (go s' (p + dcol e)%N)
    end.
  suff H p : goA l p = goD (map (@dense R) l) p by exact: H.
  elim: Hl wl p {e dc} => //= a l' IHa _ IH /andP[wa wl] p.
  by rewrite (dcol_dense wa) (IHa _ _ wa) // IH.
Qed.
Lemma apply_shape k o x : wf k o -> drow x = cols o -> dshape (apply o x) = (rows o, dcol x).
Proof. by move=> wo e; rewrite (apply_dense wo e) /dshape /= (drow_dense wo). Qed.
End Ops.
