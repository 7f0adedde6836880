(** C27: indexing, reshaping and transposing random variables. *)
From mathcomp Require Import all_ssreflect all_algebra.
From Verif Require Import L_Ring M_CovFunc L_CovFunc M_RandVar L_RandVar L_RandVar2 P_RandVar M_RandView.
Set Implicit Arguments.
Unset Strict Implicit.
Unset Printing Implicit Defensive.
Import Order.Theory GRing.Theory Num.Theory.
Local Open Scope ring_scope.

(** ** Selections *)
Lemma sel_cat k1 s1 t1 k2 s2 t2 : sel_shape k1 s1 = Some t1 -> sel_shape k2 s2 = Some t2 ->
  sel_shape (k1 ++ k2) (s1 ++ s2) = Some (t1 ++ t2)
  /\ forall b1 b2, size b1 = size t1 -> sel_idx (k1 ++ k2) (s1 ++ s2) (b1 ++ b2) = sel_idx k1 s1 b1 ++ sel_idx k2 s2 b2.
Proof.
move=> + h2; elim: k1 s1 t1 => [|e k1 IH] s1 t1.
  by case: s1 => // -[<-]; split=> //= -[|//] b2.
case: e => [neg k|f||] /=.
- case: s1 => // d s1; case E : (pos neg k d) => [i|] //= /IH [-> h]; rewrite E /=; split=> // b1 b2 e.
  by rewrite h.
- case: s1 => // d s1; case Ea : (all _ _) => //; case E : (sel_shape k1 s1) => [t|] //= [<-].
  have [-> h] := IH _ _ E; rewrite Ea /=; split=> // -[//|i b1] b2 /= [e]; by rewrite h.
- case E : (sel_shape k1 s1) => [t|] //= [<-]; have [-> h] := IH _ _ E; split=> // -[//|i b1] b2 /= [e]; by rewrite h.
- by [].
Qed.
Lemma sel_full s : sel_shape (nseq (size s) full) s = Some s /\ forall b, valid s b -> sel_idx (nseq (size s) full) s b = b.
Proof.
elim: s => [|d s [IH1 IH2]]; first by split=> // -[].
split=> /=.
  rewrite (_ : all _ _ = true); last by apply/allP => i; rewrite mem_iota.
  by rewrite IH1 /= size_iota.
by case=> // i b /= /andP[id v]; rewrite nth_iota // IH2.
Qed.
Lemma sel_valid k s t b : sel_shape k s = Some t -> valid t b -> valid s (sel_idx k s b).
Proof.
elim: k s t b => [|e k IH] s t b; first by case: s.
case: e => [neg j|f||] /=.
- case: s => // d s; case E : (pos neg j d) => [i|] //= /IH h /h ->; rewrite andbT.
  move: E; rewrite /pos; case: neg; case: ifP => // j0 [<-] //=; move/andP: j0 => [j0 jd].
  by rewrite ltn_subLR // -[X in (X < _)%N]add0n ltn_add2r.
- case: s => // d s; case Ea : (all _ _) => //; case E : (sel_shape k s) => [u|] //= [<-]; case: b => // i b /= /andP[ib /(IH _ _ _ E) ->].
  by rewrite andbT; apply: (allP Ea); rewrite mem_nth.
- by case E : (sel_shape k s) => [u|] //= [<-]; case: b => // i b /= /andP[_]; exact: IH.
- by [].
Qed.
Lemma sel_count k s t : sel_shape k s = Some t -> count uses k = size s /\ count is_ell k = 0%N.
Proof.
elim: k s t => [|e k IH] s t; first by case: s.
case: e => [neg j|f||] //=.
- by case: s => // d s; case: (pos _ _ _) => // _ /IH [-> ->].
- by case: s => // d s; case: ifP => // _; case E : (sel_shape k s) => [u|] //= _; have [-> ->] := IH _ _ E.
- by case E : (sel_shape k s) => [u|] //= _; have [-> ->] := IH _ _ E.
Qed.
Lemma expand_pre k s t r : sel_shape k s = Some t -> expand (size s + r) k = Some (k ++ nseq r full).
Proof. by move=> /sel_count [e1 e2]; rewrite /expand e1 e2 leq_addr addKn. Qed.
Lemma expand_post k s t r : sel_shape k s = Some t -> expand (r + size s) (KEll :: k) = Some (nseq r full ++ k).
Proof.
move=> /sel_count [e1 e2]; rewrite /expand /= e1 e2 add0n leq_addl addnK; congr (Some (_ ++ _)).
elim: k e2 {e1} => //= e k IH; case: e => //= [n j|f|]; rewrite ?add0n => /IH -> //.
Qed.

(** ** Permutations of axes *)
Lemma validP s a : reflect (size a = size s /\ forall j, (j < size s)%N -> (nth 0 a j < nth 0 s j)%N) (valid s a).
Proof.
elim: s a => [|d s IH] [|i a] /=; try by constructor; case.
  by constructor.
apply: (iffP andP) => [[id /IH [e h]]|[[e] h]].
  by split=> [|[|j]] //=; [rewrite e | exact: h].
by split; [exact: (h 0%N) | apply/IH; split=> // j js; exact: (h j.+1)].
Qed.
Definition tidx (p : seq nat) (r : nat) (b : seq nat) : seq nat := [seq nth 0%N b (index j p) | j <- iota 0 r].
Lemma tidx_valid p s b : perm_eq p (iota 0 (size s)) -> valid [seq nth 0%N s i | i <- p] b -> valid s (tidx p (size s) b).
Proof.
move=> pp /validP [e h]; have sp : size p = size s by rewrite (perm_size pp) size_iota.
apply/validP; split=> [|j js]; first by rewrite size_map size_iota.
have jp : (j \in p) by rewrite (perm_mem pp) mem_iota.
have jx : (index j p < size p)%N by rewrite index_mem.
rewrite (nth_map 0%N) ?size_iota // nth_iota //; have := h (index j p); rewrite size_map => /(_ jx).
by rewrite (nth_map 0%N) // nth_index.
Qed.
Lemma norm_axesP r p : perm_eq p (iota 0 r) -> norm_axes r [seq (false, i) | i <- p] = Some p.
Proof.
move=> pp; have lt i : i \in p -> (i < r)%N by rewrite (perm_mem pp) mem_iota.
have E : [seq pos a.1 a.2 r | a <- [seq (false, i) | i <- p]] = [seq Some i | i <- p].
  by rewrite -map_comp; apply/eq_in_map => i /lt ir; rewrite /= /pos ir.
rewrite /norm_axes E; have -> : pmap id [seq Some i | i <- p] = p by elim: (p) => //= i q ->.
have -> : all isSome [seq Some i | i <- p] by elim: (p).
rewrite (_ : sort leq p = iota 0 r) ?eqxx //.
apply: (@sorted_eq _ leq leq_trans anti_leq); [exact: sort_sorted leq_total _|exact: iota_sorted|].
by rewrite perm_sort.
Qed.
Lemma perm_twice r p : perm_eq p (iota 0 r) -> perm_eq (p ++ [seq (r + i)%N | i <- p]) (iota 0 (r + r)).
Proof.
move=> pp; rewrite iotaD add0n; apply: perm_cat => //.
by rewrite -[X in iota X r]addn0 iotaDl; exact: perm_map.
Qed.
Lemma tidx_twice r p a b : perm_eq p (iota 0 r) -> size a = r ->
  tidx (p ++ [seq (r + i)%N | i <- p]) (r + r) (a ++ b) = tidx p r a ++ tidx p r b.
Proof.
move=> pp ea; have sp : size p = r by rewrite (perm_size pp) size_iota.
rewrite /tidx iotaD add0n map_cat; congr (_ ++ _).
  apply/eq_in_map => j; rewrite mem_iota /= add0n => jr.
  have jp : j \in p by rewrite (perm_mem pp) mem_iota.
  by rewrite index_cat jp nth_cat ea -sp index_mem jp.
rewrite -[X in iota X r]addn0 iotaDl -map_comp; apply/eq_in_map => j; rewrite mem_iota /= add0n => jr.
rewrite index_cat (perm_mem pp) mem_iota /= add0n -ltn_subRL subnn ltn0 nth_cat ea sp -ltn_subRL subnn ltn0 addKn.
by rewrite index_map //; exact: addnI.
Qed.
Lemma bc_rev_cat2 u s t : size s = size t -> bc_rev (s ++ u) (t ++ u) = omap (cat^~ u) (bc_rev s t).
Proof.
elim: s t => [|d s IH] [|e t] //=; first by rewrite bc_rev_refl.
by case=> /IH ->; case: ifP => _; [|case: ifP => // _]; case: (bc_rev s t).
Qed.
Lemma broadcast_pre n s t : size s = size t -> broadcast (n ++ s) (n ++ t) = omap (cat n) (broadcast s t).
Proof.
move=> e; rewrite /broadcast !rev_cat bc_rev_cat2 ?size_rev //; case: (bc_rev _ _) => //= B.
by rewrite rev_cat revK.
Qed.
Lemma bidx_pre n s i b : size b = size s -> valid n i -> bidx (n ++ s) (i ++ b) = i ++ bidx s b.
Proof.
move=> e v; have en := valid_size v; rewrite /bidx !size_cat en e subnn drop0 subnn drop0 zip_cat ?en // map_cat.
by rewrite mask_refl.
Qed.
Section View.
Variables (R : rcfType) (K : nat).
Notation arr := (arr R).
Notation get := (get (0 : R)).
Notation op := (np_op (0 : R)).
Implicit Types (X : rarr R K) (x : normal R) (c : arr).
Lemma indexP k s t c : shp c = s -> sel_shape k s = Some t ->
  np_index k c = Some (tab t (fun b => get c (sel_idx k s b))).
Proof. by move=> e h; rewrite /np_index e -[size s]addn0 (expand_pre 0 h) cats0 h. Qed.
(** Covariances as arrays with the axes of the random variable twice. *)
Lemma reshape_cov x : nwf x -> exists2 c, np_reshape (shp (mean x) ++ shp (mean x)) (cov x) = Some c &
  [/\ shp c = shp (mean x) ++ shp (mean x), wf c & forall a b, valid (shp (mean x)) a -> valid (shp (mean x)) b -> get c (a ++ b) = covf x a b].
Proof.
case=> wm wv s2 ev; set s := shp (mean x).
have p : prodn (shp (cov x)) = (prodn s * prodn s)%N by rewrite ev -/s; case: (s) => //= d s'; rewrite muln1.
rewrite /np_reshape prodn_cat p eqxx; eexists; first by []; split=> //=.
  by move: wv; rewrite /wf p /= prodn_cat.
by move=> a b va vb; rewrite covfE // /M_CovFunc.get /= ravel_cat ?(valid_size va).
Qed.
(** A normal random variable with the given entries. *)
Lemma law_of (t : seq nat) X (m c : arr) : shp m = t -> wf m -> (size t <= 2)%N -> shp c = t ++ t -> wf c ->
  (forall a, valid t a -> Ex (X a) = get m a) ->
  (forall a b, valid t a -> valid t b -> Co (X a) (X b) = get c (a ++ b)) ->
  exists2 x, mk_normal (Some m) (if shp m is [::] then Some c else obind (np_reshape [:: prodn (shp m); prodn (shp m)]) (Some c)) None = Some x
    & law t X (Nrm x).
Proof.
move=> em wm t2 ec wc hm hc.
have -> : (if shp m is [::] then Some c else obind (np_reshape [:: prodn (shp m); prodn (shp m)]) (Some c)) = Some (Arr (cov_shape t) (dat c)).
  rewrite em; case: (t) ec => [|d t'] ec; first by case: c ec {wc hc} => ? ? /= ->.
  by rewrite /obind /np_reshape ec prodn_cat /= muln1 eqxx.
rewrite /mk_normal em t2 /= eqxx orbT /=; eexists; first by [].
have pc : prodn (cov_shape t) = (prodn t * prodn t)%N by case: (t) => //= d t'; rewrite muln1.
split=> //=; first by split=> //=; rewrite ?em //; move: wc; rewrite /wf ec pc prodn_cat.
split=> // a b va vb; rewrite hc // covfE //= em // /M_CovFunc.get ec ravel_cat ?(valid_size va) //.
Qed.
(** Marginals. *)
Theorem C27_getitem s X x key t : law s X (Nrm x) -> sel_shape key s = Some t -> (size t <= 2)%N ->
  exists2 x', getitem x key = Some x' & law t (fun b => X (sel_idx key s b)) (Nrm x').
Proof.
move=> [wx ck es [mX cX]] h t2; have [c Ec [ec wc gc]] := reshape_cov wx; rewrite es in Ec ec gc.
rewrite /getitem es (indexP es h) Ec; set m := tab t _; rewrite [obind (np_index key) _]/=.
have [F1 F2] := sel_full s; have [G1 G2] := sel_cat h F1.
have -> : np_index key c = Some (tab (t ++ s) (fun b => get c (sel_idx (key ++ nseq (size s) full) (s ++ s) b))).
  by rewrite /np_index ec size_cat (expand_pre _ h) G1.
set c2 := tab _ _; have [T1 T2] := sel_full t; have [H1 H2] := sel_cat T1 h.
rewrite [obind (np_index _) _]/=.
have -> : np_index (KEll :: key) c2 = Some (tab (t ++ t) (fun b => get c2 (sel_idx (nseq (size t) full ++ key) (t ++ s) b))).
  by rewrite /np_index /= size_cat (expand_post _ h) H1.
apply: law_of => //; try exact: wf_tab.
  by move=> a va; rewrite get_tab // mX //; exact: sel_valid h va.
move=> a b va vb; have va' := sel_valid h va; have vb' := sel_valid h vb.
rewrite get_tab ?valid_cat ?(valid_size va) ?va // H2 ?(valid_size va) // T2 // get_tab ?valid_cat ?(valid_size va) ?va //.
by rewrite G2 ?(valid_size va) // F2 // gc // cX.
Qed.
Theorem C27_constant_getitem s X c key k t : law s X (Cst c) -> expand (size s) key = Some k -> sel_shape k s = Some t ->
  exists2 c', np_index key c = Some c' & law t (fun b => X (sel_idx k s b)) (Cst c').
Proof.
move=> [wc ec hX] E h; rewrite /np_index ec E h /=; eexists; first by []; split=> //; first exact: wf_tab.
by move=> a va; rewrite get_tab // hX //; exact: sel_valid h va.
Qed.
(** Reshaping keeps the order of the entries. *)
Definition unravel (s t : seq nat) (b : seq nat) : seq nat := nth [::] (indices s) (ravel t b).
Theorem C27_reshape s X x t : law s X (Nrm x) -> prodn t = prodn s -> (size t <= 2)%N -> (t = [::] -> s = [::]) ->
  exists2 x', reshape x t = Some x' & law t (fun b => X (unravel s t b)) (Nrm x').
Proof.
move=> [wx ck es [mX cX]] p t2 st; case: (wx) => wm wv s2 ev.
have ev' : shp (cov x) = cov_shape s by rewrite ev es.
have [c Ec [ec wc gc]] := reshape_cov wx; move: Ec; rewrite /np_reshape; case: ifP => // _ [Ec].
have U a : valid t a -> valid s (unravel s t a) /\ ravel s (unravel s t a) = ravel t a.
  by move=> va; apply: ravel_nth; rewrite -p ravel_lt.
have := @law_of t (fun b => X (unravel s t b)) (Arr t (dat (mean x))) (Arr (t ++ t) (dat (cov x))) erefl.
case=> //.
- by move: wm; rewrite /wf es -p.
- by move: wc; rewrite /wf -Ec /= es !prodn_cat p.
- by move=> a va; have [v e] := U _ va; rewrite mX // /M_CovFunc.get es e.
- move=> a b va vb; have [v e] := U _ va; have [v' e'] := U _ vb; rewrite cX // covfE ?es //.
  by rewrite /M_CovFunc.get /= ravel_cat ?(valid_size va) // e e' p.
move=> x' E l; exists x' => //; rewrite -{}E /reshape {1}/np_reshape es p eqxx; congr (mk_normal _ _ _).
have eC : cov x = Arr (cov_shape s) (dat (cov x)) by rewrite -ev'; case: (cov x).
case: (t) p st => [|d t'] p st; first by rewrite /= [in LHS]eC (st erefl).
have pp : prodn ((d :: t') ++ d :: t') = (prodn s * prodn s)%N by rewrite prodn_cat p.
rewrite (_ : obind _ _ = Some (Arr [:: prodn s; prodn s] (dat (cov x)))); last first.
  by rewrite /obind /np_reshape (pp : prodn (shp (Arr _ _)) = _) [prodn [:: _; _]]/= muln1 eqxx.
rewrite ev' /np_reshape /= ev'.
by case: (s) eC => [|e s'] eC //=; rewrite [in LHS]eC.
Qed.
Lemma transposeP p s c : shp c = s -> perm_eq p (iota 0 (size s)) ->
  np_transpose [seq (false, i) | i <- p] c = Some (tab [seq nth 0%N s i | i <- p] (fun b => get c (tidx p (size s) b))).
Proof. by move=> e pp; rewrite /np_transpose e norm_axesP. Qed.
Theorem C27_transpose s X x axes p : law s X (Nrm x) -> perm_eq p (iota 0 (size s)) ->
  axes = Some [seq (false, i) | i <- p] \/ axes = None /\ p = rev (iota 0 (size s)) ->
  exists2 x', transpose x axes = Some x' & law [seq nth 0%N s i | i <- p] (fun b => X (tidx p (size s) b)) (Nrm x').
Proof.
move=> [wx ck es [mX cX]] pp ax; have [c Ec [ec wc gc]] := reshape_cov wx; rewrite es in Ec ec gc.
rewrite /transpose es; set axs := (if axes is Some a then a else _).
have {ax} -> : axs = [seq (false, i) | i <- p] by rewrite /axs; case: ax => [->|[-> ->]].
rewrite (transposeP es pp) Ec; set t := [seq nth 0%N s i | i <- p]; set m := tab t _.
have sp : size p = size s by rewrite (perm_size pp) size_iota.
have st : size t = size s by rewrite size_map.
set second := (fun a : bool * nat => _).
have -> : [seq (false, i) | i <- p] ++ [seq second a | a <- [seq (false, i) | i <- p]] = [seq (false, i) | i <- p ++ [seq (size s + i)%N | i <- p]].
  by rewrite map_cat; congr (_ ++ _); rewrite -!map_comp.
have pp2 := perm_twice pp; rewrite [obind _ (Some c)]/= -size_cat in pp2 *; rewrite (transposeP ec pp2).
have et : [seq nth 0%N (s ++ s) i | i <- p ++ [seq (size s + i)%N | i <- p]] = t ++ t.
  rewrite map_cat -map_comp; congr (_ ++ _); apply/eq_in_map => i; rewrite (perm_mem pp) mem_iota /= add0n => ir.
    by rewrite nth_cat ir.
  by rewrite nth_cat -ltn_subRL subnn ltn0 addKn.
rewrite et; apply: law_of => //; try exact: wf_tab.
- by rewrite st; case: wx => _ _; rewrite es.
- by move=> a va; rewrite get_tab // mX //; exact: tidx_valid.
move=> a b va vb; rewrite get_tab ?valid_cat ?(valid_size va) ?va // size_cat tidx_twice ?(valid_size va) //.
by rewrite gc ?cX //; exact: tidx_valid.
Qed.
Theorem C27_constant_transpose s X c p : law s X (Cst c) -> perm_eq p (iota 0 (size s)) ->
  exists2 c', np_transpose [seq (false, i) | i <- p] c = Some c' & law [seq nth 0%N s i | i <- p] (fun b => X (tidx p (size s) b)) (Cst c').
Proof.
move=> [wc ec hX] pp; rewrite (transposeP ec pp); eexists; first by []; split=> //; first exact: wf_tab.
by move=> a va; rewrite get_tab // hX //; exact: tidx_valid.
Qed.
Theorem C27_constant_reshape s X c t : law s X (Cst c) -> prodn t = prodn s ->
  exists2 c', np_reshape t c = Some c' & law t (fun b => X (unravel s t b)) (Cst c').
Proof.
move=> [wc ec hX] p; rewrite /np_reshape ec p eqxx; eexists; first by []; split=> //; first by move: wc; rewrite /wf ec -p.
move=> a va; have [v e] : valid s (unravel s t a) /\ ravel s (unravel s t a) = ravel t a by apply: ravel_nth; rewrite -p ravel_lt.
by rewrite hX // /M_CovFunc.get ec e.
Qed.
(** ** Samples *)
Theorem C27_sample_reshape n s t (z : arr) : shp z = n ++ s -> wf z -> prodn t = prodn s ->
  exists z', [/\ sample_reshape n t z = Some z', shp z' = n ++ t, wf z' &
    forall i b, valid n i -> valid t b -> get z' (i ++ b) = get z (i ++ unravel s t b)].
Proof.
move=> ez wz p; rewrite /sample_reshape /np_reshape ez !prodn_cat p eqxx; eexists; split=> //.
  by move: wz; rewrite /wf /= ez !prodn_cat p.
move=> i b vi vb; have [v e] : valid s (unravel s t b) /\ ravel s (unravel s t b) = ravel t b by apply: ravel_nth; rewrite -p ravel_lt.
by rewrite /M_CovFunc.get /= ez !ravel_cat ?(valid_size vi) // e p.
Qed.
(** Samples of results of generic arithmetic: the operation applied to the samples, for operands with equally many axes. *)
Theorem C133_sample f n s t (y z r : arr) : shp y = n ++ s -> shp z = n ++ t -> size s = size t ->
  sample_op f y z = Some r ->
  exists2 B, broadcast s t = Some B & [/\ shp r = n ++ B, wf r &
    forall i b, valid n i -> valid B b -> get r (i ++ b) = f (get y (i ++ bidx s b)) (get z (i ++ bidx t b))].
Proof.
move=> ey ez e /op_shape [B']; rewrite ey ez broadcast_pre //; case Eb : (broadcast s t) => [B|] //= [<-] [er wr h].
exists B => //; split=> // i b vi vb; rewrite h ?valid_cat ?(valid_size vi) ?vi //.
have sB : size b = size s.
  rewrite (valid_size vb); apply/eqP; rewrite eqn_leq (broadcast_size Eb) andbT.
  have : forall s t B, bc_rev s t = Some B -> size s = size t -> size B = size s.
    elim=> [|d s0 IH] [|d' t0] B0 //=; first by move=> [<-].
    case: ifP => _; [|case: ifP => // _]; case E : (bc_rev s0 t0) => [C|] //= [<-] [e'] /=; by rewrite (IH _ _ E).
  move: Eb; rewrite /broadcast; case E : (bc_rev _ _) => [C|] //= [<-] /(_ _ _ _ E).
  by rewrite !size_rev => -> //; rewrite e.
by rewrite !bidx_pre // sB.
Qed.
(** Samples of normal random variables, given the draws of shape [size + (k,)]. *)
Theorem C134_sample n s (z : arr) : shp z = n ++ [:: prodn s] -> wf z -> all (fun d => d != 1)%N n -> prodn s <> 1%N ->
  exists z', [/\ dense_sample s z = Some z', shp z' = n ++ s & forall i b, valid n i -> valid s b -> get z' (i ++ b) = get z (i ++ [:: ravel s b])].
Proof.
move=> ez wz nn sn; have sh : shp (squeeze z) = n ++ [:: prodn s].
  rewrite /squeeze /= ez; apply/all_filterP; rewrite all_cat nn /= andbT; exact/eqP.
rewrite /dense_sample sh size_cat /= addn1 /= take_size_cat // /np_reshape sh !prodn_cat /= muln1 eqxx; eexists; split=> //=.
move=> i b vi vb; rewrite /M_CovFunc.get /= ez !ravel_cat ?(valid_size vi) //= !muln1 addn0 //.
Qed.

(** ** Claims that fail *)
(** C128: keys with fewer entries than axes. For square random matrices, rows come with a wrong covariance. *)
Theorem C128_short_key_refuted (x : normal R) : nwf x -> shp (mean x) = [:: 2%N; 2%N] ->
  exists2 x', getitem x [:: KInt false 0] = Some x' &
    shp (mean x') = [:: 2%N] /\
    forall j k, (j < 2)%N -> (k < 2)%N -> get (mean x') [:: j] = get (mean x) [:: 0%N; j] /\ get (cov x') [:: j; k] = covf x [:: 0%N; j] [:: k; 0%N].
Proof.
move=> wx es; have [c Ec [ec wc gc]] := reshape_cov wx; rewrite es in Ec ec gc.
have [wm wv _ ev] := wx; rewrite /getitem es Ec /np_index es /= ec /=; eexists; first by []; split=> //=.
by move=> [|[|//]] [|[|//]] _ _; split=> //; rewrite -gc.
Qed.
Theorem C128_not_square_refuted (x : normal R) m n : nwf x -> shp (mean x) = [:: m; n] -> (0 < m)%N -> (0 < n)%N -> m <> n ->
  getitem x [:: KInt false 0] = None.
Proof.
move=> wx es m0 n0 mn; have [c Ec [ec wc gc]] := reshape_cov wx; rewrite es in Ec ec gc.
have a d : all (fun i => i < d)%N (iota 0 d) by apply/allP => i; rewrite mem_iota.
have q : (n * (n * 1) == n * (m * 1))%N = false by rewrite !muln1 eqn_pmul2l //; apply/eqP => h; apply: mn.
rewrite /getitem es Ec /np_index es /= m0 a /= size_iota ec /= m0 !a /= !size_iota ?a n0 /=.
by rewrite /np_reshape /= !muln1; move: q; rewrite !muln1 => ->.
Qed.
(** C129: keys with an Ellipsis. *)
Theorem C129_ellipsis_refuted (x : normal R) key : has is_ell key -> getitem x key = None.
Proof.
move=> h; rewrite /getitem; case: (np_index key (mean x)) => // m.
have X r : expand r (KEll :: key) = None.
  rewrite /expand; case: ifP => // _; move: h; rewrite has_count -/(count is_ell key).
  by case: (count is_ell key).
have E y : obind (np_index (KEll :: key)) y = None by case: y => //= y; rewrite /np_index X.
by rewrite E; case: (shp m).
Qed.
(** C130: axes of different sign. *)
Theorem C130_mixed_axes_refuted (x : normal R) : nwf x -> shp (mean x) = [:: 2%N; 2%N] ->
  exists2 x', transpose x (Some [:: (false, 1%N); (true, 2%N)]) = Some x' &
    shp (mean x') = [:: 2%N; 2%N] /\
    forall i j k l : nat, (i < 2)%N -> (j < 2)%N -> (k < 2)%N -> (l < 2)%N ->
      get (mean x') [:: i; j] = get (mean x) [:: j; i] /\ covf x' [:: i; j] [:: k; l] = covf x [:: l; i] [:: j; k].
Proof.
move=> wx es; have [e Ec [ec wc gc]] := reshape_cov wx; rewrite es in Ec ec gc.
rewrite /transpose es Ec /np_transpose es /= ec /= /mk_normal /=; eexists; first by []; split=> //=.
by move=> [|[|//]] [|[|//]] [|[|//]] [|[|//]] _ _ _ _; split=> //; rewrite -gc.
Qed.
(** C131: reshaping to [()]. *)
Theorem C131_scalar_refuted (x : normal R) s : nwf x -> shp (mean x) = s -> s <> [::] -> reshape x [::] = None.
Proof.
move=> [_ _ _ ev] es; case: s es => // d s es _; rewrite /reshape /np_reshape; case: ifP => //= _.
by rewrite /mk_normal ev es.
Qed.
(** C132: views of generic random variables, samples of non-empty size. Indexing applies to the axes of the
    sample size: [rv[0]] for [rv] of shape [(k,)], with [n] samples, is the first sample instead of the first entries. *)
Theorem C132_getitem_refuted (z : arr) n k : shp z = [:: n; k] -> (0 < n)%N ->
  exists2 r, sample_getitem [:: KInt false 0] z = Some r & shp r = [:: k] /\ forall i, (i < k)%N -> get r [:: i] = get z [:: 0%N; i].
Proof.
move=> ez n0; have a d : all (fun i => i < d)%N (iota 0 d) by apply/allP => i; rewrite mem_iota.
rewrite /sample_getitem /np_index ez /= n0 /= a /= size_iota; eexists; first by []; split=> // i ik.
by rewrite get_tab /= ?ik // nth_iota.
Qed.
(** Transposing applies to all axes; with axes given it raises. *)
Theorem C132_transpose_refuted (z : arr) n k l : shp z = [:: n; k; l] ->
  (exists2 r, sample_transpose None z = Some r & shp r = [:: l; k; n]) /\
  sample_transpose (Some [:: (false, 1%N); (false, 0%N)]) z = None.
Proof.
by move=> ez; rewrite /sample_transpose /np_transpose ez /=; split=> //; eexists.
Qed.
(** C133: generic arithmetic of a scalar and a vector, two samples: sample [i] has the entries of different samples
    of the scalar; three samples raise. *)
Theorem C133_axes_refuted f (y c : arr) : shp y = [:: 2%N] -> shp c = [:: 2%N] ->
  exists2 r, sample_op f y (sample_constant c [:: 2%N]) = Some r & shp r = [:: 2%N; 2%N] /\
    forall i j, (i < 2)%N -> (j < 2)%N -> get r [:: i; j] = f (get y [:: j]) (get c [:: j]).
Proof.
move=> ey ec; rewrite /sample_op /sample_constant /np_op ey ec /=; eexists; first by []; split=> //.
by move=> [|[|//]] [|[|//]] _ _; rewrite /M_CovFunc.get /= ey ec.
Qed.
Theorem C133_raises_refuted f (y c : arr) : shp y = [:: 3%N] -> shp c = [:: 2%N] -> sample_op f y (sample_constant c [:: 3%N]) = None.
Proof. by move=> ey ec; rewrite /sample_op /sample_constant /np_op ey ec. Qed.
(** C134: sample sizes and shapes with axes of length one. *)
Theorem C134_size_one_refuted d (z : arr) : d <> 1%N -> shp z = [:: 1%N; d] -> exists2 r, dense_sample [:: d] z = Some r & shp r = [:: d].
Proof.
move=> /eqP d1 ez; rewrite /dense_sample /squeeze /np_reshape ez /= d1 /= eqxx; by eexists.
Qed.
Theorem C134_shape_one_refuted n (z : arr) : n <> 1%N -> shp z = [:: n; 1%N] -> dense_sample [:: 1%N] z = None.
Proof.
move=> /eqP n1 ez; rewrite /dense_sample /squeeze /np_reshape ez /= n1 /= muln1.
by case: eqP => // e; move: n1; rewrite -[n]muln1 -e eqxx.
Qed.
End View.
Print Assumptions C27_getitem.
Print Assumptions C27_reshape.
Print Assumptions C27_transpose.
Print Assumptions C27_constant_getitem.
Print Assumptions C27_constant_reshape.
Print Assumptions C27_constant_transpose.
Print Assumptions C27_sample_reshape.
Print Assumptions C133_sample.
Print Assumptions C128_short_key_refuted.
Print Assumptions C128_not_square_refuted.
Print Assumptions C129_ellipsis_refuted.
Print Assumptions C130_mixed_axes_refuted.
Print Assumptions C131_scalar_refuted.
Print Assumptions C132_getitem_refuted.
Print Assumptions C132_transpose_refuted.
Print Assumptions C133_axes_refuted.
Print Assumptions C133_raises_refuted.
Print Assumptions C134_sample.
Print Assumptions C134_size_one_refuted.
Print Assumptions C134_shape_one_refuted.

(** ** Non-vacuity *)
Section Ex.
Variable Q : rcfType.
Notation get := (get (0 : Q)).
Definition exv : normal Q := Normal (Arr [:: 2%N] [:: 1; 2%:R]) (Arr [:: 2%N; 2%N] [:: 1; 1; 1; 2%:R]) None.
Definition exX : rarr Q 2 := fun b =>
  if b == [:: 0%N] then row_mx (1 : 'M_1) (\row_j (j == 0)%:R) else row_mx ((2%:R)%:M : 'M_1) (const_mx 1).
Example ex_law : law [:: 2%N] exX (Nrm exv).
Proof.
have V a : valid [:: 2%N] a -> a = [:: 0%N] \/ a = [:: 1%N].
  by case: a => [|[|[|i]] [|? ?]] //= _; [left|right].
split=> //.
split=> [a /V [->|->]|a b /V [->|->] /V [->|->]].
- by rewrite /Ex /exX eqxx row_mxKl mxE.
- by rewrite /Ex /exX /= row_mxKl mxE.
all: rewrite /Co /exX /= !row_mxKr mxE !big_ord_recl big_ord0 !mxE /covf /M_CovFunc.get /=;
  by rewrite ?mulr0 ?mul0r ?mulr1 ?mul1r ?add0r ?addr0 // -?mulr2n.
Qed.
(** [x[-1]], [x[[1, 0]]], [x.reshape((1, 2))], and its transpose. *)
Example ex_entry : exists2 x', getitem exv [:: KInt true 1] = Some x' & law [::] (fun=> exX [:: 1%N]) (Nrm x') /\ cov x' = Arr [::] [:: 2%:R].
Proof.
have [x' E l] := C27_getitem ex_law (erefl : sel_shape [:: KInt true 1] [:: 2%N] = Some [::]) isT.
by exists x' => //; split=> //; case: E => <-.
Qed.
Example ex_perm : exists2 x', getitem exv [:: KSl (fun=> [:: 1; 0]%N)] = Some x' & cov x' = Arr [:: 2%N; 2%N] [:: 2%:R; 1; 1; 1] /\ mean x' = Arr [:: 2%N] [:: 2%:R; 1].
Proof. by eexists; first by vm_compute; reflexivity. Qed.
Example ex_reshape : exists2 x', reshape exv [:: 1%N; 2%N] = Some x' &
  exists2 y, transpose x' None = Some y & law [:: 2%N; 1%N] (fun b => exX (unravel [:: 2%N] [:: 1%N; 2%N] (tidx [:: 1; 0]%N 2 b))) (Nrm y).
Proof.
have n : [:: 1%N; 2%N] = [::] -> [:: 2%N] = [::] by [].
have [x' E l] := C27_reshape ex_law (erefl : prodn [:: 1%N; 2%N] = prodn [:: 2%N]) isT n.
exists x' => //; have [y F l'] := C27_transpose l (isT : perm_eq [:: 1; 0]%N (iota 0 2)) (or_intror (conj erefl erefl)).
by exists y.
Qed.
(** Independent entries of variance one: the first row gets a second entry of variance zero, correlated with itself. *)
Definition exI : normal Q := Normal (Arr [:: 2%N; 2%N] [:: 0; 0; 0; 0])
  (Arr [:: 4%N; 4%N] [:: 1; 0; 0; 0;  0; 1; 0; 0;  0; 0; 1; 0;  0; 0; 0; 1]) None.
Example ex_row : exists2 x', getitem exI [:: KInt false 0] = Some x' &
  get (cov x') [:: 1; 1]%N = 0 /\ covf exI [:: 0; 1]%N [:: 0; 1]%N = 1.
Proof.
have [x' E [_ h]] := @C128_short_key_refuted _ exI (And4 isT isT isT erefl) erefl.
by exists x' => //; have [_ ->] := h 1%N 1%N isT isT.
Qed.
(** The two entries on the diagonal are equal, the others constant. *)
Definition exD : normal Q := Normal (Arr [:: 2%N; 2%N] [:: 0; 0; 0; 0])
  (Arr [:: 4%N; 4%N] [:: 1; 0; 0; 1;  0; 0; 0; 0;  0; 0; 0; 0;  1; 0; 0; 1]) None.
Example ex_mixed : exists2 x', transpose exD (Some [:: (false, 1%N); (true, 2%N)]) = Some x' &
  covf x' [:: 0; 0]%N [:: 1; 1]%N = 0 /\ covf exD [:: 0; 0]%N [:: 1; 1]%N = 1.
Proof.
have [x' E [_ h]] := @C130_mixed_axes_refuted _ exD (And4 isT isT isT erefl) erefl.
by exists x' => //; have [_ ->] := h 0%N 0%N 1%N 1%N isT isT isT isT.
Qed.
Example ex_sample : exists z', dense_sample [:: 2%N; 1%N] (Arr [:: 3%N; 2%N] [:: 1; 2%:R; 3%:R; 4%:R; 5%:R; 6%:R] : arr Q) = Some z' /\ shp z' = [:: 3; 2; 1]%N.
Proof. by eexists. Qed.
Example ex_op : exists r, sample_op +%R (Arr [:: 3%N; 2%N] [:: 1; 2%:R; 3%:R; 4%:R; 5%:R; 6%:R] : arr Q) (Arr [:: 3%N; 1%N] [:: 1; 2%:R; 3%:R]) = Some r /\ shp r = [:: 3; 2]%N.
Proof. by eexists. Qed.
End Ex.
