(** Cholesky factors of linear operators. *)
From mathcomp Require Import all_ssreflect all_algebra.
From Verif Require Import L_Kalman L_Sqrt L_Chol M_DMx L_DMx M_LinOps M_LinOps2 L_LinOps L_LinOps2 L_LinOps3
  L_LinOps4 L_LinOps5 L_LinOps6 L_LinOps9 L_LinOps10 L_LinOps11 L_LinOps12.
Set Implicit Arguments.
Unset Strict Implicit.
Unset Printing Implicit Defensive.
Import Order.Theory GRing.Theory Num.Theory.
Local Open Scope ring_scope.

Section Ops.
Variable R : rcfType.
Local Notation dmx := (dmx R).
Local Notation op := (op R).
Variable trk : bool.
Local Notation ok := (@L_LinOps2.ok R trk).
Implicit Types (o a b : op) (l : seq op).

(** [L] is the lower Cholesky factor of the matrix [D]: square, lower triangular, with a
    positive diagonal, and [L L^T = D]. *)
Definition cfact (D L : dmx) : Prop :=
  [/\ dsq L, dlow L, forall i, (i < drow L)%N -> 0 < get L i i & dmul L (dtr L) = D].
(** The factor as the caller asked for it. *)
Definition cfactor (lower : bool) (D L : dmx) : Prop := cfact D (if lower then L else dtr L).

Lemma cfact_sq (D L : dmx) : cfact D L -> dsq D.
Proof. by case=> _ _ _ <-; rewrite /dsq /= eqxx. Qed.
Lemma cfact_rows (D L : dmx) : cfact D L -> drow D = drow L.
Proof. by case=> _ _ _ <-. Qed.
Lemma cfact_diag (d : seq R) : all (fun x : R => 0 < x) d ->
  cfact (ddiag d) (ddiag (map Num.sqrt d)).
Proof.
move=> d0; split; rewrite ?dlow_diag ?/dsq ?eqxx //=.
  by move=> i im; rewrite get_mk // eqxx; rewrite size_map in im; rewrite (nth_map 0) // sqrtr_gt0 (all_nthP 0 d0).
rewrite dtr_diag; apply: dmx_ext; rewrite /= ?size_map // => i j im jn.
have im' : (i < size (map Num.sqrt d))%N by rewrite size_map.
have jn' : (j < size (map Num.sqrt d))%N by rewrite size_map.
rewrite [LHS]get_mk // [RHS]get_mk // (bigD1 (Ordinal im')) //= big1 => [|k ki].
  rewrite addr0 !get_mk ?size_map // eqxx; case: (i =P j) => [ij|_]; last by rewrite mulr0.
  by rewrite (nth_map 0) // -expr2 sqr_sqrtr // ltW // (all_nthP 0 d0).
rewrite get_mk ?size_map // (_ : (i == k :> nat) = false) ?mul0r //.
by apply: contraNF ki => /eqP ki; apply/eqP/val_inj.
Qed.
Lemma dlow_kron (A B : dmx) : dsq B -> dlow A -> dlow B -> dlow (dkron A B).
Proof.
move/eqP=> q /dlowP HA /dlowP HB; apply/dlowP=> i j /= im jn ij.
have B0 : (0 < drow B)%N by case: (drow B) im; rewrite ?muln0.
have [i1 i2] : (i %/ drow B < drow A)%N /\ (i %% drow B < drow B)%N by rewrite ltn_divLR // ltn_mod.
have [j1 j2] : (j %/ dcol B < dcol A)%N /\ (j %% dcol B < dcol B)%N 
  by have C0 : (0 < dcol B)%N; [rewrite -q|rewrite ltn_divLR // ltn_mod].
rewrite get_kronE //; case: (ltngtP (i %/ drow B) (j %/ dcol B)) => h.
- by rewrite HA // mul0r.
- by have := leq_div2r (drow B) (ltnW ij); rewrite {2}q leqNgt h.
rewrite [get B _ _]HB ?mulr0 //.
by move: ij; rewrite {1}(divn_eq i (drow B)) {1}(divn_eq j (dcol B)) h -q ltn_add2l.
Qed.
Lemma cfact_kron (A B L M : dmx) : cfact A L -> cfact B M -> cfact (dkron A B) (dkron L M).
Proof.
case=> qL lL pL <- [qM lM pM <-]; split.
- by rewrite /dsq /= (eqP qL) (eqP qM).
- exact: dlow_kron.
- move=> i /= im; have M0 : (0 < drow M)%N by case: (drow M) im; rewrite ?muln0.
  rewrite get_kronE //; last by rewrite -(eqP qL) -(eqP qM).
  by rewrite -(eqP qM) mulr_gt0 // ?pL ?pM ?ltn_mod // ltn_divLR.
- by rewrite dkron_tr dkronM.
Qed.
Lemma cfact_id n : cfact (did R n) (did R n).
Proof.
split; [by rewrite /dsq /= eqxx|exact: dlow_id| |by rewrite dtr1 dmul1l].
by move=> i im; rewrite get_id // eqxx ltr01.
Qed.
Lemma cfact_block2 (A B L M : dmx) : cfact A L -> cfact B M -> cfact (dblock2 A B) (dblock2 L M).
Proof.
case=> qL lL pL <- [qM lM pM <-]; split.
- by rewrite /dsq /= (eqP qL) (eqP qM).
- exact: dlow_block2.
- move=> i /= im; rewrite get_block2 // -?(eqP qL) -?(eqP qM) //; case: (ltnP i (drow L)) => h /=.
    exact: pL.
  by apply: pM; rewrite ltn_subLR.
- by rewrite dblock2_tr dblock2_mul.
Qed.
Lemma cfact0 : cfact (dblock [::]) (dblock [::] : dmx).
Proof. split; [by []|exact: dlow0|by []|by apply: dmx_ext]. Qed.
Lemma chol_psd n (M : 'M[R]_n) : chol_of M *m (chol_of M)^T = M -> psd M.
Proof. by move=> <-; exact: psd_gram. Qed.
Lemma pdtestP (D : dmx) : dsq D -> pdtest D -> cfact D (dchol D).
Proof.
move=> q /andP[/forallP p /eqP e]; have [lt _ _] := chol_ofP (chol_psd e).
split; first by rewrite /dsq /= eqxx.
- by apply/dlowP=> i j /= im jn ij; rewrite (get_val _ (Ordinal im) (Ordinal jn)); exact: lt.
- by move=> i /= im; rewrite (get_val _ (Ordinal im) (Ordinal im)); exact: (p (Ordinal im)).
- apply: dmx_ext => //=; first exact/eqP.
  move=> i j im jn; rewrite get_mk //=.
  transitivity (sq (drow D) D (Ordinal im) (Ordinal jn)); last by rewrite mxE.
  rewrite -e mxE; apply: eq_bigr => k _; rewrite get_mk //.
  by rewrite (get_val _ (Ordinal im) k) (get_val _ (Ordinal jn) k) mxE.
Qed.
Lemma markP lower (t : option op) (L : op) : mark lower t = Some L ->
  exists t', [/\ t = Some t', dense L = dense t' &
    (if lower then f_low (flags_of L) else f_upp (flags_of L)) = Some true].
Proof.
case: t => [t|] //=; case: lower; rewrite /set_prop.
  case: eqP => [e [<-]|_]; first by exists t; rewrite dense_with flags_with.
  by case: (f_low _) => //= -[<-]; exists t; rewrite dense_with flags_with.
case: eqP => [e [<-]|_]; first by exists t; rewrite dense_with flags_with.
by case: (f_upp _) => //= -[<-]; exists t; rewrite dense_with flags_with.
Qed.
Lemma dense_cholP lower (D : dmx) (L : op) : dsq D -> dense_chol lower D = Some L -> cfactor lower D (dense L).
Proof.
move=> q; rewrite /dense_chol; case: ifP => // p [<-] /=; rewrite /cfactor.
by case: lower; rewrite ?dtrK; exact: pdtestP.
Qed.
Lemma cfactor_kron lower (A B L M : dmx) : cfactor lower A L -> cfactor lower B M ->
  cfactor lower (dkron A B) (dkron L M).
Proof. by rewrite /cfactor; case: lower; rewrite ?dkron_tr; exact: cfact_kron. Qed.
Lemma chol_list lower l (s : seq op) : eachP (fun a => forall L, cholesky lower a = Some L -> cfactor lower (dense a) (dense L)) l ->
  sequence (map (cholesky lower) l) = Some s ->
  cfactor lower (dblock (map (@dense R) l)) (dblock (map (@dense R) s)).
Proof.
rewrite /cfactor dblock_tr => H; elim: H s => [|a l' Ha _ IH] s /=.
  by move=> [<-]; case: lower; exact: cfact0.
case e: (cholesky lower a) => [x|] //; case: (sequence _) IH => [t|] // IH [<-] /=.
have := IH _ erefl; have := Ha _ e; rewrite /cfactor.
by case: (lower) => *; exact: cfact_block2.
Qed.
Local Arguments mark : simpl never.
Lemma cholesky_ok lower k o L : ok k o -> cholesky lower o = Some L ->
  cfactor lower (dense o) (dense L) /\
  (if lower then f_low (flags_of L) else f_upp (flags_of L)) = Some true.
Proof.
move=> oo H; suff HH : forall k o L, ok k o -> cholesky lower o = Some L -> cfactor lower (dense o) (dense L).
  split; first exact: (HH _ _ _ oo H).
  move: H {oo HH}; case: o => [f A|f A|f n|f n c|f d|f m n|f n i|f m t q v|f a b|f n b|f a b i|f n|f a
    |f a|f c a|f a|f l|f l|f l]; rewrite [cholesky _ _]/=; case: ifP => // _; case: ifP => // _;
    by move/markP=> [t' []].
move=> {k o L oo H} k o L.
have D k' o' L' : ok k' o' -> f_sym (flags_of o') == Some true ->
  dense_chol lower (dense o') = Some L' -> cfactor lower (dense o') (dense L').
  move=> oo ss; apply: dense_cholP.
  by rewrite (dsq_dense oo) (sym_square oo).
elim/op_rect': o k L => /=.
- move=> f A k L oo; case: ifP => // /negbFE ss; case: ifP => // _ /markP[t' [e -> _]]; exact: (D _ _ _ oo ss e).
- move=> f A k L oo; case: ifP => // /negbFE ss; case: ifP => // _ /markP[t' [e -> _]]; exact: (D _ _ _ oo ss e).
- move=> f n k L oo; case: ifP => // /negbFE ss; case: ifP => // _ /markP[t' [[<-] -> _]] /=.
  by rewrite /cfactor dtr1 if_same; exact: cfact_id.
- move=> f n c k L oo; case: ifP => // /negbFE ss; case: ifP => // _ /markP[t' [+ -> _]] /=.
  case: ifP => // /negbT; rewrite -ltNge => c0 [<-] /=.
  rewrite /cfactor !ScC_diag -!ddiag_nseq dtr_diag if_same -map_nseq; apply: cfact_diag.
  by rewrite all_nseq c0 orbT.
- move=> f d k L oo; case: ifP => // /negbFE ss; case: ifP => // _ /markP[t' [+ -> _]] /=.
  case: ifP => // /negbT; rewrite -all_predC => d0 [<-] /=.
  rewrite /cfactor dtr_diag if_same; apply: cfact_diag.
  by apply: sub_all d0 => x /=; rewrite -ltNge.
- move=> f m n k L oo; case: ifP => // /negbFE ss; case: ifP => // _ /markP[t' [e -> _]]; exact: (D _ _ _ oo ss e).
- move=> f n i k L oo; case: ifP => // /negbFE ss; case: ifP => // _ /markP[t' [e -> _]]; exact: (D _ _ _ oo ss e).
- move=> f m t q v k L oo; case: ifP => // /negbFE ss; case: ifP => // _ /markP[t' [e -> _]]; exact: (D _ _ _ oo ss e).
- move=> f a b IHa IHb k L oo; case: ifP => // /negbFE ss; case: ifP => // _ /markP[t' [+ -> _]] /=.
  have [oa ob] := ok_kro oo; case: ifP => // _; case ea: (cholesky lower a) => [x|] //=.
  case eb: (cholesky lower b) => [y|] //= [<-] /=.
  by apply: cfactor_kron; [exact: (IHa _ _ oa ea)|exact: (IHb _ _ ob eb)].
- move=> f n b IHb k L oo; case: ifP => // /negbFE ss; case: ifP => // _ /markP[t' [+ -> _]] /=.
  have [n0 ob] := ok_idk oo; case eb: (cholesky lower b) => [y|] //= [<-] /=.
  apply: cfactor_kron; last exact: (IHb _ _ ob eb).
  by rewrite /cfactor dtr1 if_same; exact: cfact_id.
- move=> f a b i IHa IHb k L oo; case: ifP => // /negbFE ss; case: ifP => // _ /markP[t' [+ -> _]].
  have [oa ob qa sab iab] := ok_syk oo; case: i iab oo => [/(_ isT) [ed _]|_] oo; last by move=> e; exact: (D _ _ _ oo ss e).
  by case ea: (cholesky lower a) => [x|] //= [<-] /=; apply: cfactor_kron; exact: (IHa _ _ oa ea).
- move=> f n k L oo; case: ifP => // /negbFE ss; case: ifP => // _ /markP[t' [e -> _]]; exact: (D _ _ _ oo ss e).
- by move=> f a IH k L oo; case: ifP => // _; case: ifP => // _.
- move=> f a IH k L oo; case: ifP => // /negbFE ss; case: ifP => // _ /markP[t' [e -> _]]; exact: (D _ _ _ oo ss e).
- move=> f c a IH k L oo; case: ifP => // /negbFE ss; case: ifP => // _ /markP[t' [e -> _]]; exact: (D _ _ _ oo ss e).
- move=> f a IH k L oo; case: ifP => // /negbFE ss; case: ifP => // _ /markP[t' [e -> _]]; exact: (D _ _ _ oo ss e).
- move=> f l IH k L oo; case: ifP => // /negbFE ss; case: ifP => // _ /markP[t' [e -> _]]; exact: (D _ _ _ oo ss e).
- move=> f l IH k L oo; case: ifP => // /negbFE ss; case: ifP => // _ /markP[t' [e -> _]]; exact: (D _ _ _ oo ss e).
- move=> f l IH k L oo; case: ifP => // /negbFE ss; case: ifP => // _ /markP[t' [+ -> _]].
  have [l0 ol] := ok_list_blk oo; case: ifP => ql; last by move=> e; exact: (D _ _ _ oo ss e).
  case es: (sequence _) => [s|] //= [<-] /=; apply: (chol_list _ es).
  by apply: (each_mp _ ol); apply: each_impl IH _ => a Ha oa L'; exact: Ha oa.
Qed.
End Ops.
