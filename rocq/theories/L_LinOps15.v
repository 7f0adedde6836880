(** When the Cholesky factorisation of a linear operator succeeds. *)
From mathcomp Require Import all_ssreflect all_algebra.
From Verif Require Import L_Kalman L_Sqrt L_Chol M_DMx L_DMx M_LinOps M_LinOps2 L_LinOps L_LinOps2 L_LinOps3
  L_LinOps4 L_LinOps5 L_LinOps6 L_LinOps9 L_LinOps10 L_LinOps11 L_LinOps12 L_LinOps13.
Set Implicit Arguments.
Unset Strict Implicit.
Unset Printing Implicit Defensive.
Import Order.Theory GRing.Theory Num.Theory.
Local Open Scope ring_scope.

Section Ops.
Variable R : rcfType.
Local Notation dmx := (dmx R).
Local Notation op := (op R).
Implicit Types (o a b : op) (l : seq op).

(** Flagged as symmetric and not flagged as not positive definite. *)
Definition askable o : bool :=
  (f_sym (flags_of o) == Some true) && (f_pd (flags_of o) != Some false).
(** Positive definite and askable, together with all factors and blocks, and not a
    [TransposedLinearOperator]. *)
Fixpoint ready o : bool :=
  [&& askable o, dpd (dense o) &
    match o with
    | Kro _ a b => ready a && ready b
    | IdK _ _ b => ready b
    | SyK _ a _ i => i ==> ready a
    | Blk _ l => all (@is_square R) l ==> all ready l
    | Tra _ _ => false
    | _ => true
    end].

Lemma ready_ask o : ready o -> askable o && dpd (dense o).
Proof.
by case: o => [f A|f A|f n|f n c|f d|f m n|f n i|f m t q v|f a b|f n b|f a b i|f n|f a
    |f a|f c a|f a|f l|f l|f l] /and3P[-> ->].
Qed.
Lemma chol_unit n (M L : 'M[R]_n) : pd M -> is_cholesky L M -> forall i, 0 < L i i.
Proof.
move=> pM [lt nn e] i; rewrite lt_def nn andbT.
have : \det L != 0.
  have := pd_unit pM; rewrite -e unitmxE det_mulmx det_tr unitrM andbb.
  by rewrite unitfE.
have tr : is_trig_mx L by apply/is_trig_mxP=> j k jk; exact: lt.
rewrite det_trig // => /prodf_neq0 H; exact: H.
Qed.
Lemma pdtest_pd (D : dmx) : dpd D -> pdtest D.
Proof.
case/andP=> _ /pdbP p; have C := chol_ofP (pd_psd p); apply/andP; split; last by case: C => _ _ /eqP.
by apply/forallP=> i; exact: chol_unit C i.
Qed.
Lemma mark_some lower (t : op) : (if lower then f_low (flags_of t) else f_upp (flags_of t)) != Some false ->
  mark lower (Some (t : op)) <> None.
Proof. by rewrite /mark /set_prop; case: lower; case: (_ (flags_of t)) => [[]|]. Qed.
Lemma mark_flag lower (t : option op) (L : op) : mark lower t = Some L ->
  (if lower then f_low (flags_of L) else f_upp (flags_of L)) = Some true.
Proof. by case/markP=> ? []. Qed.
Local Arguments mark : simpl never.
Lemma cholesky_flag lower o L : cholesky lower o = Some L ->
  (if lower then f_low (flags_of L) else f_upp (flags_of L)) = Some true.
Proof.
case: o => [f A|f A|f n|f n c|f d|f m n|f n i|f m t q v|f a b|f n b|f a b i|f n|f a
    |f a|f c a|f a|f l|f l|f l]; rewrite [cholesky _ _]/=; case: ifP => // _; case: ifP => // _;
  exact: mark_flag.
Qed.
Variable trk : bool.
Local Notation ok := (@L_LinOps2.ok R trk).
Lemma chol_all lower k l :
  eachP (fun o => forall k, ok k o -> ready o -> cholesky lower o <> None) l -> all (ok k) l -> all ready l ->
  exists s, sequence (map (cholesky lower) l) = Some s /\
    all_flag (if lower then f_low else f_upp) s.
Proof.
elim=> [|a l' Ha _ IH] /=; first by exists [::].
case/andP=> oa ol /andP[ra rl]; have [s [-> fs]] := IH ol rl.
case e: (cholesky lower a) (Ha _ oa ra) => [L|] // _.
exists (L :: s); split=> //=.
by move: fs; have := cholesky_flag e; rewrite /all_flag /=; case: (lower) => -> ->.
Qed.
Lemma dpd_diag (d : seq R) : dpd (ddiag d) -> all (fun x : R => 0 < x) d.
Proof.
case/andP=> _ /pdbP [_ p]; apply/(all_nthP 0) => i im.
have nz : delta_mx (Ordinal im) 0 != 0 :> 'cV[R]_(size d).
  by apply/eqP=> /matrixP/(_ (Ordinal im) 0); rewrite !mxE !eqxx; apply/eqP/oner_neq0.
have := p _ nz; rewrite /qform trmx_delta -mulmxA -colE -rowE !mxE.
by rewrite get_mk //= eqxx.
Qed.
Lemma cholesky_ready lower k o : ok k o -> ready o -> cholesky lower o <> None.
Proof.
have D o' : dpd (dense o') -> mark lower (dense_chol lower (dense o')) <> None.
  move=> p; rewrite /dense_chol pdtest_pd //; apply: mark_some; rewrite /= /base_flags /=.
  by case: lower.
have S (o' : op) : ready o' -> f_sym (flags_of o') = Some true /\ (f_pd (flags_of o') == Some false) = false.
  by move=> /ready_ask/andP[/andP[/eqP -> /negbTE ->]].
have P o' : ready o' -> dpd (dense o') by case/ready_ask/andP.
elim/op_rect': o k.
- by move=> f A k _ r; have [s0 p0] := S _ r; rewrite [cholesky _ _]/= s0 p0 /=; exact: D (P _ r).
- by move=> f A k _ r; have [s0 p0] := S _ r; rewrite [cholesky _ _]/= s0 p0 /=; exact: D (P _ r).
- move=> f n k oo r; have [s0 p0] := S _ r; rewrite [cholesky _ _]/= s0 p0 /=; apply: mark_some => /=.
  have /and4P[/and4P[_ l u _] _ _ _] := ok_cons oo.
  by move: l u; rewrite /fle /= => /eqP <- /eqP <-; case: (lower).
- move=> f n c k oo r; have [s0 p0] := S _ r; rewrite [cholesky _ _]/= s0 p0 /=.
  have := P _ r; rewrite /= ScC_diag -ddiag_nseq => /dpd_diag; rewrite all_nseq -leqn0 leqNgt.
  have -> /= : (0 < n)%N by exact: (ok_wf oo).
  by move=> c0; rewrite leNgt c0; apply: mark_some; case: (lower).
- move=> f d k oo r; have [s0 p0] := S _ r; rewrite [cholesky _ _]/= s0 p0 /=.
  have /dpd_diag pp := P _ r; rewrite -[has _ d]negbK -all_predC.
  have -> : all [predC (fun x : R => x <= 0)] d by apply: sub_all pp => x /=; rewrite -ltNge.
  by apply: mark_some; case: (lower).
- by move=> f m n k _ r; have [s0 p0] := S _ r; rewrite [cholesky _ _]/= s0 p0 /=; exact: D (P _ r).
- by move=> f n i k _ r; have [s0 p0] := S _ r; rewrite [cholesky _ _]/= s0 p0 /=; exact: D (P _ r).
- by move=> f m t q v k _ r; have [s0 p0] := S _ r; rewrite [cholesky _ _]/= s0 p0 /=; exact: D (P _ r).
- move=> f a b IHa IHb k oo r; have [s0 p0] := S _ r; rewrite [cholesky _ _]/= s0 p0 /=; have [oa ob] := ok_kro oo.
  case/and3P: r => _ _ /andP[ra rb].
  have sy : forall x : op, ready x -> f_sym (flags_of x) == Some true.
    by move=> x /ready_ask/andP[/andP[]].
  rewrite !sy //=; case ea: (cholesky lower a) (IHa _ oa ra) => [x|] // _.
  case eb: (cholesky lower b) (IHb _ ob rb) => [y|] // _ /=.
  apply: mark_some; rewrite /kro /= /both_sym /base_flags.
  by case: ifP => _; case: (lower) => /=; case: ifP.
- move=> f n b IHb k oo r; have [s0 p0] := S _ r; rewrite [cholesky _ _]/= s0 p0 /=; have [_ ob] := ok_idk oo.
  case/and3P: r => _ _ rb; case eb: (cholesky lower b) (IHb _ ob rb) => [y|] // _ /=.
  by apply: mark_some; rewrite /idk /= /both_sym /base_flags; case: ifP => _; case: (lower) => /=; case: ifP.
- move=> f a b i IHa _ k oo r; have [s0 p0] := S _ r; rewrite [cholesky _ _]/= s0 p0 /=; have [oa _ _ _ _] := ok_syk oo.
  case: i r oo s0 p0 => [/and3P[_ _ /= ra]|r] oo _ _; last exact: D (P _ r).
  case ea: (cholesky lower a) (IHa _ oa ra) => [y|] // _ /=.
  by apply: mark_some; rewrite /syk /= /both_sym; case: ifP => _; case: (lower) => /=; case: ifP.
- by move=> f n k _ r; have [s0 p0] := S _ r; rewrite [cholesky _ _]/= s0 p0 /=; exact: D (P _ r).
- by move=> f a _ k _ /and3P[_ _].
- by move=> f a _ k _ r; have [s0 p0] := S _ r; rewrite [cholesky _ _]/= s0 p0 /=; exact: D (P _ r).
- by move=> f c a _ k _ r; have [s0 p0] := S _ r; rewrite [cholesky _ _]/= s0 p0 /=; exact: D (P _ r).
- by move=> f a _ k _ r; have [s0 p0] := S _ r; rewrite [cholesky _ _]/= s0 p0 /=; exact: D (P _ r).
- by move=> f l _ k _ r; have [s0 p0] := S _ r; rewrite [cholesky _ _]/= s0 p0 /=; exact: D (P _ r).
- by move=> f l _ k _ r; have [s0 p0] := S _ r; rewrite [cholesky _ _]/= s0 p0 /=; exact: D (P _ r).
- move=> f l IH k oo r; have [s0 p0] := S _ r; rewrite [cholesky _ _]/= s0 p0 /=; case: ifP => q; last exact: D (P _ r).
  have [_ ol] := ok_list_blk oo; case/and3P: r => _ _ /= /implyP/(_ q) rl.
  have [s [-> fs]] := chol_all IH ol rl; apply: mark_some; rewrite /blk /=.
  by move: fs; case: (lower) => fs; rewrite /infer fs.
Qed.
End Ops.
