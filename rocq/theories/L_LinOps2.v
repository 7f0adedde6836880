(** Linear operators: consistent flags, sums and products of lists. *)
From mathcomp Require Import all_ssreflect all_algebra.
From Verif Require Import L_Kalman L_Chol M_DMx L_DMx M_LinOps L_LinOps.
Set Implicit Arguments.
Unset Strict Implicit.
Unset Printing Implicit Defensive.
Import Order.Theory GRing.Theory Num.Theory.
Local Open Scope ring_scope.

Section Ops.
Variable R : rcfType.
Local Notation dmx := (dmx R).
Local Notation op := (op R).
Implicit Types (o a b : op) (l : seq op).

(** ** Consistent flags *)
Definition fle (x y : option bool) : bool := (x == None) || (x == y).
Definition flef (f g : flags) : bool :=
  [&& fle (f_sym f) (f_sym g), fle (f_low f) (f_low g), fle (f_upp f) (f_upp g)
    & fle (f_pd f) (f_pd g)].
Definition swap (f : flags) : flags := Flags (f_sym f) (f_upp f) (f_low f) (f_pd f).
(** The flags that the constructor (for transposes: the property [T]) sets. *)
Definition ctor (o : op) : flags :=
  match o with
  | Mat _ A => flags_of (mat A) | Lam _ A => flags_of (lam A)
  | Idn _ n => flags_of (idn R n) | ScC _ n c => flags_of (scC n c)
  | ScV _ d => flags_of (scV d) | Zer _ m n => flags_of (zer R m n)
  | Sel _ n i => flags_of (sel R n i) | Emb _ m t p v => flags_of (emb m t p v)
  | Kro _ a b => flags_of (kro a b) | IdK _ n b => flags_of (idk n b)
  | SyK _ a b i => flags_of (syk a b i) | Syz _ n => flags_of (syz R n)
  | Tra _ a => swap (flags_of a) | Inv _ a => flags_of (inv_ a)
  | Sca _ c a => flags_of (sca c a) | Neg _ a => flags_of (neg_ a)
  | Sum _ l => sum_flags l
  | Prd _ l => base_flags (shape o).1 (shape o).2
  | Blk _ l => flags_of (blk l)
  end.
(** Triangularity and positive definiteness as tests. *)
Definition dlow (D : dmx) : bool :=
  [forall i : 'I_(drow D), forall j : 'I_(dcol D), (i < j)%N ==> (get D i j == 0)].
Definition dupp (D : dmx) : bool := dlow (dtr D).
Definition pdb n (M : 'M[R]_n) : bool :=
  [&& M^T == M, chol_of M *m (chol_of M)^T == M & M \in unitmx].
Definition dpd (D : dmx) : bool := (drow D == dcol D) && pdb (sq (drow D) D).
Definition tflags (f : flags) (D : dmx) : bool :=
  [&& (f_low f == Some true) ==> dlow D, (f_upp f == Some true) ==> dupp D
    & (f_pd f == Some true) ==> dpd D].
Lemma dlowP (D : dmx) : reflect
  (forall i j, (i < drow D)%N -> (j < dcol D)%N -> (i < j)%N -> get D i j = 0) (dlow D).
Proof.
apply: (iffP forallP) => [H i j im jn ij|H i].
  by have /forallP /(_ (Ordinal jn)) /implyP /(_ ij) /eqP := H (Ordinal im).
by apply/forallP=> j; apply/implyP=> ij; apply/eqP; apply: H.
Qed.
Lemma duppP (D : dmx) : reflect
  (forall i j, (i < drow D)%N -> (j < dcol D)%N -> (j < i)%N -> get D i j = 0) (dupp D).
Proof.
apply: (iffP (dlowP _)) => H i j im jn ij; have := H j i jn im ij; by rewrite get_mk.
Qed.
Lemma pdbP n (M : 'M[R]_n) : reflect (pd M) (pdb M).
Proof.
apply: (iffP and3P) => [[/eqP s /eqP c u]|pM]; last first.
  have [s _] := pM; have [_ _ c] := chol_ofP (pd_psd pM).
  by rewrite c (pd_unit pM) s.
have qE x : qform M x = (((chol_of M)^T *m x)^T *m ((chol_of M)^T *m x)) 0 0.
  by rewrite /qform -{1}c trmx_mul trmxK !mulmxA.
split=> // x nx; rewrite qE lt_neqAle eq_sym dot_ge0 andbT; apply: contra nx => /eqP /dot_eq0 y0.
by rewrite -[x]mul1mx -(mulVmx u) -mulmxA -{2}c -mulmxA y0 !mulmx0.
Qed.
Definition is_blk o := if o is Blk _ _ then true else false.
Definition sym_true o := f_sym (flags_of o) == Some true.
(** The flags of an operator extend the flags set by its constructor (flags can only be
    added later); positive definite operators are known to be symmetric; operators known
    to be symmetric have equal triangularity flags; non-square operators other than block
    diagonal ones have no positive-definiteness flag; and operators known to be symmetric
    are symmetric. *)
Definition consistent o : bool :=
  let f := flags_of o in
  [&& flef (ctor o) f, (f_pd f == Some true) ==> sym_true o,
      sym_true o ==> (f_low f == f_upp f)
    & (~~ is_square o && ~~ is_blk o) ==> (f_pd f == None)].
(** The blocks of a block diagonal operator are square. *)
Definition sqblk o : bool := if o is Blk _ l then all (@is_square R) l else true.
(** With [trk] the triangularity and definiteness flags are tracked too (this needs square
    blocks: see the refutation for rectangular ones in P_LinOps.v). *)
Variable trk : bool.
Definition node_ok o : bool :=
  consistent o && (sym_true o ==> deq (dtr (dense o)) (dense o))
  && (trk ==> (sqblk o && tflags (flags_of o) (dense o))).
Fixpoint deep (p : pred op) o : bool :=
  p o && match o with
  | Kro _ a b | SyK _ a b _ => deep p a && deep p b
  | IdK _ _ a | Tra _ a | Inv _ a | Sca _ _ a | Neg _ a => deep p a
  | Sum _ l | Prd _ l | Blk _ l => all (deep p) l
  | _ => true
  end.
Definition ok (k : bool) o : bool := wf k o && deep node_ok o.
Lemma deep_node p o : deep p o -> p o.
Proof. by case: o => [f A|f A|f n|f n c|f d|f m n|f n i|f m t q v|f a b|f n b|f a b i|f n|f a
  |f a|f c a|f a|f l|f l|f l] /andP[]. Qed.
Lemma ok_wf k o : ok k o -> wf k o. Proof. by case/andP. Qed.
Lemma ok_node k o : ok k o -> node_ok o. Proof. by case/andP=> _ /deep_node. Qed.
Lemma ok_weak k o : ok true o -> ok k o.
Proof. by case/andP=> /wf_weak w d; rewrite /ok w. Qed.
Lemma ok_cons k o : ok k o -> consistent o. Proof. by move/ok_node/andP=> [/andP[]]. Qed.
Lemma ok_tflags k o : ok k o -> trk -> tflags (flags_of o) (dense o).
Proof. by move/ok_node/andP=> [_ /implyP H] /H /andP[]. Qed.
Lemma ok_sqblk k o : ok k o -> trk -> sqblk o.
Proof. by move/ok_node/andP=> [_ /implyP H] /H /andP[]. Qed.
Lemma ok_sym k o : ok k o -> sym_true o -> dtr (dense o) = dense o.
Proof. by move/ok_node/andP=> [/andP[_ /implyP H] _] /H /deqP. Qed.
Lemma sym_square k o : ok k o -> sym_true o -> is_square o.
Proof.
move=> oko so; have [e _] : dshape (dtr (dense o)) = dshape (dense o) by rewrite (ok_sym oko so).
by rewrite /is_square -(drow_dense (ok_wf oko)) -(dcol_dense (ok_wf oko)) -e.
Qed.

Lemma fle_refl x : fle x x. Proof. by rewrite /fle eqxx orbT. Qed.
Lemma fle_trans y x z : fle x y -> fle y z -> fle x z.
Proof. by case/orP=> [/eqP ->|/eqP ->]. Qed.
Lemma flef_refl f : flef f f. Proof. by rewrite /flef !fle_refl. Qed.
Lemma flef_trans g f h : flef f g -> flef g h -> flef f h.
Proof.
by case/and4P=> a1 a2 a3 a4 /and4P[b1 b2 b3 b4]; apply/and4P; split; apply: fle_trans; eassumption.
Qed.
Lemma flef_swap f g : flef f g -> flef (swap f) (swap g).
Proof. by case/and4P=> a1 a2 a3 a4; apply/and4P. Qed.
Lemma swapK f : swap (swap f) = f. Proof. by case: f. Qed.
Lemma fle_true x : fle (Some true) x -> x = Some true.
Proof. by case/orP=> // /eqP <-. Qed.

(** ** Lists of matrices *)
Lemma get_reduce_add (s : seq dmx) m n i j : (0 < size s)%N ->
  all (fun e => dshape e == (m, n)) s -> (i < m)%N -> (j < n)%N ->
  get (reduce (dzero R 0 0) (@dadd R) s) i j = \sum_(e <- s) get e i j.
Proof.
case: s => //= d s _ /andP[/eqP [ed1 ed2] H] im jn; rewrite big_cons.
elim: s d ed1 ed2 H => /= [|e s IH] d ed1 ed2; first by rewrite big_nil addr0.
case/andP=> /eqP [e1 e2] H; rewrite IH //= get_mk ?ed1 ?ed2 // big_cons addrA.
by [].
Qed.
Lemma reduce_add_shape (s : seq dmx) m n : (0 < size s)%N ->
  all (fun e => dshape e == (m, n)) s ->
  dshape (reduce (dzero R 0 0) (@dadd R) s) = (m, n).
Proof. by case: s => //= d s _ /andP[/eqP e _]; rewrite foldl_add_shape. Qed.
Lemma reduce_add_ext (s s' : seq dmx) m n : (0 < size s)%N -> (0 < size s')%N ->
  all (fun e => dshape e == (m, n)) s -> all (fun e => dshape e == (m, n)) s' ->
  (forall i j, (i < m)%N -> (j < n)%N ->
     \sum_(e <- s) get e i j = \sum_(e <- s') get e i j) ->
  reduce (dzero R 0 0) (@dadd R) s = reduce (dzero R 0 0) (@dadd R) s'.
Proof.
move=> s0 s0' H H' E; have := reduce_add_shape s0 H; have := reduce_add_shape s0' H'.
case=> r1 c1 [r2 c2]; apply: dmx_ext; rewrite ?r1 ?c1 // => i j im jn.
rewrite r2 in im; rewrite c2 in jn.
by rewrite (get_reduce_add s0 H) // (get_reduce_add s0' H') // E.
Qed.

Definition linked (d e : dmx) : bool := dcol d == drow e.
Lemma foldl_mul_assoc (d e : dmx) s : linked d e -> path linked e s ->
  foldl (@dmul R) (dmul d e) s = dmul d (foldl (@dmul R) e s).
Proof.
elim: s d e => //= f s IH d e /eqP de /andP[/eqP ef pf].
rewrite -dmulA // IH //; first by rewrite /linked /= de.
by case: s pf {IH} => //= g s /andP[].
Qed.
Definition rmul (s : seq dmx) := reduce (dzero R 0 0) (@dmul R) s.
Arguments rmul : simpl never.
Lemma rmul_cons (d : dmx) s : (0 < size s)%N -> path linked d s -> rmul (d :: s) = dmul d (rmul s).
Proof. by case: s => //= e s _ /andP[de pe]; rewrite /rmul /= foldl_mul_assoc. Qed.
Lemma rmul_shape (d : dmx) s : dshape (rmul (d :: s)) = (drow d, dcol (last d s)).
Proof. by rewrite /rmul /= foldl_mul_shape last_map. Qed.
Lemma rmul_cat (s s' : seq dmx) : (0 < size s)%N -> (0 < size s')%N -> sorted linked (s ++ s') ->
  rmul (s ++ s') = dmul (rmul s) (rmul s').
Proof.
case: s => //= d s _; elim: s d => [|e s IH] d s0 /=; first by move=> p; rewrite rmul_cons.
case/andP=> de p; rewrite rmul_cons ?size_cat //=; last by rewrite de.
rewrite IH // [in RHS]rmul_cons //=; last by rewrite de; move: p; rewrite cat_path => /andP[].
rewrite dmulA //; first by rewrite (eqP de); have [-> _] := rmul_shape e s.
case: s' s0 p {IH} => //= f s' _; rewrite cat_path => /andP[_ /= /andP[/eqP ef _]].
by have [_ ->] := rmul_shape e s; rewrite ef; have [-> _] := rmul_shape f s'.
Qed.
Lemma rmul_flatten (ss : seq (seq dmx)) : (0 < size ss)%N -> all (fun s => 0 < size s)%N ss ->
  sorted linked (flatten ss) -> rmul (flatten ss) = rmul (map rmul ss).
Proof.
case: ss => //= s ss _ /andP[s0 H]; elim: ss s s0 H => [|s' ss IH] s s0 /=.
  by move=> _; rewrite cats0 /rmul.
case/andP=> s0' H p.
have p' : sorted linked (s' ++ flatten ss).
  by move: p; case: (s) s0 => //= d s1 _; rewrite cat_path; case: (s') s0' => //= e s2 _ /andP[_ /andP[]].
rewrite rmul_cat // ?size_cat ?addn_gt0 ?s0' // IH //.
have {IH}IH := IH _ s0' H p'; symmetry; apply: rmul_cons => //.
move: p p' {IH}; elim: ss s s' s0 s0' H => [|s2 ss IH] s s' s0 s0' /=.
  move=> _; rewrite !cats0 andbT => p p'.
  case: s s0 p => // d s _; case: s' s0' p' => // e s' _ p'.
  rewrite /= cat_path /= => /andP[_ /andP[/eqP de _]].
  rewrite /linked; have [_ ->] := rmul_shape d s; have [-> _] := rmul_shape e s'.
  exact/eqP.
case/andP=> s02 H p p'; apply/andP; split; last first.
  apply: (IH s' s2) => //.
  by move: p'; case: (s') s0' => //= e s3 _; rewrite cat_path; case: (s2) s02 => //= g s4 _ /andP[_ /andP[]].
case: s s0 p => // d s _; case: s' s0' p' => // e s' _ p'.
rewrite /= cat_path /= => /andP[_ /andP[/eqP de _]].
rewrite /linked; have [_ ->] := rmul_shape d s; have [-> _] := rmul_shape e s'.
exact/eqP.
Qed.
Lemma linked_tr (s : seq dmx) : sorted linked s -> sorted linked (rev (map (@dtr R) s)).
Proof.
rewrite rev_sorted; case: s => //= d s; rewrite path_map; apply: sub_path => f g.
by rewrite /linked /= eq_sym.
Qed.
Lemma rmul_rev_tr (s : seq dmx) : (0 < size s)%N -> sorted linked s ->
  rmul (rev (map (@dtr R) s)) = dtr (rmul s).
Proof.
case: s => //= d s _; elim: s d => [|e s IH] d //= p0; case/andP: (p0) => de p.
rewrite rev_cons -cats1 rmul_cat ?size_rev //=.
  by rewrite IH // [rmul [:: d, e & s]]rmul_cons //= dtrM // (eqP de); have [-> _] := rmul_shape e s.
by have := @linked_tr (d :: e :: s) p0; rewrite /= !rev_cons cats1.
Qed.
End Ops.
