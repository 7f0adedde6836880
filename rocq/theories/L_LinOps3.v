(** Linear operators: the constructors and scalar multiples keep operators consistent. *)
From mathcomp Require Import all_ssreflect all_algebra.
From Verif Require Import L_Kalman L_Chol M_DMx L_DMx M_LinOps L_LinOps L_LinOps2.
Set Implicit Arguments.
Unset Strict Implicit.
Unset Printing Implicit Defensive.
Import Order.Theory GRing.Theory Num.Theory.
Local Open Scope ring_scope.

Section Ops.
Variable R : rcfType.
Local Notation dmx := (dmx R).
Local Notation op := (op R).
Variable trk : bool.
Local Notation ok := (@L_LinOps2.ok R trk).
Local Notation node_ok := (@L_LinOps2.node_ok R trk).
Implicit Types (o a b : op) (l : seq op).

Lemma base_sym m n : (f_sym (base_flags m n) == Some true) = false.
Proof. by rewrite /base_flags /=; case: (m == n). Qed.
Lemma dense_with o f : dense (with_flags o f) = dense o. Proof. by case: o. Qed.
Lemma shape_with o f : shape (with_flags o f) = shape o. Proof. by case: o. Qed.
Lemma wf_with k o f : wf k (with_flags o f) = wf k o. Proof. by case: o. Qed.
Lemma flags_with o f : flags_of (with_flags o f) = f. Proof. by case: o. Qed.
Lemma ctor_with o f : ctor (with_flags o f) = ctor o. Proof. by case: o. Qed.
Lemma blk_with o f : is_blk (with_flags o f) = is_blk o. Proof. by case: o. Qed.

(** ** Tests of triangularity and definiteness *)
Lemma tflags_none f (D : dmx) : f_low f != Some true -> f_upp f != Some true -> f_pd f != Some true ->
  tflags f D.
Proof. by rewrite /tflags => /negbTE -> /negbTE -> /negbTE ->. Qed.
Lemma tflags_base m n (D : dmx) : tflags (base_flags m n) D. Proof. exact: tflags_none. Qed.
Lemma dlow_diag (d : seq R) : dlow (ddiag d).
Proof. by apply/dlowP=> i j /= im jn ij; rewrite get_mk // (ltn_eqF ij). Qed.
Lemma dtr_diag (d : seq R) : dtr (ddiag d) = ddiag d.
Proof.
by apply: dmx_ext => //= i j im jn; rewrite !get_mk // eq_sym; case: eqP => // ->.
Qed.
Lemma dupp_diag (d : seq R) : dupp (ddiag d). Proof. by rewrite /dupp dtr_diag dlow_diag. Qed.
Lemma dlow_scale (c : R) (D : dmx) : dlow D -> dlow (dscale c D).
Proof. by move/dlowP=> H; apply/dlowP=> i j /= im jn ij; rewrite get_mk // H // mulr0. Qed.
Lemma dupp_scale (c : R) (D : dmx) : dupp D -> dupp (dscale c D).
Proof. by rewrite /dupp dtrZ; exact: dlow_scale. Qed.
Lemma did_diag n : did R n = ddiag (nseq n (1 : R)).
Proof. by rewrite ddiag_nseq dscale1. Qed.
Lemma dlow_id n : dlow (did R n). Proof. by rewrite did_diag dlow_diag. Qed.
Lemma dupp_id n : dupp (did R n). Proof. by rewrite did_diag dupp_diag. Qed.
Lemma sq_scale n (c : R) (D : dmx) : drow D = n -> dcol D = n -> sq n (dscale c D) = c *: sq n D.
Proof. by move=> r e; apply/matrixP=> i j; rewrite !mxE get_mk ?r ?e. Qed.
Lemma dpd_scale (c : R) (D : dmx) : 0 < c -> dpd D -> dpd (dscale c D).
Proof.
move=> c0 /andP[/eqP e /pdbP [s p]]; apply/andP; split; first by rewrite /= e.
apply/pdbP; rewrite sq_scale //=; split=> [|x nx]; first by rewrite linearZ /= s.
by rewrite qformZ mulr_gt0 // p.
Qed.
Lemma dpd_id n : dpd (did R n).
Proof.
rewrite /dpd eqxx /=; apply/pdbP.
have -> : sq n (did R n) = 1%:M by apply/matrixP=> i j; rewrite !mxE get_mk.
split=> [|x nx]; first by rewrite trmx1.
rewrite /qform mulmx1 lt_neqAle eq_sym dot_ge0 andbT; apply: contra nx => /eqP.
by move/dot_eq0 => ->.
Qed.
Lemma tflags_scale (c : R) f (D : dmx) : tflags f D -> tflags (scaled_flags c f) (dscale c D).
Proof.
case/and3P=> /implyP l /implyP u /implyP p; apply/and3P; split; apply/implyP => /=.
- by move/l; exact: dlow_scale.
- by move/u; exact: dupp_scale.
- by case: ifP => // /p pD; case: ltP => // c0 _; exact: dpd_scale.
Qed.
Lemma dpd_inv (D : dmx) : dpd D -> dpd (dinv D).
Proof.
case/andP=> /eqP e /pdbP pD; rewrite /dpd /= eqxx /=; apply/pdbP; rewrite sq_val.
have u := pd_unit pD; have [s p] := pD; split=> [|x nx]; first by rewrite trmx_inv s.
have ny : invmx (sq (drow D) D) *m x != 0.
  by apply: contra nx => /eqP y0; rewrite -[x]mul1mx -(mulmxV u) -mulmxA y0 mulmx0.
have := p _ ny; rewrite /qform trmx_mul trmx_inv s -!mulmxA (mulmxA (sq _ _)) mulmxV // mul1mx.
by rewrite !mulmxA.
Qed.

Lemma tflags_idn n : tflags (flags_of (idn R n)) (dense (idn R n)).
Proof. by rewrite /tflags /= dlow_id dupp_id dpd_id. Qed.
Lemma tflags_scC n (c : R) : tflags (flags_of (scC n c)) (dense (scC n c)).
Proof.
rewrite /tflags /= ScC_diag dlow_scale ?dlow_id // dupp_scale ?dupp_id //= ?implybT /=.
by case: ltP => // c0; rewrite dpd_scale ?dpd_id.
Qed.
Lemma tflags_scV (d : seq R) : tflags (flags_of (scV d)) (dense (scV d)).
Proof. by rewrite /tflags /= dlow_diag dupp_diag. Qed.
Lemma dlow0 m n : dlow (dzero R m n).
Proof. by apply/dlowP=> i j /= im jn _; rewrite get_mk. Qed.
Lemma tflags_zer m n : tflags (flags_of (zer R m n)) (dense (zer R m n)).
Proof. by rewrite /zer; case: eqP => _; rewrite /tflags /= ?/dupp ?dtr0 ?dlow0. Qed.
Lemma tflags_both a b f (D : dmx) : f_low f = None -> f_upp f = None -> f_pd f = None ->
  tflags (both_sym a b f) D.
Proof.
by move=> l u p; rewrite /both_sym; case: ifP => _; apply: tflags_none; rewrite /= ?l ?u ?p.
Qed.
Lemma node_okI o : (trk -> tflags (flags_of o) (dense o)) -> (trk -> sqblk o) ->
  node_ok o = consistent o && (sym_true o ==> deq (dtr (dense o)) (dense o)).
Proof.
move=> t q; have e : trk ==> sqblk o && tflags (flags_of o) (dense o).
  by apply/implyP=> /[dup] /t -> /q ->.
by rewrite /L_LinOps2.node_ok e andbT.
Qed.

(** ** Leaves *)
Lemma mat_ok k (A : dmx) : (0 < drow A)%N -> (0 < dcol A)%N -> ok k (mat A).
Proof.
move=> m0 n0; rewrite /L_LinOps2.ok /= (@node_okI (mat A) (fun _ => tflags_base _ _ _) (fun _ => erefl)) /consistent /sym_true /= flef_refl base_sym /= m0 n0 /=.
by rewrite implybT.
Qed.
Lemma base_ok k o : flags_of o = ctor o -> ctor o = base_flags (shape o).1 (shape o).2 ->
  wf k o -> (deep node_ok o = node_ok o) -> sqblk o -> ok k o.
Proof.
move=> e1 e2 w d q; rewrite /L_LinOps2.ok w d node_okI //.
  by rewrite /consistent /sym_true e1 flef_refl /= e2 base_sym /= implybT.
by rewrite e1 e2 => _; exact: tflags_base.
Qed.
Lemma idn_ok k n : (0 < n)%N -> ok k (idn R n).
Proof. move=> n0; rewrite /L_LinOps2.ok /= n0 (node_okI (fun _ => tflags_idn n) (fun _ => erefl)) /consistent /is_square /sym_true /rows /cols /= eqxx /=.
by rewrite andbT; apply/deqP/dtr1.
Qed.
Lemma dtr_scC n (c : R) : dtr (dense (scC n c)) = dense (scC n c).
Proof. by rewrite /= ScC_diag dtrZ dtr1. Qed.
Lemma scC_ok k n (c : R) : (0 < n)%N -> ok k (scC n c).
Proof.
move=> n0; rewrite /L_LinOps2.ok /= n0 (node_okI (fun _ => tflags_scC n c) (fun _ => erefl)) /consistent /is_square /= eqxx /= flef_refl implybT /=.
by rewrite andbT; apply/deqP/dtr_scC.
Qed.
Lemma scV_ok k (d : seq R) : (0 < size d)%N -> ok k (scV d).
Proof.
move=> n0; rewrite /L_LinOps2.ok /= n0 (node_okI (fun _ => tflags_scV d) (fun _ => erefl)) /consistent /is_square /= eqxx /=.
by rewrite implybT andbT; apply/deqP/dtr_diag.
Qed.
Lemma zer_ok k m n : (0 < m)%N -> (0 < n)%N -> ok k (zer R m n).
Proof.
move=> m0 n0; rewrite /L_LinOps2.ok /= m0 n0 (node_okI (fun _ => tflags_zer m n) (fun _ => erefl)) /consistent /is_square /sym_true /zer /=.
rewrite flef_refl /rows /cols /=.
case: (m =P n) => [->|/eqP ne] /=.
  by rewrite andbT; apply/deqP; rewrite dtr0.
by rewrite (negbTE ne).
Qed.
Lemma sel_ok k n idx : idx_ok n idx -> ok k (sel R n idx).
Proof. by move=> H; apply: base_ok => //=; rewrite andbT. Qed.
Lemma emb_ok k m put : idx_ok m put -> ok k (emb m (iota 0 (size put)) put (0 : R)).
Proof. by move=> H; apply: base_ok => //=; rewrite ?H ?eqxx // andbT. Qed.

(** ** Kronecker products *)
Lemma both_symP a b f : f_sym f != Some true ->
  (f_sym (both_sym a b f) == Some true) = sym_true a && sym_true b.
Proof. by rewrite /both_sym /sym_true; case: ifP => // _ /negbTE. Qed.
Lemma both_pd a b f : f_pd f = None -> f_pd (both_sym a b f) = None.
Proof. by rewrite /both_sym; case: ifP. Qed.
Lemma both_lowupp a b f : f_low f = None -> f_upp f = None ->
  f_low (both_sym a b f) = None /\ f_upp (both_sym a b f) = None.
Proof. by rewrite /both_sym; case: ifP. Qed.
Lemma kro_ok k a b : ok true a -> ok true b -> ok k (kro a b).
Proof.
move=> oa ob; rewrite /L_LinOps2.ok /= (ok_wf oa) (ok_wf ob) /=.
case/andP: (oa) => _ ->; case/andP: (ob) => _ ->; rewrite andbT.
rewrite node_okI; [|by move=> _; exact: tflags_both|by []]; rewrite /consistent /sym_true /= flef_refl both_symP ?base_sym // both_pd //=.
have [-> ->] := @both_lowupp a b (base_flags (rows a * rows b) (cols a * cols b)) erefl erefl.
rewrite eqxx !implybT ?andbT /=; apply/implyP=> /andP[sa sb]; apply/deqP.
by rewrite dkron_tr (ok_sym oa) // (ok_sym ob).
Qed.
Lemma idk_ok k n b : (0 < n)%N -> ok true b -> ok k (idk n b).
Proof.
move=> n0 ob; rewrite /L_LinOps2.ok /= n0 (ok_wf ob) /=; case/andP: (ob) => _ ->; rewrite andbT.
rewrite node_okI; [|by move=> _; exact: tflags_both|by []]; rewrite /consistent /sym_true /= flef_refl both_symP ?base_sym // both_pd //=.
have [-> ->] := @both_lowupp b b (base_flags (n * rows b) (n * cols b)) erefl erefl.
rewrite eqxx !implybT ?andbT /= andbb; apply/implyP=> sb; apply/deqP.
by rewrite dkron_tr dtr1 (ok_sym ob).
Qed.
Lemma syk_ok k a b (i : bool) : ok k a -> ok k b -> is_square a -> shape a = shape b ->
  (i -> dense a = dense b /\ f_sym (flags_of a) = f_sym (flags_of b)) -> ok k (syk a b i).
Proof.
move=> oa ob sa sab ib; rewrite /L_LinOps2.ok /= (ok_wf oa) (ok_wf ob) sa sab eqxx /=.
have -> /= : i ==> (deq (dense a) (dense b) && (f_sym (flags_of a) == f_sym (flags_of b))).
  by apply/implyP=> /ib [-> ->]; rewrite eqxx andbT; apply/deqP.
case/andP: (oa) => _ ->; case/andP: (ob) => _ ->; rewrite andbT.
rewrite node_okI; [|by move=> _; exact: tflags_both|by []]; rewrite /consistent /sym_true /= flef_refl both_symP // both_pd //=.
have [-> ->] := @both_lowupp a b (Flags None None None None) erefl erefl.
rewrite eqxx !implybT ?andbT /=; apply/implyP=> /andP[ya yb]; apply/deqP.
case: i ib => [/(_ isT) [e _]|_]; first by rewrite dkron_tr (ok_sym oa ya).
have [e1 e2] : dshape (dense a) = dshape (dense b).
  by rewrite (dense_shape (ok_wf oa)) (dense_shape (ok_wf ob)).
rewrite dtrZ dtrD ?/dshape /= ?e1 ?e2 1?mulnC //.
by rewrite !dkron_tr (ok_sym oa ya) (ok_sym ob yb).
Qed.

(** ** Multiples, inverses *)
Lemma pd_sym k a : ok k a -> f_pd (flags_of a) == Some true -> sym_true a.
Proof. by move/ok_cons => /and4P[_ /implyP]. Qed.
Lemma sca_ok k (c : R) a : ok k a -> ok k (sca c a).
Proof.
move=> oa; rewrite /L_LinOps2.ok /= (ok_wf oa) /=; case/andP: (oa) => _ ->; rewrite andbT.
have /and4P[_ /implyP pa /implyP ba _] := ok_cons oa.
rewrite node_okI; [|by move/(ok_tflags oa); exact: tflags_scale|by []]; rewrite /consistent /sym_true /= flef_refl /=; apply/andP; split; last first.
  by apply/implyP=> sa; apply/deqP; rewrite dtrZ (ok_sym oa sa).
apply/and3P; split.
- by apply/implyP; case: ifP => // /pa.
- by apply/implyP=> /ba.
- apply/implyP=> /andP[ns _]; case: ifP => // /pa sa; case/negP: ns.
  exact: (sym_square oa sa).
Qed.
Lemma neg__ok k a : ok k a -> ok k (neg_ a).
Proof. by move/(sca_ok (-1)). Qed.
Lemma ok_square_wf k a : ok k a -> is_square a = (drow (dense a) == dcol (dense a)).
Proof. by move=> oa; rewrite (drow_dense (ok_wf oa)) (dcol_dense (ok_wf oa)). Qed.
Lemma dtr_inv (A : dmx) : dunit A -> dtr A = A -> dtr (dinv A) = dinv A.
Proof.
case/andP=> /eqP e u s; rewrite /dinv dtr_val trmx_inv; congr (DMx (invmx _)).
by apply/matrixP=> i j; rewrite !mxE -{1}s get_mk // -e.
Qed.
Lemma inv__ok k a : ok k a -> is_square a -> dunit (dense a) -> ok k (inv_ a).
Proof.
move=> oa sq u; rewrite /L_LinOps2.ok /= (ok_wf oa) sq u /=; case/andP: (oa) => _ ->; rewrite andbT.
have /and4P[_ pa _ _] := ok_cons oa.
have t : trk -> tflags (flags_of (inv_ a)) (dense (inv_ a)).
  by move=> h; rewrite /tflags /=; case/and3P: (ok_tflags oa h) => _ _ /implyP p; apply/implyP=> /p /dpd_inv.
rewrite (node_okI t) // /consistent /sym_true /= flef_refl pa /= implybT /= /is_square /=.
move: (sq); rewrite /is_square /rows /cols /= => -> /=.
by apply/implyP=> sa; apply/deqP; rewrite dtr_inv // (ok_sym oa sa).
Qed.

(** ** Scalar multiples *)
Lemma isotropic_diag (d : seq R) : all (fun c => c == d`_0) d -> ddiag d = dscale (d`_0) (did R (size d)).
Proof.
move=> H; rewrite -ddiag_nseq; congr ddiag; apply: (@eq_from_nth _ 0) => [|i im].
  by rewrite size_nseq.
by rewrite nth_nseq im; apply/eqP; apply: (allP H); rewrite mem_nth.
Qed.
Lemma mul_shape (c : R) o : shape (mul c o) = shape o.
Proof.
elim/op_rect': o c => //=.
- by move=> f d c; case: ifP => //= _; rewrite size_map.
- by move=> f a b IHa IHb c; case: ifP => //= _; rewrite IHa IHb.
- by move=> f n b IH c; rewrite IH.
Qed.
Lemma mul_rows (c : R) o : rows (mul c o) = rows o. Proof. by rewrite /rows mul_shape. Qed.
Lemma mul_cols (c : R) o : cols (mul c o) = cols o. Proof. by rewrite /cols mul_shape. Qed.
Lemma sca_okD k (c : R) o : ok k o -> ok k (sca c o) /\ dense (sca c o) = dscale c (dense o).
Proof. by move/(sca_ok c). Qed.
Lemma mul_ok k (c : R) o : ok k o -> ok k (mul c o) /\ dense (mul c o) = dscale c (dense o).
Proof.
elim/op_rect': o k c => /=.
- move=> f A k c /ok_wf /= /andP[m0 n0]; split; last by [].
  exact: mat_ok.
- move=> *; exact: sca_okD.
- move=> *; exact: sca_okD.
- move=> f n d k c /ok_wf /= n0; split; first exact: scC_ok.
  by rewrite /= !ScC_diag dscaleA.
- move=> f d k c /ok_wf /= n0; case: ifP => H.
    split; first exact: scC_ok.
    by rewrite /= ScC_diag (isotropic_diag H) dscaleA.
  split; first by apply: scV_ok; rewrite size_map.
  apply: dmx_ext; rewrite /= ?size_map // => i j im jn.
  rewrite get_mk ?size_map // [in RHS]get_mk // [in RHS]get_mk //.
  by case: eqP => _; rewrite ?mulr0 // (nth_map 0).
- by move=> f m n k c oz; rewrite dscale0.
- move=> *; exact: sca_okD.
- move=> *; exact: sca_okD.
- move=> f a b IHa IHb k c o.
  have [oa ob] : ok true a /\ ok true b.
    by case/andP: o => /= /andP[wa wb] /andP[_ /andP[da db]]; rewrite /L_LinOps2.ok wa wb.
  case: ltP => c0; first exact: sca_okD.
  have [oa' da] := IHa true (Num.sqrt c) oa; have [ob' db] := IHb true (Num.sqrt c) ob.
  split; first exact: kro_ok.
  by rewrite /= da db dkronZl dkronZr dscaleA -expr2 sqr_sqrtr.
- move=> f n b IH k c o.
  have [n0 ob] : (0 < n)%N /\ ok true b.
    by case/andP: o => /= /andP[n0 wb] /andP[_ db]; rewrite /L_LinOps2.ok wb n0.
  have [ob' db] := IH true c ob; split; first exact: idk_ok.
  by rewrite /= db dkronZr.
all: by move=> *; exact: sca_okD.
Qed.
End Ops.
