(** Linear operators: transposition. *)
From mathcomp Require Import all_ssreflect all_algebra.
From Verif Require Import L_Kalman L_Chol M_DMx L_DMx M_LinOps L_LinOps L_LinOps2 L_LinOps3 L_LinOps4 L_LinOps5.
Set Implicit Arguments.
Unset Strict Implicit.
Unset Printing Implicit Defensive.
Import Order.Theory GRing.Theory Num.Theory.
Local Open Scope ring_scope.

Section Ops.
Variable R : rcfType.
Local Notation dmx := (dmx R).
Local Notation op := (op R).
Variable trk : bool.
Local Notation ok := (@L_LinOps2.ok R trk).
Local Notation node_ok := (@L_LinOps2.node_ok R trk).
Local Notation res := (@L_LinOps5.res R trk).
Implicit Types (o a b : op) (l : seq op).
Local Arguments expand_sum : simpl never.
Local Arguments expand_prd : simpl never.
Local Arguments finish_T : simpl never.

Lemma nosym_pd k o : ok k o -> ~~ sym_true o -> (f_pd (flags_of o) == Some true) = false.
Proof. by move=> oo; apply: contraNF => p; apply: (pd_sym oo p). Qed.
Lemma ok_kro k f a b : ok k (Kro f a b) -> ok true a /\ ok true b.
Proof. by case/andP=> /= /andP[wa wb] /andP[_ /andP[da db]]; rewrite /L_LinOps2.ok wa wb. Qed.
Lemma ok_idk k f n b : ok k (IdK f n b) -> (0 < n)%N /\ ok true b.
Proof. by case/andP=> /= /andP[n0 wb] /andP[_ db]; rewrite /L_LinOps2.ok wb n0. Qed.
Lemma ok_syk k f a b i : ok k (SyK f a b i) ->
  [/\ ok k a, ok k b, is_square a, shape a = shape b
    & (i -> dense a = dense b /\ f_sym (flags_of a) = f_sym (flags_of b))].
Proof.
case/andP=> /= /and5P[wa wb sa /eqP sab /implyP ii] /andP[_ /andP[da db]].
by rewrite /L_LinOps2.ok wa wb; split=> // /ii /andP[/deqP ? /eqP].
Qed.
Lemma ok_tra k f a : ok k (Tra f a) -> ok k a.
Proof. by case/andP=> /= wa /andP[_ da]; rewrite /L_LinOps2.ok wa. Qed.
Lemma ok_inv k f a : ok k (Inv f a) -> [/\ ok k a, is_square a & dunit (dense a)].
Proof. by case/andP=> /= /and3P[wa sa u] /andP[_ da]; rewrite /L_LinOps2.ok wa. Qed.
Lemma ok_sca k f (c : R) a : ok k (Sca f c a) -> ok k a.
Proof. by case/andP=> /= wa /andP[_ da]; rewrite /L_LinOps2.ok wa. Qed.
Lemma ok_neg k f a : ok k (Neg f a) -> ok k a.
Proof. by case/andP=> /= wa /andP[_ da]; rewrite /L_LinOps2.ok wa. Qed.

Lemma base_fle k o m n : ok k o -> f_sym (ctor o) = f_sym (base_flags m n) ->
  forall p, flef (base_flags m n) (Flags (f_sym (flags_of o)) (f_low (flags_of o)) (f_upp (flags_of o)) p).
Proof. by move=> oo e p; have /and4P[s _ _ _] := cons_ctor oo; rewrite e in s; rewrite /flef /= s. Qed.
Lemma both_sym_no a b f : ~~ (sym_true a && sym_true b) -> both_sym a b f = f.
Proof. by rewrite /both_sym /sym_true => /negbTE ->. Qed.
Lemma both_symT a b f : sym_true a && sym_true b -> f_sym (both_sym a b f) = Some true.
Proof. by rewrite /both_sym /sym_true => ->. Qed.
Lemma mul_flags k (c : R) t : ok k t -> ~~ sym_true t ->
  flef (flags_of (mul c t)) (scaled_flags c (flags_of t)).
Proof.
case: t => /=; try by move=> *; exact: flef_refl.
- by move=> f A oo _; apply: (base_fle oo).
- by move=> f n d oo /negP[]; apply: (ctor_sym oo).
- by move=> f d oo /negP[]; apply: (ctor_sym oo).
- move=> f m n oo ns; rewrite /scaled_flags.
  have mn : m != n.
    by apply: contra ns => /eqP mn; apply: (ctor_sym oo); rewrite /= mn eqxx.
  have /and4P[_ _ _ /implyP pn] := ok_cons oo.
  move: pn; rewrite /is_square /rows /cols /= mn => /(_ isT) /eqP e.
  by case: f e {ns oo} => s l u p /= ->; exact: flef_refl.
- move=> f a b oo ns; case: ifP => _; first exact: flef_refl.
  have [oa ob] := ok_kro oo.
  have nab : ~~ (sym_true a && sym_true b).
    by apply: contra ns => yab; apply: (ctor_sym oo); rewrite /= both_symT.
  rewrite /= both_sym_no; last first.
    by apply: contra nab => /andP[/(mul_sym oa) -> /(mul_sym ob) ->].
  by rewrite !mul_rows !mul_cols; apply: (base_fle oo); rewrite /= both_sym_no.
- move=> f n b oo ns; have [n0 ob] := ok_idk oo.
  have nab : ~~ (sym_true b && sym_true b).
    by apply: contra ns => yab; apply: (ctor_sym oo); rewrite /= both_symT.
  rewrite /= both_sym_no; last first.
    by apply: contra nab => /andP[/(mul_sym ob) ->].
  by rewrite !mul_rows !mul_cols; apply: (base_fle oo); rewrite /= both_sym_no.
Qed.

(** ** Transposes *)
Definition kids (p : pred op) o : bool :=
  match o with
  | Kro _ a b | SyK _ a b _ => deep p a && deep p b
  | IdK _ _ a | Tra _ a | Inv _ a | Sca _ _ a | Neg _ a => deep p a
  | Sum _ l | Prd _ l | Blk _ l => all (deep p) l
  | _ => true
  end.
Lemma deepE p o : deep p o = p o && kids p o. Proof. by case: o. Qed.
Lemma kids_with p o f : kids p (with_flags o f) = kids p o. Proof. by case: o. Qed.
Lemma ok_kids k o : ok k o -> kids node_ok o.
Proof. by case/andP=> _; rewrite deepE => /andP[]. Qed.
Lemma set_propE x y : fle x y -> set_prop x y = Some y.
Proof. by rewrite /set_prop /fle; case: (x =P y) => [->|ne] //; rewrite orbF => /eqP ->. Qed.
Definition tres (k : bool) o (r : option op) : Prop :=
  exists t, [/\ r = Some t, ok k t, dense t = dtr (dense o) & flags_of t = swap (flags_of o)].
Lemma tflags_swap f (D : dmx) : tflags f D -> f_pd f != Some true -> tflags (swap f) (dtr D).
Proof.
by case/and3P=> l u _ /negbTE p; rewrite /tflags /= p /dupp dtrK l; rewrite /dupp in u; rewrite u.
Qed.
Lemma sqblk_with o f : sqblk (with_flags o f) = sqblk o. Proof. by case: o. Qed.
Lemma finish_ok k o t : ok k o -> ~~ sym_true o -> wf k t -> kids node_ok t ->
  dense t = dtr (dense o) -> flef (flags_of t) (swap (flags_of o)) ->
  flef (ctor t) (swap (flags_of o)) -> (is_blk o ==> is_blk t) -> (trk -> sqblk t) -> tres k o (finish_T o (Some t)).
Proof.
move=> oo ns wt kt dt ft ct bt qt; have npd := nosym_pd oo ns.
rewrite /finish_T /set_flags; case/and4P: ft => /= f1 f2 f3 f4.
rewrite !set_propE // /sym_true in ns *; rewrite (negbTE ns) npd /=.
eexists; split; first reflexivity; last by rewrite flags_with; case: (flags_of o).
  rewrite /L_LinOps2.ok wf_with wt deepE kids_with kt andbT node_okI; first last.
  - by move/qt; rewrite sqblk_with.
  - move=> h; rewrite flags_with dense_with dt; apply: (tflags_swap (ok_tflags oo h)).
    by apply: contra ns => /(pd_sym oo).
  rewrite /consistent /sym_true flags_with.
  rewrite ctor_with /= (negbTE ns) npd blk_with /= andbT.
  have -> : {| f_sym := f_sym (flags_of o); f_low := f_upp (flags_of o); f_upp := f_low (flags_of o);
      f_pd := f_pd (flags_of o) |} = swap (flags_of o) by [].
  rewrite ct /=; apply/implyP=> /andP[sq nb].
  have /and4P[_ _ _ /implyP] := ok_cons oo; apply.
  rewrite (contra (implyP bt) nb) andbT; apply: contra sq.
  rewrite /is_square /rows /cols shape_with -(dense_shape wt) dt (ok_shape oo) /=.
  by rewrite eq_sym.
by rewrite dense_with.
Qed.
Lemma finish_ok' k o t : ok k o -> ~~ sym_true o -> ok k t ->
  dense t = dtr (dense o) -> flef (flags_of t) (swap (flags_of o)) ->
  (is_blk o ==> is_blk t) -> tres k o (finish_T o (Some t)).
Proof.
move=> oo ns ot dt ft bt; apply: finish_ok => //; first exact: (ok_wf ot).
  exact: (ok_kids ot).
  by apply: flef_trans ft; exact: (cons_ctor ot).
exact: (ok_sqblk ot).
Qed.
Lemma base_swap k o m n : ok k o -> f_sym (ctor o) = f_sym (base_flags m n) ->
  flef (base_flags n m) (swap (flags_of o)).
Proof.
move=> oo e; have /and4P[s _ _ _] := cons_ctor oo.
by rewrite e in s; rewrite /flef /= (eq_sym n) s.
Qed.
Lemma tres_sym k o a t : tres k a (Some t) -> ok k a -> sym_true t = sym_true a.
Proof. by case=> t' [[<-] _ _ e] _; rewrite /sym_true e. Qed.
Lemma take_tr m (put : seq nat) : dtr (dtr (dtake put (did R m))) = dtake put (did R m).
Proof. exact: dtrK. Qed.
Lemma nosym_ctor k o : ok k o -> ~~ sym_true o -> f_sym (ctor o) <> Some true.
Proof. by move=> oo /negP ns e; apply: ns; exact: (ctor_sym oo). Qed.
Lemma sequence_some (T : Type) (l : seq T) : sequence (map Some l) = Some l.
Proof. by elim: l => //= a l ->. Qed.
Lemma each_impl (P Q : op -> Prop) l : eachP P l -> (forall a, P a -> Q a) -> eachP Q l.
Proof. by move=> H HQ; elim: H => [|a l' /HQ Ha _ IH]; [exact: all_nil|exact: all_cons]. Qed.
Lemma prd_flags l r : prd_ l = Some r -> flags_of r = base_flags (shape r).1 (shape r).2.
Proof. by rewrite /prd_; case: ifP => // _ [<-]. Qed.
Lemma tr_list k l : eachP (fun a => tres k a (transpose a)) l ->
  exists ts, [/\ map (@transpose R) l = map Some ts, all (ok k) ts,
    map (@dense R) ts = map (@dtr R) (map (@dense R) l) &
    map (@flags_of R) ts = map swap (map (@flags_of R) l)].
Proof.
elim=> [|a l' [t [e ot dt ft]] _ [ts [es os ds fs]]]; first by exists [::].
by exists (t :: ts); rewrite /= e es ot os dt ds ft fs.
Qed.
Lemma all_flagE (p : flags -> option bool) l :
  all_flag p l = all (fun f => p f == Some true) (map (@flags_of R) l).
Proof. by rewrite all_map. Qed.
Lemma all_flag_swap (p q : flags -> option bool) l ts : (forall f, p (swap f) = q f) ->
  map (@flags_of R) ts = map swap (map (@flags_of R) l) -> all_flag p ts = all_flag q l.
Proof. by move=> pq e; rewrite !all_flagE e all_map; apply: eq_all => f /=; rewrite pq. Qed.
Lemma infer_swap (p q : flags -> option bool) l ts : (forall f, p (swap f) = q f) ->
  map (@flags_of R) ts = map swap (map (@flags_of R) l) -> infer p ts = infer q l.
Proof.
move=> pq e; rewrite /infer (all_flag_swap pq e).
have -> // : has (fun b => p (flags_of b) == Some false) ts = has (fun b => q (flags_of b) == Some false) l.
rewrite -[LHS](has_map (@flags_of R) (fun f => p f == Some false)) e has_map.
by rewrite -[RHS](has_map (@flags_of R) (fun f => q f == Some false)); apply: eq_has => f /=; rewrite pq.
Qed.
(** Flags that hold for all parts of expanded summands hold for the summands. *)
Lemma expand_flag k (p : flags -> option bool) l : all (ok k) l ->
  (forall l', all_flag p l' -> p (sum_flags l') = Some true) ->
  (forall f g, flef f g -> fle (p f) (p g)) ->
  all_flag p (expand_sum l) -> all_flag p l.
Proof.
move=> ol Hp Hm; elim: l ol => // a l IH /= /andP[oa ol]; rewrite expand_cons /all_flag all_cat.
case/andP=> Ha Hl; apply/andP; split; last exact: IH.
case: a oa Ha => [f A|f A|f n|f n c|f d|f m n|f n i|f m t q v|f a b|f n b|f a b i|f n|f a
  |f a|f c a|f a|f l'|f l'|f l'] oa; try by case/andP.
move=> Ha; have := Hm _ _ (cons_ctor oa); rewrite [ctor _]/= Hp // => /fle_true ->.
exact: eqxx.
Qed.
Lemma tstep k o fl body : ok k o -> flags_of o = fl ->
  (~~ sym_true o -> tres k o (finish_T o body)) ->
  tres k o (if f_sym fl == Some true then Some o else finish_T o body).
Proof.
move=> oo <- H; case: ifP => [y|/negbT /H //]; exists o; split=> //; first by rewrite (ok_sym oo y).
by have := low_upp oo y; case: (flags_of o) => s l u p /= ->.
Qed.
Lemma ok_rect_sum k l m n f : ok k (Sum f l) -> shape (Sum f l) = (m, n) ->
  all (fun s => shape s == (m, n)) l.
Proof. by move=> oo e; have [_ _] := ok_list_sum oo; rewrite e. Qed.
Lemma shapes_tr k l ts : all (ok k) l -> all (ok k) ts ->
  map (@dense R) ts = map (@dtr R) (map (@dense R) l) ->
  map (@shape R) ts = map (fun s => (s.2, s.1)) (map (@shape R) l).
Proof.
move=> ol os ds; have -> : map (@shape R) ts = map (@dshape R) (map (@dense R) ts).
  by rewrite -map_comp; apply: map_on os => a /ok_shape.
rewrite ds -!map_comp; apply: map_on ol => a /ok_shape /=.
by rewrite /= => ->.
Qed.
Lemma transpose_ok k o : ok k o -> tres k o (transpose o).
Proof.
elim/op_rect': o k => /=.
- move=> f A k oo; apply: (tstep oo erefl) => ns; have /andP[m0 n0] := ok_wf oo.
  apply: finish_ok' => //; [exact: mat_ok|exact: (base_swap oo)].
- move=> f A k oo; apply: (tstep oo erefl) => ns; apply: finish_ok => //.
  + exact: ok_wf oo.
  + by case/andP: oo.
  + exact: (base_swap oo).
  + by rewrite /= flef_refl.
- by move=> f n k oo; apply: (tstep oo erefl) => /negP[]; apply: (ctor_sym oo).
- by move=> f n c k oo; apply: (tstep oo erefl) => /negP[]; apply: (ctor_sym oo).
- by move=> f d k oo; apply: (tstep oo erefl) => /negP[]; apply: (ctor_sym oo).
- move=> f m n k oo; apply: (tstep oo erefl) => ns; have /andP[m0 n0] := ok_wf oo.
  have mn : m != n by apply: contra ns => /eqP mn; apply: (ctor_sym oo); rewrite /= mn eqxx.
  apply: finish_ok' => //; first exact: zer_ok.
    by rewrite /= dtr0.
  rewrite /= eq_sym (negbTE mn); apply: (base_swap oo).
  by rewrite /= /base_flags /= (negbTE mn).
- move=> f n i k oo; apply: (tstep oo erefl) => ns; have w := ok_wf oo.
  by apply: finish_ok' => //; [exact: emb_ok|exact: (base_swap oo)].
- move=> f m t q v k oo; apply: (tstep oo erefl) => ns; have /and3P[w e1 e2] := ok_wf oo.
  apply: finish_ok' => //; [exact: sel_ok|by rewrite /= dtrK|exact: (base_swap oo)].
- move=> f a b IHa IHb k oo; apply: (tstep oo erefl) => ns; have [oa ob] := ok_kro oo.
  have [ta [-> ota da fa]] := IHa _ oa; have [tb [-> otb db fb]] := IHb _ ob.
  have nab : ~~ (sym_true a && sym_true b).
    by apply: contra ns => yab; apply: (ctor_sym oo); rewrite /= both_symT.
  have nt : ~~ (sym_true ta && sym_true tb) by rewrite /sym_true fa fb.
  apply: finish_ok' => //; [exact: kro_ok|by rewrite /= da db dkron_tr|].
  rewrite /= both_sym_no // (ok_rows ota) (ok_cols ota) (ok_rows otb) (ok_cols otb) da db /=.
  rewrite -!(ok_rows oa) -!(ok_cols oa) -!(ok_rows ob) -!(ok_cols ob).
  by apply: (base_swap oo); rewrite /= both_sym_no.
- move=> f n b IHb k oo; apply: (tstep oo erefl) => ns; have [n0 ob] := ok_idk oo.
  have [tb [-> otb db fb]] := IHb _ ob.
  have nab : ~~ (sym_true b && sym_true b).
    by apply: contra ns => yab; apply: (ctor_sym oo); rewrite /= both_symT.
  have nt : ~~ (sym_true tb && sym_true tb) by rewrite /sym_true fb.
  apply: finish_ok' => //; [exact: idk_ok|by rewrite /= db dkron_tr dtr1|].
  rewrite /= both_sym_no // (ok_rows otb) (ok_cols otb) db /= -!(ok_rows ob) -!(ok_cols ob).
  by apply: (base_swap oo); rewrite /= both_sym_no.
- move=> f a b i IHa IHb k oo; apply: (tstep oo erefl) => ns; have [oa ob sa sab ii] := ok_syk oo.
  have nab : ~~ (sym_true a && sym_true b).
    by apply: contra ns => yab; apply: (ctor_sym oo); rewrite /= both_symT.
  have [ta [-> ota da fa]] := IHa _ oa; have [tb [-> otb db fb]] := IHb _ ob.
  have sta : is_square ta.
    by move: sa; rewrite /is_square (ok_rows ota) (ok_cols ota) da /= (ok_rows oa) (ok_cols oa) eq_sym.
  have [r1 r2] : dshape (dense a) = dshape (dense b) by rewrite -(ok_shape oa) sab (ok_shape ob).
  have st : shape ta = shape tb.
    by rewrite (ok_shape ota) (ok_shape otb) da db /dshape /= r1 r2.
  case: i oo ns ii => oo ns ii.
    apply: finish_ok' => //; [exact: syk_ok|by rewrite /= da dkron_tr|].
    rewrite /= /both_sym; case: ifP => [|_]; last by [].
    rewrite fa /= andbb => ya; case/negP: nab.
    by have [_ e] := ii isT; rewrite /sym_true -e ya.
  apply: finish_ok' => //; [exact: syk_ok| |].
    rewrite /= da db dtrZ dtrD ?dkron_tr //.
    by rewrite /dshape /= r1 r2.
  by rewrite /= both_sym_no // /sym_true fa fb.
- move=> f n k oo; apply: (tstep oo erefl) => ns; apply: finish_ok => //.
  + exact: ok_wf oo.
  + by case/andP: oo.
  + by apply: (base_swap oo); rewrite /= eqxx.
  + by rewrite /= flef_refl.
- move=> f a IH k oo; apply: (tstep oo erefl) => ns; have oa := ok_tra oo.
  apply: finish_ok' => //; first by rewrite /= dtrK.
  by have := flef_swap (cons_ctor oo); rewrite /= swapK.
- move=> f a IH k oo; apply: (tstep oo erefl) => ns; have [oa sa u] := ok_inv oo.
  apply: finish_ok => //.
  + exact: ok_wf oo.
  + by case/andP: oo.
  + by rewrite /rows /cols /=; move: sa; rewrite /is_square /rows /cols => /eqP ->; rewrite /base_flags eqxx.
  + by rewrite /= flef_refl.
- move=> f c a IH k oo; apply: (tstep oo erefl) => ns; have oa := ok_sca oo.
  have [ta [-> ota da fa]] := IH _ oa; have [om dm] := mul_ok c ota.
  have na : ~~ sym_true ta by rewrite /sym_true fa; apply: contra ns => /eqP ya; exact: (ctor_sym oo).
  apply: finish_ok' => //; first by rewrite dm da /= dtrZ.
  apply: flef_trans (mul_flags c ota na) _; rewrite fa.
  exact: (flef_swap (cons_ctor oo)).
- move=> f a IH k oo; apply: (tstep oo erefl) => ns; have oa := ok_neg oo.
  have [ta [-> ota da fa]] := IH _ oa; have [om dm] := mul_ok (-1) ota.
  have na : ~~ sym_true ta by rewrite /sym_true fa; apply: contra ns => /eqP ya; exact: (ctor_sym oo).
  apply: finish_ok' => //; first by rewrite dm da /= dtrZ.
  apply: flef_trans (mul_flags (-1) ota na) _; rewrite fa.
  exact: (flef_swap (cons_ctor oo)).
- move=> f l IH k oo; apply: (tstep oo erefl) => ns; have [l0 ol sl] := ok_list_sum oo.
  have {}IH : eachP (fun a => tres k a (transpose a)) l.
    by apply: (each_mp _ ol); apply: each_impl IH _ => a Ha; exact: Ha.
  have [ts [-> os ds fs]] := tr_list IH; rewrite sequence_some /=.
  case e: (shape (Sum f l)) => [m n]; rewrite e in sl.
  have ss : all (fun s => shape s == (n, m)) ts.
    rewrite -[all _ _](all_map (@shape R) (fun s => s == (n, m))) (shapes_tr ol os ds).
    by rewrite !all_map; apply: sub_all sl => a /= /eqP ->.
  have s0 : (0 < size ts)%N by rewrite -(size_map (@dense R)) ds !size_map.
  have [e0 oe se de] := expand_ok s0 os ss.
  rewrite /sum_ (head_shape s0 ss) ss; apply: finish_ok' => //; first exact: (sum_node e0 oe se).
    by rewrite /= de ds (@radd_tr _ _ m n) ?size_map //; exact: dense_shapes ol sl.
  apply: flef_trans (flef_swap (cons_ctor oo)).
  have m1 (p q : flags -> option bool) : (forall f, p (swap f) = q f) ->
      (forall l', all_flag p l' -> p (sum_flags l') = Some true) ->
      (forall f g, flef f g -> fle (p f) (p g)) ->
      all_flag p (expand_sum ts) -> all_flag q l.
    by move=> pq H1 H2 /(expand_flag os H1 H2); rewrite (all_flag_swap pq fs).
  have nsl : ~~ all_flag f_sym l.
    by apply: contra ns => y; apply: (ctor_sym oo); rewrite /= y.
  have ns2 : all_flag f_sym (expand_sum ts) = false.
    apply: contraNF nsl; apply: m1 => //; first by move=> l' /= ->.
    by move=> g h /and4P[].
  have np2 : all_flag f_pd (expand_sum ts) = false.
    apply: contraNF nsl => y.
    have : all_flag f_pd l.
      move: y; apply: m1 => //; first by move=> l' /= ->.
      by move=> g h /and4P[].
    by apply: all_flag_sub ol => a oa; exact: (pd_sym oa).
  have sy : all_flag f_sym l = false by apply/negbTE.
  rewrite /flef /= ns2 np2 sy (head_shape e0 se) (head_shape l0 sl) /= (eq_sym n) fle_refl /=.
  apply/and3P; split=> //.
  + case: ifP => // y; suff -> : all_flag f_upp l by [].
    move: y; apply: m1 => //; first by move=> l' /= ->.
    by move=> g h /and4P[].
  + case: ifP => // y; suff -> : all_flag f_low l by [].
    move: y; apply: m1 => //; first by move=> l' /= ->.
    by move=> g h /and4P[].
- move=> f l IH k oo; apply: (tstep oo erefl) => ns; have [l0 ol sl] := ok_list_prd oo.
  have {}IH : eachP (fun a => tres k a (transpose a)) l.
    by apply: (each_mp _ ol); apply: each_impl IH _ => a Ha; exact: Ha.
  have [ts [-> os ds fs]] := tr_list IH; rewrite -map_rev sequence_some /=.
  have s0 : (0 < size ts)%N by rewrite -(size_map (@dense R)) ds !size_map.
  have s0' : (0 < size (rev ts))%N by rewrite size_rev.
  have os' : all (ok k) (rev ts) by rewrite all_rev.
  have sl' : sorted (@link R) (rev ts).
    rewrite rev_sorted; move: sl; rewrite -[sorted _ l](@sorted_map _ _ (@shape R) (fun s t => s.2 == t.1)).
    rewrite -[sorted _ ts](@sorted_map _ _ (@shape R) (fun s t => t.2 == s.1)) (shapes_tr ol os ds).
    by case: (map (@shape R) l) => //= x s; rewrite path_map; apply: sub_path => y z /=; rewrite eq_sym.
  have [r [er okr sr dr]] := @prd_ok _ trk k (rev ts) (Prd f l) s0' os' sl'.
  rewrite er; apply: finish_ok' => //.
    rewrite dr map_rev ds rmul_rev_tr ?size_map //; exact: (link_dense ol sl).
  rewrite (prd_flags er) (ok_shape okr) dr map_rev ds rmul_rev_tr ?size_map //; last exact: (link_dense ol sl).
  apply: (base_swap oo); rewrite -[rmul _]/(dense (Prd f l)) /=.
  by have := ok_shape oo; rewrite /dshape /= => -[-> ->].
- move=> f l IH k oo; apply: (tstep oo erefl) => ns; have [l0 ol] := ok_list_blk oo.
  have {}IH : eachP (fun a => tres k a (transpose a)) l.
    by apply: (each_mp _ ol); apply: each_impl IH _ => a Ha; exact: Ha.
  have [ts [-> os ds fs]] := tr_list IH; rewrite sequence_some /=.
  have s0 : (0 < size ts)%N by rewrite -(size_map (@dense R)) ds !size_map.
  have qt : trk -> all (@is_square R) ts.
    move/(ok_sqblk oo) => /=; have := shapes_tr ol os ds.
    rewrite -[all _ l](all_map (@shape R) (fun s => s.1 == s.2)).
    rewrite -[all _ ts](all_map (@shape R) (fun s => s.1 == s.2)) => ->; rewrite !all_map.
    by apply: sub_all => s /=; rewrite eq_sym.
  apply: finish_ok' => //; [exact: blk_ok|by rewrite /= dblock_tr ds|].
  have := flef_swap (cons_ctor oo); rewrite /blk /=.
  rewrite (infer_swap (p := f_sym) (q := f_sym) _ fs) // (infer_swap (p := f_low) (q := f_upp) _ fs) //.
  by rewrite (infer_swap (p := f_upp) (q := f_low) _ fs) // (infer_swap (p := f_pd) (q := f_pd) _ fs).
Qed.
End Ops.
