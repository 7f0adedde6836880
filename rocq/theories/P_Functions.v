(** C28: the algebra of functions is pointwise (M_Functions.v). *)
From mathcomp Require Import all_ssreflect all_algebra.
From Verif Require Import M_Functions.
Set Implicit Arguments.
Unset Strict Implicit.
Unset Printing Implicit Defensive.
Import GRing.Theory.
Local Open Scope ring_scope.

Section Pointwise.
Variable R : comRingType.
Implicit Types (f g h : fn R) (a b x : arr R) (e : expr R).

(** ** Specification *)
Definition wf_arr a : bool := size (dat a) == (\prod_(d <- shp a) d)%N.
(** The value of an expression at [x]: the operations applied to the values of its functions. *)
Fixpoint value (e : expr R) (x : arr R) : option (arr R) :=
  match e with
  | Atom f => call f x
  | EAdd e e' => oadd (value e x) (value e' x)
  | ESub e e' => oadd (value e x) (omap (np_scale (- 1)) (value e' x))
  | EMul e c | ERMul c e => omap (np_scale c) (value e x)
  | ENeg e => omap (np_scale (- 1)) (value e x)
  end.
Fixpoint atoms (e : expr R) : seq (fn R) :=
  match e with
  | Atom f => [:: f]
  | EAdd e e' | ESub e e' => atoms e ++ atoms e'
  | EMul e _ | ERMul _ e | ENeg e => atoms e
  end.
Definition is_zero f : bool := if f is Zero _ _ then true else false.
(** User functions: callables that return arrays, and zero functions. *)
Definition user f : Prop :=
  match f with Lam _ _ g => forall x y, wf_arr x -> g x = Some y -> wf_arr y | Zero _ _ => True | _ => False end.
(** Objects made by the constructors. *)
Fixpoint made (f : fn R) : Prop :=
  match f with
  | Sum i o l => ~~ nilp (l) /\ foldr (fun g P => (ishape g = i /\ oshape g = o /\ made g) /\ P) True l
  | Scaled _ f => made f
  | _ => user f
  end.

(** ** Lemmas *)
Lemma np_addA a b c : obind (fun d => np_add d c) (np_add a b) = obind (np_add a) (np_add b c).
Proof.
rewrite /np_add; case: eqP => [e1|n1] /=; last first.
  by case: eqP => //= e2; case: eqP.
rewrite e1; case: eqP => [e2|n2] //=; rewrite eqxx; congr (Some (Arr _ _)).
move: (dat a) (dat b) (dat c) => {e1 e2} u v w; elim: u v w => [|p u IH] [|q v] [|r w] //=.
by rewrite addrA IH.
Qed.
Lemma oaddA p q r : oadd (oadd p q) r = oadd p (oadd q r) :> option (arr R).
Proof.
case: p q r => [a|] [b|] [c|] //=; first exact: np_addA.
  by case: (np_add a b).
Qed.
Lemma np_scaleD c a b : omap (np_scale c) (np_add a b) = np_add (np_scale c a) (np_scale c b).
Proof.
rewrite /np_add /=; case: eqP => //= _; congr (Some (Arr _ _)).
move: (dat a) (dat b) => u v; elim: u v => [|p u IH] [|q v] //=.
by rewrite mulrDr IH.
Qed.
Lemma np_scaleA c d a : np_scale c (np_scale d a) = np_scale (c * d) a.
Proof. by rewrite /np_scale -map_comp; congr Arr; apply: eq_map => x /=; rewrite mulrA. Qed.
Lemma call_shape f x y : call f x = Some y ->
  drop (size (shp x) - size (ishape f)) (shp x) = ishape f /\ shp y = batch (ishape f) x ++ oshape f.
Proof.
have : forall fx, checked (ishape f) (oshape f) x fx = Some y ->
    drop (size (shp x) - size (ishape f)) (shp x) = ishape f /\ shp y = batch (ishape f) x ++ oshape f.
  by move=> fx; rewrite /checked; case: eqP => //= e; case: fx => // z; case: eqP => // e' [<-].
by case: f => [i o g|i o|i o l|c f] H; apply: H.
Qed.
(** A checked result that already has the shape of a call. *)
Lemma checkedK i o x fx : (forall y, fx = Some y -> drop (size (shp x) - size i) (shp x) = i /\ shp y = batch i x ++ o) ->
  checked i o x fx = fx.
Proof.
rewrite /checked; case: fx => [y|] H; last by rewrite if_same.
by have [-> ->] := H y erefl; rewrite !eqxx.
Qed.
Lemma scale_shape c a : shp (np_scale c a) = shp a. Proof. by []. Qed.
Lemma callScaled c f x : call (Scaled c f) x = omap (np_scale c) (call f x).
Proof.
rewrite /= checkedK // => y; case E : (call f x) => [z|] //= [<-].
by have := call_shape E.
Qed.
Lemma np_add_shape a b c : np_add a b = Some c -> shp c = shp a /\ shp c = shp b.
Proof. by rewrite /np_add; case: eqP => // e [<-]. Qed.
Lemma oadd_some p q c : oadd p q = Some c -> exists a b, [/\ p = Some a, q = Some b & np_add a b = Some c].
Proof. by case: p q => [a|] [b|] //= e; exists a, b. Qed.

Definition sums (l : seq (fn R)) (x : arr R) : option (arr R) :=
  if l is f0 :: l' then foldl (fun (p : option (arr R)) g => oadd p (call g x)) (call f0 x) l' else None.
Lemma sums_cons f l x : ~~ nilp (l) -> sums (f :: l) x = oadd (call f x) (sums l x).
Proof.
case: l => // g l _ /=; move: (call f x) (call g x) => p q.
elim: l p q => [|h l IH] p q //=; by rewrite oaddA IH.
Qed.
Lemma sums_cat l m x : ~~ nilp (l) -> ~~ nilp (m) -> sums (l ++ m) x = oadd (sums l x) (sums m x).
Proof.
move=> ln mn; elim: l ln => // f [|g l] IH _; first by rewrite cat1s sums_cons.
have n0 : ~~ nilp ((g :: l) ++ m) by [].
by rewrite cat_cons sums_cons // IH // [sums [:: f, g & l] x]sums_cons // oaddA.
Qed.
Lemma sums_rcons l f x : ~~ nilp (l) -> sums (rcons l f) x = oadd (sums l x) (call f x).
Proof. by move=> ln; rewrite -cats1 sums_cat. Qed.
Lemma sums_shape i o l x y : all (fun g => ishape g == i) l -> all (fun g => oshape g == o) l ->
  sums l x = Some y -> drop (size (shp x) - size i) (shp x) = i /\ shp y = batch i x ++ o.
Proof.
elim: l y => // f [|g l] IH y.
  by rewrite /= !andbT => /eqP <- /eqP <- /call_shape.
move=> /andP[/eqP fi ai] /andP[/eqP fo ao]; rewrite sums_cons // => /oadd_some [a [b [e1 e2 e3]]].
have [h1 h2] := call_shape e1; have [h3 _] := np_add_shape e3.
by rewrite h3 h2 -fi -fo.
Qed.
Lemma madeSum i o l : made (Sum i o l) -> [/\ ~~ nilp (l), all (fun g => ishape g == i) l,
  all (fun g => oshape g == o) l & forall n, (n < size l)%N -> made (nth (Zero R i o) l n)].
Proof.
case=> ln H; split=> //.
- by elim: l H {ln} => //= g l IH [[-> _] /IH ->]; rewrite eqxx.
- by elim: l H {ln} => //= g l IH [[_ [-> _]] /IH ->]; rewrite eqxx.
by elim: l H {ln} => //= g l IH [[_ [_ h]] /IH H] [|n] //=; apply: H.
Qed.
Lemma madeSumI i o l : ~~ nilp (l) -> all (fun g => ishape g == i) l -> all (fun g => oshape g == o) l ->
  (forall n, (n < size l)%N -> made (nth (Zero R i o) l n)) -> made (Sum i o l).
Proof.
move=> ln ai ao H /=; split=> {ln}//; elim: l ai ao H => //= g l IH /andP[/eqP -> ai] /andP[/eqP -> ao] H.
split; first by split=> //; split=> //; exact: (H 0%N).
by apply: IH => // n nl; exact: (H n.+1).
Qed.
Lemma callSum i o l x : made (Sum i o l) -> call (Sum i o l) x = sums l x.
Proof.
move=> /madeSum [ln ai ao _]; rewrite -[LHS]/(checked i o x (sums l x)).
by apply: checkedK => y; exact: sums_shape.
Qed.
(** Results of calls are arrays. *)
Lemma fn_rec (P : fn R -> Prop) : (forall i o (g : arr R -> option (arr R)), P (Lam i o g)) -> (forall i o, P (Zero R i o)) ->
  (forall i o l, (forall n, (n < size l)%N -> P (nth (Zero R i o) l n)) -> P (Sum i o l)) ->
  (forall c f, P f -> P (Scaled c f)) -> forall f, P f.
Proof.
move=> h1 h2 h3 h4; fix IH 1 => -[i o g|i o|i o l|c f].
- exact: h1.
- exact: h2.
- apply: h3; elim: l => [n nl|g l IHl [|n] nl]; first by exfalso; move: nl; rewrite ltn0.
    exact: (IH g).
  exact: (IHl n nl).
exact: (h4 c f (IH f)).
Qed.
Lemma wf_scale c a : wf_arr a -> wf_arr (np_scale c a).
Proof. by rewrite /wf_arr /= size_map. Qed.
Lemma wf_add a b c : wf_arr a -> wf_arr b -> np_add a b = Some c -> wf_arr c.
Proof.
rewrite /np_add; case: eqP => // e /eqP wa /eqP wb [<-]; rewrite /wf_arr /= size_map size_zip wa wb e.
by rewrite minnn.
Qed.
Lemma call_wf f x y : wf_arr x -> made f -> call f x = Some y -> wf_arr y.
Proof.
move=> wx; elim/fn_rec: f y => [i o g|i o|i o l IH|c f IH] y mf.
- rewrite /= /checked; case: ifP => // _; case E : (g x) => [z|] //; case: ifP => // _ [<-].
  exact: mf wx E.
- rewrite /= /checked; case: ifP => // _; case: ifP => // _ [<-].
  by rewrite /wf_arr /= size_nseq.
- rewrite callSum //; have [ln ai ao ml] := madeSum mf; clear ai ao mf.
  elim: l ln IH ml y => // f [|g l] IHl _ IH ml y.
    by apply: (IH 0%N) => //; exact: (ml 0%N).
  rewrite sums_cons // => /oadd_some [a [b [e1 e2 e3]]].
  apply: wf_add e3; first by apply: (IH 0%N) => //; exact: (ml 0%N).
  by apply: (IHl isT _ _ _ e2) => n nl; [exact: (IH n.+1)|exact: (ml n.+1)].
rewrite callScaled; case E : (call f x) => [z|] //= [<-]; apply: wf_scale; exact: IH E.
Qed.
(** Zero functions of the right shape are neutral. *)
Lemma add_zeros a s : wf_arr a -> shp a = s -> np_add a (np_zeros R s) = Some a.
Proof.
case: a => s' d; rewrite /wf_arr /= => /eqP w <-; rewrite /np_add eqxx /= -w; congr (Some (Arr _ _)).
by elim: d {w} => //= z d ->; rewrite addr0.
Qed.
Lemma zeros_add a s : wf_arr a -> shp a = s -> np_add (np_zeros R s) a = Some a.
Proof.
case: a => s' d; rewrite /wf_arr /= => /eqP w <-; rewrite /np_add eqxx /= -w; congr (Some (Arr _ _)).
by elim: d {w} => //= z d ->; rewrite add0r.
Qed.
Lemma call_zero i o x : drop (size (shp x) - size i) (shp x) = i -> call (Zero R i o) x = Some (np_zeros R (batch i x ++ o)).
Proof. by rewrite /= /checked => ->; rewrite !eqxx. Qed.
Lemma call_none f x : drop (size (shp x) - size (ishape f)) (shp x) != ishape f -> call f x = None.
Proof.
have : forall fx, drop (size (shp x) - size (ishape f)) (shp x) != ishape f -> checked (ishape f) (oshape f) x fx = None.
  by move=> fx; rewrite /checked => ->.
by case: f => [i o g|i o|i o l|c f] H; apply: H.
Qed.
Lemma addf0 f i o x : wf_arr x -> made f -> ishape f = i -> oshape f = o -> oadd (call f x) (call (Zero R i o) x) = call f x.
Proof.
move=> wx mf ei eo; case E : (call f x) => [a|] //; have [h1 h2] := call_shape E; rewrite ei eo in h1 h2.
by rewrite call_zero //=; apply: add_zeros => //; exact: call_wf wx mf E.
Qed.
Lemma add0f f i o x : wf_arr x -> made f -> ishape f = i -> oshape f = o -> oadd (call (Zero R i o) x) (call f x) = call f x.
Proof.
move=> wx mf ei eo; case E : (call f x) => [a|]; last by case: (call _ _).
have [h1 h2] := call_shape E; rewrite ei eo in h1 h2.
by rewrite call_zero //=; apply: zeros_add => //; exact: call_wf wx mf E.
Qed.

(** ** The operations *)
Definition good i o f : Prop := [/\ made f, ishape f = i & oshape f = o].
Lemma mk_sum_good i o l : ~~ nilp (l) -> all (fun g => ishape g == i) l -> all (fun g => oshape g == o) l ->
  (forall n, (n < size l)%N -> made (nth (Zero R i o) l n)) ->
  exists h, [/\ mk_sum l = Some h, good i o h & forall x, call h x = sums l x].
Proof.
case: l => // f l _ ai ao ml; exists (Sum i o (f :: l)).
have m : made (Sum i o (f :: l)) by exact: madeSumI.
split; [|by split|by move=> x; rewrite callSum].
case/andP: (ai) => /eqP e1 _; case/andP: (ao) => /eqP e2 _.
by rewrite /mk_sum e1 e2 ai ao.
Qed.
Lemma rmul_good i o c f : good i o f -> good i o (rmul c f) /\ forall x, call (rmul c f) x = omap (np_scale c) (call f x).
Proof.
case=> mf ei eo; case: f mf ei eo => [i' o' g|i' o'|i' o' l|d f] mf ei eo; split; try by split.
all: try by move=> x; rewrite -callScaled.
by move=> x; rewrite !callScaled; case: (call f x) => //= a; rewrite np_scaleA.
Qed.
Lemma mulE f c : mul f c = rmul c f.
Proof. by case: f => // d f; rewrite /mul /rmul mulrC. Qed.
Lemma add_good i o f g : good i o f -> good i o g ->
  exists h, [/\ add f g = Some h, good i o h & forall x, wf_arr x -> call h x = oadd (call f x) (call g x)].
Proof.
move=> gf gg; case: (gf) (gg) => mf fi fo [mg gi go].
have two : exists h, [/\ mk_sum [:: f; g] = Some h, good i o h & forall x, wf_arr x -> call h x = oadd (call f x) (call g x)].
  have [||||h [h1 h2 h3]] := @mk_sum_good i o [:: f; g] => //.
  - by rewrite /= fi gi !eqxx.
  - by rewrite /= fo go !eqxx.
  - by case=> [|[|n]].
  by exists h; split=> // x _; exact: h3.
have one m : g = Sum i o m -> exists h, [/\ mk_sum (f :: m) = Some h, good i o h & forall x, wf_arr x -> call h x = oadd (call f x) (call g x)].
  move=> eg; have [mn ai ao mm] : [/\ ~~ nilp (m), all (fun g => ishape g == i) m, all (fun g => oshape g == o) m &
     forall n, (n < size m)%N -> made (nth (Zero R i o) m n)] by apply: madeSum; rewrite -eg.
  have [||||h [h1 h2 h3]] := @mk_sum_good i o (f :: m) => //.
  - by rewrite /= fi eqxx.
  - by rewrite /= fo eqxx.
  - by case=> [|n] //=; exact: mm.
  by exists h; split=> // x wx; rewrite h3 sums_cons // eg callSum // -eg.
have many l : f = Sum i o l -> exists h, [/\ mk_sum (rcons l g) = Some h, good i o h & forall x, wf_arr x -> call h x = oadd (call f x) (call g x)].
  move=> ef; have [mn ai ao mm] : [/\ ~~ nilp (l), all (fun g => ishape g == i) l, all (fun g => oshape g == o) l &
     forall n, (n < size l)%N -> made (nth (Zero R i o) l n)] by apply: madeSum; rewrite -ef.
  have [||||h [h1 h2 h3]] := @mk_sum_good i o (rcons l g) => //.
  - by case: (l).
  - by rewrite all_rcons gi eqxx.
  - by rewrite all_rcons go eqxx.
  - move=> n; rewrite size_rcons ltnS leq_eqVlt nth_rcons => /orP[/eqP ->|nl].
      by rewrite ltnn eqxx.
    by rewrite nl; exact: mm.
  by exists h; split=> // x wx; rewrite h3 sums_rcons // ef callSum // -ef.
have all_ l m : f = Sum i o l -> g = Sum i o m ->
    exists h, [/\ mk_sum (l ++ m) = Some h, good i o h & forall x, wf_arr x -> call h x = oadd (call f x) (call g x)].
  move=> ef eg; have [ln ai ao mm] : [/\ ~~ nilp (l), all (fun g => ishape g == i) l, all (fun g => oshape g == o) l &
     forall n, (n < size l)%N -> made (nth (Zero R i o) l n)] by apply: madeSum; rewrite -ef.
  have [ln' ai' ao' mm'] : [/\ ~~ nilp (m), all (fun g => ishape g == i) m, all (fun g => oshape g == o) m &
     forall n, (n < size m)%N -> made (nth (Zero R i o) m n)] by apply: madeSum; rewrite -eg.
  have [||||h [h1 h2 h3]] := @mk_sum_good i o (l ++ m) => //.
  - by case: (l) ln.
  - by rewrite all_cat ai.
  - by rewrite all_cat ao.
  - move=> n; rewrite size_cat nth_cat; case: (ltnP n (size l)) => [nl _|nl nm]; first exact: mm.
    by apply: mm'; rewrite ltn_subLR.
  by exists h; split=> // x wx; rewrite h3 sums_cat // ef eg !callSum // -?ef -?eg.
have right m : g = m -> exists h, [/\ (match m with Zero _ _ => Some f | Sum _ _ m' => mk_sum (f :: m') | _ => mk_sum [:: f; g] end) = Some h,
    good i o h & forall x, wf_arr x -> call h x = oadd (call f x) (call g x)].
  case: m => // [i' o'|i' o' m] eg; last first.
    have [e1 e2] : i' = i /\ o' = o by move: gi go; rewrite eg.
    by apply: one; rewrite eg e1 e2.
  exists f; split=> // x wx; rewrite eg addf0 //; first by rewrite fi -gi eg.
  by rewrite fo -go eg.
case: f gf mf fi fo two one many all_ right => [i' o' u|i' o'|i' o' l|c f] gf mf fi fo two one many all_ right.
- by case: g gg mg gi go two one many all_ right => [a b v|a b|a b m|d g] gg mg gi go two one many all_ right; apply: (right _ erefl).
- by exists g; split=> // x wx; rewrite add0f // ?gi ?go.
- have ef : Sum i' o' l = Sum i o l by rewrite -[i']/(ishape (Sum i' o' l)) -[o']/(oshape (Sum i' o' l)) fi fo.
  case: g gg mg gi go two one many all_ right => [a b u|a b|a b m|c g] gg mg gi go two one many all_ right; try by apply: many.
  apply: all_ => //; by rewrite -[a]/(ishape (Sum a b m)) -[b]/(oshape (Sum a b m)) gi go.
by case: g gg mg gi go two one many all_ right => [a b v|a b|a b m|d g] gg mg gi go two one many all_ right; apply: (right _ erefl).
Qed.
Lemma sub_good i o f g : good i o f -> good i o g ->
  exists h, [/\ sub f g = Some h, good i o h & forall x, wf_arr x -> call h x = oadd (call f x) (omap (np_scale (- 1)) (call g x))].
Proof.
move=> gf gg; have [gn en] := rmul_good (- 1) gg.
have [h [h1 h2 h3]] := add_good gf gn.
have nS k : ~~ is_zero g -> k = add f (neg g) -> k = Some h by move=> _ ->.
case: (gf) => mf fi fo; case zg : (is_zero g); last first.
  exists h; split=> //; last by move=> x wx; rewrite h3 // en.
  rewrite -h1; case: (g) zg => [a b u|a b|a b m|c k] // _; by case: (f).
have z0 x (wx : wf_arr x) : oadd (call f x) (omap (np_scale (- 1)) (call g x)) = call f x.
  have -> : omap (np_scale (- 1)) (call g x) = call (Zero R i o) x.
    have -> : g = Zero R i o by case: (g) zg gg => // a b _ [_ /= -> ->].
    rewrite /= /checked; case: ifP => //= _; rewrite eqxx /= /np_scale /np_zeros /= map_nseq mulr0 //.
  by rewrite addf0.
case: f gf mf fi fo {nS} h1 h3 z0 => [a b u|a b|a b l|c k] gf mf fi fo h1 h3 z0.
- by exists (Lam a b u); split=> // [|x wx]; [|by rewrite z0]; case: (g) zg.
- exists (neg g); split=> // x wx; rewrite z0 // en.
  have -> : g = Zero R i o by case: (g) zg gg => // a' b' _ [_ /= -> ->].
  rewrite /= in fi fo; rewrite fi fo /= /checked; case: ifP => //= _; rewrite eqxx /= /np_scale /np_zeros /= map_nseq mulr0 //.
- exists h; split=> // [|x wx]; last by rewrite h3 // en.
  by rewrite -h1; case: (g) zg.
by exists (Scaled c k); split=> // [|x wx]; [|by rewrite z0]; case: (g) zg.
Qed.

(** C28: every expression in functions of equal shapes builds a function of these shapes, and calling
    it gives the operations applied to the values of the functions. *)
Theorem C28_pointwise i o e :
  foldr (fun f P => (user f /\ ishape f = i /\ oshape f = o) /\ P) True (atoms e) ->
  exists h, [/\ build e = Some h, ishape h = i, oshape h = o & forall x, wf_arr x -> call h x = value e x].
Proof.
have cat_ l m : foldr (fun f P => (user f /\ ishape f = i /\ oshape f = o) /\ P) True (l ++ m) ->
    foldr (fun f P => (user f /\ ishape f = i /\ oshape f = o) /\ P) True l /\
    foldr (fun f P => (user f /\ ishape f = i /\ oshape f = o) /\ P) True m.
  by elim: l => //= f l IH [uf /IH [Hl Hm]].
move=> H; have [h [h1 [_ h2 h3] h4]] : exists h, [/\ build e = Some h, good i o h & forall x, wf_arr x -> call h x = value e x].
  elim: e H => [f|e IH e' IH'|e IH e' IH'|e IH c|c e IH|e IH] /=.
  - case=> -[uf [fi fo]] _; exists f; split=> //; split=> //; by case: (f) uf.
  - move=> /cat_ [/IH [f [-> gf cf]] /IH' [g [-> gg cg]]]; have [h [h1 h2 h3]] := add_good gf gg.
    by exists h; split=> // x wx; rewrite h3 // cf // cg.
  - move=> /cat_ [/IH [f [-> gf cf]] /IH' [g [-> gg cg]]]; have [h [h1 h2 h3]] := sub_good gf gg.
    by exists h; split=> // x wx; rewrite h3 // cf // cg.
  - move=> /IH [f [-> gf cf]]; have [g1 g2] := rmul_good c gf.
    by exists (rmul c f); rewrite /= mulE; split=> // x wx; rewrite g2 cf.
  - move=> /IH [f [-> gf cf]]; have [g1 g2] := rmul_good c gf.
    by exists (rmul c f); split=> // x wx; rewrite g2 cf.
  move=> /IH [f [-> gf cf]]; have [g1 g2] := rmul_good (- 1) gf.
  by exists (neg f); split=> // x wx; rewrite g2 cf.
by exists h.
Qed.

(** ... and functions of different shapes, none of them [Zero], can neither be added nor subtracted. *)
Let shapes f : seq nat * seq nat := (ishape f, oshape f).
Lemma mk_sum_none l s t : has (fun k => shapes k == s) l -> has (fun k => shapes k == t) l -> s <> t ->
  mk_sum l = None.
Proof.
case: l => // f l hs ht; case E : (mk_sum _) => [h|] // []; move: E; rewrite /mk_sum; case: ifP => // /andP[ai ao] _.
have A k r : has (fun k => shapes k == r) k -> all (fun g => ishape g == ishape f) k ->
    all (fun g => oshape g == oshape f) k -> r = shapes f.
  by elim: k => //= g k IH /orP[/eqP <- /andP[/eqP e1 _] /andP[/eqP e2 _]|h' /andP[_ ?] /andP[_ ?]]; [rewrite /shapes e1 e2|exact: IH].
by rewrite (A _ _ hs ai ao) (A _ _ ht ai ao).
Qed.
Lemma made_has i o l : made (Sum i o l) -> has (fun k => shapes k == (i, o)) l.
Proof. by case: l => [[]//|g l] /= [_ [[e1 [e2 _]] _]]; rewrite /shapes e1 e2 eqxx. Qed.
Theorem C28_raises f g : made f -> made g -> ~~ is_zero f -> ~~ is_zero g ->
  (ishape f, oshape f) <> (ishape g, oshape g) -> add f g = None /\ sub f g = None.
Proof.
move=> mf mg zf zg ne.
have two k : shapes k = shapes g -> mk_sum [:: f; k] = None.
  by move=> e; apply: (mk_sum_none _ _ ne) => /=; rewrite ?e eqxx ?orbT.
have many l k : f = Sum (ishape f) (oshape f) l -> shapes k = shapes g -> mk_sum (rcons l k) = None.
  move=> ef e; apply: (mk_sum_none _ _ ne); rewrite has_rcons; last by rewrite e eqxx.
  by rewrite made_has ?orbT // -ef.
have nS : shapes (neg g) = shapes g by case: (g).
have eS : forall h, h = f \/ h = g -> forall i o l, h = Sum i o l -> h = Sum (ishape h) (oshape h) l by move=> h _ i o l ->.
case: f mf zf ne two many eS => [i o u|i o|i o l|c f] mf zf ne two many eS //.
- split; last by case: (g) zg nS two => [a b v|a b|a b m|d k] // _ nS' two'; apply: two'.
  case: g mg zg ne two many nS eS => [i' o' v|i' o'|i' o' m|d g] mg zg ne two many nS eS //; try exact: two.
  by apply: (mk_sum_none _ _ ne); rewrite /= ?eqxx // made_has // orbT.
- split; last by apply: many.
  case: g mg zg ne two many nS eS => [i' o' v|i' o'|i' o' m|d g] mg zg ne two many nS eS //; try exact: many.
  by apply: (mk_sum_none _ _ ne); rewrite has_cat; apply/orP; [left; exact: made_has mf|right; exact: made_has mg].
split; last by case: (g) zg nS two => [a b v|a b|a b m|d k] // _ nS' two'; apply: two'.
case: g mg zg ne two many nS eS => [i' o' v|i' o'|i' o' m|d g] mg zg ne two many nS eS //; try exact: two.
by apply: (mk_sum_none _ _ ne); rewrite /= ?eqxx // made_has // orbT.
Qed.
End Pointwise.

Print Assumptions C28_pointwise.
Print Assumptions C28_raises.

(** ** Cases *)
Section Cases.
(** Two functions of vectors of length 2 over the integers: squares and negatives, and one of
    vectors of length 3. *)
Definition sq : fn int_comRing := Lam [:: 2]%N [:: 2]%N (fun x => Some (Arr (shp x) [seq z * z | z <- dat x])).
Definition op : fn int_comRing := Lam [:: 2]%N [:: 2]%N (fun x => Some (Arr (shp x) [seq - z | z <- dat x])).
Definition op3 : fn int_comRing := Lam [:: 3]%N [:: 3]%N (fun x => Some (Arr (shp x) [seq - z | z <- dat x])).
Definition zz : fn int_comRing := Zero _ [:: 2]%N [:: 2]%N.
(** [-(2 * sq - op * 3) + (zz + sq)], on a batch of two vectors. *)
Definition ex : expr int_comRing :=
  EAdd (ENeg (ESub (ERMul 2 (Atom sq)) (EMul (Atom op) 3))) (EAdd (Atom zz) (Atom sq)).
Definition pts : arr int_comRing := Arr [:: 2; 2]%N [:: 1; 2; 3; -1].
Example C28_case : foldr (fun f P => (user f /\ ishape f = [:: 2]%N /\ oshape f = [:: 2]%N) /\ P) True (atoms ex) /\
  obind (fun h => call h pts) (build ex) = Some (Arr [:: 2; 2]%N [:: -4; -10; -18; 2]).
Proof.
split; last by vm_compute.
by rewrite /=; do !split=> //; move=> x y wx [<-]; rewrite /wf_arr /= size_map.
Qed.
Example C28_raises_case : add sq op3 = None /\ sub sq op3 = None.
Proof. by apply: C28_raises => // x y wx [<-]; rewrite /wf_arr /= size_map. Qed.
End Cases.

(** C113: an addition of functions of different shapes raises. False with [Zero]: the sum of the zero
    function on vectors of length 2 and a function on vectors of length 3 is accepted, and so are the
    sum in the other order and both differences; calling the result on vectors of length 2 raises. *)
Theorem C113_zero_refuted : exists f : fn int_comRing, exists g : fn int_comRing,
  [/\ user f, user g & ishape f <> ishape g] /\
  [/\ add f g = Some g, add g f = Some g, sub f g = Some (neg g) & sub g f = Some g].
Proof. by exists zz, op3; split=> //; split=> // x y wx [<-]; rewrite /wf_arr /= size_map. Qed.
Print Assumptions C113_zero_refuted.
