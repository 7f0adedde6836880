(** Lemmas about time series containers. *)
From mathcomp Require Import all_ssreflect all_algebra.
From Verif Require Import M_Series.
Set Implicit Arguments.
Unset Strict Implicit.
Unset Printing Implicit Defensive.
Import Order.Theory GRing.Theory Num.Theory.
Local Open Scope ring_scope.

Section Posterior.
Variables (T : realFieldType) (St : Type) (st0 : St).
Implicit Types (p : posterior T St) (t : T).
Notation lt_sorted l := (sorted <%O l).

(** Specification: the pairs of the [Append]s that did not raise. *)
Fixpoint accepted (os : seq (op T St)) (bs : seq bool) : seq (T * St) :=
  match os, bs with
  | Append t s :: os', b :: bs' => if b then accepted os' bs' else (t, s) :: accepted os' bs'
  | Freeze :: os', _ :: bs' => accepted os' bs'
  | _, _ => [::]
  end.
Definition good p := lt_sorted (locs p) /\ size (states p) = size (locs p).

Lemma lt_sorted_last (l : seq T) x : lt_sorted l -> x \in l -> x <= last 0 l.
Proof.
elim/last_ind: l => // l y _ s; rewrite mem_rcons last_rcons in_cons => /orP[/eqP ->//|xl].
by have := s; rewrite (sorted_pairwise lt_trans) pairwise_rcons => /andP[/allP/(_ x xl)/ltW].
Qed.

Lemma append_NoneP p t s : good p ->
  append p t s = None <-> frozen p \/ exists2 x, x \in locs p & t <= x.
Proof.
move=> [so sz]; rewrite /append; case: (frozen p); first by split=> // _; left.
case E: (locs p) => [|y l] /=; first by split=> // -[|[]].
case: ifP => le; split=> //; last first.
  case=> // -[x xl tx]; have := @lt_sorted_last (y :: l) x; rewrite -E => /(_ so).
  by rewrite E => /(_ xl)/(le_trans tx)/=; rewrite le.
by move=> _; right; exists (last y l) => //; apply: mem_last.
Qed.

Lemma append_good p t s q : good p -> append p t s = Some q ->
  good q /\ zip (locs q) (states q) = rcons (zip (locs p) (states p)) (t, s).
Proof.
move=> [so sz]; rewrite /append; case: (frozen p) => //; case: ifP => // H [<-] /=.
split; last by rewrite zip_rcons.
split; last by rewrite !size_rcons sz.
rewrite /= (sorted_pairwise lt_trans) pairwise_rcons -(sorted_pairwise lt_trans) so andbT.
apply/allP => x xl; have := lt_sorted_last so xl.
move=> le; apply: (le_lt_trans le); rewrite ltNge; apply/negP => tl.
by move: H; rewrite tl andbT; case: (locs p) xl.
Qed.

Lemma run_good os : forall p q bs, good p -> run p os = (q, bs) ->
  good q /\ zip (locs q) (states q) = zip (locs p) (states p) ++ accepted os bs.
Proof.
elim: os => [|o os IH] p q bs g /=; first by case=> <- _; rewrite cats0.
case: o => [t s|] /=.
  case E: (append p t s) => [r|].
    case R: (run r os) => [x cs] [<- <-] /=.
    have [g' z] := append_good g E; have [gx ->] := IH _ _ _ g' R; split=> //.
    by rewrite z cat_rcons.
  by case R: (run p os) => [x cs] [<- <-] /=; exact: (IH _ _ _ g R).
case R: (run (freeze p) os) => [x cs] [<- <-] /=.
by apply: (IH (freeze p) _ _ _ R).
Qed.

(** ** Evaluation *)
Lemma amin_head x (l : seq T) : lt_sorted (x :: l) -> amin (x :: l) = x.
Proof.
move=> s; rewrite /amin /=; apply/min_idPl.
have : all (fun y => x <= y) l.
  by have := s; rewrite (sorted_pairwise lt_trans) /= => /andP[/allP H _]; apply/allP => y /H/ltW.
by elim: l {s} => //= y l IH /andP[xy /IH]; rewrite le_minr xy.
Qed.
Lemma amax_last (l : seq T) : lt_sorted l -> (0 < size l)%N -> amax l = last 0 l.
Proof.
move=> s; have : forall y, y \in l -> y <= last 0 l by move=> y; apply: lt_sorted_last.
rewrite /amax; case: l s => // x l s H _.
have L : last 0 (x :: l) \in x :: l by rewrite /= mem_last.
move: H L; rewrite [head _ _]/=; move: (last 0 _) => m.
have G : forall l', (forall y, y \in l' -> y <= m) -> x <= m ->
  foldr Num.max x l' <= m /\ (m \in l' -> foldr Num.max x l' = m).
  elim=> [|y l' IH] H xm //=; have [z zl|H1 H2] := IH _ xm; first by rewrite H // in_cons zl orbT.
  split; first by rewrite le_maxl H1 H ?mem_head.
  rewrite in_cons => /orP[/eqP my|/H2 ->]; last by apply/max_idPr; rewrite H ?mem_head.
  by rewrite -my; apply/max_idPl.
by move=> H L; have [_ ->] := G (x :: l) H (H _ (mem_head _ _)).
Qed.

Lemma searchsorted_nth (l : seq T) i : lt_sorted l -> (i < size l)%N ->
  searchsorted l (nth 0 l i) = i.
Proof.
rewrite /searchsorted; elim: l i => //= x l IH [|i]; first by rewrite lexx.
rewrite ltnS => s lt /=; rewrite IH //; last exact: path_sorted s.
have := s; rewrite -[path _ _ _]/(lt_sorted (x :: l)) (sorted_pairwise lt_trans) /= => /andP[/allP H _].
by rewrite leNgt H ?mem_nth.
Qed.
Lemma searchsorted_between (l : seq T) k t : lt_sorted l -> (k.+1 < size l)%N ->
  nth 0 l k < t < nth 0 l k.+1 -> searchsorted l t = k.+1.
Proof.
rewrite /searchsorted; elim: l k => //= x l IH k s; rewrite ltnS => lt /andP[l1 l2].
have := s; rewrite -[path _ _ _]/(lt_sorted (x :: l)) (sorted_pairwise lt_trans) /= => /andP[/allP H _].
have xt : x < t.
  by case: k lt l1 {l2} => //= k lt l1; apply: lt_trans l1; rewrite H ?mem_nth 1?ltnW.
rewrite leNgt xt /=; congr _.+1; case: k lt l1 l2 => [|k] lt /= l1 l2.
  by case: l lt l2 {IH s H} => //= y l _ /ltW ->.
by rewrite (IH k) ?l1 //; exact: path_sorted s.
Qed.

Variable dense : nat -> option nat -> T -> option St.
Notation ev p x :=
  (if x < amin (locs p) then interpolate st0 p dense x None (Some 0%N)
   else if amax (locs p) < x then interpolate st0 p dense x (Some (size (locs p)).-1) None
   else let j := searchsorted (locs p) x in
        interpolate st0 p dense x (Some (pyprev (size (locs p)) j)) (Some j)).

Lemma ltNsorted (x : T) l : sorted <=%O (x :: l) -> forall y, y \in l -> x <= y.
Proof. by rewrite /= (path_sortedE le_trans) => /andP[/allP H _]. Qed.

Lemma call1E p t : (0 < size (locs p))%N -> call1 st0 p dense t = ev p t.
Proof.
move=> n0; rewrite /call1 /call /= (gtn_eqF n0).
set a := amin _; set b := amax _.
have ab : a <= b.
  rewrite /a /b; case: (locs p) n0 => // x l _; rewrite /amin /amax /=.
  by rewrite le_minl le_maxr lexx.
case: (ltP t a) => ta /=.
  by rewrite lt_gtF ?(lt_le_trans ta) //=; case: (interpolate _ _ _ _ _ _).
case: (ltP b t) => tb /=; first by case: (interpolate _ _ _ _ _ _).
by case: (interpolate _ _ _ _ _ _).
Qed.

Lemma callE p ts : (0 < size (locs p))%N -> sorted <=%O ts ->
  call st0 p dense ts = seqo [seq call1 st0 p dense t | t <- ts].
Proof.
move=> n0 so; rewrite (eq_map (fun t => call1E t n0)) /call so /= (gtn_eqF n0) /=.
set a := amin _; set b := amax _; congr seqo.
have ab : a <= b.
  rewrite /a /b; case: (locs p) n0 => // x l _; rewrite /amin /amax /=.
  by rewrite le_minl le_maxr lexx.
elim: ts so => // t ts IH so; have so' := path_sorted so; have H := ltNsorted so.
have nil (P : pred T) : (forall y, y \in ts -> ~~ P y) -> [seq x <- ts | P x] = [::].
  by move=> F; apply/eqP; rewrite -(negbK (_ == _)) -has_filter; apply/negP => /hasP[y /F/negP].
rewrite [map _ (t :: ts)]/= -IH //=; case: (ltP t a) => ta /=.
  by rewrite [b < t]lt_gtF ?(lt_le_trans ta).
rewrite (nil (fun x => x < a)); last by move=> y /H; rewrite -leNgt => /(le_trans ta).
case: (ltP b t) => tb //=.
by rewrite (nil (fun x => (a <= x) && (x <= b))) // => y /H/(lt_le_trans tb)/lt_geF ->; rewrite andbF.
Qed.

Lemma call1_stored p i : good p -> (i < size (locs p))%N ->
  call1 st0 p dense (nth 0 (locs p) i) = Some (nth st0 (states p) i).
Proof.
move=> [so sz] lt; have n0 := leq_trans (ltn0Sn _) lt; rewrite call1E //.
have ge : amin (locs p) <= nth 0 (locs p) i.
  case: (locs p) so n0 lt => // x l so _ lt; rewrite (amin_head so).
  by case: i lt => //= i lt; apply: (ltNsorted (sub_sorted (@ltW _ _) so)); rewrite mem_nth.
have le : nth 0 (locs p) i <= amax (locs p) by rewrite amax_last // lt_sorted_last ?mem_nth.
rewrite ltNge ge [amax _ < _]ltNge le /= searchsorted_nth // /interpolate eqxx.
case: ifP => //= /eqP E; congr (Some (nth _ _ _)); apply/eqP.
rewrite -(nth_uniq 0 _ lt (sorted_uniq lt_trans ltxx so)); first by rewrite -E.
by case: i lt {ge le E} => [|i] lt; rewrite /pyprev ?prednK // ltnW.
Qed.
Lemma call1_between p k t : good p -> (k.+1 < size (locs p))%N ->
  nth 0 (locs p) k < t < nth 0 (locs p) k.+1 ->
  call1 st0 p dense t = dense k (Some k.+1) t.
Proof.
move=> [so sz] lt bt; have n0 := leq_trans (ltn0Sn _) lt; rewrite call1E //.
have /andP[l1 l2] := bt.
have ge : amin (locs p) <= t.
  apply: le_trans (ltW l1); case: (locs p) so n0 lt {bt l1 l2} => // x l so _ lt; rewrite (amin_head so).
  case: k lt => //= k lt; apply: (ltNsorted (sub_sorted (@ltW _ _) so)).
  by rewrite mem_nth // ltnW // -ltnS.
have le : t <= amax (locs p).
  by rewrite amax_last //; apply: le_trans (ltW l2) _; rewrite lt_sorted_last ?mem_nth.
rewrite ltNge ge [amax _ < _]ltNge le /= (searchsorted_between so lt bt) /interpolate /=.
by rewrite (gt_eqF l1) (lt_eqF l2).
Qed.
Lemma call1_right p t : good p -> (0 < size (locs p))%N -> last 0 (locs p) < t ->
  call1 st0 p dense t = dense (size (locs p)).-1 None t.
Proof.
move=> [so sz] n0 lt; rewrite call1E // amax_last // lt.
have -> : (t < amin (locs p)) = false.
  apply/negbTE; rewrite -leNgt; apply: ltW; apply: le_lt_trans lt.
  by case: (locs p) so n0 => // x l so _; rewrite (amin_head so) lt_sorted_last ?mem_head.
by rewrite /interpolate nth_last (gt_eqF lt).
Qed.
Lemma call1_left p t : good p -> (0 < size (locs p))%N -> t < head 0 (locs p) ->
  call1 st0 p dense t = None.
Proof.
move=> [so sz] n0 lt; rewrite call1E // /interpolate; case: (locs p) so n0 lt => // x l so _ /= lt.
by rewrite (amin_head so) lt (lt_eqF lt).
Qed.
End Posterior.

Section Merge.
Variables (T : realFieldType).

Lemma searchsorted_index (l : seq T) x : sorted <%O l -> x \in l -> searchsorted l x = index x l.
Proof.
by move=> so xl; rewrite -{1}(nth_index 0 xl) searchsorted_nth // index_mem.
Qed.

Lemma size_go (A : Type) (x0 : A) (w : seq (nat * A)) : forall a,
  all (fun q => q.1 < size a)%N w ->
  size (foldl (fun z (p : nat * A) => set_nth x0 z p.1 p.2) a w) = size a.
Proof.
elim: w => //= q w IH a /andP[q0 H].
have sz : size (set_nth x0 a q.1 q.2) = size a by rewrite size_set_nth; apply/maxn_idPr.
by rewrite IH sz.
Qed.
Lemma nth_go (A : Type) (x0 : A) (w : seq (nat * A)) : forall a k v,
  uniq (map fst w) -> (exists2 i, (i < size w)%N & nth (0%N, x0) w i = (k, v)) ->
  nth x0 (foldl (fun z (p : nat * A) => set_nth x0 z p.1 p.2) a w) k = v.
Proof.
have frame (u : seq (nat * A)) : forall a k, k \notin map fst u ->
  nth x0 (foldl (fun z (p : nat * A) => set_nth x0 z p.1 p.2) a u) k = nth x0 a k.
  elim: u => //= q u IH a k; rewrite in_cons negb_or => /andP[kq ku].
  by rewrite IH // nth_set_nth /= (negbTE kq).
elim: w => [|q w IH] a k v /=; first by move=> _ [].
move=> /andP[qw u] [[|i] lt /= E]; last by apply: IH => //; exists i.
by rewrite frame; rewrite E in qw *; rewrite // nth_set_nth /= eqxx.
Qed.

(** Writing distinct indices with matching lengths. *)
Lemma write2_spec (A : Type) (x0 : A) (l1 l2 : seq T) (d1 d2 : seq A) :
  let s := sort <=%O (l1 ++ l2) in
  uniq (l1 ++ l2) -> size d1 = size l1 -> size d2 = size l2 ->
  exists2 r, write2 (nseq (size d1 + size d2) x0) x0
      [seq searchsorted s x | x <- l1] d1 [seq searchsorted s x | x <- l2] d2 = Some r
    & size r = size s /\ forall x, x \in s ->
        nth x0 r (index x s) = nth x0 (d1 ++ d2) (index x (l1 ++ l2)).
Proof.
move=> s u z1 z2; rewrite /write2 /write !size_map z1 eqxx /= z2 eqxx.
rewrite -[foldl _ (foldl _ _ _) _]foldl_cat -zip_cat ?size_map // -map_cat.
have so : sorted <%O s by rewrite lt_sorted_uniq_le sort_uniq u sort_le_sorted.
have us : uniq s by rewrite sort_uniq.
have ss : s =i l1 ++ l2 by move=> x; rewrite mem_sort.
have -> : [seq searchsorted s x | x <- l1 ++ l2] = [seq index x s | x <- l1 ++ l2].
  by apply/eq_in_map => x xl; rewrite searchsorted_index // ss.
eexists; first by [].
have zz : size (l1 ++ l2) = size (d1 ++ d2) by rewrite !size_cat z1 z2.
have sz : size s = size (l1 ++ l2) by rewrite size_sort.
split.
  rewrite size_go ?size_nseq; first by rewrite sz size_cat.
  rewrite -size_cat -sz -(@all_map _ _ fst (fun i => i < size s)%N) -/unzip1 unzip1_zip ?size_map ?zz //.
  by rewrite all_map; apply/allP => x /=; rewrite -ss index_mem.
move=> x; rewrite ss => xl; apply: nth_go.
  rewrite -/unzip1 unzip1_zip ?size_map ?zz // map_inj_in_uniq // => a b; rewrite -!ss => ain bin /(congr1 (nth 0 s)).
  by rewrite !nth_index.
exists (index x (l1 ++ l2)); first by rewrite size_zip size_map -zz minnn index_mem.
rewrite nth_zip ?size_map ?zz //; congr (_, _).
by rewrite (nth_map 0) ?index_mem // nth_index.
Qed.
End Merge.
