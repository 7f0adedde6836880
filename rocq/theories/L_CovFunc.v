(** Lemmas on the arrays of M_CovFunc.v. *)
From mathcomp Require Import all_ssreflect all_algebra.
From Verif Require Import M_CovFunc.
Set Implicit Arguments.
Unset Strict Implicit.
Unset Printing Implicit Defensive.

(** Valid multi-indices. *)
Fixpoint valid (s a : seq nat) : bool :=
  match s, a with [::], [::] => true | d :: s', j :: a' => (j < d) && valid s' a' | _, _ => false end.

Lemma prodn_cat s t : prodn (s ++ t) = prodn s * prodn t.
Proof. by elim: s => [|d s IH] /=; rewrite ?mul1n // IH mulnA. Qed.
Lemma valid_size s a : valid s a -> size a = size s.
Proof. by elim: s a => [|d s IH] [|j a] //= /andP[_ /IH ->]. Qed.
Lemma valid_cat s t a b : size a = size s -> valid (s ++ t) (a ++ b) = valid s a && valid t b.
Proof. by elim: s a => [|d s IH] [|j a] //= [e]; rewrite IH // andbA. Qed.
Lemma valid_cat_split s t a : valid (s ++ t) a -> exists b c, [/\ a = b ++ c, valid s b & valid t c].
Proof.
move=> v; exists (take (size s) a), (drop (size s) a); rewrite cat_take_drop.
have sz : size (take (size s) a) = size s by rewrite size_takel // (valid_size v) size_cat leq_addr.
by move: v; rewrite -{1}[a](cat_take_drop (size s)) valid_cat // => /andP[].
Qed.
Lemma ravel_lt s a : valid s a -> ravel s a < prodn s.
Proof.
elim: s a => [|d s IH] [|j a] //= /andP[jd /IH h].
apply: leq_trans (_ : j.+1 * prodn s <= _); last by rewrite leq_mul2r jd orbT.
by rewrite mulSn addnC ltn_add2r.
Qed.
Lemma ravel_cat s t a b : size a = size s -> ravel (s ++ t) (a ++ b) = ravel s a * prodn t + ravel t b.
Proof.
elim: s a => [|d s IH] [|j a] //= [e].
by rewrite IH // prodn_cat mulnDl mulnA addnA.
Qed.
Lemma size_indices s : size (indices s) = prodn s.
Proof.
elim: s => //= d s <-; rewrite size_allpairs size_iota //.
Qed.
Lemma nth_allpairs (S T U : Type) (f : S -> T -> U) (u0 : U) (x0 : S) (y0 : T) (l : seq S) (m : seq T) i j :
  i < size l -> j < size m -> nth u0 [seq f x y | x <- l, y <- m] (i * size m + j) = f (nth x0 l i) (nth y0 m j).
Proof.
elim: l i => // x l IH [|i] /= il jm.
  by rewrite mul0n add0n nth_cat size_map jm (nth_map y0).
by rewrite nth_cat size_map mulSn -addnA ltnNge leq_addr /= addKn IH.
Qed.
Lemma nth_indices s a : valid s a -> nth [::] (indices s) (ravel s a) = a.
Proof.
elim: s a => [|d s IH] [|j a] //= /andP[jd va].
rewrite -(size_indices s) (nth_allpairs _ _ 0 [::]) ?size_iota ?size_indices ?ravel_lt //.
by rewrite nth_iota // IH.
Qed.
Lemma mem_indices s a : (a \in indices s) = valid s a.
Proof.
elim: s a => [|d s IH] [|j a] //=; first by apply/allpairsP => -[[p q] []].
apply/allpairsP/andP => [[[p q] /= [h1 h2 [-> ->]]]|[h1 h2]].
  by rewrite mem_iota in h1; rewrite IH in h2.
by exists (j, a); rewrite /= mem_iota IH.
Qed.

Section Arr.
Variables (R : Type) (z : R).
Implicit Types x y : arr R.
Definition wf x : bool := size (dat x) == prodn (shp x).
Lemma wf_tab s f : wf (tab s f : arr R).
Proof. by rewrite /wf /= size_map size_indices. Qed.
Lemma get_tab s (f : seq nat -> R) a : valid s a -> get z (tab s f) a = f a.
Proof.
by move=> v; rewrite /get /= (nth_map [::]) ?size_indices ?ravel_lt // nth_indices.
Qed.
Lemma wf_map f x : wf x -> wf (np_map f x).
Proof. by rewrite /wf /= size_map. Qed.
Lemma get_map f x a : wf x -> valid (shp x) a -> get z (np_map f x) a = f (get z x a).
Proof. by rewrite /wf => /eqP w v; rewrite /get /= (nth_map z) // w ravel_lt. Qed.
(** Arrays with equal shapes and entries are equal. *)
Lemma arr_eq x y : wf x -> wf y -> shp x = shp y -> (forall a, valid (shp x) a -> get z x a = get z y a) -> x = y.
Proof.
case: x y => s u [t v] /eqP /= w1 /eqP /= w2 e H; move: w1 w2 H; rewrite e => {s e} w1 w2 H; congr Arr.
apply: (@eq_from_nth _ z) => [|k kl]; first by rewrite w1 w2.
have kp : k < size (indices t) by rewrite size_indices -w1.
have va : valid t (nth [::] (indices t) k) by rewrite -mem_indices mem_nth.
have ek : ravel t (nth [::] (indices t) k) = k.
  have : nth [::] (indices t) (ravel t (nth [::] (indices t) k)) = nth [::] (indices t) k by rewrite nth_indices.
  have U : uniq (indices t).
    elim: (t) => //= d s IH; apply: allpairs_uniq => //; first exact: iota_uniq.
    by move=> [p q] [p' q'] _ _ /= [-> ->].
  by move=> /eqP; rewrite nth_uniq // => [/eqP//|]; rewrite size_indices ravel_lt.
by have := H _ va; rewrite /get /= ek.
Qed.
End Arr.

(** ** Broadcasting *)
Lemma bc_rev_refl s : bc_rev s s = Some s.
Proof. by elim: s => //= d s IH; rewrite eqxx IH. Qed.
Lemma broadcast_refl s : broadcast s s = Some s.
Proof. by rewrite /broadcast bc_rev_refl /= revK. Qed.
Lemma bc_rev_cat u s t : bc_rev (u ++ s) (u ++ t) = omap (cat u) (bc_rev s t).
Proof.
elim: u => [|d u IH] /=; first by case: (bc_rev s t).
by rewrite eqxx IH /=; case: (bc_rev s t).
Qed.
Lemma broadcast_cat s t u : broadcast (s ++ u) (t ++ u) = omap (cat^~ u) (broadcast s t).
Proof.
rewrite /broadcast !rev_cat bc_rev_cat; case: (bc_rev _ _) => //= B.
by rewrite rev_cat revK.
Qed.
Lemma bc_revC s t : bc_rev s t = bc_rev t s.
Proof.
elim: s t => [|a s IH] [|b t] //=; rewrite (eq_sym b a) IH.
have [->//|n] := eqVneq a b.
have [e|nb] := eqVneq b 1; have [e'|na] := eqVneq a 1 => //=.
by rewrite e e' in n.
Qed.
Lemma broadcastC s t : broadcast s t = broadcast t s.
Proof. by rewrite /broadcast bc_revC. Qed.
(** Indices of reversed shapes. *)
Lemma valid_rev s a : valid (rev s) (rev a) = valid s a.
Proof.
elim: s a => [|d s IH] [|j a] //=.
- by rewrite rev_cons; case: (rev a).
- by rewrite rev_cons; case: (rev s).
have [e|n] := eqVneq (size a) (size s).
  by rewrite !rev_cons -!cats1 valid_cat ?size_rev // IH /= andbT andbC.
transitivity false; last first.
  by apply/esym/negP => /andP[_ /valid_size e]; rewrite e eqxx in n.
by apply/negP => /valid_size; rewrite !size_rev /= => -[e]; rewrite e eqxx in n.
Qed.
Lemma valid_self s b : valid s b -> valid s [seq if p.1 == 1 then 0 else p.2 | p <- zip s b].
Proof.
elim: s b => [|d s IH] [|j b] //= /andP[jd /IH ->]; rewrite andbT.
by case: eqP => // ->.
Qed.
Lemma bc_rev_valid s t B b : bc_rev s t = Some B -> valid B b ->
  size s <= size b /\ valid s [seq if p.1 == 1 then 0 else p.2 | p <- zip s b].
Proof.
elim: s t B b => [|d s IH] t B b; first by case: b.
case: t => [|e t] /=.
  by move=> [<-] v; split; [rewrite (valid_size v)|exact: (@valid_self (d :: s) b v)].
case: ifP => [/orP h|_].
  case E : (bc_rev s t) => [B'|] //= [<-]; case: b => // j b /= /andP[jd v].
  have [h1 h2] := IH _ _ _ E v; split=> //; rewrite h2 andbT; case: eqP => // ->; exact.
case: eqP => // ->; case E : (bc_rev s t) => [B'|] //= [<-]; case: b => // j b /= /andP[jd v].
by have [h1 h2] := IH _ _ _ E v.
Qed.
Lemma bidx_rev s b : size s <= size b ->
  rev (bidx s b) = [seq if p.1 == 1 then 0 else p.2 | p <- zip (rev s) (rev b)].
Proof.
move=> sb; rewrite /bidx -map_rev; congr map.
rewrite rev_zip; last by rewrite size_drop subKn.
rewrite rev_drop subKn // -(size_rev s); move: (rev s) (rev b) => {sb s b} u v.
by elim: u v => [|p u IH] [|q v] //=; rewrite IH.
Qed.
Lemma broadcast_size s t B : broadcast s t = Some B -> size s <= size B.
Proof.
rewrite /broadcast; case E : (bc_rev _ _) => [C|] //= [<-]; rewrite size_rev -(size_rev s).
elim: (rev s) (rev t) C E => [|d l IH] [|e m] C //=; first by move=> [<-].
case: ifP => _; first by case E : (bc_rev l m) => [D|] //= [<-] /=; exact: IH E.
by case: ifP => // _; case E : (bc_rev l m) => [D|] //= [<-] /=; exact: IH E.
Qed.
Lemma bidx_valid s t B b : broadcast s t = Some B -> valid B b -> valid s (bidx s b).
Proof.
move=> E v; have sb := broadcast_size E; rewrite -(valid_size v) in sb.
rewrite -valid_rev bidx_rev //; move: E; rewrite /broadcast; case E : (bc_rev _ _) => [C|] //= [e].
have : valid C (rev b) by rewrite -(revK C) e valid_rev.
by move=> /(bc_rev_valid E) [].
Qed.
Lemma bidx_cat s u b j : size s <= size b -> valid u j -> bidx (s ++ u) (b ++ j) = bidx s b ++ j.
Proof.
move=> sb vj; have e := valid_size vj; rewrite /bidx !size_cat e subnDr drop_cat.
have zc (b' : seq nat) : size b' = size s -> [seq if p.1 == 1 then 0 else p.2 | p <- zip (s ++ u) (b' ++ j)] =
    [seq if p.1 == 1 then 0 else p.2 | p <- zip s b'] ++ j.
  move=> sz; rewrite zip_cat // map_cat; congr cat.
  elim: u j vj {e} => [|d u IH] [|k j] //= /andP[kd /IH ->].
  by case: eqP kd => [->|] // ; case: k.
case: ltnP => [lt|ge]; first by apply: zc; rewrite size_drop subKn.
have s0 : s = [::].
  by apply/nilP; rewrite /nilp -leqn0 -(leq_add2l (size b - size s)) subnK // addn0.
have z0 := zc [::]; rewrite s0 /= in z0 *; rewrite subn0 subnn drop0 drop_size /= z0 //; by case: (b).
Qed.
Lemma bidx_refl s b : valid s b -> bidx s b = b.
Proof.
by move=> v; have := bidx_cat (s := [::]) (b := [::]) isT v; rewrite /= => ->.
Qed.

(** ** Moving axes *)
Section Move.
Variables (R : Type) (z : R).
Lemma moveaxis_last (y : arr R) n m w : shp y = [:: n, m & w] ->
  [/\ shp (moveaxis z y 1 (size w).+1) = n :: w ++ [:: m], wf (moveaxis z y 1 (size w).+1) &
   forall r c a, r < n -> c < m -> valid w a -> get z (moveaxis z y 1 (size w).+1) (r :: a ++ [:: c]) = get z y [:: r, c & a]].
Proof.
move=> e; have e1 : shp (moveaxis z y 1 (size w).+1) = n :: w ++ [:: m].
  by rewrite /moveaxis e /= /del /ins /= drop0 take_size drop_size.
split=> // [|r c a rn cm va]; first exact: wf_tab.
rewrite [moveaxis _ _ _ _]/moveaxis get_tab; last first.
  by move: e1; rewrite /moveaxis /= => ->; rewrite /= rn valid_cat ?(valid_size va) // va /= cm.
rewrite /= nth_cat -(valid_size va) ltnn subnn /= /del /ins /= take0 drop0 take_size_cat //.
by rewrite drop_oversize ?cats0 // size_cat addn1.
Qed.
Lemma moveaxis_first (y : arr R) n s t : shp y = n :: s ++ t ->
  [/\ shp (moveaxis z y 0 (size s)) = s ++ n :: t, wf (moveaxis z y 0 (size s)) &
   forall p r q, valid s p -> r < n -> valid t q -> get z (moveaxis z y 0 (size s)) (p ++ r :: q) = get z y (r :: p ++ q)].
Proof.
move=> e; have e1 : shp (moveaxis z y 0 (size s)) = s ++ n :: t.
  by rewrite /moveaxis e /= /del /ins /= drop0 take_size_cat // drop_size_cat.
split=> // [|p r q vp rn vq]; first exact: wf_tab.
rewrite [moveaxis _ _ _ _]/moveaxis get_tab; last first.
  by move: e1; rewrite /moveaxis /= => ->; rewrite valid_cat ?(valid_size vp) // vp /= rn.
rewrite nth_cat -(valid_size vp) ltnn subnn /= /del /ins /= take0 drop0 take_size_cat //.
have -> // : drop (size p).+1 (p ++ r :: q) = q by rewrite -cat_rcons drop_size_cat ?size_rcons.
Qed.
End Move.
