(** C38: the random unit vector policy. *)
From mathcomp Require Import all_ssreflect all_algebra.
From Verif Require Import M_UnitVec.
Set Implicit Arguments.
Unset Strict Implicit.
Unset Printing Implicit Defensive.
Import Order.Theory GRing.Theory Num.Theory.
Local Open Scope ring_scope.

Section Policy.
Variable F : realFieldType.
Implicit Types (p us : seq F) (A : seq (seq F)) (D : seq nat).
Definition psum (p : seq F) (i : nat) : F := \sum_(j < i) nth 0 p j.
(** A probability vector of length [n]. *)
Definition distribution n p : Prop := [/\ size p = n, forall j, (j < n)%N -> 0 <= nth 0 p j & psum p n = 1].
(** Probabilities after drawing the indices [D] without replacement from [p]. *)
Definition conditional p D (i : nat) : F :=
  if i \in D then 0 else nth 0 p i / (1 - \sum_(j <- D) nth 0 p j).

Lemma ssum_take p i : (i <= size p)%N -> ssum (take i p) = psum p i.
Proof.
move=> ip; rewrite /ssum /psum (big_nth 0) size_takel // big_mkord; apply: eq_bigr => j _.
by rewrite nth_take.
Qed.
Lemma ssumE p : ssum p = psum p (size p).
Proof. by rewrite -[in LHS](take_size p) ssum_take. Qed.
Lemma psum_mono n p i j : (forall k, (k < n)%N -> 0 <= nth 0 p k) -> (i <= j <= n)%N -> psum p i <= psum p j.
Proof.
move=> p0 /andP[ij jn]; rewrite /psum -!(big_mkord predT (fun k => nth 0 p k)) [X in _ <= X](big_cat_nat _ (n := i)) //=.
by rewrite ler_addl big_nat_cond sumr_ge0 // => k; rewrite andbT => /andP[_ kj]; rewrite p0 // (leq_trans kj).
Qed.
(** NumPy's choice: the index [i] is drawn exactly on an interval of length [p_i]. *)
Theorem C38_choice n p u i : distribution n p -> 0 <= u < 1 ->
  (choice (Some p) u = Some i) <-> ((i < n)%N /\ psum p i <= u < psum p i + nth 0 p i).
Proof.
move=> [sp p0 p1] /andP[u0 u1]; rewrite /choice.
set l := cumsum p; have sl : size l = n by rewrite size_map size_iota.
have nl k : (k < n)%N -> nth 0 l k = psum p k.+1.
  by move=> kn; rewrite (nth_map 0%N) ?size_iota ?sp // nth_iota ?sp // ssum_take ?sp.
have n0 : (0 < n)%N.
  by rewrite lt0n; apply/eqP => n0; move: p1; rewrite n0 /psum big_ord0 => /eqP; rewrite eq_sym oner_eq0.
have hl : has (fun c => u < c) l.
  apply/(has_nthP 0); exists n.-1; first by rewrite sl ltn_predL.
  by rewrite nl ?ltn_predL // prednK // p1.
have fn : (find (fun c => (u < c)%R) l < n)%N by rewrite -sl -has_find.
rewrite sp fn; have hk := nth_find 0 hl; have bk k (kf : (k < find (fun c => (u < c)%R) l)%N) := before_find 0 kf.
move: (find _ _) fn hk bk => k fn; rewrite nl // => hk bk.
split=> [[<-]|[ln /andP[h1 h2]]].
  split=> //; apply/andP; split; last by move: hk; rewrite /psum big_ord_recr.
  case: k fn hk bk => [|k] fn _ bk; first by rewrite /psum big_ord0.
  by have := bk k (ltnSn k); rewrite nl ?ltnS 1?ltnW // => /negbT; rewrite -leNgt.
congr Some; apply/eqP; rewrite eqn_leq; apply/andP; split; rewrite leqNgt; apply/negP => ki.
  have := bk i ki; rewrite nl // => /negbT; rewrite /psum big_ord_recr /= -/(psum p i).
  by rewrite h2.
have := lt_le_trans hk (psum_mono p0 (_ : (k.+1 <= i <= n)%N)); rewrite ki ltnW // => /(_ isT).
by rewrite ltNge h1.
Qed.

Lemma choice_some n p u : distribution n p -> u < 1 -> exists i, choice (Some p) u = Some i.
Proof.
move=> [sp p0 p1] u1; rewrite /choice sp.
have n0 : (0 < n)%N.
  by rewrite lt0n; apply/eqP => n0; move: p1; rewrite n0 /psum big_ord0 => /eqP; rewrite eq_sym oner_eq0.
suff hl : has (fun c => u < c) (cumsum p).
  by move: hl; rewrite has_find size_map size_iota sp => ->; eexists.
apply/hasP; exists (psum p n); last by rewrite p1.
apply/mapP; exists n.-1; last by rewrite prednK // -sp take_size ssumE.
by rewrite mem_iota sp /= add0n ltn_predL.
Qed.

(** *** Drawing without replacement *)
Lemma psum_set p i n : (i < n)%N -> psum (set_nth 0 p i 0) n = psum p n - nth 0 p i.
Proof.
move=> ni; rewrite /psum (bigD1 (Ordinal ni)) //= [X in _ = X - _](bigD1 (Ordinal ni)) //= nth_set_nth /= eqxx add0r addrAC subrr add0r.
apply: eq_bigr => j ji; rewrite nth_set_nth /=; case: eqP => // e; by case/eqP: ji; apply: val_inj.
Qed.
(** The cache after drawing [D]. *)
Definition drawn n p D (q : seq F) : Prop :=
  size q = n /\ forall i, (i < n)%N -> nth 0 q i = conditional p D i.
Lemma sum_rest n p D : uniq D -> all (fun i => i < n)%N D ->
  \sum_(i < n | nat_of_ord i \notin D) nth 0 p i = psum p n - \sum_(j <- D) nth 0 p j.
Proof.
move=> uD aD; rewrite /psum [X in _ = X - _](bigID (fun i : 'I_n => nat_of_ord i \in D)) /=.
suff -> : \sum_(i < n | nat_of_ord i \in D) nth 0 p i = \sum_(j <- D) nth 0 p j by rewrite addrAC subrr add0r.
rewrite -(big_mkord (fun i => i \in D) (fun i => nth 0 p i)) -big_filter; apply: perm_big.
apply: uniq_perm; rewrite ?filter_uniq ?iota_uniq // => i; rewrite mem_filter mem_index_iota /=.
by case iD : (i \in D) => //=; rewrite (allP aD).
Qed.
Lemma drawn_distribution n p D q : distribution n p -> (forall j, (j < n)%N -> 0 < nth 0 p j) -> uniq D -> all (fun i => i < n)%N D ->
  (size D < n)%N -> drawn n p D q -> distribution n q /\ 0 < 1 - \sum_(j <- D) nth 0 p j.
Proof.
move=> [sp p0 p1] pp uD aD Dn [sq eq].
have [i ni iD] : exists2 i, (i < n)%N & i \notin D.
  have /allPn[i] : ~~ all (mem D) (iota 0 n).
    apply/negP => /allP h; have := uniq_leq_size (iota_uniq 0 n) h; rewrite size_iota leqNgt; by rewrite Dn.
  by rewrite mem_iota => /andP[_ ni] iD; exists i.
have S0 : 0 < 1 - \sum_(j <- D) nth 0 p j.
  rewrite -p1 -(sum_rest p uD aD) (bigD1 (Ordinal ni)) //= ltr_paddr ?pp // sumr_ge0 // => j _; exact: p0.
split=> //; split=> // [j jn|].
  by rewrite eq // /conditional; case: ifP => // _; rewrite divr_ge0 ?p0 // ltW.
transitivity (\sum_(j < n | nat_of_ord j \notin D) nth 0 p j / (1 - \sum_(j <- D) nth 0 p j)).
  rewrite [RHS]big_mkcond /psum; apply: eq_bigr => j _; rewrite eq // /conditional; by case: (_ \in D).
by rewrite -mulr_suml sum_rest // p1 divff // gt_eqF.
Qed.
(** The cache when [D] has been drawn: NaN if nothing is left. *)
Definition state n p D (c : option (seq F)) : Prop :=
  if (size D < n)%N then exists2 q, c = Some q & drawn n p D q else c = None.
Lemma draw n p D c u : distribution n p -> (forall j, (j < n)%N -> 0 < nth 0 p j) -> uniq D -> all (fun i => i < n)%N D ->
  (size D < n)%N -> state n p D c -> 0 <= u < 1 ->
  exists i q, [/\ c = Some q, choice c u = Some i, (i < n)%N, i \notin D & state n p (i :: D) (normalise (set_nth 0 q i 0))].
Proof.
move=> dp pp uD aD Dn; rewrite /state Dn => -[q -> dq] u01; have [dq' S0] := drawn_distribution dp pp uD aD Dn dq.
have [sq eq] := dq; have [_ q0 q1] := dq'.
have [i ci] : exists i, choice (Some q) u = Some i.
  by case/andP: u01 => _ u1; exact: choice_some dq' u1.
have [ni /andP[h1 h2]] := (C38_choice _ dq' u01).1 ci.
have iD : i \notin D.
  by apply/negP => iD; move: (le_lt_trans h1 h2); rewrite eq // /conditional iD addr0 ltxx.
exists i, q; split=> //.
have uD' : uniq (i :: D) by rewrite /= iD.
have aD' : all (fun i => i < n)%N (i :: D) by rewrite /= ni.
have s0 : size (set_nth 0 q i 0) = n by rewrite size_set_nth sq; apply/maxn_idPr.
have [_ _ p1] := dp.
set S := 1 - \sum_(j <- D) nth 0 p j in S0; set S' := 1 - \sum_(j <- i :: D) nth 0 p j.
have ES : S' = S - nth 0 p i by rewrite /S' big_cons opprD addrA addrAC.
have Es : ssum (set_nth 0 q i 0) = S' / S.
  rewrite ssumE s0 psum_set // q1 eq // /conditional (negPf iD) -/S ES mulrBl divff // gt_eqF //.
have R' := sum_rest p uD' aD'; rewrite p1 -/S' in R'.
rewrite /normalise Es; case: ltnP => Dn'.
  have [k nk kD] : exists2 k, (k < n)%N & k \notin i :: D.
    have /allPn[k] : ~~ all (mem (i :: D)) (iota 0 n).
      apply/negP => /allP h; have := uniq_leq_size (iota_uniq 0 n) h; rewrite size_iota leqNgt; by rewrite Dn'.
    by rewrite mem_iota => /andP[_ nk] kD; exists k.
  have S0' : 0 < S'.
    rewrite -R' (bigD1 (Ordinal nk)) //= ltr_paddr ?pp // sumr_ge0 // => j _; exact: ltW (pp j _).
  rewrite gt_eqF ?divr_gt0 //; eexists; first by [].
  split; first by rewrite size_map.
  move=> j jn; rewrite (nth_map 0) ?s0 // nth_set_nth /= /conditional inE; case: eqP => [->|ji] /=; first by rewrite mul0r.
  rewrite eq // /conditional; case: (j \in D); first by rewrite mul0r.
  by rewrite -/S -/S' invf_div mulrA divfK // gt_eqF.
suff -> : S' = 0 by rewrite mul0r eqxx.
rewrite -R' big1 // => j /negP []; have sub : {subset i :: D <= iota 0 n}.
  by move=> k kD; rewrite mem_iota /= add0n (allP aD').
have [|_ ->] := uniq_min_size uD' sub; first by rewrite size_iota.
by rewrite mem_iota /= add0n.
Qed.
Definition inside us : bool := all (fun u => 0 <= u < 1) us.
Lemma calls_state pr A p D c us : let n := size A in
  distribution n p -> (forall j, (j < n)%N -> 0 < nth 0 p j) -> uniq D -> all (fun i => i < n)%N D ->
  state n p D c -> inside us -> (size D <= n)%N ->
  if (size D + size us <= n)%N then exists s, [/\ calls pr false A (Some c) us = Some [seq unit_vector F n i | i <- s],
     size s = size us, uniq (s ++ D) & all (fun i => i < n)%N s]
  else calls pr false A (Some c) us = None.
Proof.
move=> n dp pp; elim: us D c => [|u us IH] D c uD aD sc; first by move=> _ Dn; rewrite addn0 Dn; exists [::].
move=> /andP[u01 us01] _; rewrite [size _]/= addnS; case: (ltnP (size D) n) => Dn; last first.
  rewrite ltnNge (leq_trans Dn) ?leq_addr //=; move: sc; rewrite /state ltnNge Dn /= => -> //.
have [i [q [ec ci ni iD st]]] := draw dp pp uD aD Dn sc u01.
have uD' : uniq (i :: D) by rewrite /= iD.
have aD' : all (fun i => i < n)%N (i :: D) by rewrite /= ni.
have := IH (i :: D) _ uD' aD' st us01 Dn; rewrite [size (i :: D)]/= addSn.
rewrite /= /call ci ec; case: ifP => _; last by move=> ->.
case=> s [-> ss us' as']; exists (i :: s); split=> //=; rewrite ?ss ?ni //.
by move: us'; rewrite -[i :: D]cat1s uniq_catCA.
Qed.
Lemma calls_next pr A p D c us : let n := size A in
  distribution n p -> (forall j, (j < n)%N -> 0 < nth 0 p j) -> uniq D -> all (fun i => i < n)%N D ->
  state n p D c -> inside us -> (size D + size us < n)%N -> exists s q,
  [/\ calls pr false A (Some c) us = Some [seq unit_vector F n i | i <- s], drawn n p (catrev s D) q,
     distribution n q &
     forall u, calls pr false A (Some c) (rcons us u) =
       omap (fun i => [seq unit_vector F n i | i <- rcons s i]) (choice (Some q) u)].
Proof.
move=> n dp pp; elim: us D c => [|u us IH] D c uD aD sc us01 Dn.
  rewrite addn0 in Dn; move: sc; rewrite /state Dn => -[q -> dq]; exists [::], q; split=> //.
    by have [] := drawn_distribution dp pp uD aD Dn dq.
  by move=> u; rewrite [LHS]/= /call; case: (choice _ _).
case/andP: us01 => u01 us01; rewrite [size (u :: us)]/= addnS in Dn.
have Dn' : (size D < n)%N by rewrite (leq_trans _ Dn) // ltnS (leq_trans (leq_addr _ _) (leqnSn _)).
have [i [q [ec ci ni iD st]]] := draw dp pp uD aD Dn' sc u01.
have uD' : uniq (i :: D) by rewrite /= iD.
have aD' : all (fun i => i < n)%N (i :: D) by rewrite /= ni.
have [|s [q' [h1 h2 h3 h4]]] := IH (i :: D) _ uD' aD' st us01; first by rewrite [size (i :: D)]/= addSn.
exists (i :: s), q'; split=> //; first by rewrite /= /call ci ec h1.
by move=> v; rewrite /= /call ci ec h4 /choice; case: ifP.
Qed.
Lemma initial_distribution pr A p : (0 < size A)%N -> initial pr A = Some p ->
  (forall j, (j < size A)%N -> 0 <= nth 0 p j) -> distribution (size A) p.
Proof.
move=> n0; case: pr => /=.
  move=> [<-] h; split=> //; first by rewrite size_nseq.
  rewrite /psum (eq_bigr (fun=> 1 / (size A)%:R)); last by move=> j _; rewrite nth_nseq ltn_ord.
  by rewrite sumr_const card_ord -mulr_natr divfK // pnatr_eq0 -lt0n.
rewrite /normalise; case: eqP => // /eqP s0 [<-] h; split=> //; first by rewrite !size_map size_iota.
set l := [seq _ | j <- iota _ _] in s0 *; have sl : size l = size A by rewrite size_map size_iota.
rewrite /psum -[RHS](divff s0) {2}ssumE /psum sl mulr_suml; apply: eq_bigr => j _.
by rewrite (nth_map 0) // sl.
Qed.
Lemma calls_initial pr rep A p us : initial pr A = Some p -> calls pr rep A None us = calls pr rep A (Some (Some p)) us.
Proof. by case: us => //= u us e; rewrite /call e. Qed.
Lemma state_nil n p : (0 < n)%N -> distribution n p -> state n p [::] (Some p).
Proof.
move=> n0 [sp _ _]; rewrite /state n0; exists p => //; split=> // i ni.
by rewrite /conditional big_nil subr0 divr1.
Qed.

(** C38: without replacement, if all initial probabilities are positive, the first calls give
    different unit vectors, [n] calls all of them, and further calls raise; ... *)
Theorem C38_without_replacement pr A p us : let n := size A in (0 < n)%N -> initial pr A = Some p ->
  (forall j, (j < n)%N -> 0 < nth 0 p j) -> inside us ->
  if (size us <= n)%N then exists s, [/\ calls pr false A None us = Some [seq unit_vector F n i | i <- s],
     size s = size us, uniq s, all (fun i => i < n)%N s & size us = n -> perm_eq s (iota 0 n)]
  else calls pr false A None us = None.
Proof.
move=> n n0 ip pp us01; have dp := initial_distribution n0 ip (fun j jn => ltW (pp j jn)).
have := calls_state pr dp pp (isT : uniq [::]) (isT : all (fun i => i < n)%N [::]) (state_nil n0 dp) us01 (leq0n _).
rewrite /= add0n (calls_initial _ _ ip); case: ifP => // _ [s [h1 h2 h3 h4]]; exists s; rewrite cats0 in h3; split=> // e.
apply: uniq_perm => //; first exact: iota_uniq.
have sub : {subset s <= iota 0 n} by move=> k ks; rewrite mem_iota /= add0n (allP h4).
have [|_ e2] := uniq_min_size h3 sub; [by rewrite size_iota h2 e|exact: e2].
Qed.
(** ... after drawing [s], the index [i] is drawn with its conditional probability. *)
Theorem C38_conditional pr A p us : let n := size A in (0 < n)%N -> initial pr A = Some p ->
  (forall j, (j < n)%N -> 0 < nth 0 p j) -> inside us -> (size us < n)%N ->
  exists s q, [/\ calls pr false A None us = Some [seq unit_vector F n i | i <- s],
    size q = n, forall i, (i < n)%N -> nth 0 q i = conditional p s i &
    forall u i, 0 <= u < 1 ->
      (calls pr false A None (rcons us u) = Some [seq unit_vector F n i | i <- rcons s i] <->
       (i < n)%N /\ psum q i <= u < psum q i + conditional p s i)].
Proof.
move=> n n0 ip pp us01 un; have dp := initial_distribution n0 ip (fun j jn => ltW (pp j jn)).
have [s [q [h1 [h2 h3] h4 h5]]] := calls_next pr dp pp (isT : uniq [::]) (isT : all (fun i => i < n)%N [::]) (state_nil n0 dp) us01 un.
have E i : conditional p (catrev s [::]) i = conditional p s i.
  by rewrite /conditional catrevE cats0 mem_rev (perm_big _ (_ : perm_eq (rev s) s)) // perm_rev.
exists s, q; split=> // [|i ni|u i u01]; first by rewrite (calls_initial _ _ ip).
  by rewrite h3 // E.
rewrite (calls_initial _ _ ip) h5; have := C38_choice i h4 u01.
have C : (i < n)%N /\ psum q i <= u < psum q i + nth 0 q i <-> (i < n)%N /\ psum q i <= u < psum q i + conditional p s i.
  by split=> -[ni]; rewrite h3 // E.
move=> H; apply: iff_trans C; apply: iff_trans H.
have [j cj] : exists j, choice (Some q) u = Some j by case/andP: u01 => _; exact: choice_some h4.
have [jn _] := (C38_choice j h4 u01).1 cj.
rewrite cj /=; split=> [[]|[->] //].
rewrite !map_rcons => /eqP; rewrite eqseq_rcons eqxx /= => /eqP e.
have := congr1 (fun l => nth 0 l j) e; rewrite !(nth_map 0%N) ?size_iota // nth_iota // add0n eqxx.
by case: eqP => [->|_ /eqP] //; rewrite oner_eq0.
Qed.
(** With replacement the probabilities stay the initial ones, which are uniform or proportional to the
    squared norms of the columns. *)
Theorem C38_with_replacement pr A p us : let n := size A in (0 < n)%N -> initial pr A = Some p ->
  (forall j, (j < n)%N -> 0 <= nth 0 p j) -> inside us ->
  exists s, [/\ calls pr true A None us = Some [seq unit_vector F n i | i <- s], size s = size us &
    forall k, (k < size us)%N -> let i := nth 0%N s k in (i < n)%N /\ psum p i <= nth 0 us k < psum p i + nth 0 p i].
Proof.
move=> n n0 ip pp us01; have dp := initial_distribution n0 ip pp.
rewrite (calls_initial _ _ ip); elim: us us01 => [|u us IH]; first by exists [::].
move=> /andP[u01 us01]; have [s [h1 h2 h3]] := IH us01.
have [i ci] : exists j, choice (Some p) u = Some j by case/andP: u01 => _; exact: choice_some dp.
exists (i :: s); split; rewrite /= ?h2 //; first by rewrite /call ci h1.
by case=> [|k] ku /=; [exact: (C38_choice _ dp u01).1|exact: h3].
Qed.
Theorem C38_initial A : (0 < size A)%N ->
  initial Uniform A = Some [seq 1 / (size A)%:R | _ <- A] /\
  let w j := \sum_(row <- A) nth 0 row j ^+ 2 in
  \sum_(j < size A) w j != 0 ->
  initial Rownorm A = Some [seq w j / \sum_(k < size A) w k | j <- iota 0 (size A)].
Proof.
move=> n0; have E (c : F) : nseq (size A) c = [seq c | _ <- A] by elim: (A) => //= a B ->.
split=> [|w]; first by rewrite /= E.
have e : ssum [seq w j | j <- iota 0 (size A)] = \sum_(j < size A) w j.
  by rewrite /ssum big_map -{1}[size A]subn0 big_mkord.
by rewrite -e => h; rewrite /= /normalise (negPf h) -map_comp.
Qed.
End Policy.
Print Assumptions C38_choice.
Print Assumptions C38_without_replacement.
Print Assumptions C38_conditional.
Print Assumptions C38_with_replacement.
Print Assumptions C38_initial.

(** C121: "rownorm" is not the norm of the rows. *)
Theorem C121_rownorm_refuted : exists A : seq (seq rat), initial Rownorm A <>
  normalise [seq \sum_(j < size A) nth 0 row j ^+ 2 | row <- A].
Proof.
exists [:: [:: 1; 1]; [:: 0; 0]].
by rewrite /= /normalise /ssum !big_cons !big_nil !big_ord_recr !big_ord0 /=.
Qed.
Print Assumptions C121_rownorm_refuted.

(** An example: a matrix without zero columns. *)
Example C38_example : let A := [:: [:: 1; 0]; [:: 0; 2%:R : rat]] in
  exists p, initial Rownorm A = Some p /\ forall j, (j < 2)%N -> 0 < nth 0 p j.
Proof.
exists [:: 1 / 5%:R; 4%:R / 5%:R]; split; last by case=> [|[|j]].
rewrite /= /normalise /ssum !big_cons !big_nil /=.
by congr Some; apply/eqP; vm_compute.
Qed.
