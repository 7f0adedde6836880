(** C17, C18, C74-C77: particle filter and categorical random variables. *)
From mathcomp Require Import all_ssreflect all_algebra.
From Verif Require Import M_Particle.
Set Implicit Arguments.
Unset Strict Implicit.
Unset Printing Implicit Defensive.
Import Order.Theory GRing.Theory Num.Theory.
Local Open Scope ring_scope.

Section Filter.
Variables (R : realFieldType) (P : Type) (p0 : P).
Implicit Types (st : seq P * seq R) (s : step_in R P).

(** Specification: a distribution on [n] events. *)
Definition distribution n (c : categorical R P) :=
  [/\ size c.1 = n, size c.2 = n, (forall w, w \in c.2 -> 0 < w) & \sum_(w <- c.2) w = 1].
(** Likelihoods and correction factors are positive; resampling draws [n] valid indices. *)
Definition proper n s :=
  [/\ forall q, 0 < lik s q, forall p q w, 0 <= w -> 0 < corr s p q w,
      size (res s) = n & all (fun i => i < n)%N (res s)].

Lemma sum_pos (l : seq R) : (0 < size l)%N -> (forall w, w \in l -> 0 < w) -> 0 < \sum_(w <- l) w.
Proof.
case: l => // x l _ H; rewrite big_cons; apply: ltr_paddr; last by rewrite H ?mem_head.
by rewrite big_seq; apply: sumr_ge0 => w wl; rewrite ltW // H // in_cons wl orbT.
Qed.
Lemma sum_div (l : seq R) c : \sum_(w <- [seq w / c | w <- l]) w = (\sum_(w <- l) w) / c.
Proof. by rewrite big_map mulr_suml. Qed.
Lemma uniform_distribution n : (0 < n)%N -> forall ps, size ps = n ->
  distribution n (ps, uniform R n).
Proof.
move=> n0 ps sz; have nz : 0 < n%:R :> R by rewrite ltr0n.
split=> //=; first by rewrite size_nseq.
- by move=> w; rewrite mem_nseq => /andP[_ /eqP ->]; rewrite divr_gt0 ?ltr01.
- by rewrite big_nseq iter_addr_0 -[(1 / _) *+ _]mulr_natr mul1r mulVf // gt_eqF.
Qed.
Lemma step_distribution n s st : (0 < n)%N -> proper n s -> distribution n st ->
  distribution n (pf_step s st).
Proof.
move=> n0 [lp cp _ _] [s1 s2 wp _]; rewrite /pf_step.
set new := [seq _ | e <- _].
have sz : size new = n by rewrite size_map !size_zip size_iota s1 s2 !minnn.
have pos w : w \in unzip2 new -> 0 < w.
  move=> /(nthP 0)[i]; rewrite size_map sz => lt <-.
  rewrite (nth_map (p0, 0)) ?sz // (nth_map (0%N, (p0, 0))) ?size_zip ?size_iota ?s1 ?s2 ?minnn //=.
  rewrite mulr_gt0 // cp // nth_zip ?size_zip ?size_iota ?s1 ?s2 ?minnn //= nth_zip ?s1 ?s2 //=.
  by rewrite ltW // wp // mem_nth // s2.
have tot : 0 < \sum_(w <- unzip2 new) w by apply: sum_pos => //; rewrite size_map sz.
split=> /=.
- by rewrite -[RHS]sz /unzip1 [LHS]size_map.
- by rewrite -[RHS]sz [LHS]size_map /unzip2 [LHS]size_map.
- by move=> w /mapP[v /pos v0 ->]; rewrite divr_gt0.
- by rewrite sum_div divff // gt_eqF.
Qed.
Lemma resample_distribution n c idx : (0 < n)%N -> size idx = n -> distribution n c ->
  distribution n (resample p0 c idx).
Proof.
move=> n0 si [s1 s2 _ _]; rewrite /resample s1 s2.
by apply: uniform_distribution => //; rewrite size_map.
Qed.
Lemma pf_distribution wr thr n steps : (0 < n)%N -> forall st, distribution n st ->
  (forall i, (i < size steps)%N -> proper n (nth (StepIn (fun _ p => p) (fun _ => 0) (fun _ _ _ => 0) [::]) steps i)) ->
  forall c0 i, (i < size steps)%N -> distribution n (nth c0 (pf p0 wr thr steps st) i).
Proof.
move=> n0; elim: steps => // s steps IH st d H c0 i lt /=.
have ps := H 0%N isT; have d' := step_distribution n0 ps d.
case: i lt => [|i] lt /=.
  by case: ifP => _ //; apply: resample_distribution => //; case: ps.
by apply: IH => // j lt'; apply: (H j.+1).
Qed.
Lemma size_pf wr thr steps st : size (pf p0 wr thr steps st) = size steps.
Proof. by elim: steps st => //= s steps IH st; rewrite IH. Qed.

Lemma effective_bounds n c : (0 < n)%N -> distribution n c -> 1 <= effective c <= n%:R.
Proof.
move=> n0 [s1 s2 wp w1]; rewrite /effective.
have q0 : 0 < \sum_(w <- c.2) w ^+ 2.
  rewrite -(big_map (fun w : R => w ^+ 2) xpredT id); apply: sum_pos; rewrite ?size_map ?s2 //.
  by move=> v /mapP[w /wp w0 ->]; rewrite exprn_gt0.
apply/andP; split.
- rewrite ler_pdivl_mulr // mul1r -[leRHS]w1 big_seq [leRHS]big_seq; apply: ler_sum => w wl.
  rewrite expr2 ger_pmulr ?wp // -w1 (big_rem w) //= ler_addl big_seq.
  by apply: sumr_ge0 => v /mem_rem/wp/ltW.
- rewrite ler_pdivr_mulr //.
  have nz : 0 < n%:R :> R by rewrite ltr0n.
  have : 0 <= \sum_(w <- c.2) (w - 1 / n%:R) ^+ 2 by apply: sumr_ge0 => w _; rewrite sqr_ge0.
  under eq_bigr do rewrite sqrrB.
  rewrite big_split /= sumrB.
  have -> : \sum_(i <- c.2) (i * (1 / n%:R)) *+ 2 = 2%:R / n%:R.
    under eq_bigr do rewrite -[(_ * _) *+ 2]mulr_natr.
    by rewrite -!mulr_suml w1 mul1r mul1r mulrC.
  have -> : \sum_(i <- c.2) (1 / n%:R) ^+ 2 = 1 / n%:R :> R.
    by rewrite big_const_seq count_predT s2 iter_addr_0 -[(_ ^+ 2) *+ _]mulr_natr expr2 mul1r -mulrA mulVf ?mulr1 // gt_eqF.
  have -> : 2%:R / n%:R = 1 / n%:R + 1 / n%:R :> R by rewrite -mulrDl.
  rewrite opprD addrA addrNK subr_ge0 => le.
  by move: le; rewrite ler_pdivr_mulr // mulrC.
Qed.

(** Sequential importance sampling: unnormalised weights. *)
Fixpoint sis (c : step_in R P -> P -> P -> R) (steps : seq (step_in R P)) (st : seq P * seq R) :=
  if steps is s :: steps' then
    sis c steps' (let new := [seq (let q := draw s e.1 e.2.1 in
        (q, e.2.2 * lik s q * c s e.2.1 q)) | e <- zip (iota 0 (size st.1)) (zip st.1 st.2)] in
      (unzip1 new, unzip2 new))
  else st.
End Filter.

(** Every yielded state has as many support points as particles, positive probabilities
    summing to one; its effective number of events is between one and that number. *)
Theorem C17_weights_are_a_distribution :
  forall (R : realFieldType) P (p0 : P) wr (thr : R) n steps ps s0 c0 i,
  (0 < n)%N -> size ps = n -> (forall j, (j < size steps)%N -> proper n (nth s0 steps j)) ->
  (i < size steps)%N ->
  let c := nth c0 (pf p0 wr thr steps (ps, uniform R n)) i in
  distribution n c /\ 1 <= effective c <= n%:R.
Proof.
move=> R P p0 wr thr n steps ps s0 c0 i n0 sz H lt c.
have d : distribution n c.
  apply: pf_distribution => //; first exact: uniform_distribution.
  by move=> j ltj; rewrite (set_nth_default s0) //; apply: H.
by split=> //; apply: effective_bounds.
Qed.
Print Assumptions C17_weights_are_a_distribution.

(** Resampling changes nothing but the state yielded at that time: with [u] the states
    yielded without resampling, those yielded with resampling are the [u k], or their
    resampled versions. *)
Theorem C18_resampling_is_not_propagated :
  forall (R : realFieldType) P (p0 : P) (thr : R) steps st s0 c0 k, (k < size steps)%N ->
  let u := nth c0 (pf p0 false thr steps st) k in
  nth c0 (pf p0 true thr steps st) k
  = if effective u < thr then resample p0 u (res (nth s0 steps k)) else u.
Proof.
move=> R P p0 thr steps st s0 c0 k; elim: steps st k => // s steps IH st [|k] lt //=.
exact: IH.
Qed.
Print Assumptions C18_resampling_is_not_propagated.

(** Resampling in every step (the threshold exceeds the number of particles), with
    particles that do not move: a particle discarded at the first step is back at the
    second one. *)
Theorem C18_resampling_effective_refuted :
  exists (steps : seq (step_in rat_realFieldType bool)) st (y1 y2 : categorical rat_realFieldType bool),
    [/\ forall j, (j < 2)%N -> proper 2 (nth (StepIn (fun _ p => p) (fun _ => 1) (@bootstrap_corr _ _) [:: 0; 0]%N) steps j),
        distribution 2 st, pf true true 3%:R steps st = [:: y1; y2],
        forall s i p, s \in [:: 0; 1]%N -> draw (nth (StepIn (fun _ p => p) (fun _ => 1) (@bootstrap_corr _ _) [:: 0; 0]%N) steps s) i p = p
      & false \notin y1.1 /\ false \in y2.1].
Proof.
exists [:: StepIn (fun _ p => p) (fun _ => 1) (@bootstrap_corr _ _) [:: 0; 0]%N;
           StepIn (fun _ p => p) (fun _ => 1) (@bootstrap_corr _ _) [:: 1; 1]%N].
exists ([:: true; false], uniform _ 2).
exists ([:: true; true], uniform _ 2), ([:: false; false], uniform _ 2).
split=> //.
- by case=> [|[|//]] _; split=> // p q w _; rewrite /corr /bootstrap_corr.
- exact: uniform_distribution.
- by rewrite /= /pf_step /= /effective /resample /= !big_cons !big_nil.
- by move=> s i p; rewrite !inE => /orP[]/eqP ->.
Qed.
Print Assumptions C18_resampling_effective_refuted.

(** ** Weights *)
Section Weights.
Variables (R : realFieldType) (P : Type) (p0 : P).
Lemma sis_scale (c : step_in R P -> P -> P -> R) steps : forall ps ws k,
  sis c steps (ps, [seq w * k | w <- ws])
  = ((sis c steps (ps, ws)).1, [seq w * k | w <- (sis c steps (ps, ws)).2]).
Proof.
elim: steps => // s steps IH ps ws k /=.
set new := [seq _ | e <- zip _ (zip _ ws)]; rewrite -IH; congr (sis _ _ (_, _)).
- rewrite /new /unzip1 -!map_comp /=; elim: ps 0%N ws {new} => [|p ps IH'] m [|w ws] //=.
  by rewrite IH'.
- rewrite /new /unzip2 -!map_comp /=; elim: ps 0%N ws {new} => [|p ps IH'] m [|w ws] //=.
  by rewrite IH' [w * k * _]mulrAC [w * _ * k * _]mulrAC.
Qed.

Definition normalise (v : seq P * seq R) : categorical R P :=
  (v.1, [seq w / \sum_(x <- v.2) x | w <- v.2]).
Lemma normalise_scale ps ws k : k != 0 ->
  normalise (ps, [seq w * k | w <- ws]) = normalise (ps, ws).
Proof.
move=> k0; rewrite /normalise /=; congr (_, _).
rewrite -map_comp; apply: eq_map => w /=; rewrite big_map -mulr_suml invfM mulrACA.
by rewrite mulfV // mulr1.
Qed.
Lemma pf_sis (c : step_in R P -> P -> P -> R) n thr s0 c0 steps : (0 < n)%N -> forall st,
  (0 < size steps)%N -> distribution n st ->
  (forall j, (j < size steps)%N -> proper n (nth s0 steps j)
     /\ forall p q w, 0 < w -> corr (nth s0 steps j) p q w = c (nth s0 steps j) p q * w) ->
  last c0 (pf p0 false thr steps st) = normalise (sis c steps st).
Proof.
move=> n0; elim: steps c0 => // s steps IH c0 st _ d H.
have [ps cs] := H 0%N isT; rewrite /= in ps cs.
set new := [seq (let q := draw s e.1 e.2.1 in
        (q, e.2.2 * lik s q * c s e.2.1 q)) | e <- zip (iota 0 (size st.1)) (zip st.1 st.2)].
have E : pf_step s st = normalise (unzip1 new, unzip2 new).
  rewrite /pf_step /normalise /=; set new' := [seq _ | e <- _].
  suff -> : new' = new by [].
  case: d => [s1 s2 wp _]; rewrite /new' /new; case: (st) s1 s2 wp => ps1 ws1 /= {H ps new new'} s1 s2 wp.
  rewrite -{}s1 {n0} in s2; elim: ps1 0%N ws1 s2 wp => [|p ps1 IH'] m [|w ws1] //= [s2] wp.
  rewrite IH' //; last by move=> v vl; apply: wp; rewrite in_cons vl orbT.
  by rewrite cs ?wp ?mem_head // [c _ _ _ * w]mulrC mulrA [_ * w]mulrC.
have dn := step_distribution p0 n0 ps d.
case: steps IH H => [|s' steps] IH H; first by rewrite /= E.
have -> : last c0 (pf p0 false thr (s :: s' :: steps) st)
  = last (pf_step s st) (pf p0 false thr (s' :: steps) (pf_step s st)) by [].
rewrite IH //; last by move=> j lt; apply: (H j.+1).
have tot : \sum_(x <- unzip2 new) x != 0.
  apply/eqP => t0; case: dn => _ _ _; rewrite E /= sum_div t0 mul0r => /eqP.
  by rewrite eq_sym oner_eq0.
by rewrite E {2}/normalise [fst _]/= [snd _]/= sis_scale normalise_scale ?invr_eq0 //.
Qed.
End Weights.

(** C77. With correction factors proportional to the old weight, as documented, and no
    resampling, the final weights are those of sequential importance sampling: the
    normalised products of all likelihoods and corrections along each path. The default
    correction factor has this form up to its summand [1e-14]. *)
Theorem C77_importance_weights_partial :
  forall (R : realFieldType) P (p0 : P) (c : step_in R P -> P -> P -> R) n (thr : R) s0 c0 steps ps,
  (0 < n)%N -> (0 < size steps)%N -> size ps = n ->
  (forall j, (j < size steps)%N -> proper n (nth s0 steps j)
     /\ forall p q w, 0 < w -> corr (nth s0 steps j) p q w = c (nth s0 steps j) p q * w) ->
  last c0 (pf p0 false thr steps (ps, uniform R n)) = normalise (sis c steps (ps, uniform R n)).
Proof.
move=> R P p0 c n thr s0 c0 steps ps n0 k0 sz H.
by apply: (pf_sis p0 thr c0 n0 k0 _ H); apply: uniform_distribution.
Qed.
Print Assumptions C77_importance_weights_partial.
Theorem C77_default_correction :
  forall (R : realFieldType) P (dyn imp : P -> P -> R) p q w,
  default_corr 0 dyn imp p q w = dyn p q / imp p q * w.
Proof. by move=> R P dyn imp p q w; rewrite /default_corr addr0. Qed.
Print Assumptions C77_default_correction.

(** The bootstrap filter forgets the weights: two resting particles, likelihoods 1:3 in
    the first step and equal in the second one. The final weights are equal instead of
    1:3. *)
Definition sb (l : bool -> rat) : step_in rat_realFieldType bool :=
  StepIn (fun _ p => p) l (@bootstrap_corr _ _) [:: 0; 1]%N.
Theorem C77_bootstrap_weights_refuted :
  exists (steps : seq (step_in rat_realFieldType bool)) ps,
    [/\ forall s, List.In s steps -> proper 2 s /\ corr s = @bootstrap_corr _ _,
        (0 < size steps)%N, size ps = 2%N
      & last (ps, uniform _ 2) (pf true false 0 steps (ps, uniform _ 2))
        <> normalise (sis (fun _ _ _ => 1) steps (ps, uniform _ 2))].
Proof.
exists [:: sb (fun p => if p then 1 else 3%:R); sb (fun _ => 1)], [:: true; false]; split=> //.
- by move=> s /= [<-|[<-|//]]; split=> //; split=> // -[].
- rewrite /normalise /= /pf_step /= /bootstrap_corr !big_cons !big_nil.
  move/(congr1 (fun c => nth 0 c.2 0 == nth 0 c.2 1)) => /=.
  rewrite !(mul1r, mulr1, addr0, add0r) eqxx => /esym/eqP.
  by apply/eqP; vm_compute.
Qed.
Print Assumptions C77_bootstrap_weights_refuted.

Example ex_proper : proper 2 (StepIn (fun i (p : rat) => p + i%:R) (fun q => 1 + q ^+ 2)
  (default_corr (1 / 10%:R) (fun _ _ => 1 / 2%:R) (fun _ _ => 1 / 3%:R)) [:: 1; 0]%N).
Proof.
split=> //.
- by move=> q; rewrite /= ltr_paddr ?sqr_ge0.
- by move=> p q w w0; rewrite /= /default_corr mulr_gt0 // ltr_paddl.
Qed.

(** ** Categorical random variables *)
Section Cat.
Variables (R : realFieldType) (P : eqType).
Lemma pmf_nth (p0 : P) (c : categorical R P) i : uniq c.1 -> (i < size c.1)%N ->
  pmf c (nth p0 c.1 i) = nth 0 c.2 i.
Proof.
move=> u lt; rewrite /pmf has_pred1 mem_nth //.
by rewrite -/(index _ _) index_uniq.
Qed.
Lemma pmf_out (c : categorical R P) x : x \notin c.1 -> pmf c x = 0.
Proof. by rewrite /pmf has_pred1 => /negbTE ->. Qed.
Lemma pmf_sum (c : categorical R P) : uniq c.1 -> size c.2 = size c.1 ->
  \sum_(x <- c.1) pmf c x = \sum_(w <- c.2) w.
Proof.
case: c => -[|p0 s] ws /= u sz; first by case: ws sz => //; rewrite !big_nil.
rewrite (big_nth p0) (big_nth 0) /= sz; apply: eq_big_nat => i /andP[_ lt].
exact: (@pmf_nth p0 (p0 :: s, ws)).
Qed.
Lemma has_max (l : seq R) : (0 < size l)%N -> has (fun w => all (fun v => v <= w) l) l.
Proof.
elim: l => // x [|y l] IH _; first by rewrite /= lexx.
have /hasP[m ml /allP H] := IH isT; apply/hasP.
case: (leP x m) => xm.
- exists m; first by rewrite in_cons ml orbT.
  by apply/allP => v; rewrite in_cons => /orP[/eqP ->|/H].
- exists x; first by rewrite mem_head.
  by apply/allP => v; rewrite in_cons => /orP[/eqP ->|/H vm] //; apply: le_trans vm (ltW xm).
Qed.
Lemma mode_max (p0 : P) (c : categorical R P) x : uniq c.1 -> size c.2 = size c.1 ->
  (0 < size c.1)%N -> (forall w, w \in c.2 -> 0 <= w) -> pmf c x <= pmf c (mode p0 c).
Proof.
move=> u sz n0 pos; have H : has (fun w => all (fun v => v <= w) c.2) c.2 by rewrite has_max ?sz.
have lt : (find (fun w => all (fun v => v <= w)%R c.2) c.2 < size c.1)%N by rewrite -sz -has_find.
rewrite /mode pmf_nth //; have /allP A := nth_find 0 H.
case: (boolP (x \in c.1)) => xc; last by rewrite pmf_out // pos // mem_nth // sz.
rewrite -(nth_index p0 xc) pmf_nth ?index_mem //; apply: A.
by rewrite mem_nth // sz index_mem.
Qed.
End Cat.

(** For distinct scalar events the probability mass function returns the given
    probabilities, sums to their sum, vanishes elsewhere and is maximal at the mode. *)
Theorem C74_pmf :
  forall (R : realFieldType) (P : eqType) (p0 : P) (c : categorical R P),
  uniq c.1 -> size c.2 = size c.1 ->
  [/\ forall i, (i < size c.1)%N -> pmf c (nth p0 c.1 i) = nth 0 c.2 i,
      forall x, x \notin c.1 -> pmf c x = 0,
      \sum_(x <- c.1) pmf c x = \sum_(w <- c.2) w
    & (0 < size c.1)%N -> (forall w, w \in c.2 -> 0 <= w) ->
        forall x, pmf c x <= pmf c (mode p0 c)].
Proof.
move=> R P p0 c u sz; split.
- by move=> i; exact: pmf_nth.
- exact: pmf_out.
- exact: pmf_sum.
- by move=> n0 pos x; exact: mode_max.
Qed.
Print Assumptions C74_pmf.

(** C75: resampling yields repeated events, for which only the first one counts. *)
Theorem C75_repeated_events_refuted :
  exists (c : categorical rat_realFieldType nat_eqType) idx,
    [/\ distribution 2 c, uniq c.1, size idx = 2%N /\ all (fun i => i < 2)%N idx
      & let r := resample 0%N c idx in \sum_(x <- undup r.1) pmf r x <> 1].
Proof.
exists ([:: 3; 5]%N, uniform _ 2), [:: 1; 1]%N; split=> //.
- exact: uniform_distribution.
- by rewrite /= big_cons big_nil /pmf /= => /eqP.
Qed.
Print Assumptions C75_repeated_events_refuted.

(** C76: a vector matches an event if a single component does. *)
Theorem C76_vector_events_refuted :
  exists c : categorical rat_realFieldType (seq rat),
    [/\ distribution 2 c, uniq c.1, forall x, x \in c.1 -> size x = 2%N,
        exists i, (i < 2)%N /\ pmf_vec c (nth [::] c.1 i) <> nth 0 c.2 i
      & exists2 x, size x = 2%N & x \notin c.1 /\ pmf_vec c x <> 0].
Proof.
exists ([:: [:: 0; 1]; [:: 0; 2%:R]], [:: 1 / 3%:R; 2%:R / 3%:R]); split=> //.
- split=> //=; first by move=> w; rewrite !inE => /orP[]/eqP ->.
  by rewrite !big_cons big_nil; apply/eqP.
- by move=> x; rewrite !inE => /orP[]/eqP ->.
- by exists 1%N; split=> //; rewrite /pmf_vec /= => /eqP.
- by exists [:: 0; 5%:R] => //; split=> //; rewrite /pmf_vec /= => /eqP.
Qed.
Print Assumptions C76_vector_events_refuted.
