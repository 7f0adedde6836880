(** C16, C19, C73: posterior containers and merged regression problems. *)
From mathcomp Require Import all_ssreflect all_algebra.
From Verif Require Import M_Series L_Series.
Set Implicit Arguments.
Unset Strict Implicit.
Unset Printing Implicit Defensive.
Import Order.Theory GRing.Theory Num.Theory.
Local Open Scope ring_scope.

(** After any sequence of operations on a new posterior the locations are strictly
    increasing and, paired with the states, are the appends that did not raise. *)
Theorem C16_appends_keep_order :
  forall (T : realFieldType) St (os : seq (op T St)) p bs,
  run (empty_post T St) os = (p, bs) ->
  sorted <%O (locs p) /\ size (states p) = size (locs p)
  /\ zip (locs p) (states p) = accepted os bs.
Proof.
move=> T St os p bs R; have g : good (empty_post T St) by [].
by have [[so sz] z] := run_good g R.
Qed.
Print Assumptions C16_appends_keep_order.

(** An append raises exactly on frozen posteriors and for locations that are not later
    than every stored one; [step] leaves the posterior unchanged then. *)
Theorem C16_append_raises_iff :
  forall (T : realFieldType) St (p : posterior T St) t s,
  sorted <%O (locs p) -> size (states p) = size (locs p) ->
  (append p t s = None <-> frozen p \/ exists2 x, x \in locs p & t <= x)
  /\ (append p t s = None -> step p (Append t s) = (p, true)).
Proof.
move=> T St p t s so sz; split; first exact: append_NoneP.
by rewrite /step => ->.
Qed.
Print Assumptions C16_append_raises_iff.

(** Evaluation at a stored location returns the stored state, whatever the model. *)
Theorem C16_stored_locations :
  forall (T : realFieldType) St (st0 : St) (p : posterior T St) dense i,
  sorted <%O (locs p) -> size (states p) = size (locs p) -> (i < size (locs p))%N ->
  call1 st0 p dense (nth 0 (locs p) i) = Some (nth st0 (states p) i).
Proof. move=> T St st0 p dense i so sz; exact: call1_stored. Qed.
Print Assumptions C16_stored_locations.

(** Elsewhere the model-specific part gets the indices of the neighbouring locations;
    to the left of all locations evaluation raises. *)
Theorem C16_neighbours :
  forall (T : realFieldType) St (st0 : St) (p : posterior T St) dense t,
  sorted <%O (locs p) -> size (states p) = size (locs p) -> (0 < size (locs p))%N ->
  (forall k, (k.+1 < size (locs p))%N -> nth 0 (locs p) k < t < nth 0 (locs p) k.+1 ->
     call1 st0 p dense t = dense k (Some k.+1) t)
  /\ (last 0 (locs p) < t -> call1 st0 p dense t = dense (size (locs p)).-1 None t)
  /\ (t < head 0 (locs p) -> call1 st0 p dense t = None).
Proof.
move=> T St st0 p dense t so sz n0; split; first by move=> k; exact: call1_between.
by split; [exact: call1_right | exact: call1_left].
Qed.
Print Assumptions C16_neighbours.

(** Evaluating at an array is evaluating at its entries one by one, in order; unsorted
    arrays and empty posteriors raise. *)
Theorem C16_arrays :
  forall (T : realFieldType) St (st0 : St) (p : posterior T St) dense ts,
  call st0 p dense ts =
    if sorted <=%O ts && (0 < size (locs p))%N
    then seqo [seq call1 st0 p dense t | t <- ts] else None.
Proof.
move=> T St st0 p dense ts; case: ifP => [/andP[so n0]|]; first exact: callE.
rewrite /call; case: (sorted _ _) => //=; case: (size _) => //.
Qed.
Print Assumptions C16_arrays.

Example ex_posterior : let p := (run (empty_post [realFieldType of rat] nat)
    [:: Append 0 1%N; Append 2%:R 7%N; Append 1 8%N; Append 3%:R 9%N; Freeze _ _; Append 4%:R 3%N]) in
  locs p.1 = [:: 0; 2%:R; 3%:R] /\ states p.1 = [:: 1; 7; 9]%N
  /\ p.2 = [:: false; false; true; false; false; true].
Proof. by []. Qed.

(** ** Merging *)
Section Merge.
Variables (T : realFieldType) (V Mo : eqType) (zero : V).
(** A problem as built by its constructor, with as many solution rows as locations. *)
Definition wf (p : problem T V Mo) :=
  [/\ size (pdata p) = size (plocs p), size (pmodels p) = size (plocs p)
    & if psol p is Some s then size s = size (plocs p) else True].
(** What a problem says: its set (with multiplicity) of observations. *)
Definition rows (p : problem T V Mo) := zip (plocs p) (zip (pdata p) (pmodels p)).
Definition solrows (p : problem T V Mo) := zip (plocs p) (odflt [::] (psol p)).
Definition has_sol (p : problem T V Mo) : bool := psol p.

Lemma from_map A (x0 : A) (l s : seq T) (d r : seq A) : uniq s -> size r = size s ->
  (forall x, x \in s -> nth x0 r (index x s) = nth x0 d (index x l)) ->
  r = [seq nth x0 d (index x l) | x <- s].
Proof.
move=> us sz H; apply: (@eq_from_nth _ x0); first by rewrite size_map.
move=> i; rewrite sz => lt; rewrite (nth_map 0) // -H ?mem_nth //.
by rewrite index_uniq.
Qed.
Lemma id_map A (x0 : A) (l : seq T) (d : seq A) : uniq l -> size d = size l ->
  d = [seq nth x0 d (index x l) | x <- l].
Proof. by move=> u sz; apply: from_map. Qed.
Lemma zip_maps A B C (f : A -> B) (g : A -> C) l :
  zip (map f l) (map g l) = [seq (f x, g x) | x <- l].
Proof. by elim: l => //= x l ->. Qed.

Lemma zip_id A B (g : A -> B) l : zip l (map g l) = [seq (x, g x) | x <- l].
Proof. by elim: l => //= x l ->. Qed.
Lemma zip_self A (x0 : A) (l : seq T) (d : seq A) : uniq l -> size d = size l ->
  zip l d = [seq (x, nth x0 d (index x l)) | x <- l].
Proof. by move=> u sz; rewrite -zip_id -(id_map x0 u sz). Qed.
Lemma zip_self2 A B (x0 : A) (y0 : B) (l : seq T) (d : seq A) (e : seq B) :
  uniq l -> size d = size l -> size e = size l ->
  zip l (zip d e) = [seq (x, (nth x0 d (index x l), nth y0 e (index x l))) | x <- l].
Proof.
move=> u sz sz'; rewrite -zip_id -(zip_maps (fun x => nth x0 d (index x l))).
by rewrite -(id_map x0 u sz) -(id_map y0 u sz').
Qed.

Lemma merge_spec (p1 p2 : problem T V Mo) :
  wf p1 -> wf p2 -> uniq (plocs p1) -> uniq (plocs p2) ->
  if [|| has (mem (plocs p2)) (plocs p1), pshape p1 != pshape p2
       | [&& has_sol p1, has_sol p2 & psolshape p1 != psolshape p2]]
  then merge zero p1 p2 = None
  else exists2 q, merge zero p1 p2 = Some q
    & [/\ wf q, sorted <%O (plocs q), perm_eq (rows q) (rows p1 ++ rows p2),
          has_sol q = has_sol p1 && has_sol p2
        & has_sol q -> perm_eq (solrows q) (solrows p1 ++ solrows p2)].
Proof.
move=> [d1 m1 s1] [d2 m2 s2] u1 u2; rewrite /merge.
case H: (has _ _) => //=; case: eqP => [_|] //=.
set l := plocs p1 ++ plocs p2; set s := sort _ l.
have u : uniq l by rewrite cat_uniq u1 u2 andbT /= has_sym /= H.
have us : uniq s by rewrite sort_uniq.
have so : sorted <%O s by rewrite lt_sorted_uniq_le sort_uniq u sort_le_sorted.
have ps : perm_eq s l by rewrite perm_sort.
have zl : size s = (size (plocs p1) + size (plocs p2))%N by rewrite size_sort size_cat.
have [rd ED [zd /(from_map us zd) Ed]] := write2_spec zero u d1 d2.
have [rm EM [zm /(from_map us zm) Em]] := write2_spec None u m1 m2.
rewrite ED /=; rewrite m1 m2 -d1 -d2 in EM.
have sd : size (pdata p1 ++ pdata p2) = size l by rewrite !size_cat d1 d2.
have sm : size (pmodels p1 ++ pmodels p2) = size l by rewrite !size_cat m1 m2.
have PR sol sh ssh : perm_eq (rows (Prob s rd rm sol sh ssh)) (rows p1 ++ rows p2).
  rewrite /rows /= -!zip_cat ?size_zip ?d1 ?m1 ?minnn // -/l.
  rewrite Ed Em (zip_self2 zero None u sd sm) zip_maps zip_id.
  exact: perm_map.
have W sol sh ssh : (if sol is Some r then size r = size s else True) ->
  wf (Prob s rd rm sol sh ssh) by [].
have MK sol sh ssh : mk_problem s rd rm sol sh ssh = Some (Prob s rd rm sol sh ssh).
  by rewrite /mk_problem zd zm eqxx.
have hs p : has_sol p = psol p by [].
rewrite !hs; case E1: (psol p1) s1 => [r1|] s1; last first.
  by rewrite /= EM /= MK; eexists; first by []; split=> //; rewrite ?E1.
case E2: (psol p2) s2 => [r2|] s2; last first.
  by rewrite /= EM /= MK; eexists; first by []; split=> //; rewrite ?E2.
case: eqP => //= _; have [rs ES [zs /(from_map us zs) Es]] := write2_spec zero u s1 s2.
rewrite s1 s2 -d1 -d2 in ES; rewrite ES /= EM /= MK; eexists; first by [].
split=> //= _; rewrite /solrows E1 E2 /= -zip_cat // -/l.
have sr : size (r1 ++ r2) = size l by rewrite !size_cat s1 s2.
by rewrite Es (zip_self zero u sr) zip_id; apply: perm_map.
Qed.
End Merge.

(** Merging two problems with distinct locations each: an exception exactly if a
    location is shared or array shapes differ; otherwise the new locations increase
    and every observation with its location and measurement model (and solution, if
    both problems have one) of both problems occurs, and nothing else. *)
Theorem C19_merge_keeps_observations :
  forall (T : realFieldType) (V Mo : eqType) (zero : V) (p1 p2 : problem T V Mo),
  wf p1 -> wf p2 -> uniq (plocs p1) -> uniq (plocs p2) ->
  if [|| has (mem (plocs p2)) (plocs p1), pshape p1 != pshape p2
       | [&& has_sol p1, has_sol p2 & psolshape p1 != psolshape p2]]
  then merge zero p1 p2 = None
  else exists2 q, merge zero p1 p2 = Some q
    & [/\ wf q, sorted <%O (plocs q), perm_eq (rows q) (rows p1 ++ rows p2),
          has_sol q = has_sol p1 && has_sol p2
        & has_sol q -> perm_eq (solrows q) (solrows p1 ++ solrows p2)].
Proof. exact: merge_spec. Qed.
Print Assumptions C19_merge_keeps_observations.

(** The constructor accepts exactly aligned inputs; the solution is not checked. *)
Theorem C19_constructor :
  forall (T : realFieldType) (V Mo : eqType) l (d : seq V) (m : seq (option Mo)) s sh ssh,
  (mk_problem l d m s sh ssh = None <-> ~ (size d = size l /\ size m = size l))
  /\ forall p : problem T V Mo, mk_problem l d m s sh ssh = Some p ->
       p = Prob l d m s sh ssh.
Proof.
move=> T V Mo l d m s sh ssh; rewrite /mk_problem (eq_sym (size l)); split.
  split; first by case: ifP => // /negP H _ [/eqP a /eqP b]; apply: H; rewrite a b.
  by case: ifP => // /andP[/eqP a /eqP b] [].
by move=> p; case: ifP => // _ [].
Qed.
Print Assumptions C19_constructor.

(** C73: two observations at one location of the first problem. One is lost; a row of
    zeros with the integer zero as its measurement model appears. *)
Theorem C73_repeated_locations_refuted :
  exists (p1 p2 q : problem [realFieldType of rat] [eqType of nat] [eqType of bool]),
    [/\ wf p1 /\ wf p2, ~~ has (mem (plocs p2)) (plocs p1), None \notin pmodels p1 ++ pmodels p2,
        merge 0%N p1 p2 = Some q
      & (1, (5%N, Some true)) \in rows p1 /\ (1, (5%N, Some true)) \notin rows q
        /\ (1, (0%N, None)) \in rows q].
Proof.
exists (Prob [:: 1; 1] [:: 5; 6]%N [:: Some true; Some true] None [::] [::]),
  (Prob [:: 2%:R] [:: 7]%N [:: Some false] None [::] [::]),
  (Prob [:: 1; 1; 2%:R] [:: 6; 0; 7]%N [:: Some true; None; Some false] None [::] [::]).
by split.
Qed.
Print Assumptions C73_repeated_locations_refuted.

Example ex_merge :
  let p1 := Prob [:: 1; 3%:R] [:: 5; 6]%N [:: Some true; Some true] (Some [:: 1; 2]%N) [::] [::] in
  let p2 := Prob [:: 2%:R; 0] [:: 7; 8]%N [:: Some false; Some false] (Some [:: 3; 4]%N) [::] [::] in
  (wf p1 /\ wf p2) /\ (uniq (plocs p1) && uniq (plocs p2)) /\
  merge 0%N p1 p2 = Some (Prob [:: 0; 1; 2%:R; 3%:R : rat] [:: 8; 5; 7; 6]%N
    [:: Some false; Some true; Some false; Some true] (Some [:: 4; 1; 3; 2]%N) [::] [::]).
Proof. by []. Qed.
