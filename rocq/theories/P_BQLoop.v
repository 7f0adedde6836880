(** C42: the Bayesian quadrature loop. *)
From Coq Require Import List Bool Arith QArith Qabs Lia.
From Verif Require Import M_BQLoop L_BQLoop.
Import ListNotations.
Open Scope nat_scope.

(** Data, counters and recorded beliefs of every yielded state. *)
Theorem C42_counts_and_keeps_evaluations :
  forall X V Bel (posterior : list X -> list V -> Bel) stop p f fuel s i,
  full_batches p ->
  i_nevals i = length (bq_evals s) -> length (bq_nodes s) = length (bq_evals s) ->
  good_run posterior p f (i_iter i) (bq_prev s) s
    (fst (bq_iterator posterior fuel stop p f s i)).
Proof. intros. apply iterator_good; assumption. Qed.
Print Assumptions C42_counts_and_keeps_evaluations.

(** The run of [integrate] starts from exactly the given nodes and evaluations
    followed by the initial design and the integrand there, without any data from
    the prior. *)
Theorem C42_starts_from_given_data :
  forall X V Bel (posterior : list X -> list V -> Bel) prior stop p f fuel given design,
  full_batches p -> (forall xs vs, given = Some (xs, vs) -> length xs = length vs) ->
  let gx := match given with Some (xs, _) => xs | None => [] end in
  let gv := match given with Some (_, vs) => vs | None => [] end in
  let ds := match design with Some ds => ds | None => [] end in
  exists s0,
    bq_nodes s0 = gx ++ ds /\ bq_evals s0 = gv ++ map f ds
    /\ (given = None /\ design = None -> bq_belief s0 = prior /\ bq_prev s0 = [])
    /\ (given <> None \/ design <> None ->
        bq_belief s0 = posterior (gx ++ ds) (gv ++ map f ds) /\ bq_prev s0 = [prior])
    /\ let l := fst (integrate posterior prior fuel stop p f given design) in
       good_run posterior p f 0 (bq_prev s0) s0 l /\ (0 < fuel -> l <> []).
Proof.
  intros X V Bel posterior prior stop p f fuel given design Hp Hg gx gv ds.
  assert (forall s i, fuel = 0 \/ fst (bq_iterator posterior fuel stop p f s i) <> []) as Hne.
  { intros s i. destruct fuel as [|n]; [now left|right]. simpl.
    destruct (stop (s, i)); [discriminate|].
    destruct (bq_iterator posterior n stop p f _ _). discriminate. }
  assert (forall s, length (bq_nodes s) = length (bq_evals s) ->
    let l := fst (bq_iterator posterior fuel stop p f s (mk_info 0 (length (bq_evals s)) false)) in
    good_run posterior p f 0 (bq_prev s) s l /\ (0 < fuel -> l <> [])) as Hgo.
  { intros s Hl l. split.
    - apply (iterator_good posterior stop p f Hp fuel s (mk_info 0 (length (bq_evals s)) false));
        [reflexivity|assumption].
    - intros Hf. destruct (Hne s (mk_info 0 (length (bq_evals s)) false)); [lia|assumption]. }
  unfold integrate. destruct given as [[xs vs]|], design as [d|]; simpl in *.
  - exists (update posterior (mk_bq [] [] prior []) (xs ++ d) (vs ++ map f d)).
    do 2 (split; [reflexivity|]). split; [intros [A _]; discriminate A|].
    split; [split; reflexivity|]. apply Hgo. simpl.
    rewrite !app_length, map_length, (Hg xs vs eq_refl). reflexivity.
  - exists (update posterior (mk_bq [] [] prior []) xs vs). rewrite !app_nil_r.
    do 2 (split; [reflexivity|]). split; [intros [A _]; discriminate A|].
    split; [split; reflexivity|]. apply Hgo. simpl. apply Hg. reflexivity.
  - exists (update posterior (mk_bq [] [] prior []) d (map f d)).
    do 2 (split; [reflexivity|]). split; [intros [_ A]; discriminate A|].
    split; [split; reflexivity|]. apply Hgo. simpl. now rewrite map_length.
  - exists (mk_bq [] [] prior []).
    do 2 (split; [reflexivity|]). split; [split; reflexivity|].
    split; [intros [A|A]; now elim A|]. apply Hgo. reflexivity.
Qed.
Print Assumptions C42_starts_from_given_data.

Theorem C42_stops_when_first_met :
  forall X V Bel (posterior : list X -> list V -> Bel) stop p f fuel s i l,
  bq_iterator posterior fuel stop p f s i = (l, true) ->
  exists pre s' i', l = pre ++ [(s', i')]
    /\ i_conv i' = true
    /\ (exists j, stop (s', j) = true /\ i_nevals j = i_nevals i' /\ i_iter j = i_iter i')
    /\ Forall (fun si => i_conv (snd si) = false
         /\ exists j, stop (fst si, j) = false /\ i_nevals j = i_nevals (snd si)
              /\ i_iter j = i_iter (snd si)) pre.
Proof. intros X V Bel. exact iterator_stops_first. Qed.
Print Assumptions C42_stops_when_first_met.

(** Budget: the loop terminates; unless the starting data already meet the
    criterion the count overshoots the budget by less than one batch. *)
Theorem C42_budget :
  forall X V Bel (posterior : list X -> list V -> Bel) stop p f M,
  full_batches p -> 1 <= pol_batch p -> stops_at M stop ->
  forall fuel s i, M - i_nevals i < fuel ->
  exists pre s' i', bq_iterator posterior fuel stop p f s i = (pre ++ [(s', i')], true)
    /\ i_nevals i' = i_nevals i + length pre * pol_batch p
    /\ (pre <> [] -> i_nevals i' < M + pol_batch p).
Proof. intros X V Bel. exact iterator_budget. Qed.
Print Assumptions C42_budget.

Theorem C42_criterion_selection :
  forall X V Bel (mean var : Bel -> Q) d m me vt rt (s : bqstate X V Bel) i,
  stops_at (X := X) (V := V) m (select_criterion mean var true d (Some m) vt rt)
  /\ stops_at (X := X) (V := V) (d * 25) (select_criterion mean var true d None None None)
  /\ (me <> None \/ vt <> None \/ rt <> None ->
      (select_criterion mean var true d me vt rt (s, i) = true <->
       (exists m, me = Some m /\ m <= i_nevals i)
       \/ (exists v, vt = Some v /\ (var (bq_belief s) <= v)%Q)
       \/ (exists r, rt = Some r /\ relative_mean_change mean r (s, i) = true)))
  /\ (* without a policy nothing is acquired *)
     select_criterion mean var false d me vt rt (s, i) = true.
Proof.
  intros. split; [apply select_budget|]. split; [apply select_default|].
  split; [intros H; exact (select_any mean var d me vt rt s i H)|reflexivity].
Qed.
Print Assumptions C42_criterion_selection.

(** Relative tolerance alone does not stop when the estimate is zero: constant
    beliefs, positive tolerance, any number of iterations. *)
Theorem C64_relative_tolerance_refuted :
  exists (posterior : list nat -> list Q -> Q * Q) p f prior,
    full_batches p
    /\ (forall xs vs, posterior xs vs = prior)
    /\ forall fuel, snd (integrate posterior prior fuel
          (select_criterion fst snd true 1 None None (Some (1#2))) p f None None) = false.
Proof.
  exists zpost, (mk_policy 1 (fun s => [length (bq_nodes s)])), (fun _ => 0%Q), (0, 1)%Q.
  split; [intros s; reflexivity|]. split; [reflexivity|].
  intros fuel. apply zero_never_stops. reflexivity.
Qed.
Print Assumptions C64_relative_tolerance_refuted.

(** For a non-zero current mean the criterion is the documented inequality. *)
Theorem C64_relative_tolerance_partial :
  forall X V Bel (mean : Bel -> Q) tol (s : bqstate X V Bel) i prev b,
  bq_prev s = prev ++ [b] -> ~ (mean (bq_belief s) == 0)%Q ->
  (relative_mean_change mean tol (s, i) = true <->
   (Qabs ((mean (bq_belief s) - mean b) / mean (bq_belief s)) <= tol)%Q).
Proof.
  intros X V Bel mean tol s i prev b E Hm. unfold relative_mean_change. simpl.
  rewrite E, rev_unit. destruct (Qeq_bool (mean (bq_belief s)) 0) eqn:F.
  - apply Qeq_bool_iff in F. contradiction.
  - apply Qle_bool_iff.
Qed.
Print Assumptions C64_relative_tolerance_partial.

(** Non-vacuity: batches of 2, budget 5, three nodes given. *)
Definition ex_policy : policy nat Q Q := mk_policy 2 (fun s => [length (bq_nodes s); 7]).
Definition ex_post (xs : list nat) (vs : list Q) : Q := fold_right Qplus 0%Q vs.
Example ex_full : full_batches ex_policy.
Proof. intros s; reflexivity. Qed.
Example ex_integrate :
  map (fun si => (i_iter (snd si), i_nevals (snd si), i_conv (snd si), bq_nodes (fst si)))
      (fst (integrate ex_post 0%Q 4
        (select_criterion (fun b => b) (fun _ => 1%Q) true 1 (Some 4) None None)
        ex_policy (fun _ => 1%Q) (Some ([1], [2%Q])) None))
  = [(0, 1, false, [1]); (1, 3, false, [1; 1; 7]); (2, 5, true, [1; 1; 7; 3; 7])].
Proof. reflexivity. Qed.
