(** Model of the particle filter and of categorical random variables:
    filtsmooth/particle/_particle_filter.py, _importance_distributions.py,
    randvars/_categorical.py.
    Densities are exact positive numbers (no underflow to zero); random draws are
    arguments. *)
From mathcomp Require Import all_ssreflect all_algebra.
Set Implicit Arguments.
Unset Strict Implicit.
Unset Printing Implicit Defensive.
Import Order.Theory GRing.Theory Num.Theory.
Local Open Scope ring_scope.

Section Filter.
Variables (R : realFieldType) (P : Type) (p0 : P).
(** A categorical variable: support and probabilities (_categorical.py 22-38). *)
Definition categorical := (seq P * seq R)%type.

(** One iteration's inputs: [draw i p] is the sample of the importance distribution of
    particle number [i] with value [p] (196), [lik] the likelihood of the datum
    (197-198), [corr p q w] the exponential of the correction factor for old particle
    [p], new particle [q] and old weight [w] (199-206), [res] the indices drawn if the
    state is resampled (_categorical.py 53-56). At the initial time [draw] ignores [p]
    (222-238). *)
Record step_in := StepIn {
  draw : nat -> P -> P; lik : P -> R; corr : P -> P -> R -> R; res : seq nat }.

(** [BootstrapImportanceDistribution.log_correction_factor] returns zero
    (_importance_distributions.py 64-67). *)
Definition bootstrap_corr (p q : P) (w : R) : R := 1.
(** The default correction factor (38-46) with its summand [1e-14]: [dyn p q] and
    [imp p q] are the densities of [q] under dynamics and proposal. *)
Definition default_corr (eps : R) (dyn imp : P -> P -> R) (p q : P) (w : R) : R :=
  dyn p q / imp p q * (w + eps).

(** The loop body up to 213. *)
Definition pf_step (s : step_in) (st : seq P * seq R) : categorical :=
  let new := [seq (let q := draw s e.1 e.2.1 in (q, lik s q * corr s e.2.1 q e.2.2))
             | e <- zip (iota 0 (size st.1)) (zip st.1 st.2)] in
  let tot := \sum_(w <- unzip2 new) w in
  (unzip1 new, [seq w / tot | w <- unzip2 new]).

(** [effective_number_of_events] (26-33). *)
Definition effective (c : categorical) : R := 1 / \sum_(w <- c.2) w ^+ 2.
(** [Categorical.resample] (96-122). *)
Definition resample (c : categorical) (idx : seq nat) : categorical :=
  ([seq nth p0 c.1 i | i <- idx], nseq (size c.2) (1 / (size c.1)%:R)).

(** [filter_generator] (176-220): [min_eff] is
    [resampling_percentage_threshold * num_particles]. *)
Fixpoint pf (with_resampling : bool) (min_eff : R) (steps : seq step_in)
    (st : seq P * seq R) : seq categorical :=
  if steps is s :: steps' then
    let st' := pf_step s st in
    let rv := if with_resampling && (effective st' < min_eff)
              then resample st' (res s) else st' in
    rv :: pf with_resampling min_eff steps' st'
  else [::].
(** Initial weights (168). *)
Definition uniform n : seq R := nseq n (1 / n%:R).
End Filter.

Section Categorical.
Variable R : realFieldType.
(** [_pmf_categorical] (58-71) for scalar events: the probability at the first match. *)
Definition pmf (P : eqType) (c : categorical R P) (x : P) : R :=
  if has (pred1 x) c.1 then nth 0 c.2 (find (pred1 x) c.1) else 0.
(** ... and for vector-valued events: [(x == support).nonzero()[0]] lists the rows with
    at least one equal component. *)
Definition pmf_vec (c : categorical R (seq R)) (x : seq R) : R :=
  let m r := has (fun ab : R * R => ab.1 == ab.2) (zip x r) in
  if has m c.1 then nth 0 c.2 (find m c.1) else 0.
(** [_mode_categorical] (73-75): [argmax] is the first maximal index. *)
Definition mode (P : Type) (p0 : P) (c : categorical R P) : P :=
  nth p0 c.1 (find (fun w => all (fun v => v <= w) c.2) c.2).
End Categorical.
