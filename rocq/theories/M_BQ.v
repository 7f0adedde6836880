(** Model of the numbers of Bayesian quadrature:
    quad/solvers/belief_updates/_standard_update.py, _belief_update.py, _bq_state.py,
    acquisition_functions/_predictive_variance.py, _integral_variance_reduction.py and
    [bayesquad_from_data], [multilevel_bayesquad_from_data] of quad/_bayesquad.py.
    Numbers are exact; exceptions and non-finite numbers are [None]. The kernel and its
    embedding are arbitrary functions. [scipy.linalg.cho_factor] reads the upper triangle
    and fails unless the matrix is positive definite; the factor is represented by the
    matrix that it factorises. Batches of nodes are not empty. *)
From mathcomp Require Import all_ssreflect all_algebra.
From Verif Require Import M_DMx L_Chol.
Set Implicit Arguments.
Unset Strict Implicit.
Unset Printing Implicit Defensive.
Import Order.Theory GRing.Theory Num.Theory.
Local Open Scope ring_scope.

Section BQ.
Variables (R : rcfType) (dim : nat).
Local Notation node := 'rV[R]_dim.

(** Kernel and [KernelEmbedding]: [kernel], [kernel_mean], [kernel_variance]. *)
Record kernel := Kernel { k_eval : node -> node -> R; k_mean : node -> R; k_var : R }.

(** [Kernel.matrix] of two lists of nodes. *)
Definition kmat (k : kernel) (xs ys : seq node) : dmx R :=
  mk (size xs) (size ys) (fun i j => k_eval k (nth 0 xs i) (nth 0 ys j)).
(** [np.hstack]. *)
Definition dhcat (A B : dmx R) : dmx R :=
  mk (drow A) (dcol A + dcol B)
     (fun i j => if (j < dcol A)%N then get A i j else get B i (j - dcol A)).

(** [cho_factor(gram + jitter * eye)] (_belief_update.py 61-81) and [cho_solve] (83-103). *)
Definition upper_sym n (A : 'M[R]_n) : 'M[R]_n :=
  \matrix_(i, j) if (i <= j)%N then A i j else A j i.
Definition posdef n (A : 'M[R]_n) : bool :=
  [forall i, 0 < chol_of A i i] && (chol_of A *m (chol_of A)^T == A).
Definition cho_factor (jitter : R) n (gram : dmx R) : option 'M[R]_n :=
  let A := upper_sym (sq n gram + jitter%:M) in if posdef A then Some A else None.
Definition cho_solve n (F : 'M[R]_n) p (z : 'M[R]_(n, p)) : 'M[R]_(n, p) := invmx F *m z.

(** [BQState] (_bq_state.py 50-80): the factor is stored as an array. *)
Record state := State {
  nodes : seq node; evals : seq R; scale_sq : R;
  gram : dmx R; factor : dmx R; kmeans : seq R;
  belief : R * R; previous : seq (R * R) }.
(** The starting state of [integrate] (_bayesian_quadrature.py 505-512). *)
Definition init (k : kernel) : state :=
  State [::] [::] 1 (dzero R 1 0) (dzero R 1 0) [::] (0, k_var k) [::].

Definition colv n (l : seq R) : 'cV[R]_n := \col_i l`_i.
Definition num (v : 'M[R]_1) : R := v 0 0.

(** [scale_estimation]: [None] or ["mle"] (111-128). *)
Inductive scaling := Keep | Mle.
Definition estimate_scale (e : scaling) n (F : 'M[R]_n) (ys : seq R) (old : R) : R :=
  match e with
  | Keep => old
  | Mle => num ((colv n ys)^T *m cho_solve F (colv n ys)) / n%:R
  end.

(** [BQStandardBeliefUpdate.__call__] (36-101); [_estimate_kernel] (104-109) never changes
    the kernel. [weights @ fun_evals] (82) needs as many evaluations as nodes. *)
Definition update (k : kernel) (jitter : R) (e : scaling) (s : state)
    (new_nodes : seq node) (new_evals : seq R) : option state :=
  let xs := nodes s ++ new_nodes in
  let ys := evals s ++ new_evals in
  let n := size xs in
  let first := size (nodes s) == 0%N in
  let G := if first then kmat k xs xs
           else let gnn := kmat k new_nodes new_nodes in
                let gon := kmat k new_nodes (nodes s) in
                dhcat (dvcat (gram s) gon) (dvcat (dtr gon) gnn) in
  let ms := if first then map (k_mean k) xs
            else kmeans s ++ map (k_mean k) new_nodes in
  if size ys != n then None else
  omap (fun F : 'M[R]_n =>
    let sc := estimate_scale e F ys (scale_sq s) in
    let weights := cho_solve F (colv n ms) in
    State xs ys sc G (DMx F) ms
      (num (weights^T *m colv n ys), sc * (k_var k - num (weights^T *m colv n ms)))
      (rcons (previous s) (belief s)))
  (cho_factor jitter n G).

(** Updates with batches, one after the other. *)
Definition updates k jitter e (s : state) (bs : seq (seq node * seq R)) : option state :=
  foldl (fun os b => obind (fun s => update k jitter e s b.1 b.2) os) (Some s) bs.

(** [predict_integrand] (130-151) at one node: mean and variance. *)
Definition kcol k (s : state) (x : node) : 'cV[R]_(size (nodes s)) :=
  \col_i k_eval k (nth 0 (nodes s) i) x.
Definition predict (k : kernel) (s : state) (x : node) : R * R :=
  let n := size (nodes s) in
  if size (evals s) == 0%N then (0, scale_sq s * k_eval k x x) else
  let weights := cho_solve (sq n (factor s)) (kcol k s x) in
  (num (weights^T *m colv n (evals s)),
   scale_sq s * (k_eval k x x - num (weights^T *m kcol k s x))).

(** [WeightedPredictiveVariance.__call__] (39-49); [p]: the density of the measure. *)
Definition acq_variance k (p : node -> R) (s : state) (x : node) : option R :=
  if scale_sq s == 0 then None
  else Some ((predict k s x).2 * (1 / scale_sq s) * p x ^+ 2).
(** [IntegralVarianceReduction.__call__] (50-75). *)
Definition acq_reduction (k : kernel) (s : state) (x : node) : option R :=
  let n := size (nodes s) in
  let v := (predict k s x).2 in
  let emb := if (0 < size (evals s))%N
             then k_mean k x - num ((colv n (kmeans s))^T *m
                                    cho_solve (sq n (factor s)) (kcol k s x))
             else k_mean k x in
  let d := (belief s).2 * v in
  if d == 0 then None else Some ((scale_sq s * emb) ^+ 2 / d).

(** [bayesquad_from_data] (_bayesquad.py 286-310): [integrate] without a policy. *)
Definition from_data k jitter e (xs : seq node) (ys : seq R) : option (R * R) :=
  omap belief (update k jitter e (init k) xs ys).
(** [multilevel_bayesquad_from_data] (429-455); the sum of independent normals
    (randvars/_normal.py [_add_normal]). *)
Definition add_normal (a b : R * R) : R * R := (a.1 + b.1, a.2 + b.2).
Definition multilevel (jitter : R) (e : scaling) (xss : seq (seq node)) (yss : seq (seq R))
    (ks : seq kernel) : option (R * R) :=
  let L := size yss in
  let xss := if size xss == 1%N then nseq L (head [::] xss) else xss in
  if (size xss == L) && (L == size ks) then
    foldl (fun acc q => obind (fun a => omap (add_normal a) (from_data q.2 jitter e q.1.1 q.1.2)) acc)
          (Some (0, 0)) (zip (zip xss yss) ks)
  else None.
End BQ.
Arguments Kernel {R dim}.
