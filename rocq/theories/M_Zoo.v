(** Model of the test problems of problems/zoo/quad: _quadproblems_uniform.py and _quadproblems_gaussian.py
    (not _emukit_problems.py, whose solutions are decimal numbers), over the real numbers of the standard library.
    The dimension is at least one; parameters have the documented shapes.  [None]: an exception; for numbers also
    nan and infinite values.  Not modelled: rounding, dtypes. *)
From Coq Require Import Reals.
From Coquelicot Require Import Coquelicot.
From mathcomp Require Import all_ssreflect all_algebra.
From Verif Require Import L_RStruct M_Embed.
Set Implicit Arguments.
Unset Strict Implicit.
Unset Printing Implicit Defensive.
Delimit Scope R_scope with coqR.
Local Open Scope ring_scope.

(** [scipy.stats.norm.cdf]. *)
Definition normal_cdf (z : R) : R := (1 / 2 + RInt (fun t => exp (- t ^ 2 / 2) / sqrt (2 * PI)) 0 z)%coqR.
(** [x ** y] for [x >= 0] and [y > 0]. *)
Definition npow (x y : R) : R := if Rle_dec x 0 then 0 else Rpower x y.
(** [itertools.combinations]. *)
Fixpoint combinations T (k : nat) (l : seq T) : seq (seq T) :=
  if k is k'.+1 then
    if l is x :: l' then map (cons x) (combinations k' l') ++ combinations k l' else [::]
  else [:: [::]].
(** [special.factorial2(b - 1)]; its value at -1 is 1. *)
Fixpoint factorial2_pred (b : nat) : nat := if b is b'.+2 then (b'.+1 * factorial2_pred b')%N else 1%N.

Section Zoo.
Variable n : nat.
Notation D := n.+1.
Notation point := 'rV[R]_D.
Implicit Types (a u x : point) (xs : seq point).

(** [QuadratureProblem] (problems/_problems.py 223-270).  The function maps an array of points, of shape
    [(n_eval, dim)], to an array, given by its shape and entries. *)
Record problem := Problem { fn : seq point -> option (seq nat * seq R); mu : measure D; solution : option R }.

(** The check of the points and the reshaping to [(n, 1)], e.g. _quadproblems_uniform.py 82-101. *)
Definition unit_box (x : point) : bool := [forall d, (0 <= x ord0 d) && (x ord0 d <= 1)].
Definition on_box (f : point -> R) (xs : seq point) : option (seq nat * seq R) :=
  if all unit_box xs then Some ([:: size xs; 1%N], map f xs) else None.
(** [LebesgueMeasure(domain=(lower_bd, upper_bd), input_dim=dim)], e.g. 104-106. *)
Definition unit_measure : measure D := Lebesgue (const_mx 0) (const_mx 1) false.
(** The check of the parameter [u], e.g. 78-79. *)
Definition checked (u : point) (p : problem) : option problem := if unit_box u then Some p else None.
Definition has_zero (a : point) : bool := [exists d, a ord0 d == 0].
Definition total (a : point) : R := \sum_(d < D) a ord0 d.
Definition part (a : point) (s : seq 'I_D) : R := \sum_(d <- s) a ord0 d.

(** [genz_continuous] (27-111). *)
Definition genz_continuous a u : option problem :=
  checked u (Problem (on_box (fun x => exp (- \sum_(d < D) (a ord0 d * Rabs (x ord0 d - u ord0 d)))%R)) unit_measure
    (if has_zero a then None
     else Some (\prod_(d < D) ((2 - exp (-1 * a ord0 d * u ord0 d) - exp (a ord0 d * (u ord0 d - 1))) / a ord0 d)%coqR))).

(** [genz_cornerpeak] (114-194). The power of zero is not modelled in the function. *)
Definition subset_sum (h : nat -> R -> R) a (c : R) : R :=
  \sum_(k <- iota 0 D.+1) \sum_(s <- combinations k (enum 'I_D)) h k (c + total a - part a s).
Definition genz_cornerpeak a u : option problem :=
  let z := has (fun k => has (fun s => 1 + total a - part a s == 0) (combinations k (enum 'I_D))) (iota 0 D.+1) in
  checked u (Problem (on_box (fun x => / (1 + \sum_(d < D) (a ord0 d * x ord0 d)%R) ^ D.+1)%coqR) unit_measure
    (if has_zero a || z then None
     else Some (subset_sum (fun k t => (-1) ^ (k + D) * / t)%coqR a 1
                / ((\prod_(d < D) a ord0 d)%R * INR (fact D)))%coqR)).

(** [genz_discontinuous] (197-278). *)
Definition genz_discontinuous a u : option problem :=
  checked u (Problem (on_box (fun x => if [exists d, 0 < x ord0 d - u ord0 d] then 0 else exp (\sum_(d < D) (a ord0 d * x ord0 d))%R)) unit_measure
    (if has_zero a then None
     else Some (if D == 1%N then ((exp (a ord0 ord0 * u ord0 ord0) - 1) / a ord0 ord0)%coqR
                else \prod_(d < D) ((exp (a ord0 d * Rmin (u ord0 d) 1) - 1) / a ord0 d)%coqR))).

(** [genz_gaussian] (281-357). *)
Definition genz_gaussian a u : option problem :=
  checked u (Problem (on_box (fun x => exp (- \sum_(d < D) (a ord0 d * (x ord0 d - u ord0 d)) ^+ 2)%R)) unit_measure
    (if has_zero a then None
     else Some (Rpower PI (INR D / 2) * (\prod_(d < D)
       ((normal_cdf (sqrt 2 * a ord0 d * (1 - u ord0 d)) - normal_cdf (- sqrt 2 * a ord0 d * u ord0 d)) / a ord0 d)%coqR)%R)%coqR)).

(** [genz_oscillatory] (360-458). *)
Definition hfunc (x : R) : R :=
  (if D %% 4 == 1 then sin x else if D %% 4 == 2 then - cos x else if D %% 4 == 3 then - sin x else cos x)%N%coqR.
Definition genz_oscillatory a u : option problem :=
  checked u (Problem (on_box (fun x => cos (2 * PI * u ord0 ord0 + (\sum_(d < D) (a ord0 d * x ord0 d))%R)%coqR)) unit_measure
    (if has_zero a then None
     else Some (subset_sum (fun k t => (-1) ^ k * hfunc t)%coqR a (2 * PI * u ord0 ord0)%coqR / (\prod_(d < D) a ord0 d)%R)%coqR)).

(** [genz_productpeak] (461-536). For [a[d] == 0], [1 / a[d]**2] is infinite and its reciprocal is zero. *)
Definition genz_productpeak a u : option problem :=
  checked u (Problem (on_box (fun x => \prod_(d < D)
      (if a ord0 d == 0 then 0 else (1 / (1 / a ord0 d ^ 2 + (x ord0 d - u ord0 d) ^ 2))%coqR))) unit_measure
    (Some (\prod_(d < D) (a ord0 d * (atan (a ord0 d * (1 - u ord0 d)) - atan (-1 * a ord0 d * u ord0 d))%coqR)))).

(** [bratley1992] (539-588). *)
Definition bratley1992 : problem :=
  Problem (on_box (fun x => \sum_(i < D) ((-1) ^+ i.+1 * \prod_(j < D | (j <= i)%N) x ord0 j))) unit_measure
    (Some (- (1 / 3) * (1 - (- (1 / 2)) ^ D))%coqR).
(** [roos_arnold] (591-636). *)
Definition roos_arnold : problem :=
  Problem (on_box (fun x => \prod_(d < D) Rabs (4 * x ord0 d - 2)%coqR)) unit_measure (Some 1).
(** [gfunction] (639-686). *)
Definition gfunction : problem :=
  Problem (on_box (fun x => \prod_(d < D)
    (let c := ((INR d + 1) - 2) / 2 in (Rabs (4 * x ord0 d - 2) + c) / (1 + c))%coqR)) unit_measure (Some 1).
(** [morokoff_caflisch_1] (689-736). *)
Definition morokoff_caflisch_1 : problem :=
  Problem (on_box (fun x => ((1 + 1 / INR D) ^ D)%coqR * \prod_(d < D) npow (x ord0 d) (1 / INR D)%coqR)) unit_measure (Some 1).
(** [morokoff_caflisch_2] (739-784). *)
Definition morokoff_caflisch_2 : problem :=
  Problem (on_box (fun x => (1 / (INR D - 1 / 2) ^ D)%coqR * \prod_(d < D) (INR D - x ord0 d)%coqR)) unit_measure (Some 1).

(** ** _quadproblems_gaussian.py *)
(** A parameter that is a float, or an array. *)
Inductive par := Float of R | Arr of point.
Definition entry (p : par) (d : 'I_D) : R := match p with Float c => c | Arr v => v ord0 d end.
(** A covariance: a float or a matrix. *)
Inductive covpar := FloatCov of R | MatCov of 'M[R]_D.
(** The constructor of [GaussianMeasure] (_gaussian_measure.py 34-77) with [input_dim=dim]: [Normal] raises when
    mean and covariance do not have matching shapes. *)
Definition gaussian_measure (m : par) (c : covpar) : option (measure D) :=
  let one_m := if m is Float _ then true else D == 1%N in
  let one_c := if c is FloatCov _ then true else D == 1%N in
  if one_m && one_c then
    Some (Gaussian (\row_d entry m 0) ((match c with FloatCov v => v | MatCov V => V 0 0 end)%:M))
  else match m, c with
  | Arr m, MatCov V => Some (Gaussian m V)
  | _, _ => None
  end.
(** [uniform_to_gaussian_quadprob] and [uniform_to_gaussian_integrand] (20-127); for [scale <= 0], [cdf] is nan. *)
Definition to_unit (mean std : par) (x : point) : point := \row_d normal_cdf ((x ord0 d - entry mean d) / entry std d)%coqR.
Definition uniform_to_gaussian (p : problem) (mean std : par) : option problem :=
  if mu p is Lebesgue lo up _ then
    if (lo == const_mx 0) && (up == const_mx 1) then
      let cov := match std with Float s => FloatCov (s ^+ 2) | Arr s => MatCov (\matrix_(i, j) if i == j then s ord0 j ^+ 2 else 0) end in
      omap (fun m => Problem (fun xs => if [forall d, 0 < entry std d] then fn p (map (to_unit mean std) xs) else None)
                       m (solution p)) (gaussian_measure mean cov)
    else None
  else None.
(** [sum_polynomials] (130-232), for [a] and [b] with the same number of rows and natural numbers in [b];
    [isfloat]: [var] is a [float] and not another number. *)
Definition sum_polynomials p (a : 'M[R]_(p, D)) (b : 'I_p -> 'I_D -> nat) (var : R) (isfloat : bool) : option problem :=
  omap (fun m => Problem (fun xs => Some ([:: size xs; 1%N], map (fun x => \sum_(j < p) \prod_(i < D) (a j i * x ord0 i ^+ b j i)) xs)) m
    (Some (\sum_(j < p) \prod_(i < D) (a j i * ((b j i %% 2)%N%:R - 1) ^+ 2 * var ^+ b j i * (factorial2_pred (b j i))%:R))))
  (gaussian_measure (if isfloat then Float 0 else Arr 0) (FloatCov var)).
End Zoo.
