(** Model of the kernels in randprocs/covfuncs: [_evaluate] of [Linear], [Polynomial], [WhiteNoise],
    [ExpQuad], [RatQuad] and [Matern] with half-integer smoothness, on the arrays of M_CovFunc.v.
    Numbers are exact; the exponential function and real powers are parameters; dtypes are
    only modelled in the last section; the length scales are an array that the constructor has accepted. [None]: an exception. *)
From mathcomp Require Import all_ssreflect all_algebra.
From Verif Require Import M_CovFunc.
Set Implicit Arguments.
Unset Strict Implicit.
Unset Printing Implicit Defensive.
Import Order.Theory GRing.Theory Num.Theory.
Local Open Scope ring_scope.

Section Kernels.
Variable R : rcfType.
Variable ex : R -> R.
Variable pow : R -> R -> R.
Notation arr := (arr R).
Notation get := (get (0 : R)).
Notation op := (np_op (0 : R)).

(** [np.sum(x, axis=tuple(range(-n, 0)))]. *)
Definition sum_last (n : nat) (x : arr) : arr :=
  let k := (size (shp x) - n)%N in
  tab (take k (shp x)) (fun a => \sum_(j <- indices (drop k (shp x))) get x (a ++ j)).
(** [np.full_like(x0, v, shape=x0.shape[: x0.ndim - self.input_ndim])]. *)
Definition full (i : seq nat) (x : arr) (v : R) : arr := tab (take (size (shp x) - size i) (shp x)) (fun=> v).

(** [_euclidean_inner_products] (_covariance_function.py 694-707). *)
Definition inner (i : seq nat) (x0 : arr) (x1 : option arr) : option arr :=
  if (if x1 is Some x1 then op *%R x0 x1 else Some (np_map (fun z => z ^+ 2) x0)) is Some y then
    if i == [::] then Some y else if size i == 1%N then Some (sum_last (size i) y) else None
  else None.
(** [_squared_euclidean_distances] (757-781); [x *= y] raises unless the result has the shape of [x]. *)
Definition imul (x y : arr) : option arr :=
  if op *%R x y is Some z then if shp z == shp x then Some z else None else None.
Definition sqdist (i : seq nat) (x0 : arr) (x1 : option arr) (sc : option arr) : option arr :=
  if x1 is Some x1 then
    if op (fun a b => a - b) x0 x1 is Some d then
      if (if sc is Some sc then imul d sc else Some d) is Some d then omap (sum_last (size i)) (imul d d) else None
    else None
  else Some (full i x0 0).
(** [_euclidean_distances] (783-802). *)
Definition dist (i : seq nat) (x0 : arr) (x1 : option arr) (sc : option arr) : option arr :=
  if x1 is Some _ then omap (np_map Num.sqrt) (sqdist i x0 x1 sc) else Some (full i x0 0).

(** _linear.py 49-50. *)
Definition linear (i : seq nat) (c : R) (x0 : arr) (x1 : option arr) : option arr :=
  omap (np_map (fun z => z + c)) (inner i x0 x1).
(** _polynomial.py 55-56, for a natural exponent. *)
Definition polynomial (i : seq nat) (c : R) (n : nat) (x0 : arr) (x1 : option arr) : option arr :=
  omap (np_map (fun z => (z + c) ^+ n)) (inner i x0 x1).
(** _white_noise.py 38-49. *)
Definition eqv (a b : R) : R := (a == b)%:R.
Definition all_last (x : arr) : arr :=
  tab (take (size (shp x)).-1 (shp x)) (fun a => (all (fun j => get x (rcons a j) == 1) (iota 0 (last 0%N (shp x))))%:R).
Definition white_noise (i : seq nat) (s2 : R) (x0 : arr) (x1 : option arr) : option arr :=
  if x1 is Some x1 then
    omap (np_map ( *%R s2)) (if i == [::] then op eqv x0 x1 else omap all_last (op eqv x0 x1))
  else Some (full i x0 s2).
(** _exponentiated_quadratic.py 85-100. *)
Definition exp_quad (i : seq nat) (ls : arr) (x0 : arr) (x1 : option arr) : option arr :=
  if x1 is Some _ then
    omap (np_map (fun z => ex (- z))) (sqdist i x0 x1 (Some (np_map (fun l => Num.sqrt (1 / 2%:R) / l) ls)))
  else Some (full i x0 1).
(** _rational_quadratic.py 71-84. *)
Definition rat_quad (i : seq nat) (l al : R) (x0 : arr) (x1 : option arr) : option arr :=
  if x1 is Some _ then
    omap (np_map (fun z => pow (1 + z / (2%:R * al * l ^+ 2)) (- al))) (sqdist i x0 x1 None)
  else Some (full i x0 1).

(** [half_integer_coefficients] (_matern.py 225-262): the loop over [i = p-1, ..., 0]. *)
Fixpoint coeff_loop (F : fieldType) (p m : nat) (cs : seq F) : seq F :=
  if m is i.+1 then
    coeff_loop p i (rcons cs (last 0 cs * 2%:R * i.+1%:R / (p + i + 1)%:R / (p - i)%:R))
  else cs.
Definition coefficients (F : fieldType) (p : nat) : seq F := coeff_loop p p [:: 1].
(** Horner's method (175-194). *)
Fixpoint horner_loop (cs : seq R) (d : R) (m : nat) (res : R) : R :=
  if m is i.+1 then horner_loop cs d i (res * d + nth 0 cs i) else res.
Definition matern_poly (p : nat) (d : R) : R :=
  let cs := coefficients R p in horner_loop cs d p (nth 0 cs p) * ex (- d).
(** [nu = p + 1/2]. *)
Definition nu (p : nat) : R := p%:R + 1 / 2%:R.
Definition matern (i : seq nat) (p : nat) (ls : arr) (x0 : arr) (x1 : option arr) : option arr :=
  omap (np_map (matern_poly p)) (dist i x0 x1 (Some (np_map (fun l => Num.sqrt (2%:R * nu p) / l) ls))).

(** [ProductMatern._evaluate] (_product_matern.py 103-122) for points of shape [(D,)], and [()];
    for [D = 0] the result is a float without a shape. *)
Definition slice_last (x : arr) (d : nat) : arr := tab (take (size (shp x)).-1 (shp x)) (fun a => get x (rcons a d)).
Definition product_matern (i : seq nat) (ps : seq nat) (ls : seq R) (x0 : arr) (x1 : option arr) : option arr :=
  let k d := call (Base [::] [::] [::] [::] (matern [::] (nth 0%N ps d) (Arr [::] [:: nth 0 ls d]))) in
  if i == [::] then k 0%N x0 x1
  else if i is [:: n.+1] then
    foldl (fun z d => olift *%R z (k d (slice_last x0 d) (omap (slice_last^~ d) x1))) (Some (Arr [::] [:: 1])) (iota 0 n.+1)
  else None.
End Kernels.

(** ** Integer inputs
    [isint]: the inputs are arrays of integers, as [np.asarray] makes them of lists of integers. The
    parameter [trunc] is the conversion of a float to an integer. *)
Section Dtypes.
Variable R : rcfType.
Variable ex : R -> R.
Variable trunc : R -> R.
Notation op := (np_op (0 : R)).
(** [np.full_like] has the dtype of its argument (_white_noise.py 38-44). *)
Definition white_noise_dt (isint : bool) (i : seq nat) (s2 : R) (x0 : arr R) (x1 : option (arr R)) : option (arr R) :=
  if x1 is None then Some (full i x0 (if isint then trunc s2 else s2)) else white_noise i s2 x0 x1.
(** [sqdiffs *= scale_factors] (_covariance_function.py 774-775): NumPy does not write floats into an
    array of integers; a difference of shape [()] is a NumPy scalar, for which the variable is bound anew. *)
Definition exp_quad_dt (isint : bool) (i : seq nat) (ls : arr R) (x0 : arr R) (x1 : option (arr R)) : option (arr R) :=
  if x1 is Some y1 then
    if op (fun a b => a - b) x0 y1 is Some d then
      if isint && (shp d != [::]) then None else exp_quad ex i ls x0 x1
    else None
  else exp_quad ex i ls x0 x1.
End Dtypes.
