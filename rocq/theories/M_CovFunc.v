(** Model of covariance functions: randprocs/covfuncs/_covariance_function.py, _arithmetic.py,
    _arithmetic_fallbacks.py, _covariance_linear_operator.py and the formulas of the kernels in
    _linear.py, _polynomial.py, _white_noise.py, _exponentiated_quadratic.py, _rational_quadratic.py,
    _matern.py (half-integer smoothness).

    Arrays are a shape with the entries in C order; numbers are exact (elements of a field, dtypes
    are not modelled). KeOps is not installed. [None]: an exception. *)
From mathcomp Require Import all_ssreflect all_algebra.
Set Implicit Arguments.
Unset Strict Implicit.
Unset Printing Implicit Defensive.
Import GRing.Theory Num.Theory.
Local Open Scope ring_scope.

(** ** NumPy arrays *)
Fixpoint prodn (s : seq nat) : nat := if s is d :: s then (d * prodn s)%N else 1%N.
(** Position of a multi-index in C order, and all multi-indices in C order. *)
Fixpoint ravel (s a : seq nat) : nat :=
  match s, a with _ :: s', j :: a' => (j * prodn s' + ravel s' a')%N | _, _ => 0%N end.
Fixpoint indices (s : seq nat) : seq (seq nat) :=
  if s is d :: s' then [seq j :: a | j <- iota 0 d, a <- indices s'] else [:: [::]].
(** [np.broadcast_shapes], and the index of an array of shape [s] that the index [b] of a broadcast
    array refers to. *)
Fixpoint bc_rev (s t : seq nat) : option (seq nat) :=
  match s, t with
  | [::], _ => Some t
  | _, [::] => Some s
  | a :: s', b :: t' =>
      if (a == b) || (b == 1%N) then omap (cons a) (bc_rev s' t')
      else if a == 1%N then omap (cons b) (bc_rev s' t') else None
  end.
Definition broadcast (s t : seq nat) : option (seq nat) := omap rev (bc_rev (rev s) (rev t)).
Definition bidx (s b : seq nat) : seq nat :=
  [seq if p.1 == 1%N then 0%N else p.2 | p <- zip s (drop (size b - size s) b)].

Section Arrays.
Variable R : Type.
Variable x0 : R.
Record arr := Arr { shp : seq nat; dat : seq R }.
Definition get (x : arr) (a : seq nat) : R := nth x0 (dat x) (ravel (shp x) a).
Definition tab (s : seq nat) (f : seq nat -> R) : arr := Arr s [seq f a | a <- indices s].
Definition np_map (f : R -> R) (x : arr) : arr := Arr (shp x) [seq f z | z <- dat x].
(** Elementwise operation with broadcasting. *)
Definition np_op (f : R -> R -> R) (x y : arr) : option arr :=
  omap (fun B => tab B (fun a => f (get x (bidx (shp x) a)) (get y (bidx (shp y) a)))) (broadcast (shp x) (shp y)).
(** [np.moveaxis(x, src, dst)] for non-negative [src], [dst]. *)
Definition del (k : nat) (s : seq nat) : seq nat := take k s ++ drop k.+1 s.
Definition ins (k v : nat) (s : seq nat) : seq nat := take k s ++ v :: drop k s.
Definition moveaxis (x : arr) (src dst : nat) : arr :=
  tab (ins dst (nth 0%N (shp x) src) (del src (shp x))) (fun a => get x (ins src (nth 0%N a dst) (del dst a))).
End Arrays.
Arguments shp {R}. Arguments dat {R}.

Section CovFunc.
Variable R : fieldType.
Notation arr := (arr R).
Notation get := (get (0 : R)).
Notation op := (np_op (0 : R)).

(** Classes: a kernel with its own [_evaluate], [ScaledCovarianceFunction]
    (_arithmetic_fallbacks.py 21-64), [SumCovarianceFunction] (67-132), [ProductCovarianceFunction]
    (135-193); the last two with the shapes of the first operand. *)
Inductive kern :=
  | Base (i0 i1 o0 o1 : seq nat) (ev : arr -> option arr -> option arr)
  | KScaled (c : R) (k : kern)
  | KSum (i o0 o1 : seq nat) (l : seq kern)
  | KProd (i o0 o1 : seq nat) (l : seq kern).
Fixpoint in0 (k : kern) : seq nat :=
  match k with Base i _ _ _ _ | KSum i _ _ _ | KProd i _ _ _ => i | KScaled _ k => in0 k end.
Fixpoint in1 (k : kern) : seq nat :=
  match k with Base _ i _ _ _ | KSum i _ _ _ | KProd i _ _ _ => i | KScaled _ k => in1 k end.
Fixpoint out0 (k : kern) : seq nat :=
  match k with Base _ _ o _ _ | KSum _ o _ _ | KProd _ o _ _ => o | KScaled _ k => out0 k end.
Fixpoint out1 (k : kern) : seq nat :=
  match k with Base _ _ _ o _ | KSum _ _ o _ | KProd _ _ o _ => o | KScaled _ k => out1 k end.
(** The property [input_shape] (_covariance_function.py 210-225). *)
Definition input_shape (k : kern) : option (seq nat) := if in0 k == in1 k then Some (in0 k) else None.

(** [_check_shapes] (608-673). *)
Definition split_shape (s i : seq nat) : option (seq nat) :=
  if drop (size s - size i) s == i then Some (take (size s - size i) s) else None.
Definition check_shapes (i0 i1 : seq nat) (s0 : seq nat) (s1 : option (seq nat)) : option (seq nat) :=
  if split_shape s0 i0 is Some b0 then
    if s1 is Some s1 then if split_shape s1 i1 is Some b1 then broadcast b0 b1 else None else Some b0
  else None.
(** [__call__] (339-357) around [_evaluate]. *)
Definition checked (k : kern) (x0 : arr) (x1 : option arr) (r : option arr) : option arr :=
  if check_shapes (in0 k) (in1 k) (shp x0) (omap shp x1) is Some B then
    if r is Some y then if shp y == B ++ out0 k ++ out1 k then Some y else None else None
  else None.
Definition olift (f : R -> R -> R) (x y : option arr) : option arr :=
  if x is Some x then if y is Some y then op f x y else None else None.
Fixpoint call (k : kern) (x0 : arr) (x1 : option arr) : option arr :=
  checked k x0 x1
    match k with
    | Base _ _ _ _ ev => ev x0 x1
    | KScaled c k => omap (np_map ( *%R c)) (call k x0 x1)
    | KSum _ _ _ l => if l is k0 :: l' then foldl (fun a k => olift +%R a (call k x0 x1)) (call k0 x0 x1) l' else None
    | KProd _ _ _ l => if l is k0 :: l' then foldl (fun a k => olift *%R a (call k x0 x1)) (call k0 x0 x1) l' else None
    end.

(** Constructors and arithmetic (_arithmetic.py 7-14, _arithmetic_fallbacks.py 39-53, 84-99, 119-132,
    152-167, 180-193, 196-209). *)
Definition mk_scaled (c : R) (k : kern) : option kern := if input_shape k is Some _ then Some (KScaled c k) else None.
Definition expand_sum (l : seq kern) : seq kern := flatten [seq if k is KSum _ _ _ m then m else [:: k] | k <- l].
Definition expand_prod (l : seq kern) : seq kern := flatten [seq if k is KProd _ _ _ m then m else [:: k] | k <- l].
Definition same (k0 k : kern) : bool :=
  [&& input_shape k != None, input_shape k == input_shape k0, out0 k == out0 k0 & out1 k == out1 k0].
Definition add (k k' : kern) : option kern :=
  if same k k && same k k' then Some (KSum (in0 k) (out0 k) (out1 k) (expand_sum [:: k; k'])) else None.
Definition mul (k k' : kern) : option kern :=
  if same k k && same k k' then Some (KProd (in0 k) (out0 k) (out1 k) (expand_prod [:: k; k'])) else None.

(** [_preprocess_linop_input] (675-692); [reshape] with [-1] raises for empty points. *)
Definition preprocess (k : kern) (i : seq nat) (x : arr) : option arr :=
  if split_shape (shp x) i is Some b then
    if input_shape k is Some j then if prodn j == 0%N then None else Some (Arr (prodn b :: j) (dat x)) else None
  else None.
(** [_evaluate_matrix] (546-578) on preprocessed inputs. *)
Definition evaluate_matrix (k : kern) (x0 : arr) (x1 : option arr) : option arr :=
  let x1 := odflt x0 x1 in
  let n0 := head 0%N (shp x0) in
  let n1 := head 0%N (shp x1) in
  if call k (Arr ([:: n0; 1] ++ behead (shp x0))%N (dat x0)) (Some (Arr ([:: 1; n1] ++ behead (shp x1))%N (dat x1))) is Some y then
    let z := moveaxis 0 y 1 (size (shp y)).-1 in
    let z := moveaxis 0 z 0 (size (out0 k)) in
    Some (Arr [:: (prodn (out0 k) * n0)%N; (prodn (out1 k) * n1)%N] (dat z))
  else None.
(** [matrix] (359-410). *)
Definition matrix (k : kern) (x0 : arr) (x1 : option arr) : option arr :=
  if preprocess k (in0 k) x0 is Some y0 then
    if x1 is Some x1 then if preprocess k (in1 k) x1 is Some y1 then evaluate_matrix k y0 (Some y1) else None
    else evaluate_matrix k y0 None
  else None.
(** [linop(x0, x1).todense()] (412-481, 580-606; overridden in _arithmetic_fallbacks.py 58-61 and
    106-111). The sums and scalings of linear operators are those of their matrices. *)
Fixpoint linop (k : kern) (x0 : arr) (x1 : option arr) : option arr :=
  match k with
  | KScaled c k => omap (np_map ( *%R c)) (linop k x0 x1)
  | KSum _ _ _ l => if l is k0 :: l' then foldl (fun a k => olift +%R a (linop k x0 x1)) (linop k0 x0 x1) l' else None
  | _ => matrix k x0 x1
  end.

(** Python expressions. *)
Inductive expr := Atom (k : kern) | EAdd (e e' : expr) | EMul (e e' : expr) | EScale (c : R) (e : expr).
Fixpoint build (e : expr) : option kern :=
  match e with
  | Atom k => Some k
  | EAdd e e' => if build e is Some k then if build e' is Some k' then add k k' else None else None
  | EMul e e' => if build e is Some k then if build e' is Some k' then mul k k' else None else None
  | EScale c e => obind (mk_scaled c) (build e)
  end.
End CovFunc.
