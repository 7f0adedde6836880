(** Model of views of random variables: [__getitem__], [reshape], [transpose] of randvars/_normal.py (287-362),
    _constant.py (119-152) and _random_variable.py (526-588), and of the samples of generic results of
    arithmetic (_arithmetic.py 109-155).

    NumPy indexing with integers, slices, [None], Ellipsis and at most one vector of indices (or mask). *)
From mathcomp Require Import all_ssreflect all_algebra.
From Verif Require Import M_CovFunc M_RandVar.
Set Implicit Arguments.
Unset Strict Implicit.
Unset Printing Implicit Defensive.
Import Order.Theory GRing.Theory Num.Theory.
Local Open Scope ring_scope.

(** ** NumPy indexing *)
(** Entries of a key: the integer [k] or [-k]; a slice (or a vector of indices, or a mask) that selects the list
    [f d] of indices of an axis of length [d]; [None]; [...]. *)
Inductive kent := KInt of bool & nat | KSl of (nat -> seq nat) | KNew | KEll.
Definition is_ell (k : kent) : bool := if k is KEll then true else false.
(** Whether the entry belongs to an axis of the array. *)
Definition uses (k : kent) : bool := match k with KInt _ _ | KSl _ => true | _ => false end.
Definition full : kent := KSl (iota 0).
(** Missing axes: [...] stands for full slices and is added at the end if it is missing; only one is allowed. *)
Definition expand (r : nat) (key : seq kent) : option (seq kent) :=
  let p := count uses key in
  if (p <= r)%N then
    if count is_ell key is 0%N then Some (key ++ nseq (r - p) full)
    else if count is_ell key is 1%N then
      Some (flatten [seq if is_ell k then nseq (r - p) full else [:: k] | k <- key])
    else None
  else None.
(** The shape of the result and the index in the array for an index of the result. *)
Definition pos (neg : bool) (k d : nat) : option nat :=
  if neg then if (0 < k <= d)%N then Some (d - k)%N else None else if (k < d)%N then Some k else None.
Fixpoint sel_shape (key : seq kent) (s : seq nat) : option (seq nat) :=
  match key, s with
  | [::], [::] => Some [::]
  | KNew :: key, _ => omap (cons 1%N) (sel_shape key s)
  | KInt neg k :: key, d :: s => if pos neg k d is Some _ then sel_shape key s else None
  | KSl f :: key, d :: s => if all (fun i => i < d)%N (f d) then omap (cons (size (f d))) (sel_shape key s) else None
  | _, _ => None
  end.
Fixpoint sel_idx (key : seq kent) (s : seq nat) (b : seq nat) : seq nat :=
  match key, s with
  | KNew :: key, _ => sel_idx key s (behead b)
  | KInt neg k :: key, d :: s => odflt 0%N (pos neg k d) :: sel_idx key s b
  | KSl f :: key, d :: s => nth 0%N (f d) (head 0%N b) :: sel_idx key s (behead b)
  | _, _ => [::]
  end.
Section View.
Variable R : rcfType.
Notation arr := (arr R).
Notation get := (get (0 : R)).
Notation op := (np_op (0 : R)).
Definition np_index (key : seq kent) (x : arr) : option arr :=
  if expand (size (shp x)) key is Some k then
    omap (fun t => tab t (fun b => get x (sel_idx k (shp x) b))) (sel_shape k (shp x))
  else None.
(** [x.transpose(axes)], for integers [k] or [-k]: axis [i] of the result is axis [axes[i]] of [x]. *)
Definition norm_axes (r : nat) (axes : seq (bool * nat)) : option (seq nat) :=
  let l := [seq pos a.1 a.2 r | a <- axes] in
  if all isSome l && (sort leq (pmap id l) == iota 0 r) then Some (pmap id l) else None.
Definition np_transpose (axes : seq (bool * nat)) (x : arr) : option arr :=
  omap (fun p => tab [seq nth 0%N (shp x) i | i <- p] (fun b => get x [seq nth 0%N b (index j p) | j <- iota 0 (size (shp x))]))
    (norm_axes (size (shp x)) axes).

(** ** [Normal] *)
(** [__getitem__] (287-324); a key that is not a tuple is a tuple with one entry. *)
Definition getitem (x : normal R) (key : seq kent) : option (normal R) :=
  let s := shp (mean x) in
  if np_index key (mean x) is Some m then
    let c := obind (np_index (KEll :: key)) (obind (np_index key) (np_reshape (s ++ s) (cov x))) in
    let c := if shp m is [::] then c else obind (np_reshape [:: prodn (shp m); prodn (shp m)]) c in
    mk_normal (Some m) c None
  else None.
(** [reshape] (326-344). *)
Definition reshape (x : normal R) (t : seq nat) : option (normal R) :=
  if np_reshape t (mean x) is Some m then
    let c := if ~~ (shp m == [::]) && (shp (cov x) == [::]) then np_reshape [:: 1%N; 1%N] (cov x) else Some (cov x) in
    mk_normal (Some m) c None
  else None.
(** [transpose] (346-366); [None]: no axes given. An axis [-k] becomes [ndim - k] in the second half of
    [cov_axes] (355). *)
Definition transpose (x : normal R) (axes : option (seq (bool * nat))) : option (normal R) :=
  let s := shp (mean x) in
  let r := size s in
  let axes := if axes is Some a then a else [seq (false, i) | i <- rev (iota 0 r)] in
  if np_transpose axes (mean x) is Some m then
    let second (a : bool * nat) := if a.1 then if (a.2 <= r)%N then (false, (r - a.2)%N) else (true, (a.2 - r)%N) else (false, (r + a.2)%N) in
    let c := obind (np_transpose (axes ++ [seq second a | a <- axes])) (np_reshape (s ++ s) (cov x)) in
    let c := if shp m is [::] then c else obind (np_reshape [:: prodn (shp m); prodn (shp m)]) c in
    mk_normal (Some m) c None
  else None.

(** ** Samples of generic random variables
    [z]: the sample of shape [size + shape] of the original random variable. *)
(** [__getitem__] (526-538), [reshape] (540-565), [transpose] (567-588). *)
Definition sample_getitem (key : seq kent) (z : arr) : option arr := np_index key z.
Definition sample_reshape (n t : seq nat) (z : arr) : option arr := np_reshape (n ++ t) z.
Definition sample_transpose (axes : option (seq (bool * nat))) (z : arr) : option arr :=
  np_transpose (if axes is Some a then a else [seq (false, i) | i <- rev (iota 0 (size (shp z)))]) z.
(** Generic arithmetic (_arithmetic.py 126-133), for elementwise operations. *)
Definition sample_op (f : R -> R -> R) (y z : arr) : option arr := op f y z.
(** [Constant._sample] (_constant.py 146-152): [np.tile] with leading axes. *)
Definition sample_constant (c : arr) (n : seq nat) : arr := tab (n ++ shp c) (fun b => get c (drop (size n) b)).
(** [_dense_sample] (_normal.py 477-487): SciPy draws an array [z] of shape [size + (k,)], where [k] is the size of the random
    variable, removes all axes of length one, and the result is reshaped. *)
Definition squeeze (z : arr) : arr := Arr [seq d <- shp z | d != 1%N] (dat z).
Definition dense_sample (s : seq nat) (z : arr) : option arr :=
  let z := squeeze z in np_reshape (take (size (shp z)).-1 (shp z) ++ s) z.
End View.
