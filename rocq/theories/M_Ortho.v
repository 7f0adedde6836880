(** Model of utils/linalg/_orthogonalize.py and _inner_product.py for single vectors of
    exact numbers. [None]: an exception or non-finite numbers (division by zero, root of
    a negative number). *)
From mathcomp Require Import all_ssreflect all_algebra.
Set Implicit Arguments.
Unset Strict Implicit.
Unset Printing Implicit Defensive.
Import Order.Theory GRing.Theory Num.Theory.
Local Open Scope ring_scope.

Section Ortho.
Variables (R : rcfType) (n : nat).
Local Notation vec := 'cV[R]_n.

(** [inner_product] (_inner_product.py 12-56): the product without a matrix and with
    one. *)
Definition inprod (A : option 'M[R]_n) (v w : vec) : R :=
  match A with
  | None => (v^T *m w) 0 0
  | Some A => (v^T *m (A *m w)) 0 0
  end.
(** [induced_norm] (59-90). [np.linalg.norm] is the root of the sum of squares. *)
Definition sqrt_ (x : R) : option R := if 0 <= x then Some (Num.sqrt x) else None.
Definition norm_ (A : option 'M[R]_n) (v : vec) : option R :=
  match A with
  | None => sqrt_ (\sum_i v i 0 ^+ 2)
  | Some A => sqrt_ (\sum_i v i 0 * (A *m v) i 0)
  end.

(** The argument [inner_product] (_orthogonalize.py 50-58, 103-111). *)
Inductive ipspec := Default | ByMatrix of 'M[R]_n | Callable of (vec -> vec -> R).
Definition ip_of (s : ipspec) : vec -> vec -> R :=
  match s with Default => inprod None | ByMatrix A => inprod (Some A) | Callable f => f end.
Definition norm_of (s : ipspec) (v : vec) : option R :=
  match s with
  | Default => norm_ None v
  | ByMatrix A => norm_ (Some A) v
  | Callable f => sqrt_ (f v v)
  end.

(** [np.atleast_2d(orthogonal_basis)] (48, 101): an empty list becomes one vector
    without entries, whose product with [v] raises; an array without rows has no
    vectors. *)
Inductive basis := AsList of seq vec | AsArray of seq vec.
Definition vectors (b : basis) : option (seq vec) :=
  match b with
  | AsList [::] => None
  | AsList l | AsArray l => Some l
  end.

Definition divide (x y : R) : option R := if y == 0 then None else Some (x / y).
(** [v_orth /= norm_fn(v_orth)] (65-66, 118-119). *)
Definition normalise s (v : vec) : option vec :=
  obind (fun c => if c == 0 then None else Some (c^-1 *: v)) (norm_of s v).
Definition finish s (nrm : bool) (v : option vec) : option vec :=
  if nrm then obind (normalise s) v else v.

(** [gram_schmidt] (60-68): coefficients from the given vector. *)
Definition gram_schmidt s nrm (v : vec) (b : basis) : option vec :=
  obind (fun l =>
    finish s nrm (foldl (fun acc u =>
      obind (fun a => omap (fun c => a - c *: u) (divide (ip_of s u v) (ip_of s u u))) acc)
      (Some v) l)) (vectors b).
(** [modified_gram_schmidt] (113-121): coefficients from the current vector. *)
Definition modified_gram_schmidt s nrm (v : vec) (b : basis) : option vec :=
  obind (fun l =>
    finish s nrm (foldl (fun acc u =>
      obind (fun a => omap (fun c => a - c *: u) (divide (ip_of s u a) (ip_of s u u))) acc)
      (Some v) l)) (vectors b).
(** [double_gram_schmidt] (124-184) with either variant. *)
Definition double_gram_schmidt (modified : bool) s nrm (v : vec) (b : basis) : option vec :=
  let gs := if modified then modified_gram_schmidt else gram_schmidt in
  obind (fun w => gs s nrm w b) (gs s nrm v b).
End Ortho.
Arguments Default {R n}.
