(** Model of the algebra of [Function] objects: functions/_function.py, _zero.py, _algebra.py,
    _algebra_fallbacks.py. Arrays are a shape with the entries in C order; numbers are exact
    (elements of a commutative ring). [None]: an exception. *)
From mathcomp Require Import all_ssreflect all_algebra.
Set Implicit Arguments.
Unset Strict Implicit.
Unset Printing Implicit Defensive.
Import GRing.Theory.
Local Open Scope ring_scope.

Section Functions.
Variable R : comRingType.
Record arr := Arr { shp : seq nat; dat : seq R }.
(** NumPy's sum of two arrays of equal shape; others are not modelled (broadcasting), the calls
    below never need them. *)
Definition np_add (a b : arr) : option arr :=
  if shp a == shp b then Some (Arr (shp a) [seq p.1 + p.2 | p <- zip (dat a) (dat b)]) else None.
Definition np_scale (c : R) (a : arr) : arr := Arr (shp a) [seq c * x | x <- dat a].
Definition np_zeros (s : seq nat) : arr := Arr s (nseq (\prod_(d <- s) d)%N 0).
Definition oadd (a b : option arr) : option arr :=
  if a is Some a then if b is Some b then np_add a b else None else None.

(** [LambdaFunction] (_function.py 150-190), [Zero] (_zero.py 10-17), [SumFunction]
    (_algebra_fallbacks.py 16-67; with the shapes of the first summand) and [ScaledFunction]
    (78-121). *)
Inductive fn :=
  | Lam (i o : seq nat) (g : arr -> option arr)
  | Zero (i o : seq nat)
  | Sum (i o : seq nat) (l : seq fn)
  | Scaled (c : R) (f : fn).
Fixpoint ishape (f : fn) : seq nat :=
  match f with Lam i _ _ | Zero i _ | Sum i _ _ => i | Scaled _ f => ishape f end.
Fixpoint oshape (f : fn) : seq nat :=
  match f with Lam _ o _ | Zero _ o | Sum _ o _ => o | Scaled _ f => oshape f end.

(** [__call__] (_function.py 94-112): shape checks around [_evaluate]. *)
Definition batch (i : seq nat) (x : arr) : seq nat := take (size (shp x) - size i) (shp x).
Definition checked (i o : seq nat) (x : arr) (fx : option arr) : option arr :=
  if drop (size (shp x) - size i) (shp x) != i then None
  else if fx is Some y then if shp y == batch i x ++ o then Some y else None else None.
Fixpoint call (f : fn) (x : arr) : option arr :=
  checked (ishape f) (oshape f) x
    match f with
    | Lam _ _ g => g x
    | Zero i o => Some (np_zeros (batch i x ++ o))
    | Sum _ _ l => if l is f0 :: l' then foldl (fun a g => oadd a (call g x)) (call f0 x) l' else None
    | Scaled c g => omap (np_scale c) (call g x)
    end.

(** [SumFunction.__init__] (_algebra_fallbacks.py 32-57). *)
Definition mk_sum (l : seq fn) : option fn :=
  if l is f0 :: _ then
    if all (fun g => ishape g == ishape f0) l && all (fun g => oshape g == oshape f0) l
    then Some (Sum (ishape f0) (oshape f0) l) else None
  else None.
(** [f * c] and [c * f] (_function.py 129-147, _algebra_fallbacks.py 123-141); [-f] (118). *)
Definition mul (f : fn) (c : R) : fn :=
  if f is Scaled c0 g then Scaled (c0 * c) g else Scaled c f.
Definition rmul (c : R) (f : fn) : fn :=
  if f is Scaled c0 g then Scaled (c * c0) g else Scaled c f.
Definition neg (f : fn) : fn := rmul (- 1) f.
(** [f + g] and [f - g] (_algebra.py 12-69): methods of the class of the left operand, chosen by
    the class of the right operand. *)
Definition add (f g : fn) : option fn :=
  match f, g with
  | Zero _ _, _ => Some g
  | Sum _ _ l, Sum _ _ m => mk_sum (l ++ m)
  | Sum _ _ l, _ => mk_sum (rcons l g)
  | _, Zero _ _ => Some f
  | _, Sum _ _ m => mk_sum (f :: m)
  | _, _ => mk_sum [:: f; g]
  end.
Definition sub (f g : fn) : option fn :=
  match f, g with
  | Zero _ _, _ => Some (neg g)
  | Sum _ _ l, _ => mk_sum (rcons l (neg g))
  | _, Zero _ _ => Some f
  | _, _ => mk_sum [:: f; neg g]
  end.

(** Python expressions built from functions. *)
Inductive expr := Atom (f : fn) | EAdd (e e' : expr) | ESub (e e' : expr) | EMul (e : expr) (c : R)
  | ERMul (c : R) (e : expr) | ENeg (e : expr).
Fixpoint build (e : expr) : option fn :=
  match e with
  | Atom f => Some f
  | EAdd e e' => if build e is Some f then if build e' is Some g then add f g else None else None
  | ESub e e' => if build e is Some f then if build e' is Some g then sub f g else None else None
  | EMul e c => omap (fun f => mul f c) (build e)
  | ERMul c e => omap (rmul c) (build e)
  | ENeg e => omap neg (build e)
  end.
End Functions.
