(** Initial value problems of the zoo (problems/zoo/diffeq/_ivp_examples.py), over the reals. *)
From Coq Require Import Reals.
From mathcomp Require Import all_ssreflect.
Set Implicit Arguments.
Unset Strict Implicit.
Unset Printing Implicit Defensive.
Local Open Scope R_scope.

(** [InitialValueProblem] (problems/_problems.py 75-143) without [tmax]. No vector field of the zoo
    depends on the time. Arrays are sequences; unpacking an array of another length raises ([None]).
    The [params] argument of the functions has its default, the parameters of the problem. *)
Record ivp := IVP {
  i_f : seq R -> option (seq R);
  i_t0 : R;
  i_y0 : seq R;
  i_df : option (seq R -> option (seq (seq R)));
  i_ddf : option (seq R -> option (seq (seq R)));
  i_sol : option (R -> seq R) }.
Definition default (x : seq R) (y0 : option (seq R)) : seq R := if y0 is Some y then y else x.

(** [threebody] (18-82); [x ** (3 / 2)] for positive [x]; at the bodies the quotients are not finite. *)
Definition moon : R := 12277471 / 1000000000.
Definition threebody_f (y : seq R) : option (seq R) :=
  if y is [:: y0; y1; y2; y3] then
    let mp := 1 - moon in
    let s1 := (y0 + moon) ^ 2 + y1 ^ 2 in
    let s2 := (y0 - mp) ^ 2 + y1 ^ 2 in
    if Req_EM_T s1 0 then None else if Req_EM_T s2 0 then None else
    let D1 := Rpower s1 (3 / 2) in
    let D2 := Rpower s2 (3 / 2) in
    let y1p := y0 + 2 * y3 - mp * (y0 + moon) / D1 - moon * (y0 - mp) / D2 in
    let y2p := y1 - 2 * y2 - mp * y1 / D1 - moon * y1 / D2 in
    Some [:: y2; y3; y1p; y2p]
  else None.
Definition threebody (t0 : R) (y0 : option (seq R)) : ivp :=
  IVP threebody_f t0 (default [:: 994 / 1000; 0; 0; - (200158510637908252240537862224 / 100000000000000000000000000000)] y0)
      None None None.

(** [vanderpol] (85-144); [params] is a float. *)
Definition vanderpol (t0 : R) (y0 : option (seq R)) (mu : R) : ivp :=
  IVP (fun y => if y is [:: y1; y2] then Some [:: y2; mu * (1 - y1 ^ 2) * y2 - y1] else None)
      t0 (default [:: 2; 0] y0)
      (Some (fun y => if y is [:: y1; y2] then
         Some [:: [:: 0; 1]; [:: - 2 * mu * y2 * y1 - 1; mu * (1 - y1 ^ 2)]] else None))
      None None.
(** The default of [params] (85). *)
Definition vanderpol_default : R := 10.

(** [rigidbody] (147-198). *)
Definition rigidbody (t0 : R) (y0 : option (seq R)) (p1 p2 p3 : R) : ivp :=
  IVP (fun y => if y is [:: y1; y2; y3] then Some [:: p1 * y2 * y3; p2 * y1 * y3; p3 * y1 * y2] else None)
      t0 (default [:: 1; 0; 9 / 10] y0)
      (Some (fun y => if y is [:: y1; y2; y3] then
         Some [:: [:: 0; p1 * y3; p1 * y2]; [:: p2 * y3; 0; p2 * y1]; [:: p3 * y2; p3 * y1; 0]] else None))
      None None.

(** [logistic] (201-260). The functions act on arrays entry by entry; [df] and [ddf] for arrays with one
    entry. [sol] is not finite where [denom] is zero. *)
Definition logistic_sol (l0 l1 y0 t : R) : R := l1 * y0 * exp (l0 * t) / (l1 + y0 * (exp (l0 * t) - 1)).
Definition logistic (t0 : R) (y0 : option (seq R)) (l0 l1 : R) : ivp :=
  let y0 := default [:: 1 / 10] y0 in
  IVP (fun y => Some (map (fun y => l0 * y * (1 - y / l1)) y)) t0 y0
      (Some (fun y => if y is [:: y] then Some [:: [:: l0 - l0 / l1 * 2 * y]] else None))
      (Some (fun y => if y is [:: y] then Some [:: [:: - 2 * l0 / l1]] else None))
      (Some (fun t => map (fun y => logistic_sol l0 l1 y t) y0)).

(** [fitzhughnagumo] (263-310). *)
Definition fitzhughnagumo (t0 : R) (y0 : option (seq R)) (a b c d : R) : ivp :=
  IVP (fun y => if y is [:: y1; y2] then Some [:: y1 - y1 ^ 3 / 3 - y2 + a; (y1 + b - c * y2) / d] else None)
      t0 (default [:: 1; - 1] y0)
      (Some (fun y => if y is [:: y1; y2] then Some [:: [:: 1 - y1 ^ 2; - 1]; [:: 1 / d; - c / d]] else None))
      None None.

(** [lotkavolterra] (313-360). *)
Definition lotkavolterra (t0 : R) (y0 : option (seq R)) (a b c d : R) : ivp :=
  IVP (fun y => if y is [:: y1; y2] then Some [:: a * y1 - b * y1 * y2; - c * y2 + d * y1 * y2] else None)
      t0 (default [:: 20; 20] y0)
      (Some (fun y => if y is [:: y1; y2] then Some [:: [:: a - b * y2; - b * y1]; [:: d * y2; - c + d * y1]] else None))
      None None.

(** [seir] (363-437); [params] is a tuple. *)
Definition sumR (y : seq R) : R := foldr Rplus 0 y.
Definition seir (t0 : R) (y0 : option (seq R)) (alpha beta gamma : R) : ivp :=
  let y0 := default [:: 998; 1; 1; 0] y0 in
  let N := sumR y0 in
  IVP (fun y => if y is [:: y1; y2; y3; y4] then
         Some [:: - beta * y1 * y3 / N; beta * y1 * y3 / N - alpha * y2; alpha * y2 - gamma * y3; gamma * y3] else None)
      t0 y0
      (Some (fun y => if y is [:: y1; y2; y3; y4] then
         Some [:: [:: - beta * y3 / N; 0; - beta * y1 / N; 0]; [:: beta * y3 / N; - alpha; beta * y1 / N; 0];
                  [:: 0; alpha; - gamma; 0]; [:: 0; 0; gamma; 0]] else None))
      None None.

(** [lorenz63] (440-488). *)
Definition lorenz63 (t0 : R) (y0 : option (seq R)) (a b c : R) : ivp :=
  IVP (fun y => if y is [:: y1; y2; y3] then Some [:: a * (y2 - y1); y1 * (b - y3) - y2; y1 * y2 - c * y3] else None)
      t0 (default [:: 0; 1; 105 / 100] y0)
      (Some (fun y => if y is [:: y1; y2; y3] then
         Some [:: [:: - a; a; 0]; [:: b - y3; - 1; - y1]; [:: y2; y1; - c]] else None))
      None None.

(** [lorenz96] (491-546). [np.roll(y, shift=k)] for [k >= 0] is [rotr k], [np.roll(y, shift=-k)] is [rot k]. *)
Definition lorenz96_f (c : R) (y : seq R) : seq R :=
  let A := rot 1 y in let B := rotr 2 y in let C := rotr 1 y in
  map (fun p => let: (a, b, (c', d)) := p in (a - b) * c' - d + c) (zip (zip A B) (zip C y)).
Definition lorenz96 (t0 : R) (y0 : option (seq R)) (num : nat) (c : R) : option ivp :=
  let y := if y0 is Some y then (if (size y < 4)%N then None else Some y)
           else if (num < 4)%N then None else Some (nseq num (1 * c)) in
  omap (fun y => IVP (fun y => Some (lorenz96_f c y)) t0 y None None None) y.
