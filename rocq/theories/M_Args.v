(** Model of argument normalisation: utils/argutils.py [as_shape],
    utils/arrayutils.py [as_colvec], quad/_utils.py [as_domain]. *)
From Coq Require Import List ZArith QArith Bool.
Import ListNotations.

(** ** as_shape *)
(** Items: Python [int], [bool] (a subclass of [int]), NumPy integers and other
    [numbers.Integral], and everything else. *)
Inductive item := PyInt (z : Z) | PyBool (b : bool) | NpInt (z : Z) | NonInt.

(** Arguments: a scalar, a tuple, a re-iterable container (list, ndarray,
    range, set in its iteration order), a one-shot iterator with the items it
    still has, or something that cannot be iterated. *)
Inductive shapelike :=
| Scalar (i : item) | Tuple (l : list item) | Container (l : list item)
| Iterator (l : list item) | NotIterable.

(** [isinstance(item, (int, numbers.Integral, np.integer))] and [isinstance(item, int)]. *)
Definition integral (i : item) : bool := match i with NonInt => false | _ => true end.
Definition pyint (i : item) : bool :=
  match i with PyInt _ | PyBool _ => true | _ => false end.
(** [int(item)]. *)
Definition to_int (i : item) : Z :=
  match i with PyInt z | NpInt z => z | PyBool b => if b then 1 else 0 | NonInt => 0 end%Z.

(** [as_shape(x, ndim)] (argutils.py 13-51); [None] is a TypeError. For an
    iterator the [all(...)] of line 41 consumes the items, the tuple of line 44
    is built from what is left: nothing. *)
Definition as_shape (x : shapelike) (ndim : option Z) : option (list Z) :=
  let shape :=
    match x with
    | Scalar i => if integral i then Some [to_int i] else None
    | Tuple l =>
        if forallb pyint l then Some (map to_int l)
        else if forallb integral l then Some (map to_int l) else None
    | Container l => if forallb integral l then Some (map to_int l) else None
    | Iterator l => if forallb integral l then Some [] else None
    | NotIterable => None
    end in
  match shape with
  | None => None
  | Some s =>
      match ndim with
      | None => Some s
      | Some n => if Z.eqb (Z.of_nat (length s)) n then Some s else None
      end
  end.

(** ** as_colvec *)
(** Arrays: shape and row-major data. *)
Record array (T : Type) := mk_array { a_shape : list nat; a_data : list T }.
Arguments mk_array {T}. Arguments a_shape {T}. Arguments a_data {T}.

(** A random variable, as far as [as_colvec] is concerned, has a shape and
    entries that [reshape] keeps in row-major order. *)
Inductive vec (T : Type) := Arr (a : array T) | RV (a : array T).
Arguments Arr {T}. Arguments RV {T}.

(** [RandomVariable.reshape]: raises unless the sizes agree. *)
Definition rv_reshape {T} (a : array T) (s : list nat) : option (array T) :=
  if Nat.eqb (fold_right Nat.mul 1%nat s) (fold_right Nat.mul 1%nat (a_shape a))
  then Some (mk_array s (a_data a)) else None.

(** [as_colvec] (arrayutils.py 49-67); [None]: raises.  Line 64: the result of
    [vec.reshape] is not used. *)
Definition as_colvec {T} (v : vec T) : option (vec T) :=
  match v with
  | RV a =>
      match a_shape a with
      | [] => None
      | n :: _ =>
          if list_eq_dec Nat.eq_dec (a_shape a) [n; 1%nat] then Some (RV a)
          else match rv_reshape a [n; 1%nat] with
               | None => None
               | Some _ => Some (RV a)
               end
      end
  | Arr a =>
      match a_shape a with
      | [n] => Some (Arr (mk_array [n; 1%nat] (a_data a)))
      | _ => Some (Arr a)
      end
  end.

(** ** as_domain *)
(** A bound: number of dimensions and the list of entries ([ndim = 0] for a
    scalar, with one entry). Numbers are rationals (no NaN). *)
Record bound := mk_bound { b_ndim : nat; b_data : list Q }.
Definition np_size (b : bound) : nat := length (b_data b).

(** [np.full((d,), b)] for a bound of size one. *)
Definition np_full (d : nat) (b : bound) : bound :=
  mk_bound 1 (repeat (hd 0 (b_data b)) d).
Definition atleast_1d (b : bound) : bound := mk_bound (Nat.max 1 (b_ndim b)) (b_data b).

(** [np.all(domain_a < domain_b)] for one-dimensional arrays of equal length. *)
Definition all_lt (a b : list Q) : bool :=
  forallb (fun xy => negb (Qle_bool (snd xy) (fst xy))) (combine a b).

(** [as_domain(domain, input_dim)] (_utils.py 14-111); [None]: ValueError. *)
Definition as_domain (domain : list bound) (input_dim : option Z)
  : option (list Q * list Q * Z) :=
  if match input_dim with Some d => Z.ltb d 1 | None => false end then None
  else match domain with
  | [a; b] =>
      if negb (Nat.eqb (np_size a) (np_size b)) then None
      else
        let dd := np_size a in
        let choice :=
          match input_dim with
          | None => Some (a, b, Z.of_nat dd)
          | Some d =>
              if Nat.eqb dd 1 then Some (np_full (Z.to_nat d) a, np_full (Z.to_nat d) b, d)
              else if negb (Z.eqb d (Z.of_nat dd)) then None
              else Some (a, b, d)
          end in
        match choice with
        | None => None
        | Some (da, db, d) =>
            let da := atleast_1d da in
            let db := atleast_1d db in
            if (Nat.ltb 1 (b_ndim da) || Nat.ltb 1 (b_ndim db))%bool then None
            else if all_lt (b_data da) (b_data db) then Some (b_data da, b_data db, d)
            else None
        end
  | _ => None
  end.
