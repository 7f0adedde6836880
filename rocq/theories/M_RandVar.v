(** Model of random variables: randvars/_normal.py, _constant.py and _arithmetic.py.

    Arrays as in M_CovFunc.v (exact numbers, no dtypes; NumPy scalars are arrays of shape [()]);
    means and covariances are dense except in the section on operators. Constants are arrays.
    [None]: an exception. *)
From mathcomp Require Import all_ssreflect all_algebra.
From Verif Require Import M_CovFunc.
Set Implicit Arguments.
Unset Strict Implicit.
Unset Printing Implicit Defensive.
Import Order.Theory GRing.Theory Num.Theory.
Local Open Scope ring_scope.

Section RandVar.
Variable R : rcfType.
Notation arr := (arr R).
Notation get := (get (0 : R)).
Notation op := (np_op (0 : R)).

(** ** NumPy *)
(** [x @ y] for arrays with at most two axes, which covers all products below that do not raise. *)
Definition np_matmul (x y : arr) : option arr :=
  match shp x, shp y with
  | [:: n], [:: n'] => if n == n' then Some (tab [::] (fun=> \sum_(l < n) get x [:: nat_of_ord l] * get y [:: nat_of_ord l])) else None
  | [:: n], [:: n'; p] =>
      if n == n' then Some (tab [:: p] (fun b => \sum_(l < n) get x [:: nat_of_ord l] * get y [:: nat_of_ord l; nth 0%N b 0])) else None
  | [:: m; n], [:: n'] =>
      if n == n' then Some (tab [:: m] (fun b => \sum_(l < n) get x [:: nth 0%N b 0; nat_of_ord l] * get y [:: nat_of_ord l])) else None
  | [:: m; n], [:: n'; p] =>
      if n == n' then Some (tab [:: m; p] (fun b => \sum_(l < n) get x [:: nth 0%N b 0; nat_of_ord l] * get y [:: nat_of_ord l; nth 0%N b 1])) else None
  | _, _ => None
  end.
(** [x.T] *)
Definition np_T (x : arr) : arr := tab (rev (shp x)) (fun b => get x (rev b)).
(** [x.reshape(t)]; [t] without [-1]. *)
Definition np_reshape (t : seq nat) (x : arr) : option arr := if prodn t == prodn (shp x) then Some (Arr t (dat x)) else None.
Definition np_eye (n : nat) : arr := tab [:: n; n] (fun b => (nth 0%N b 0 == nth 0%N b 1)%:R).
(** The matrix of [Kronecker(x, y)] (linops/_kronecker.py 103-131). *)
Definition np_kron (x y : arr) : option arr :=
  if (shp x, shp y) is ([:: a; b], [:: c; d]) then
    Some (tab [:: (a * c)%N; (b * d)%N] (fun i =>
      get x [:: (nth 0 i 0 %/ c)%N; (nth 0 i 1 %/ d)%N] * get y [:: (nth 0 i 0 %% c)%N; (nth 0 i 1 %% d)%N]))
  else None.

(** ** [Normal]
    [chol] is [_cov_cholesky]: the factor if it is precomputed. *)
Record normal := Normal { mean : arr; cov : arr; chol : option arr }.
(** [Normal.__init__] (_normal.py 93-166): the checks of shapes. *)
Definition cov_shape (s : seq nat) : seq nat := if s is [::] then [::] else [:: prodn s; prodn s].
Definition mk_normal (m c : option arr) (l : option arr) : option normal :=
  match m, c with
  | Some m, Some c =>
      if (size (shp m) <= 2)%N && (shp c == cov_shape (shp m))
         && ((shp m == [::]) || (if l is Some l then shp l == shp c else true))
      then Some (Normal m c l) else None
  | _, _ => None
  end.
(** [__neg__] (365-369). *)
Definition neg_normal (x : normal) : option normal := mk_normal (Some (np_map -%R (mean x))) (Some (cov x)) None.
(** [_add_normal], [_sub_normal] (382-404). *)
Definition add_normal (x y : normal) : option normal :=
  if shp (mean y) == shp (mean x) then mk_normal (op +%R (mean x) (mean y)) (op +%R (cov x) (cov y)) None else None.
Definition sub (a b : R) : R := a - b.
Definition sub_normal (x y : normal) : option normal :=
  if shp (mean y) == shp (mean x) then mk_normal (op sub (mean x) (mean y)) (op +%R (cov x) (cov y)) None else None.

(** ** Arithmetic with constants (_arithmetic.py) *)
(** [_add_normal_constant], [_sub_normal_constant], [_sub_constant_normal] (213-247). *)
Definition add_nc (x : normal) (c : arr) : option normal := mk_normal (op +%R (mean x) c) (Some (cov x)) (chol x).
Definition sub_nc (x : normal) (c : arr) : option normal := mk_normal (op sub (mean x) c) (Some (cov x)) (chol x).
Definition sub_cn (c : arr) (x : normal) : option normal := mk_normal (op sub c (mean x)) (Some (cov x)) (chol x).
(** Random variables of the modelled classes; [Generic]: the fallback for arbitrary random variables
    is used, which only defines samples (and the mean for sums). *)
Inductive rv := Nrm of normal | Cst of arr | Generic.
Definition support0 (c : arr) : R := nth 0 (dat c) 0.
(** [_mul_normal_constant] (250-271). *)
Definition omul (c : arr) (l : option arr) : option (option arr) :=
  if l is Some l then if op *%R c l is Some l' then Some (Some l') else None else Some None.
Definition mul_nc (x : normal) (c : arr) : option rv :=
  if prodn (shp c) == 1%N then
    if support0 c == 0 then Some (Cst (np_map (fun=> 0) (mean x)))
    else if omul c (chol x) is Some l then
      omap Nrm (mk_normal (op *%R c (mean x)) (op *%R (np_map (fun z => z ^+ 2) c) (cov x)) l)
    else None
  else Some Generic.
(** [_truediv_normal_constant] (365-383). *)
Definition div (a b : R) : R := a / b.
Definition odiv (l : option arr) (c : arr) : option (option arr) :=
  if l is Some l then if op div l c is Some l' then Some (Some l') else None else Some None.
Definition div_nc (x : normal) (c : arr) : option rv :=
  if prodn (shp c) == 1%N then
    if support0 c == 0 then None
    else if odiv (chol x) c is Some l then
      omap Nrm (mk_normal (op div (mean x) c) (op div (cov x) (np_map (fun z => z ^+ 2) c)) l)
    else None
  else Some Generic.
(** [utils.linalg.cholesky_update] with one argument. *)
Variable chol_update : arr -> arr.
Definition ochol (y : option arr) (l : option arr) (f : arr -> arr -> option arr) : option (option arr) :=
  match l, y with
  | Some l, Some y => if f y l is Some s then Some (Some (chol_update s)) else None
  | Some _, None => None
  | None, _ => Some None
  end.
Definition obind (f : arr -> option arr) (x : option arr) : option arr := if x is Some x then f x else None.
(** [_matmul_normal_constant] (277-319). *)
Definition matmul_nc (x : normal) (c : arr) : option normal :=
  let s := shp (mean x) in
  if (size s == 1%N) || ((size s == 2%N) && (nth 0%N s 0 == 1%N)) then
    if ochol (Some (np_T c)) (chol x) np_matmul is Some l then
      if (np_matmul (mean x) c, obind (np_matmul (np_T c)) (np_matmul (cov x) c)) is (Some m, Some v) then
        let v := if (shp v == [::]) && (shp m == [:: 1%N]) then np_reshape [:: 1%N; 1%N] v else Some v in
        mk_normal (Some m) v l
      else None
    else None
  else if s is [:: n0; _] then
    if (if size (shp c) == 1%N then np_reshape [:: nth 0%N (shp c) 0; 1%N] c else Some c) is Some c2 then
      if np_kron (np_eye n0) (np_T c2) is Some u then
        mk_normal (np_matmul (mean x) c) (obind (np_matmul u) (np_matmul (cov x) (np_T u))) None
      else None
    else None
  else None.
(** [_matmul_constant_normal] (322-362). *)
Definition matmul_cn (c : arr) (x : normal) : option normal :=
  let s := shp (mean x) in
  if (size s == 1%N) || ((size s == 2%N) && (nth 0%N s 1 == 1%N)) then
    if ochol (Some c) (chol x) np_matmul is Some l then
      mk_normal (np_matmul c (mean x)) (obind (np_matmul c) (np_matmul (cov x) (np_T c))) l
    else None
  else if s is [:: _; n1] then
    if (if size (shp c) == 1%N then np_reshape [:: 1%N; nth 0%N (shp c) 0] c else Some c) is Some c2 then
      if np_kron c2 (np_eye n1) is Some u then
        mk_normal (np_matmul c (mean x)) (obind (np_matmul u) (np_matmul (cov x) (np_T u))) None
      else None
    else None
  else None.

(** [cov_cholesky] of scalar random variables, computed with damping [d] (_normal.py 240-257, 407-411), and of
    [Normal] with covariance [Kronecker(A, B)] of 1 x 1 factors (544-563). *)
Definition chol_scalar (v d : R) : R := Num.sqrt (v + d).
Definition chol_kron1 (a b d : R) : R := Num.sqrt (a + d) * Num.sqrt (b + d).

(** The operators of random variables: [_apply] (75-97) with the registries (182-386). Division of
    constants by zero gives zero instead of a non-finite value. *)
Definition rv_add (x y : rv) : option rv :=
  match x, y with
  | Nrm x, Nrm y => omap Nrm (add_normal x y)
  | Nrm x, Cst c | Cst c, Nrm x => omap Nrm (add_nc x c)
  | Cst b, Cst c => omap Cst (op +%R b c)
  | _, _ => Some Generic
  end.
Definition rv_sub (x y : rv) : option rv :=
  match x, y with
  | Nrm x, Nrm y => omap Nrm (sub_normal x y)
  | Nrm x, Cst c => omap Nrm (sub_nc x c)
  | Cst c, Nrm x => omap Nrm (sub_cn c x)
  | Cst b, Cst c => omap Cst (op sub b c)
  | _, _ => Some Generic
  end.
Definition rv_mul (x y : rv) : option rv :=
  match x, y with
  | Nrm x, Cst c | Cst c, Nrm x => mul_nc x c
  | Cst b, Cst c => omap Cst (op *%R b c)
  | _, _ => Some Generic
  end.
Definition rv_div (x y : rv) : option rv :=
  match x, y with
  | Nrm x, Cst c => div_nc x c
  | Cst b, Cst c => omap Cst (op div b c)
  | _, _ => Some Generic
  end.
Definition rv_matmul (x y : rv) : option rv :=
  match x, y with
  | Nrm x, Cst c => omap Nrm (matmul_nc x c)
  | Cst c, Nrm x => omap Nrm (matmul_cn c x)
  | Cst b, Cst c => omap Cst (np_matmul b c)
  | _, _ => Some Generic
  end.
Definition rv_neg (x : rv) : option rv :=
  match x with Nrm x => omap Nrm (neg_normal x) | Cst c => Some (Cst (np_map -%R c)) | Generic => Some Generic end.
End RandVar.

(** ** Types of covariances and factors
    Arrays, [Kronecker], its subclass [IdentityKronecker], [SymmetricKronecker] (with [identical_factors]), [Matrix], other linear operators. *)
Inductive ltype := TArray | TKron | TIdKron | TSymKron of bool | TMatrix | TOther.
(** The type of the computed factor (_normal.py 129-208, 457-475, 544-585). *)
Definition chol_type (t : ltype) : ltype :=
  match t with
  | TArray | TSymKron false => TArray
  | TKron | TIdKron => TKron
  | TSymKron true => TSymKron true
  | TMatrix | TOther => TMatrix
  end.
(** [isinstance(x, type(y))]; [IdentityKronecker] is the only subclass (linops/_kronecker.py 480). *)
Definition isinstance (x y : ltype) : bool :=
  match x, y with
  | TArray, TArray | TKron, TKron | TIdKron, TKron | TIdKron, TIdKron | TSymKron _, TSymKron _ | TMatrix, TMatrix | TOther, TOther => true
  | _, _ => false
  end.
(** Whether adding a constant of the same shape to a multivariate random variable succeeds, whose factor was
    accessed before or not: [_add_normal_constant] (_arithmetic.py 213-219), type check in [Normal.__init__] (150-157). *)
Definition add_const_ok (t : ltype) (accessed : bool) : bool := ~~ accessed || isinstance (chol_type t) t.
