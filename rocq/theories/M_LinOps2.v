(** Model of the derived quantities of linear operators: diagonal, trace, determinant and
    Cholesky factor (src/probnum/linops/_linear_operator.py 649-880, 1430-1452 and the
    overrides in _kronecker.py, _block.py, _scaling.py, _arithmetic_fallbacks.py).
    Simplifications: exact numbers; [np.linalg.slogdet] followed by [sign * exp] is the
    exact determinant; [scipy.linalg.cholesky] of a positive definite matrix is its exact
    Cholesky factor [chol_of] (L_Chol.v) and raises for other matrices; caches are not
    modelled (each quantity is a function of the operator). [None] is an exception. *)
From mathcomp Require Import all_ssreflect all_algebra.
From Verif Require Import M_DMx M_LinOps L_Chol.
Set Implicit Arguments.
Unset Strict Implicit.
Unset Printing Implicit Defensive.
Import Order.Theory GRing.Theory Num.Theory.
Local Open Scope ring_scope.

(** ** Assigning structure flags (_linear_operator.py 436-513): the setters check the
    value, then [_set_property] refuses to change a known flag. [sq] tells whether the
    operator is square; [None] is the [ValueError]. *)
Inductive prop := Symmetric | LowerTriangular | UpperTriangular | PositiveDefinite.
Definition read (p : prop) (f : flags) : option bool :=
  match p with
  | Symmetric => f_sym f | LowerTriangular => f_low f
  | UpperTriangular => f_upp f | PositiveDefinite => f_pd f
  end.
Definition assign (sq : bool) (f : flags) (p : prop) (v : option bool) : option flags :=
  match p with
  | Symmetric =>
      if (v == Some true) && ~~ sq then None
      else omap (fun x => Flags x (f_low f) (f_upp f) (f_pd f)) (set_prop (f_sym f) v)
  | LowerTriangular =>
      omap (fun x => Flags (f_sym f) x (f_upp f) (f_pd f)) (set_prop (f_low f) v)
  | UpperTriangular =>
      omap (fun x => Flags (f_sym f) (f_low f) x (f_pd f)) (set_prop (f_upp f) v)
  | PositiveDefinite =>
      if (v == Some true) && (f_sym f != Some true) then None
      else omap (fun x => Flags (f_sym f) (f_low f) (f_upp f) x) (set_prop (f_pd f) v)
  end.
(** A program that tries assignments and catches the errors. *)
Definition try_all (sq : bool) (f : flags) (l : seq (prop * option bool)) : flags :=
  foldl (fun f a => odflt f (assign sq f a.1 a.2)) f l.

Section Ops.
Variable R : rcfType.
Local Notation dmx := (dmx R).
Local Notation op := (op R).

(** ** Diagonal *)
(** The generic loop over unit vectors (769-785). *)
Definition unit_col (n i : nat) : dmx := mk n 1 (fun k _ => (k == i)%:R).
Definition diag_loop (o : op) : seq R :=
  [seq get (apply o (unit_col (cols o) i)) i 0 | i <- iota 0 (minn (rows o) (cols o))].
Definition zipadd (s t : seq R) : seq R := [seq p.1 + p.2 | p <- zip s t].
(** Matrix 1617, Identity 1711, Scaling (_scaling.py 315), Zero (_scaling.py 357),
    Transposed 1480, Scaled (fallbacks 44), Sum (fallbacks 117), Kronecker (_kronecker.py
    175-178), BlockDiagonal (_block.py 135-138). *)
Fixpoint diagonal (o : op) : seq R :=
  match o with
  | Mat _ A => [seq get A i i | i <- iota 0 (minn (drow A) (dcol A))]
  | Idn _ n => nseq n 1
  | ScC _ n c => nseq n c
  | ScV _ d => d
  | Zer _ m n => nseq (minn m n) 0
  | Tra _ a => diagonal a
  | Sca _ c a => [seq c * x | x <- diagonal a]
  | Neg _ a => [seq -1 * x | x <- diagonal a]
  | Sum _ l => reduce [::] zipadd (map diagonal l)
  | Kro _ a b => if is_square b then [seq x * y | x <- diagonal a, y <- diagonal b]
                 else diag_loop o
  | IdK _ n b => if is_square b then [seq x * y | x <- nseq n 1, y <- diagonal b]
                 else diag_loop o
  | Blk _ l => if all (@is_square R) l then flatten (map diagonal l) else diag_loop o
  | _ => diag_loop o
  end.

(** ** Trace (726-767) *)
Fixpoint trace (o : op) : option R :=
  if ~~ is_square o then None else
  match o with
  | Mat _ A => Some (dtrace A)
  | Idn _ n => Some n%:R
  | ScC _ n c => Some (n%:R * c)
  | ScV _ d => Some (\sum_(x <- d) x)
  | Zer _ _ _ => Some 0
  | Tra _ a => trace a
  | Sca _ c a => omap ( *%R c) (trace a)
  | Neg _ a => omap ( *%R (-1)) (trace a)
  | Sum _ l => omap (reduce 0 +%R) (sequence (map trace l))
  | Kro _ a b => if is_square a && is_square b
                 then match trace a, trace b with Some x, Some y => Some (x * y) | _, _ => None end
                 else Some (\sum_(x <- diagonal o) x)
  | IdK _ n b => if is_square b then omap ( *%R n%:R) (trace b)
                 else Some (\sum_(x <- diagonal o) x)
  | SyK _ a b _ => match trace a, trace b with Some x, Some y => Some (x * y) | _, _ => None end
  | Blk _ l => if all (@is_square R) l
               then omap (fun s => \sum_(x <- s) x) (sequence (map trace l))
               else Some (\sum_(x <- diagonal o) x)
  | _ => Some (\sum_(x <- diagonal o) x)
  end.

(** ** Determinant (649-685) *)
Fixpoint det (o : op) : option R :=
  if ~~ is_square o then None else
  match o with
  | Idn _ _ => Some 1
  | ScC _ n c => if c == 1 then Some c else Some (c ^+ n)
  | ScV _ d => Some (\prod_(x <- d) x)
  | Zer _ _ _ => Some 0
  | Tra _ a => det a
  | Inv _ a => omap (fun x => 1 / x) (det a)
  | Prd _ l => omap (reduce 1 *%R) (sequence (map det l))
  | Kro _ a b =>
      if is_square a && is_square b
      then match det a, det b with
           | Some x, Some y => Some (x ^+ rows b * y ^+ rows a) | _, _ => None end
      else Some (ddet (dense o))
  | IdK _ n b => if is_square b then omap (fun y => 1 ^+ rows b * y ^+ n) (det b)
                 else Some (ddet (dense o))
  | SyK _ a _ true => omap (fun x => x ^+ (2 * rows a)) (det a)
  | Blk _ l => if all (@is_square R) l
               then omap (fun s => \prod_(x <- s) x) (sequence (map det l))
               else Some (ddet (dense o))
  | _ => Some (ddet (dense o))
  end.

(** ** Cholesky factors (799-880) *)
Definition dchol (D : dmx) : dmx := DMx (chol_of (sq (drow D) D)).
(** [scipy.linalg.cholesky]: fails unless the matrix is positive definite; [pdtest] is the
    test it performs (every pivot positive), decided here by the factor itself. *)
Definition pdtest (D : dmx) : bool :=
  [forall i : 'I_(drow D), 0 < chol_of (sq (drow D) D) i i] &&
  (chol_of (sq (drow D) D) *m (chol_of (sq (drow D) D))^T == sq (drow D) D).
Definition dense_chol (lower : bool) (D : dmx) : option op :=
  if pdtest D then Some (mat (if lower then dchol D else dtr (dchol D))) else None.
(** The assignment [factor.is_lower_triangular = True] after the factorisation; the
    assignments to [self.is_positive_definite] change the operator, not the result. *)
Definition mark (lower : bool) (t : option op) : option op :=
  if t is Some t then
    let f := flags_of t in
    if lower
    then omap (fun l => with_flags t (Flags (f_sym f) l (f_upp f) (f_pd f)))
              (set_prop (f_low f) (Some true))
    else omap (fun u => with_flags t (Flags (f_sym f) (f_low f) u (f_pd f)))
              (set_prop (f_upp f) (Some true))
  else None.
(** Identity 1758, Scaling (_scaling.py 318-330), Kronecker (227-235), SymmetricKronecker
    (443-447), IdentityKronecker (512-516), BlockDiagonal (140-145); TransposedLinearOperator
    (1493) calls itself for ever (RecursionError). *)
Fixpoint cholesky (lower : bool) (o : op) : option op :=
  let f := flags_of o in
  if f_sym f != Some true then None else
  if f_pd f == Some false then None else
  mark lower
    match o with
    | Idn _ _ => Some o
    | ScC _ n c => if c <= 0 then None else Some (scC n (Num.sqrt c))
    | ScV _ d => if has (fun x => x <= 0) d then None else Some (scV (map Num.sqrt d))
    | Kro _ a b =>
        if (f_sym (flags_of a) == Some true) && (f_sym (flags_of b) == Some true)
        then obind2 (cholesky lower a) (cholesky lower b) (fun s t => Some (kro s t)) else None
    | IdK _ n b => omap (idk n) (cholesky lower b)
    | SyK _ a _ true => omap (fun s => syk s s true) (cholesky lower a)
    | Blk _ l => if all (@is_square R) l
                 then omap (@blk R) (sequence (map (cholesky lower) l))
                 else dense_chol lower (dense o)
    | Tra _ _ => None
    | _ => dense_chol lower (dense o)
    end.
End Ops.
