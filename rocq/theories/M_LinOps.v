(** Model of the linear operator classes and their arithmetic:
    linops/_linear_operator.py, _arithmetic.py, _arithmetic_fallbacks.py, _scaling.py,
    _kronecker.py, _block.py.

    An operator is an immutable snapshot of the Python object: its class, its
    constructor arguments and its four structure flags. Simplifications: exact numbers,
    one dtype, dense [Matrix] operators only, non-negative indices, index tuples in
    range; [_TypeCastLinearOperator] and caching are left out; [solve] is exact and is
    defined for invertible operators only (the library raises [LinAlgError] otherwise);
    vectors of scaling factors are not empty. [None] is a raised exception. *)
From mathcomp Require Import all_ssreflect all_algebra.
From Verif Require Import M_DMx.
Set Implicit Arguments.
Unset Strict Implicit.
Unset Printing Implicit Defensive.
Import Order.Theory GRing.Theory Num.Theory.
Local Open Scope ring_scope.

(** [None] = unknown (_linear_operator.py 96-101). *)
Record flags := Flags {
  f_sym : option bool; f_low : option bool; f_upp : option bool; f_pd : option bool }.

(** [_set_property] (495-516): [None] is the [ValueError]. *)
Definition set_prop (cur v : option bool) : option (option bool) :=
  if cur == v then Some cur else if cur is Some _ then None else Some v.

(** [LinearOperator.__init__] (118-120): non-square operators are not symmetric. *)
Definition base_flags (m n : nat) : flags :=
  Flags (if m == n then None else Some false) None None None.

Section Ops.
Variable R : rcfType.
Local Notation dmx := (dmx R).

Inductive op : Type :=
| Mat of flags & dmx                             (* Matrix (1602-1675) *)
| Lam of flags & dmx                             (* LambdaLinearOperator given by the
                                                    product with a matrix (1264-1453) *)
| Idn of flags & nat                             (* Identity (1677-1760) *)
| ScC of flags & nat & R                         (* Scaling by a scalar (_scaling.py 48) *)
| ScV of flags & seq R                           (* Scaling by a vector (_scaling.py 116) *)
| Zer of flags & nat & nat                       (* Zero (_scaling.py 333-379) *)
| Sel of flags & nat & seq nat                   (* Selection of [seq nat] out of [nat]
                                                    entries (1762-1816) *)
| Emb of flags & nat & seq nat & seq nat & R     (* Embedding into [nat] entries: take,
                                                    put, fill_value (1818-1870) *)
| Kro of flags & op & op                         (* Kronecker (_kronecker.py 64-277) *)
| IdK of flags & nat & op                        (* IdentityKronecker (480-554) *)
| SyK of flags & op & op & bool                  (* SymmetricKronecker (279-478); flag:
                                                    identical_factors *)
| Syz of flags & nat                             (* Symmetrize (13-62) *)
| Tra of flags & op                              (* TransposedLinearOperator (1455-1494) *)
| Inv of flags & op                              (* _InverseLinearOperator (1497-1545) *)
| Sca of flags & R & op                          (* ScaledLinearOperator (fallbacks 20) *)
| Neg of flags & op                              (* NegatedLinearOperator (fallbacks 76) *)
| Sum of flags & seq op                          (* SumLinearOperator (fallbacks 89) *)
| Prd of flags & seq op                          (* ProductLinearOperator (fallbacks 178) *)
| Blk of flags & seq op.                         (* BlockDiagonalMatrix (_block.py) *)

Definition flags_of (o : op) : flags :=
  match o with
  | Mat f _ | Lam f _ | Idn f _ | ScC f _ _ | ScV f _ | Zer f _ _ | Sel f _ _
  | Emb f _ _ _ _ | Kro f _ _ | IdK f _ _ | SyK f _ _ _ | Syz f _ | Tra f _ | Inv f _
  | Sca f _ _ | Neg f _ | Sum f _ | Prd f _ | Blk f _ => f
  end.
Definition with_flags (o : op) (f : flags) : op :=
  match o with
  | Mat _ a => Mat f a | Lam _ a => Lam f a | Idn _ n => Idn f n | ScC _ n c => ScC f n c
  | ScV _ d => ScV f d | Zer _ m n => Zer f m n | Sel _ n i => Sel f n i
  | Emb _ m t p v => Emb f m t p v | Kro _ a b => Kro f a b | IdK _ k b => IdK f k b
  | SyK _ a b i => SyK f a b i | Syz _ n => Syz f n | Tra _ a => Tra f a | Inv _ a => Inv f a
  | Sca _ c a => Sca f c a | Neg _ a => Neg f a | Sum _ l => Sum f l | Prd _ l => Prd f l
  | Blk _ l => Blk f l
  end.

Fixpoint shape (o : op) : nat * nat :=
  match o with
  | Mat _ A | Lam _ A => dshape A
  | Idn _ n | ScC _ n _ => (n, n)
  | ScV _ d => (size d, size d)
  | Zer _ m n => (m, n)
  | Sel _ n idx => (size idx, n)
  | Emb _ m _ put _ => (m, size put)
  | Kro _ A B => ((shape A).1 * (shape B).1, (shape A).2 * (shape B).2)%N
  | IdK _ k B => (k * (shape B).1, k * (shape B).2)%N
  | SyK _ A _ _ => ((shape A).1 * (shape A).1, (shape A).1 * (shape A).1)%N
  | Syz _ n => (n * n, n * n)%N
  | Tra _ A => ((shape A).2, (shape A).1)
  | Inv _ A | Sca _ _ A | Neg _ A => shape A
  | Sum _ l => head (0, 0)%N (map shape l)
  | Prd _ l => ((head (0, 0)%N (map shape l)).1, (last (0, 0)%N (map shape l)).2)
  | Blk _ l => (sumn (map (fun b => (shape b).1) l), sumn (map (fun b => (shape b).2) l))
  end.
Definition rows o := (shape o).1.
Definition cols o := (shape o).2.
Definition is_square o := rows o == cols o.

(** [functools.reduce] without initial value. *)
Definition reduce (T : Type) (z : T) (f : T -> T -> T) (l : seq T) : T :=
  if l is a :: l' then foldl f a l' else z.

(** ** Dense representation: the [todense] methods *)
(** Writing rows [put] from rows [take]: the last write wins (1863-1870). *)
Definition embed (m : nat) (take put : seq nat) (fill : R) (x : dmx) : dmx :=
  mk m (dcol x) (fun i j =>
    let ps := zip put take in
    if [seq p.2 | p <- ps & p.1 == i] is (t :: ts) then get x (last t ts) j else fill).
(** [_kronecker_matmul] (250-277): every column of [x] is reshaped to a matrix [X] and
    replaced by [vec (A X B^T)], computed as [A @ (B @ X^T)^T]. *)
Definition kron_col (pB nA nB : nat) (fA fB : dmx -> dmx) (x : dmx) (k : nat) : dmx :=
  let X := mk nA nB (fun a b => get x (a * nB + b) k) in fA (dtr (fB (dtr X))).
Definition kron_matmul (mA nA mB nB : nat) (fA fB : dmx -> dmx) (x : dmx) : dmx :=
  mk (mA * mB) (dcol x)
     (fun i k => get (kron_col mB nA nB fA fB x k) (i %/ mB) (i %% mB)).
(** [Symmetrize._matmul] (37-60). *)
Definition symz_matmul (n : nat) (x : dmx) : dmx :=
  mk (n * n) (dcol x) (fun i k =>
    (1 / 2%:R) * (get x (i %/ n * n + i %% n) k + get x (i %% n * n + i %/ n) k)).

Fixpoint dense (o : op) : dmx :=
  match o with
  | Mat _ A => A
  | Lam _ A => dmul A (did R (dcol A))
  | Idn _ n => did R n
  | ScC _ n c => mk n n (fun i j => if i == j then c else 0)
  | ScV _ d => ddiag d
  | Zer _ m n => dzero R m n
  | Sel _ n idx => dtake idx (did R n)
  | Emb _ m _ put _ => dtr (dtake put (did R m))
  | Kro _ A B => dkron (dense A) (dense B)
  | IdK _ k B => dkron (did R k) (dense B)
  | SyK _ A B ident =>
      if ident then dkron (dense A) (dense A)
      else dscale (1 / 2%:R) (dadd (dkron (dense A) (dense B)) (dkron (dense B) (dense A)))
  | Syz _ n => symz_matmul n (did R (n * n))
  | Tra _ A => dtr (dense A)
  | Inv _ A => dinv (dense A)
  | Sca _ c A => dscale c (dense A)
  | Neg _ A => dscale (-1) (dense A)
  | Sum _ l => reduce (dzero R 0 0) (@dadd R) (map dense l)
  | Prd _ l => reduce (dzero R 0 0) (@dmul R) (map dense l)
  | Blk _ l => dblock (map dense l)
  end.

(** ** Action on (matrices of column) vectors: the [_matmul] methods.
    The argument has [cols o] rows (checked by [__matmul__], 1170-1227). *)
Fixpoint apply (o : op) (x : dmx) {struct o} : dmx :=
  match o with
  | Mat _ A | Lam _ A => dmul A x
  | Idn _ _ => x
  | ScC _ _ c => dscale c x
  | ScV _ d => mk (drow x) (dcol x) (fun i j => d`_i * get x i j)
  | Zer _ m _ => dzero R m (dcol x)
  | Sel _ _ idx => dtake idx x
  | Emb _ m take put fill => embed m take put fill x
  | Kro _ A B => kron_matmul (rows A) (cols A) (rows B) (cols B) (apply A) (apply B) x
  | IdK _ k B => kron_matmul k k (rows B) (cols B) (fun y => y) (apply B) x
  | SyK _ A B ident =>
      let n := rows A in
      if ident then kron_matmul n n n n (apply A) (apply A) x
      else dscale (1 / 2%:R) (dadd (kron_matmul n n n n (apply A) (apply B) x)
                                   (kron_matmul n n n n (apply B) (apply A) x))
  | Syz _ n => symz_matmul n x
  | Tra _ A => dmul (dtr (dense A)) x
  | Inv _ A => dmul (dinv (dense A)) x
  | Sca _ c A => dscale c (apply A x)
  | Neg _ A => dscale (-1) (apply A x)
  | Sum _ l => reduce (dzero R 0 0) (@dadd R) (map (fun s => apply s x) l)
  | Prd _ l => foldr (fun f y => apply f y) x l
  | Blk _ l =>
      (fix go (l : seq op) (k : nat) : dmx :=
         match l with
         | [::] => dzero R 0 (dcol x)
         | b :: l' => dvcat (apply b (drows k (cols b) x)) (go l' (k + cols b)%N)
         end) l 0%N
  end.

(** ** Constructors with the flags they set *)
Definition mat A := Mat (base_flags (drow A) (dcol A)) A.
Definition lam A := Lam (base_flags (drow A) (dcol A)) A.
Definition idn n := Idn (Flags (Some true) (Some true) (Some true) (Some true)) n.
Definition scC n c := ScC (Flags (Some true) (Some true) (Some true) (Some (0 < c))) n c.
Definition scV d := ScV (Flags (Some true) (Some true) (Some true) None) d.
Definition zer m n :=
  Zer (if m == n then Flags (Some true) (Some true) (Some true) (Some false)
       else base_flags m n) m n.
Definition sel n idx := Sel (base_flags (size idx) n) n idx.
Definition emb m take put fill := Emb (base_flags m (size put)) m take put fill.
Definition both_sym A B fl :=
  if (f_sym (flags_of A) == Some true) && (f_sym (flags_of B) == Some true)
  then Flags (Some true) None None None else fl.
Definition kro A B :=
  Kro (both_sym A B (base_flags (rows A * rows B) (cols A * cols B))) A B.
Definition idk k B := IdK (both_sym B B (base_flags (k * rows B) (k * cols B))) k B.
Definition syk A B ident := SyK (both_sym A B (Flags None None None None)) A B ident.
Definition syz n := Syz (Flags None None None None) n.
Definition tra A := Tra (base_flags (cols A) (rows A)) A.
Definition inv_ A := Inv (Flags (f_sym (flags_of A)) None None (f_pd (flags_of A))) A.
(** fallbacks 46-55. *)
Definition scaled_flags (c : R) (f : flags) :=
  Flags (f_sym f) (f_low f) (f_upp f) (if f_pd f == Some true then Some (0 < c) else None).
Definition sca c A := Sca (scaled_flags c (flags_of A)) c A.
Definition neg_ A := Neg (scaled_flags (-1) (flags_of A)) A.
(** fallbacks 92-158. *)
Definition expand_sum (l : seq op) : seq op :=
  flatten [seq (if s is Sum _ l' then l' else [:: s]) | s <- l].
Definition all_flag (p : flags -> option bool) (l : seq op) : bool :=
  all (fun s => p (flags_of s) == Some true) l.
Definition sum_flags (l : seq op) : flags :=
  let sh := head (0, 0)%N (map shape l) in
  Flags (if all_flag f_sym l then Some true else f_sym (base_flags sh.1 sh.2))
        (if all_flag f_low l then Some true else None)
        (if all_flag f_upp l then Some true else None)
        (if all_flag f_pd l then Some true else None).
Definition sum_ (l : seq op) : option op :=
  if all (fun s => shape s == head (0, 0)%N (map shape l)) l
  then let l' := expand_sum l in Some (Sum (sum_flags l') l') else None.
(** fallbacks 181-232. *)
Definition expand_prd (l : seq op) : seq op :=
  flatten [seq (if s is Prd _ l' then l' else [:: s]) | s <- l].
Fixpoint chain (l : seq op) : bool :=
  match l with
  | a :: (b :: _) as l' => (cols a == rows b) && chain l'
  | _ => true
  end.
Definition prd_ (l : seq op) : option op :=
  if chain l then
    let l' := expand_prd l in
    Some (Prd (base_flags (head (0, 0)%N (map shape l')).1 (last (0, 0)%N (map shape l')).2) l')
  else None.
(** _block.py 36-77. *)
Definition infer (p : flags -> option bool) (l : seq op) : option bool :=
  if all_flag p l then Some true
  else if has (fun b => p (flags_of b) == Some false) l then Some false else None.
Definition blk (l : seq op) : op :=
  Blk (Flags (infer f_sym l) (infer f_low l) (infer f_upp l) (infer f_pd l)) l.

(** ** Negation (916-920, Matrix 1670, fallbacks 82, 139) *)
Fixpoint neg (o : op) : op :=
  match o with
  | Neg _ A => A
  | Mat _ A => mat (dopp A)
  | Sum _ l => let l' := expand_sum (map neg l) in Sum (sum_flags l') l'
  | _ => neg_ o
  end.

(** ** Multiplication by a scalar: [_mul_fns] and [_mul_fallback] *)
(** [Scaling.is_isotropic] and [Scaling.scalar] (_scaling.py 185-194). *)
Definition isotropic (o : op) : option R :=
  match o with
  | ScC _ _ c => Some c
  | ScV _ d => if all (fun a => a == d`_0) d then Some (d`_0) else None
  | _ => None
  end.
Definition factors (o : op) : seq R :=
  match o with ScC _ n c => nseq n c | ScV _ d => d | _ => [::] end.
Fixpoint mul (c : R) (o : op) {struct o} : op :=
  match o with
  | ScC _ n c' => scC n (c * c')
  | ScV _ d => if isotropic o is Some a then scC (size d) (c * a) else scV [seq c * a | a <- d]
  | Kro _ A B => if c < 0 then sca c o
                 else kro (mul (Num.sqrt c) A) (mul (Num.sqrt c) B)
  | IdK _ k B => idk k (mul c B)
  | Mat _ A => mat (dscale c A)
  | Zer _ _ _ => o
  | _ => sca c o
  end.

(** ** Transposition: the property [T] (939-952) *)
Definition set_flags (o : op) (upp low sym pd : option bool) : option op :=
  let f := flags_of o in
  match set_prop (f_upp f) upp with None => None | Some u =>
  match set_prop (f_low f) low with None => None | Some l =>
  if (sym == Some true) && ~~ is_square o then None else
  match set_prop (f_sym f) sym with None => None | Some s =>
  if (pd == Some true) && (s != Some true) then None else
  match set_prop (f_pd f) pd with None => None | Some p =>
  Some (with_flags o (Flags s l u p)) end end end end.
Definition sequence (T : Type) (l : seq (option T)) : option (seq T) :=
  foldr (fun a r => match a, r with Some a, Some r => Some (a :: r) | _, _ => None end)
        (Some [::]) l.
Definition finish_T (o : op) (t : option op) : option op :=
  let f := flags_of o in
  if t is Some t then set_flags t (f_low f) (f_upp f) (f_sym f) (f_pd f) else None.
Definition obind2 (T : Type) (a b : option T) (f : T -> T -> option T) : option T :=
  match a, b with Some a, Some b => f a b | _, _ => None end.
Fixpoint transpose (o : op) : option op :=
  if f_sym (flags_of o) == Some true then Some o else
  finish_T o
    match o with
    | Mat _ A => Some (mat (dtr A))
    | Idn _ _ | ScC _ _ _ | ScV _ _ => Some o
    | Zer _ m n => Some (zer n m)
    | Sel _ n idx => Some (emb n (iota 0 (size idx)) idx 0)
    | Emb _ m _ put _ => Some (sel m put)
    | Kro _ A B => obind2 (transpose A) (transpose B) (fun a b => Some (kro a b))
    | IdK _ k B => omap (idk k) (transpose B)
    | SyK _ A B ident =>
        if ident then omap (fun a => syk a a true) (transpose A)
        else obind2 (transpose A) (transpose B) (fun a b => Some (syk a b false))
    | Tra _ A => Some A
    | Sca _ c A => omap (mul c) (transpose A)
    | Neg _ A => omap (mul (-1)) (transpose A)
    | Sum _ l => obind sum_ (sequence (map transpose l))
    | Prd _ l => obind prd_ (sequence (rev (map transpose l)))
    | Blk _ l => omap blk (sequence (map transpose l))
    | Lam _ _ | Syz _ _ | Inv _ _ => Some (tra o)
    end.

(** ** Addition and subtraction: [_add_fns], [_sub_fns] *)
(** The classes in [_AnyLinOp] (_arithmetic.py 32-50). *)
Definition any_linop (o : op) : bool :=
  match o with Lam _ _ | Blk _ _ => false | _ => true end.
Definition is_zero (o : op) : bool := if o is Zer _ _ _ then true else false.
(** [same a b] tells whether the Python expressions denote one object. *)
Variable same : op -> op -> bool.
(** [a is b or a == b]: [Matrix.__eq__] (1664), [Identity.__eq__] (1755),
    [Scaling.__eq__] (_scaling.py 196) with the test [_is_type_shape_dtype_equal]
    (1139-1144); every other class compares by identity. Identity, Matrix and Scaling are
    subclasses of [LambdaLinearOperator], hence comparable with a plain instance of it. *)
Definition is_eq (a b : op) : option bool :=
  if same a b then Some true else
  match a, b with
  | Mat _ A, Mat _ B => Some (deq A B)
  | Idn _ n, Idn _ m => Some (n == m)
  | Idn _ n, Lam _ A | Lam _ A, Idn _ n => Some ((n, n) == dshape A)
  | Mat _ A, Lam _ B | Lam _ B, Mat _ A => if dshape A == dshape B then None else Some false
  | (ScC _ _ _ | ScV _ _), (ScC _ _ _ | ScV _ _) => Some (factors a == factors b)
  | (ScC _ _ _ | ScV _ _), Lam _ _ | Lam _ _, (ScC _ _ _ | ScV _ _) =>
      if shape a == shape b then None else Some false
  | _, _ => Some false
  end.

Definition scaling2 (f : R -> R -> R) (a b : op) : option op :=
  if shape a == shape b then Some (scV [seq f p.1 p.2 | p <- zip (factors a) (factors b)])
  else None.

Fixpoint add (a b : op) {struct a} : option op :=
  if any_linop a && is_zero b then if shape a == shape b then Some a else None
  else if is_zero a && any_linop b then if shape a == shape b then Some b else None
  else match a, b with
  | (ScC _ _ _ | ScV _ _), (ScC _ _ _ | ScV _ _) => scaling2 +%R a b
  | Mat _ A, Mat _ B => omap mat (bcast +%R A B)
  | Kro _ A B, Kro _ A' B' =>
      match is_eq A A' with
      | None => None
      | Some true => omap (kro A) (add B B')
      | Some false =>
          match is_eq B B' with
          | None => None
          | Some true => omap (fun s => kro s B') (add A A')
          | Some false => sum_ [:: a; b]
          end
      end
  | IdK _ k B, IdK _ k' B' => if k == k' then omap (idk k) (add B B') else sum_ [:: a; b]
  | _, _ => sum_ [:: a; b]
  end.

Fixpoint sub (a b : op) {struct a} : option op :=
  if any_linop a && is_zero b then if shape a == shape b then Some a else None
  else if is_zero a && any_linop b then if shape a == shape b then Some (neg b) else None
  else match a, b with
  | (ScC _ _ _ | ScV _ _), (ScC _ _ _ | ScV _ _) => scaling2 (fun x y => x - y) a b
  | Mat _ A, Mat _ B => omap mat (bcast (fun x y => x - y) A B)
  | Kro _ A B, Kro _ A' B' =>
      match is_eq A A' with
      | None => None
      | Some true => omap (kro A) (sub B B')
      | Some false =>
          match is_eq B B' with
          | None => None
          | Some true => omap (fun s => kro s B') (sub A A')
          | Some false => sum_ [:: a; neg b]
          end
      end
  | IdK _ k B, IdK _ k' B' => if k == k' then omap (idk k) (sub B B') else sum_ [:: a; neg b]
  | _, _ => sum_ [:: a; neg b]
  end.

(** ** Operator products: [_matmul_fns] *)
(** [config.lazy_matrix_matrix_matmul]. *)
Variable lazy : bool.
(** [__matmul__] and [__rmatmul__] with an array (1170-1227, 1229-1261). *)
Definition op_arr (o : op) (x : dmx) : option dmx :=
  if drow x == cols o then Some (apply o x) else None.
Definition arr_op (x : dmx) (o : op) : option dmx :=
  if dcol x == rows o then omap (fun t => dtr (apply t (dtr x))) (transpose o) else None.
Definition is_idn (o : op) : bool := if o is Idn _ _ then true else false.

Fixpoint matmul (a : op) : op -> option op :=
  fix matmul_a (b : op) : option op :=
  let fallback := prd_ [:: a; b] in
  if any_linop a && is_zero b then if cols a == rows b then Some (zer (rows a) (cols b)) else None
  else if is_zero a && any_linop b then
    if cols a == rows b then Some (zer (rows a) (cols b)) else None
  else if any_linop a && is_idn b then if cols a == rows b then Some a else None
  else if is_idn a && any_linop b then if cols a == rows b then Some b else None
  else match b with
  | Sca _ c b' =>
      match a with
      | Neg _ a' => omap (mul (-1)) (matmul a' b)
      | Lam _ _ | Blk _ _ => fallback
      | _ => omap (mul c) (matmul_a b')
      end
  | Neg _ b' => if any_linop a then omap (mul (-1)) (matmul_a b') else fallback
  | _ =>
  match a with
  | Sca _ c a' => if any_linop b then omap (mul c) (matmul a' b) else fallback
  | Neg _ a' => if any_linop b then omap (mul (-1)) (matmul a' b) else fallback
  | ScC _ _ _ | ScV _ _ =>
      match b with
      | ScC _ _ _ | ScV _ _ => scaling2 *%R a b
      | Kro _ _ _ | IdK _ _ _ =>
          if cols a == rows b then
            if isotropic a is Some c then Some (mul c b) else fallback
          else None
      | Mat _ B => omap mat (bcast *%R (mk (rows a) 1 (fun i _ => (factors a)`_i)) B)
      | _ => fallback
      end
  | Kro _ A B =>
      match b with
      | Kro _ C D =>
          if cols a == rows b then
            if (cols A == rows C) && (cols B == rows D)
            then obind2 (matmul A C) (matmul B D) (fun p q => Some (kro p q)) else fallback
          else None
      | IdK _ k D =>
          if cols a == rows b then
            if (cols A == k) && (cols B == rows D)
            then obind2 (matmul A (idn k)) (matmul B D) (fun p q => Some (kro p q)) else fallback
          else None
      | ScC _ _ _ | ScV _ _ =>
          if cols a == rows b then
            if isotropic b is Some c then Some (mul c a) else fallback
          else None
      | _ => fallback
      end
  | IdK _ k B =>
      match b with
      | IdK _ k' D =>
          if cols a == rows b then
            if (k == k') && (cols B == rows D) then omap (idk k) (matmul B D) else fallback
          else None
      | Kro _ C D =>
          if cols a == rows b then
            if (k == rows C) && (cols B == rows D)
            then obind2 (if is_zero C then Some (zer k (cols C))
                         else if any_linop C then Some C else prd_ [:: idn k; C])
                        (matmul B D) (fun p q => Some (kro p q))
            else fallback
          else None
      | ScC _ _ _ | ScV _ _ =>
          if cols a == rows b then
            if isotropic b is Some c then Some (mul c a) else fallback
          else None
      | _ => fallback
      end
  | Mat _ A =>
      match b with
      | Mat _ B => if lazy then fallback
                   else if cols a == rows b then Some (mat (dmul A B)) else None
      | ScC _ _ _ | ScV _ _ =>
          omap mat (bcast *%R A (mk 1 (cols b) (fun _ j => (factors b)`_j)))
      | Sel _ _ _ | Emb _ _ _ _ _ => omap mat (arr_op A b)
      | Inv _ _ | Tra _ _ => if lazy then fallback else omap mat (arr_op A b)
      | _ => fallback
      end
  | Sel _ n idx =>
      match b with
      | Mat _ B => omap mat (op_arr a B)
      | Emb _ _ _ put _ =>
          if (cols b == rows a) && (idx == put) then Some (idn (rows a)) else fallback
      | _ => fallback
      end
  | Emb _ _ _ _ _ | Inv _ _ | Tra _ _ =>
      match b with
      | Mat _ B =>
          if lazy && (if a is Emb _ _ _ _ _ then false else true) then fallback
          else omap mat (op_arr a B)
      | _ => fallback
      end
  | _ => fallback
  end
  end.

(** ** Inversion (1020-1050 and overrides) *)
Fixpoint inv (o : op) : option op :=
  if ~~ is_square o then None else
  match o with
  | Idn _ _ => Some o
  | ScC _ n c => if c == 1 then Some o else if c == 0 then None else Some (scC n (1 / c))
  | ScV _ d => if all (fun a => a != 0) d then Some (scV [seq 1 / a | a <- d]) else None
  | Kro _ A B => if is_square A && is_square B
                 then obind2 (inv A) (inv B) (fun a b => Some (kro a b)) else Some (inv_ o)
  | IdK _ k B => omap (idk k) (inv B)
  | SyK _ A _ true => omap (fun a => syk a a true) (inv A)
  | Tra _ A => obind transpose (inv A)
  | Inv _ A => Some A
  | Sca _ c A => if c == 0 then None else omap (sca (1 / c)) (inv A)
  | Neg _ A => omap (sca (1 / -1)) (inv A)
  | Prd _ l => obind prd_ (sequence (rev (map inv l)))
  | Blk _ l => if all is_square l then omap blk (sequence (map inv l)) else Some (inv_ o)
  | _ => Some (inv_ o)
  end.
End Ops.
