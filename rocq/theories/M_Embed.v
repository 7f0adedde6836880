(** Model of the kernel embeddings of quad/kernel_embeddings with the measures of quad/integration_measures,
    over the real numbers of the standard library.  A point is a row vector; the [n_eval] points are
    treated one by one.  [erf] is that of L_Int1.v.  [None]: an exception.  Not modelled: rounding, dtypes. *)
From Coq Require Import Reals.
From mathcomp Require Import all_ssreflect all_algebra.
From Verif Require Import L_RStruct L_Int1.
Set Implicit Arguments.
Unset Strict Implicit.
Unset Printing Implicit Defensive.
Delimit Scope R_scope with coqR.
Local Open Scope ring_scope.

(** [_kernel_mean_matern_1d_lebesgue] (_matern_lebesgue.py 175-240). *)
Definition mean_1d (l nu a b x : R) : option R :=
  (if Req_EM_T nu (1 / 2) then Some (l * (2 - exp ((a - x) / l) - exp ((x - b) / l)))
   else if Req_EM_T nu (3 / 2) then
     Some (4 * l / sqrt 3 - exp (sqrt 3 * (x - b) / l) / 3 * (3 * b + 2 * sqrt 3 * l - 3 * x)
           - exp (sqrt 3 * (a - x) / l) / 3 * (3 * x + 2 * sqrt 3 * l - 3 * a))
   else if Req_EM_T nu (5 / 2) then
     Some (16 * l / (3 * sqrt 5)
           - exp (sqrt 5 * (x - b) / l) / (15 * l) * (8 * sqrt 5 * l ^ 2 + 25 * l * (b - x) + 5 * sqrt 5 * (b - x) ^ 2)
           - exp (sqrt 5 * (a - x) / l) / (15 * l) * (8 * sqrt 5 * l ^ 2 + 25 * l * (x - a) + 5 * sqrt 5 * (a - x) ^ 2))
   else if Req_EM_T nu (7 / 2) then
     Some (1 / (105 * l ^ 2) *
           (96 * sqrt 7 * l ^ 3
            - exp (sqrt 7 * (x - b) / l) *
              (48 * sqrt 7 * l ^ 3 - 231 * l ^ 2 * (x - b) + 63 * sqrt 7 * l * (x - b) ^ 2 - 49 * (x - b) ^ 3)
            - exp (sqrt 7 * (a - x) / l) *
              (48 * sqrt 7 * l ^ 3 + 231 * l ^ 2 * (x - a) + 63 * sqrt 7 * l * (x - a) ^ 2 + 49 * (x - a) ^ 3)))
   else None)%coqR.

(** [_kernel_variance_matern_1d_lebesgue] (_matern_lebesgue.py 243-305). *)
Definition var_1d (l nu a b : R) : option R :=
  let r := (b - a)%coqR in
  (if Req_EM_T nu (1 / 2) then Some (2 * l * (r + l * (exp (- r / l) - 1)))
   else if Req_EM_T nu (3 / 2) then
     let c := sqrt 3 * r in Some (2 * l / 3 * (2 * c - 3 * l + exp (- c / l) * (c + 3 * l)))
   else if Req_EM_T nu (5 / 2) then
     let c := sqrt 5 * r in
     Some (1 / 15 * (2 * l * (8 * c - 15 * l)
                     + 2 * exp (- c / l) * (5 * a ^ 2 - 10 * a * b + 5 * b ^ 2 + 7 * c * l + 15 * l ^ 2)))
   else if Req_EM_T nu (7 / 2) then
     let c := sqrt 7 * r in
     Some (1 / (105 * l) *
           (2 * exp (- c / l) *
            (7 * sqrt 7 * (b ^ 3 - a ^ 3) + 84 * b ^ 2 * l + 57 * sqrt 7 * b * l ^ 2 + 105 * l ^ 3
             + 21 * a ^ 2 * (sqrt 7 * b + 4 * l)
             - 3 * a * (7 * sqrt 7 * b ^ 2 + 56 * b * l + 19 * sqrt 7 * l ^ 2))
            - 6 * l ^ 2 * (35 * l - 16 * c)))
   else None)%coqR.

Section Embed.
Variable D : nat.
Notation point := 'rV[R]_D.

(** Length scales are a scalar (a 0-dimensional array) or one number per coordinate; [lengthscale]
    (_exponentiated_quadratic.py 77-83, _matern.py 163-169) raises in the second case, also for [D = 1]. *)
Inductive scales := Scalar of R | Array of point.
Definition lengthscale (s : scales) : option R := if s is Scalar l then Some l else None.

(** Covariance functions with input shape [(D,)].  [ExpQuad], [Matern], [ProductMatern]; [Other]: the rest. *)
Inductive kernel := ExpQuad of scales | Matern of scales & R | ProductMatern of point & point | Other.
(** [LebesgueMeasure] (_lebesgue_measure.py 31-59): the bounds, which [as_domain] has accepted, and [normalized];
    [GaussianMeasure] (_gaussian_measure.py 34-77): mean and covariance.  [OtherMeasure]: other subclasses. *)
Inductive measure := Lebesgue of point & point & bool | Gaussian of point & 'M[R]_D | OtherMeasure.
(** [normalization_constant] (_lebesgue_measure.py 41-44). *)
Definition normalization (a b : point) (normalized : bool) : R :=
  if normalized then (1 / \prod_(d < D) (b 0 d - a 0 d)%R)%coqR else 1.
(** [diagonal_covariance] (_gaussian_measure.py 70-77): for [input_dim == 1] always, else the number of non-zero entries is that of the diagonal. *)
Definition diagonal_covariance (V : 'M[R]_D) : bool :=
  (D == 1%N) || [forall i, forall j, (i != j) ==> (V i j == 0)].

(** The loops over the coordinates (_matern_lebesgue.py 78-86, 148-155). *)
Definition mul_all (k : 'I_D -> option R) : option R :=
  foldl (fun acc d => if acc is Some v then omap (Rmult v) (k d) else None) (Some 1) (enum 'I_D).
(** [_convert_to_product_matern] (158-172). *)
Definition to_product (k : kernel) : option (point * point) :=
  match k with
  | Matern s nu => if (1 < D)%N then None else omap (fun l => (const_mx l, const_mx nu)) (lengthscale s)
  | ProductMatern ls nus => Some (ls, nus)
  | _ => None
  end.
Definition mean_matern_lebesgue (x : point) (k : kernel) (a b : point) (nz : bool) : option R :=
  if to_product k is Some (ls, nus) then
    omap (Rmult (normalization a b nz)) (mul_all (fun d => mean_1d (ls 0 d) (nus 0 d) (a 0 d) (b 0 d) (x 0 d)))
  else None.
Definition var_matern_lebesgue (k : kernel) (a b : point) (nz : bool) : option R :=
  if to_product k is Some (ls, nus) then
    omap (Rmult (normalization a b nz ^ 2)%coqR) (mul_all (fun d => var_1d (ls 0 d) (nus 0 d) (a 0 d) (b 0 d)))
  else None.

(** [_kernel_mean_expquad_lebesgue], [_kernel_variance_expquad_lebesgue] (_expquad_lebesgue.py 50-60, 97-108);
    the power [input_dim / 2] of a positive number is taken by [Rpower]. *)
Definition mean_expquad_lebesgue (x : point) (s : scales) (a b : point) (nz : bool) : option R :=
  omap (fun l : R =>
    (normalization a b nz * Rpower (PI * l ^ 2 / 2) (INR D / 2) *
     \prod_(d < D) (erf ((b ord0 d - x ord0 d) / (l * sqrt 2)) - erf ((a ord0 d - x ord0 d) / (l * sqrt 2)))%coqR)%coqR) (lengthscale s).
Definition var_expquad_lebesgue (s : scales) (a b : point) (nz : bool) : option R :=
  omap (fun l : R =>
    (normalization a b nz ^ 2 * Rpower (2 * PI * l ^ 2) (INR D / 2) *
     \prod_(d < D) (let r := b ord0 d - a ord0 d in
        l * sqrt (2 / PI) * (exp (- r ^ 2 / (2 * l ^ 2)) - 1) + r * erf (r / (l * sqrt 2)))%coqR)%coqR) (lengthscale s).

(** [_kernel_mean_expquad_gauss], [_kernel_variance_expquad_gauss] (_expquad_gauss.py 46-64, 94-104).  [chol] is the
    Cholesky factor computed by SciPy, [None] if the matrix is not positive definite; [cho_solve] solves exactly. *)
Variable chol : 'M[R]_D -> option 'M[R]_D.
Definition mean_expquad_gauss (x : point) (s : scales) (m : point) (V : 'M[R]_D) : option R :=
  if lengthscale s is Some l then
    if diagonal_covariance V then
      let z d := ((x ord0 d - m ord0 d) / sqrt (l ^ 2 + V d d))%coqR in
      Some ((l ^ D / sqrt (\prod_(d < D) (l ^ 2 + V d d)%coqR)%R) * exp (- (1 / 2) * (\sum_(d < D) (z d ^ 2)%coqR)%R))%coqR
    else if chol ((l ^+ 2)%:M + V) is Some L then
      let y := (x - m) *m invmx (L *m L^T) in
      Some (exp (- (1 / 2) * (\sum_(d < D) (x - m) 0 d * y 0 d)%R) * (l ^ D / (\prod_(d < D) L d d)%R))%coqR
    else None
  else None.
Definition var_expquad_gauss (s : scales) (V : 'M[R]_D) : option R :=
  omap (fun l : R =>
    let denom : R := if diagonal_covariance V then \prod_(d < D) (l ^ 2 + 2 * V d d)%coqR
                     else \det ((l ^+ 2)%:M + 2%:R *: V) in
    (l ^ D / sqrt denom)%coqR) (lengthscale s).

(** [KernelEmbedding] (_kernel_embedding.py 55-145), for a measure and a kernel of the same dimension:
    a pair without an entry raises in the constructor. *)
Definition supported (k : kernel) (mu : measure) : bool :=
  match k, mu with
  | ExpQuad _, (Lebesgue _ _ _ | Gaussian _ _) | (Matern _ _ | ProductMatern _ _), Lebesgue _ _ _ => true
  | _, _ => false
  end.
Definition kernel_mean (k : kernel) (mu : measure) (x : point) : option R :=
  match k, mu with
  | ExpQuad s, Gaussian m V => mean_expquad_gauss x s m V
  | ExpQuad s, Lebesgue a b nz => mean_expquad_lebesgue x s a b nz
  | (Matern _ _ | ProductMatern _ _), Lebesgue a b nz => mean_matern_lebesgue x k a b nz
  | _, _ => None
  end.
Definition kernel_variance (k : kernel) (mu : measure) : option R :=
  match k, mu with
  | ExpQuad s, Gaussian m V => var_expquad_gauss s V
  | ExpQuad s, Lebesgue a b nz => var_expquad_lebesgue s a b nz
  | (Matern _ _ | ProductMatern _ _), Lebesgue a b nz => var_matern_lebesgue k a b nz
  | _, _ => None
  end.
End Embed.
