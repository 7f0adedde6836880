(** Model of [MutualInformation]
    (quad/solvers/acquisition_functions/_mutual_information.py), over the real numbers. *)
From Coq Require Import Reals.
From mathcomp Require Import all_ssreflect all_algebra.
From Verif Require Import L_RStruct M_BQ.
Set Implicit Arguments.
Unset Strict Implicit.
Unset Printing Implicit Defensive.
Delimit Scope R_scope with coqR.

(** [__call__] (44-52). [None]: the value is not a number; [Some None]: infinite. The
    logarithm of a negative number is not a number, that of zero minus infinity. *)
Definition minus_half_log (a : R) : option (option R) :=
  if total_order_T 0%coqR a is inleft c then
    if c then Some (Some (- (1 / 2) * ln a)%coqR) else Some None
  else None.
Definition acq_information dim (k : kernel R_rcfType dim) (s : state R_rcfType dim) x : option (option R) :=
  obind (fun rho2 : R => minus_half_log (1 - rho2)%coqR) (acq_reduction k s x).
