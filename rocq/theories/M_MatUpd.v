(** Model of the matrix-based belief updates of linear solvers:
    linalg/solvers/belief_updates/matrix_based/_matrix_based_linear_belief_update.py and
    _symmetric_matrix_based_linear_belief_update.py, with the observations of
    information_ops/_matvec.py. Numbers are exact; square systems, one right-hand side;
    covariances have the Kronecker structure that the code demands. *)
From mathcomp Require Import all_ssreflect all_algebra.
Set Implicit Arguments.
Unset Strict Implicit.
Unset Printing Implicit Defensive.
Import Order.Theory GRing.Theory Num.Theory.
Local Open Scope ring_scope.

Section MatUpd.
Variables (R : rcfType) (n : nat).
Local Notation vec := 'cV[R]_n.
Local Notation mat := 'M[R]_n.
Definition sc (v : 'M[R]_1) : R := v 0 0.

(** [Normal] with covariance [Kronecker(A, B)]. *)
Record kbel := KBel { k_mean : mat; k_A : mat; k_B : mat }.
(** [gram_pinv] (77, 79). *)
Definition pinv (gram : R) : R := if 0 < gram then 1 / gram else 0.
(** [_matrix_based_update] (62-89). *)
Definition kron_update (p : kbel) (action observ : vec) : kbel :=
  let pred := k_mean p *m action in
  let resid := observ - pred in
  let covfactor_Ms := k_B p *m action in
  let gram := sc (action^T *m covfactor_Ms) in
  let gain := pinv gram *: covfactor_Ms in
  let covfactor_update := gain *m covfactor_Ms^T in
  let resid_gain := resid *m gain^T in
  KBel (k_mean p + resid_gain) (k_A p) (k_B p - covfactor_update).

(** [Normal] with covariance [SymmetricKronecker(A)]. *)
Record sbel := SymBel { s_mean : mat; s_A : mat }.
(** [_symmetric_matrix_based_update] (64-94). *)
Definition sym_update (p : sbel) (action observ : vec) : sbel :=
  let pred := s_mean p *m action in
  let resid := observ - pred in
  let covfactor_Ms := s_A p *m action in
  let gram := sc (action^T *m covfactor_Ms) in
  let gain := pinv gram *: covfactor_Ms in
  let covfactor_update := gain *m covfactor_Ms^T in
  let resid_gain := resid *m gain^T in
  SymBel (s_mean p + resid_gain + resid_gain^T - gain *m (action^T *m resid_gain))
         (s_A p - covfactor_update).

(** [__call__] (37-60, 39-62): the inverse sees action and observation swapped; the belief about
    the solution is induced, [x = Ainv b] (_linear_system_belief.py 156-161, 178-185): its
    mean. *)
Record belief (P : Type) := Belief { b_A : P; b_Ainv : P }.
Definition call P (upd : P -> vec -> vec -> P) (p : belief P) (action observ : vec) : belief P :=
  Belief (upd (b_A p) action observ) (upd (b_Ainv p) observ action).
Definition induced_x P (mean : P -> mat) (b : vec) (p : belief P) : vec := mean (b_Ainv p) *m b.
(** One update per action; [MatVecInformationOp] observes [A s]. *)
Definition calls P (upd : P -> vec -> vec -> P) (A : mat) (p : belief P) (actions : seq vec) : belief P :=
  foldl (fun p s => call upd p s (A *m s)) p actions.
End MatUpd.
