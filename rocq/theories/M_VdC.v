(** Model of quad/solvers/policies/_van_der_corput_policy.py. *)
From Coq Require Import List NArith QArith.
Import ListNotations.
Open Scope Q_scope.

(** The [while n != 0] loop of [van_der_corput_sequence] (107-110); exact
    rationals for floats (all values are dyadic).  [None]: out of fuel. *)
Fixpoint vdc_loop (fuel : nat) (q base_inv : Q) (n : N) : option Q :=
  if N.eqb n 0 then Some q
  else match fuel with
       | O => None
       | S fuel' =>
           vdc_loop fuel' (q + inject_Z (Z.of_N (n mod 2)) * base_inv) (base_inv / 2) (n / 2)%N
       end.

(** One element of the sequence (104-111). *)
Definition vdc (fuel : nat) (m : N) : option Q := vdc_loop fuel 0 (1#2) m.

(** [range(n_start, n_end)]. *)
Fixpoint range (start : N) (len : nat) : list N :=
  match len with O => [] | S len' => start :: range (N.succ start) len' end.

(** [van_der_corput_sequence(n_start, n_start + len)] (68-113). *)
Definition vdc_sequence (fuel : nat) (n_start : N) (len : nat) : list (option Q) :=
  map (vdc fuel) (range n_start len).

(** [__call__] (55-64): [n_nodes] nodes present, finite domain [a, b]. *)
Definition vdc_policy (fuel : nat) (a b : Q) (batch : nat) (n_nodes : nat) : list (option Q) :=
  map (option_map (fun v => v * (b - a) + a))
      (vdc_sequence fuel (N.of_nat n_nodes + 1) batch).

(** A quadrature run calling the policy repeatedly: batch sizes [bs], starting
    with no nodes; the nodes are appended to the state. *)
Fixpoint vdc_run (fuel : nat) (a b : Q) (bs : list nat) (nodes : list (option Q)) :=
  match bs with
  | [] => nodes
  | k :: bs' => vdc_run fuel a b bs' (nodes ++ vdc_policy fuel a b k (length nodes))
  end.
