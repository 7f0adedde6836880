(** C44, C51: argument normalisation. *)
From Coq Require Import List ZArith QArith Bool Lia.
From Verif Require Import M_Args L_Args.
Import ListNotations.

(** ** C44 as_domain *)
(** Accepted exactly for non-empty boxes, and then the described box. *)
Theorem C44_as_domain_spec : forall domain input_dim a b d,
  as_domain domain input_dim = Some (a, b, d) <->
  describes domain input_dim a b d /\ Forall2 Qlt a b.
Proof. exact as_domain_spec. Qed.
Print Assumptions C44_as_domain_spec.

Theorem C44_dimensions : forall domain input_dim a b d,
  as_domain domain input_dim = Some (a, b, d) ->
  Z.of_nat (length a) = d /\ Z.of_nat (length b) = d.
Proof. exact as_domain_dims. Qed.
Print Assumptions C44_dimensions.

(** The dimension is positive when given; when inferred from empty bounds it is
    zero, contrary to the documented requirement. *)
Theorem C62_dimension_positive_partial : forall domain n a b d,
  as_domain domain (Some n) = Some (a, b, d) -> (1 <= d)%Z.
Proof.
  intros domain n a b d H. apply as_domain_spec in H.
  destruct H as [(? & ? & _ & _ & -> & ? & _) _]. assumption.
Qed.
Print Assumptions C62_dimension_positive_partial.

Theorem C62_dimension_positive_refuted : exists domain a b d,
  as_domain domain None = Some (a, b, d) /\ (d < 1)%Z.
Proof. exists [mk_bound 1 []; mk_bound 1 []], [], [], 0%Z. split; reflexivity. Qed.
Print Assumptions C62_dimension_positive_refuted.

Example ex_domain_scalar :
  as_domain [mk_bound 0 [0]; mk_bound 0 [1#2]] (Some 3%Z)
  = Some ([0; 0; 0], [1#2; 1#2; 1#2], 3%Z).
Proof. reflexivity. Qed.
Example ex_domain_box :
  as_domain [mk_bound 1 [0; 1]; mk_bound 1 [1; 3#2]] None = Some ([0; 1], [1; 3#2], 2%Z).
Proof. reflexivity. Qed.
Example ex_domain_bad : as_domain [mk_bound 1 [0; 1]; mk_bound 1 [1; 1]] None = None.
Proof. reflexivity. Qed.

(** ** C51 as_shape *)
Theorem C51_as_shape_spec : forall x ndim zs, reusable x ->
  (as_shape x ndim = Some zs <->
   exists l, items x = Some l /\ Forall2 is_integer l zs
     /\ (forall n, ndim = Some n -> Z.of_nat (length zs) = n)).
Proof. exact as_shape_spec. Qed.
Print Assumptions C51_as_shape_spec.

(** One-shot iterators are consumed by the validation. *)
Theorem C63_iterator_refuted : exists l zs,
  Forall2 is_integer l zs /\ as_shape (Iterator l) None = Some [] /\ zs <> [].
Proof.
  exists [PyInt 2; PyInt 3], [2; 3]%Z. split; [|split; [reflexivity|discriminate]].
  repeat constructor.
Qed.
Print Assumptions C63_iterator_refuted.

Example ex_shape : as_shape (Container [NpInt 2; PyInt 3]) (Some 2%Z) = Some [2; 3]%Z
  /\ as_shape (Scalar (NpInt 4)) None = Some [4%Z]
  /\ as_shape (Tuple [PyInt 2; NonInt]) None = None.
Proof. repeat split. Qed.

(** ** as_colvec *)
(** Arrays: vectors become columns with the same entries, others are kept. *)
Theorem C60_as_colvec_array : forall T (a : array T),
  as_colvec (Arr a) = Some (Arr (match a_shape a with
                                 | [n] => mk_array [n; 1%nat] (a_data a)
                                 | _ => a end)).
Proof. intros T [[|n [|m s]] d]; reflexivity. Qed.
Print Assumptions C60_as_colvec_array.

(** Random variables: never changed, so a vector-valued one does not become a
    column. *)
Theorem C60_as_colvec_randvar_refuted : exists (a : array nat) v,
  a_shape a = [2%nat] /\ as_colvec (RV a) = Some v
  /\ match v with Arr b | RV b => a_shape b <> [2; 1]%nat end.
Proof.
  exists (mk_array [2%nat] [7; 8]%nat), (RV (mk_array [2%nat] [7; 8]%nat)).
  split; [reflexivity|split; [reflexivity|]]. discriminate.
Qed.
Print Assumptions C60_as_colvec_randvar_refuted.
