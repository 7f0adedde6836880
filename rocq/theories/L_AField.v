(** Identities in an abstract field, proved with the standard library's [field] tactic,
    and the field laws of mathcomp fields, so that the identities can be used there. *)
From mathcomp Require Import all_ssreflect all_algebra.
From Coq Require Import Ring Field.
Set Implicit Arguments.
Unset Strict Implicit.
Unset Printing Implicit Defensive.
Import GRing.Theory.

Definition mc_field (F : fieldType) : field_theory (0%R : F) 1%R +%R *%R
  (fun a b => a - b)%R -%R (fun a b => a / b)%R GRing.inv eq.
Proof.
split; [split=> //| | |].
- exact: add0r. - exact: addrC. - exact: addrA. - exact: mul1r. - exact: mulrC. - exact: mulrA.
- exact: mulrDl. - exact: subrr.
- by move=> /esym/eqP; rewrite eq_sym oner_eq0. - by []. - by move=> p /eqP; exact: mulVf.
Qed.

Section AField.
Variables (T : Type) (O I : T) (add mul sub : T -> T -> T) (opp : T -> T) (div : T -> T -> T)
  (inv : T -> T).
Variable FT : field_theory O I add mul sub opp div inv eq.
Add Field af : FT.
Declare Scope af_scope.
Notation "x + y" := (add x y) : af_scope.
Notation "x * y" := (mul x y) : af_scope.
Notation "x - y" := (sub x y) : af_scope.
Notation "x / y" := (div x y) : af_scope.
Notation "- x" := (opp x) : af_scope.
Notation "x ^-1" := (inv x) : af_scope.
Local Open Scope af_scope.

Lemma af_taylor x s a m f : m <> O -> f <> O -> x <> O -> s <> O ->
  (x * a * s) * (m^-1 * f^-1) / (x * s / m) = a / f.
Proof. by move=> *; field. Qed.
Lemma af_hilbert x s y m n e : m <> O -> n <> O -> e <> O ->
  ((x * s) / m) * e^-1 * ((y * s) / n) = (m^-1 * n^-1 / e) * ((s * s) * (x * y)).
Proof. by move=> *; field. Qed.
Lemma af_gain_mean t f : t <> O -> f <> O ->
  t * (t^-1 * f^-1 * t^-1 * (t^-1 * f)) = t^-1 * t^-1.
Proof. by move=> *; field. Qed.
Lemma af_gain_cov t f s : t <> O -> f <> O -> s * s = f ->
  t^-1 * t^-1 + t^-1 * f^-1 * t^-1 * (O - t^-1 * s * (t^-1 * s)) * (t^-1 * f^-1 * t^-1)
  = t^-1 * t^-1 * (I - t^-1 * t^-1 * t^-1 * t^-1 * f^-1).
Proof.
move=> t0 f0 e; have -> : t^-1 * s * (t^-1 * s) = t^-1 * t^-1 * (s * s) by field.
by rewrite e; field.
Qed.
End AField.
