(** Initial value problems of the zoo. *)
From Coq Require Import Reals Lra.
From Coquelicot Require Import Coquelicot.
From mathcomp Require Import all_ssreflect.
From Verif Require Import M_IVPZoo.
Set Implicit Arguments.
Unset Strict Implicit.
Unset Printing Implicit Defensive.
Local Open Scope R_scope.

(** ** Specification *)
(** [J] is the matrix of partial derivatives of [f] at every point with [n] entries. *)
Definition val (o : option (seq R)) : seq R := if o is Some v then v else [::].
Definition jacobian (n m : nat) (f : seq R -> option (seq R)) (df : option (seq R -> option (seq (seq R)))) : Prop :=
  exists2 J, df = Some J & forall y, size y = n ->
  exists M, [/\ J y = Some M, size M = m & forall i, (i < m)%N -> size (nth [::] M i) = n
    /\ forall j, (j < n)%N ->
      is_derive (fun s => nth 0 (val (f (set_nth 0 y j s))) i) (nth 0 y j) (nth 0 (nth [::] M i) j)].
(** [y 0, ..., y (n - 1)] solve the equation on the set [D]. *)
Definition solves (n : nat) (f : seq R -> option (seq R)) (D : R -> Prop) (y : nat -> R -> R) : Prop :=
  forall t, D t -> exists v, [/\ f [seq y i t | i <- iota 0 n] = Some v, size v = n
    & forall i, (i < n)%N -> is_derive (y i) t (nth 0 v i)].
Definition conserved (D : R -> Prop) (I : R -> R) : Prop := forall t, D t -> is_derive I t 0.

Ltac derive := rewrite /=; auto_derive => //; try (first [rewrite /Rdiv; ring | field]).
Ltac columns := do ?[by []|case; [move=> _; derive|]].
Ltac entries := do ?[by []|case; [move=> _; split=> //; columns|]].

Theorem C157_vanderpol t0 y0 mu : jacobian 2 2 (i_f (vanderpol t0 y0 mu)) (i_df (vanderpol t0 y0 mu)).
Proof. 
eexists; first reflexivity; case=> [|y1 [|y2 []]] // _; eexists; split; [reflexivity|by []|].
entries.
Qed.
Theorem C157_rigidbody t0 y0 p1 p2 p3 : jacobian 3 3 (i_f (rigidbody t0 y0 p1 p2 p3)) (i_df (rigidbody t0 y0 p1 p2 p3)).
Proof.
eexists; first reflexivity; case=> [|y1 [|y2 [|y3 []]]] // _; eexists; split; [reflexivity|by []|].
entries.
Qed.
Theorem C157_logistic t0 y0 l0 l1 : jacobian 1 1 (i_f (logistic t0 y0 l0 l1)) (i_df (logistic t0 y0 l0 l1))
  /\ jacobian 1 1 (fun y => omap (fun M => nth [::] M 0) (obind (fun J => J y) (i_df (logistic t0 y0 l0 l1)))) (i_ddf (logistic t0 y0 l0 l1)).
Proof.
split; (eexists; first reflexivity); case=> [|y1 []] // _; eexists; split=> //; entries.
Qed.
Theorem C157_fitzhughnagumo t0 y0 a b c d : jacobian 2 2 (i_f (fitzhughnagumo t0 y0 a b c d)) (i_df (fitzhughnagumo t0 y0 a b c d)).
Proof.
eexists; first reflexivity; case=> [|y1 [|y2 []]] // _; eexists; split; [reflexivity|by []|].
entries.
Qed.
Theorem C157_lotkavolterra t0 y0 a b c d : jacobian 2 2 (i_f (lotkavolterra t0 y0 a b c d)) (i_df (lotkavolterra t0 y0 a b c d)).
Proof.
eexists; first reflexivity; case=> [|y1 [|y2 []]] // _; eexists; split; [reflexivity|by []|].
entries.
Qed.
Theorem C157_seir t0 y0 a b c : jacobian 4 4 (i_f (seir t0 y0 a b c)) (i_df (seir t0 y0 a b c)).
Proof.
eexists; first reflexivity; case=> [|y1 [|y2 [|y3 [|y4 []]]]] // _; eexists; split; [reflexivity|by []|].
entries.
Qed.
Theorem C157_lorenz63 t0 y0 a b c : jacobian 3 3 (i_f (lorenz63 t0 y0 a b c)) (i_df (lorenz63 t0 y0 a b c)).
Proof.
eexists; first reflexivity; case=> [|y1 [|y2 [|y3 []]]] // _; eexists; split; [reflexivity|by []|].
entries.
Qed.
Print Assumptions C157_vanderpol.
Print Assumptions C157_rigidbody.
Print Assumptions C157_logistic.
Print Assumptions C157_fitzhughnagumo.
Print Assumptions C157_lotkavolterra.
Print Assumptions C157_seir.
Print Assumptions C157_lorenz63.

(** ** C158: quantities that the systems conserve *)
Ltac uses d := rewrite ?(is_derive_unique _ _ _ d).
Lemma ex_of (f : R -> R) t v : is_derive f t v -> ex_derive f t. Proof. by exists v. Qed.
Theorem C158_rigidbody t0 y0 p1 p2 p3 D y : solves 3 (i_f (rigidbody t0 y0 p1 p2 p3)) D y ->
  conserved D (fun t => p2 * y 0%N t ^ 2 - p1 * y 1%N t ^ 2) /\ conserved D (fun t => p3 * y 0%N t ^ 2 - p1 * y 2%N t ^ 2).
Proof.
move=> h; split=> t Dt; have [_ [[<-] _ d]] := h t Dt; have := d 0%N isT; have := d 1%N isT; have := d 2%N isT; rewrite /= => d2 d1 d0.
- auto_derive; first by do !split=> //; apply: ex_of; eassumption.
  by uses d0; uses d1; uses d2; ring.
- auto_derive; first by do !split=> //; apply: ex_of; eassumption.
  by uses d0; uses d1; uses d2; ring.
Qed.
Theorem C158_seir t0 y0 a b c D y : solves 4 (i_f (seir t0 y0 a b c)) D y ->
  conserved D (fun t => y 0%N t + y 1%N t + y 2%N t + y 3%N t).
Proof.
move=> h t Dt; have [_ [[<-] _ d]] := h t Dt; have := d 0%N isT; have := d 1%N isT; have := d 2%N isT; have := d 3%N isT; rewrite /= => d3 d2 d1 d0.
auto_derive; first by do !split=> //; apply: ex_of; eassumption.
by uses d0; uses d1; uses d2; uses d3; rewrite /Rdiv; ring.
Qed.
Theorem C158_lotkavolterra t0 y0 a b c d D y : solves 2 (i_f (lotkavolterra t0 y0 a b c d)) D y ->
  (forall t, D t -> 0 < y 0%N t /\ 0 < y 1%N t) ->
  conserved D (fun t => (d * y 0%N t - c * ln (y 0%N t)) + (b * y 1%N t - a * ln (y 1%N t))).
Proof.
move=> h p t Dt; have [_ [[<-] _ e]] := h t Dt; have := e 0%N isT; have := e 1%N isT; rewrite /= => d1 d0.
have [p0 p1] := p t Dt.
auto_derive; first by do !split=> //; apply: ex_of; eassumption.
by uses d0; uses d1; field; split; apply: Rgt_not_eq.
Qed.
(** The Jacobi integral. *)
Definition jacobi (y0 y1 y2 y3 : R) : R :=
  (y2 ^ 2 + y3 ^ 2) / 2 - (y0 ^ 2 + y1 ^ 2) / 2
  - (1 - moon) / sqrt ((y0 + moon) ^ 2 + y1 ^ 2) - moon / sqrt ((y0 - (1 - moon)) ^ 2 + y1 ^ 2).
Lemma pow32 s : 0 < s -> Rpower s (3 / 2) = sqrt s * sqrt s * sqrt s.
Proof.
move=> s0; have -> : 3 / 2 = / 2 + (/ 2 + / 2) by lra.
by rewrite !Rpower_plus Rpower_sqrt //; ring.
Qed.
Theorem C158_threebody t0 y0 D y : solves 4 (i_f (threebody t0 y0)) D y ->
  conserved D (fun t => jacobi (y 0%N t) (y 1%N t) (y 2%N t) (y 3%N t)).
Proof.
move=> h t Dt; have [v [e _ d]] := h t Dt; move: e; rewrite /=.
set s1 := (X in Req_EM_T X 0); case: Req_EM_T => // n1.
set s2 := (X in Req_EM_T X 0); case: Req_EM_T => // n2 [ev].
have p1 : 0 < s1 by case: (Rle_lt_or_eq_dec 0 s1) => //; [by apply: Rplus_le_le_0_compat; apply: pow2_ge_0|move=> e; case: n1].
have p2 : 0 < s2 by case: (Rle_lt_or_eq_dec 0 s2) => //; [by apply: Rplus_le_le_0_compat; apply: pow2_ge_0|move=> e; case: n2].
have := d 0%N isT; have := d 1%N isT; have := d 2%N isT; have := d 3%N isT; rewrite -ev /= => d3 d2 d1 d0.
rewrite !pow32 // in d2 d3.
have q1 : 0 < sqrt s1 by apply: sqrt_lt_R0.
have q2 : 0 < sqrt s2 by apply: sqrt_lt_R0.
have r1 : sqrt s1 * sqrt s1 = s1 by apply: sqrt_sqrt; lra.
have r2 : sqrt s2 * sqrt s2 = s2 by apply: sqrt_sqrt; lra.
have g (a b k c : R) (f0 f1 : R -> R) : is_derive f0 t a -> is_derive f1 t b -> 0 < (f0 t + k) ^ 2 + f1 t ^ 2 ->
  is_derive (fun t => c / sqrt ((f0 t + k) ^ 2 + f1 t ^ 2)) t
    (- c * ((f0 t + k) * a + f1 t * b) / (sqrt ((f0 t + k) ^ 2 + f1 t ^ 2) * sqrt ((f0 t + k) ^ 2 + f1 t ^ 2) * sqrt ((f0 t + k) ^ 2 + f1 t ^ 2))).
  move=> da db p; have q : 0 < sqrt ((f0 t + k) ^ 2 + f1 t ^ 2) by apply: sqrt_lt_R0.
  have X0 : ex_derive f0 t by exists a.
  have X1 : ex_derive f1 t by exists b.
  auto_derive.
    by do !split=> //; try (apply: Rgt_not_eq); rewrite /= in p q *.
  rewrite (is_derive_unique _ _ _ da) (is_derive_unique _ _ _ db).
  by rewrite /= in q *; field; apply: Rgt_not_eq.
have G1 := g _ _ moon (1 - moon) _ _ d0 d1 p1.
have G2 := g _ _ (- (1 - moon)) moon _ _ d0 d1 p2.
have g3 (f0 f1 f2 f3 : R -> R) (a b c e : R) : is_derive f0 t a -> is_derive f1 t b -> is_derive f2 t c -> is_derive f3 t e ->
  is_derive (fun t => (f2 t ^ 2 + f3 t ^ 2) / 2 - (f0 t ^ 2 + f1 t ^ 2) / 2) t (f2 t * c + f3 t * e - f0 t * a - f1 t * b).
  move=> e0 e1 e2 e3; auto_derive; first by do !split=> //; apply: ex_of; eassumption.
  by uses e0; uses e1; uses e2; uses e3; field.
have G := is_derive_minus _ _ _ _ _ (is_derive_minus _ _ _ _ _ (g3 _ _ _ _ _ _ _ _ d0 d1 d2 d3) G1) G2.
evar_last; first exact: G.
rewrite -/s1 -/s2 /minus /plus /opp /=; field; split; exact: Rgt_not_eq.
Qed.
Print Assumptions C158_rigidbody.
Print Assumptions C158_seir.
Print Assumptions C158_lotkavolterra.
Print Assumptions C158_threebody.

(** ** C159: the Lorenz96 system, with indices modulo the number of variables *)
Lemma nth_rot (T : Type) (x : T) (s : seq T) k i : (k <= size s)%N -> (i < size s)%N -> nth x (rot k s) i = nth x s ((i + k) %% size s).
Proof.
move=> lk li; rewrite /rot nth_cat size_drop; case: ltnP => l.
  by rewrite nth_drop modn_small addnC // -ltn_subRL.
have ki : (size s <= i + k)%N by rewrite addnC -leq_subLR.
have e : (i + k = (i - (size s - k)) + size s)%N by rewrite subnBA // subnK.
have lq : (i - (size s - k) < k)%N by rewrite subnBA // ltn_subLR // ltn_add2r.
by rewrite e modnDr nth_take // modn_small // (leq_trans lq lk).
Qed.
Theorem C159_lorenz96 c y : (4 <= size y)%N -> size (lorenz96_f c y) = size y
  /\ forall i, (i < size y)%N -> nth 0 (lorenz96_f c y) i
     = (nth 0 y ((i + 1) %% size y) - nth 0 y ((i + (size y - 2)) %% size y)) * nth 0 y ((i + (size y - 1)) %% size y) - nth 0 y i + c.
Proof.
move=> n4; have n2 : (2 <= size y)%N by apply: leq_trans n4.
have n1 : (1 <= size y)%N by apply: leq_trans n4.
have z : size (zip (zip (rot 1 y) (rotr 2 y)) (zip (rotr 1 y) y)) = size y by rewrite !size_zip ?size_rotr ?size_rot !minnn.
split=> [|i li]; first by rewrite size_map.
rewrite (nth_map (0, 0, (0, 0))) ?z // !nth_zip ?size_zip ?size_rotr ?size_rot ?minnn //.
by rewrite /rotr !nth_rot // leq_subr.
Qed.
Theorem C159_raises t0 y0 num c : lorenz96 t0 y0 num c = None <-> ((if y0 is Some y then size y else num) < 4)%N.
Proof. by rewrite /lorenz96; case: y0 => [y|]; case: ltnP. Qed.
Theorem C159_problem t0 y0 num c p : lorenz96 t0 y0 num c = Some p ->
  [/\ i_t0 p = t0, (forall y, y0 = Some y -> i_y0 p = y), (4 <= size (i_y0 p))%N & forall y, i_f p y = Some (lorenz96_f c y)].
Proof.
rewrite /lorenz96; case: y0 => [y|]; case: ltnP => // n4 [<-]; split=> //=; last by rewrite size_nseq.
by move=> z [].
Qed.
Print Assumptions C159_lorenz96.
Print Assumptions C159_raises.
Print Assumptions C159_problem.

(** ** C160: documented defaults. The default initial value of [lorenz96] is documented as [1 / F] in every
    entry. It is [F], which is an equilibrium: the default problem has the constant solution. The default
    parameter of [vanderpol] is documented as 0.1. *)
Theorem C160_lorenz96_refuted t0 num c : (4 <= num)%N ->
  exists2 p, lorenz96 t0 None num c = Some p
    & i_y0 p = nseq num c /\ val (i_f p (i_y0 p)) = nseq num 0.
Proof.
move=> n4; rewrite /lorenz96 ltnNge n4; eexists; first by []; rewrite /= Rmult_1_l; split=> //.
have n4' : (4 <= size (nseq num c))%N by rewrite size_nseq.
have [sz h] := @C159_lorenz96 c (nseq num c) n4'; rewrite !size_nseq in sz h.
apply: (@eq_from_nth _ 0) => [|i]; first by rewrite sz // size_nseq.
rewrite sz // => li; rewrite h // !nth_nseq li !ltn_mod (leq_trans _ n4) //; ring.
Qed.
Theorem C160_lorenz96_witness : exists2 p, lorenz96 0 None 5 8 = Some p & i_y0 p <> nseq 5 (1 / 8).
Proof. by eexists; first reflexivity; move=> /= -[] e; lra. Qed.
Theorem C160_vanderpol_refuted : vanderpol_default <> 1 / 10.
Proof. by rewrite /vanderpol_default; lra. Qed.
Print Assumptions C160_lorenz96_refuted.
Print Assumptions C160_lorenz96_witness.
Print Assumptions C160_vanderpol_refuted.

(** ** C161: the closed form solution of [logistic] *)
Lemma logistic_denominator l0 l1 y t : 0 < l1 -> 0 <= y <= l1 -> 0 < l1 + y * (exp (l0 * t) - 1).
Proof. by move=> l1p [y0 y1]; have := exp_pos (l0 * t) => e; case: (Rlt_dec y l1) => h; nra. Qed.
Theorem C161_logistic t0 y l0 l1 t (p := logistic t0 (Some [:: y]) l0 l1) : l1 <> 0 -> l1 + y * (exp (l0 * t) - 1) <> 0 ->
  exists2 sol, i_sol p = Some sol
    & [/\ size (sol t) = 1%N, sol 0 = [:: y]
      & is_derive (fun u => nth 0 (sol u) 0) t (nth 0 (val (i_f p (sol t))) 0)].
Proof.
move=> n1 nt; eexists; first by []; split=> //=.
  by rewrite /logistic_sol Rmult_0_r exp_0; congr [:: _]; rewrite (_ : l1 + y * (1 - 1) = l1); [field|ring].
rewrite /logistic_sol; auto_derive => //; field; by split.
Qed.
Theorem C161_logistic_domain l0 l1 y t : 0 < l1 -> 0 <= y <= l1 -> l1 + y * (exp (l0 * t) - 1) <> 0.
Proof. by move=> a b; apply: Rgt_not_eq; exact: logistic_denominator. Qed.
(** ** C162: the initial time is ignored: for a non-zero [t0] the solution does not start at [y0]. *)
Theorem C162_initial_time_refuted t0 y l0 l1 : 0 < l1 -> 0 < y < l1 -> l0 * t0 <> 0 ->
  exists2 sol, i_sol (logistic t0 (Some [:: y]) l0 l1) = Some sol & sol t0 <> i_y0 (logistic t0 (Some [:: y]) l0 l1).
Proof.
move=> l1p [yp yl] nz; eexists; first by []; move=> /= -[]; rewrite /logistic_sol => e.
have d := @logistic_denominator l0 l1 y t0 l1p (conj (Rlt_le _ _ yp) (Rlt_le _ _ yl)).
have E : exp (l0 * t0) <> 1 by move=> e1; apply: nz; apply: exp_inv; rewrite e1 exp_0.
have : l1 * y * exp (l0 * t0) = y * (l1 + y * (exp (l0 * t0) - 1)).
  by rewrite -{2}e; field; apply: Rgt_not_eq.
move=> h; have : y * ((exp (l0 * t0) - 1) * (l1 - y)) = 0 by lra.
case/Rmult_integral => [|/Rmult_integral[]]; [|move=> z; apply: E|]; lra.
Qed.
Print Assumptions C161_logistic.
Print Assumptions C162_initial_time_refuted.

(** ** Examples *)
Example ex_lorenz96 : lorenz96_f 8 [:: 1; 2; 3; 4] = [:: 3; 5; 11; 1].
Proof. by rewrite /lorenz96_f /=; congr [:: _; _; _; _]; ring. Qed.
Example ex_vanderpol : obind (fun J => J [:: 3; 2]) (i_df (vanderpol 0 None 10)) = Some [:: [:: 0; 1]; [:: - 121; - 80]].
Proof. by rewrite /=; congr (Some [:: _; [:: _; _]]); ring. Qed.
(** A solution of the logistic equation, and one of the SEIR equations. *)
Example ex_seir : solves 4 (i_f (seir 0 None (3 / 10) (3 / 10) (1 / 10))) (fun _ => True) (fun i _ => if i == 0%N then 1000 else 0).
Proof.
move=> t _; eexists; split; [reflexivity|by []|].
by do ?[by []|case; [move=> _; rewrite /=; evar_last; [exact: is_derive_const|rewrite /zero /=; rewrite /Rdiv; ring]|]].
Qed.
Example ex_logistic t : 1 + 1 / 10 * (exp (3 * t) - 1) <> 0.
Proof. by apply: C161_logistic_domain; lra. Qed.
