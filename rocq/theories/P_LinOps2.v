(** C79-C86: limits of the linear operator algebra, with witnesses; cases of the
    theorems of P_LinOps.v. *)
From mathcomp Require Import all_ssreflect all_algebra.
From Verif Require Import L_Kalman L_Chol M_DMx L_DMx M_LinOps M_LinOps2 L_LinOps L_LinOps2 L_LinOps3
  L_LinOps4 L_LinOps5 L_LinOps6 L_LinOps7 L_LinOps8 L_LinOps9 L_LinOps10 L_LinOps11 L_LinOps12
  L_LinOps13 L_LinOps14 L_LinOps15 L_LinExp P_LinOps.
Set Implicit Arguments.
Unset Strict Implicit.
Unset Printing Implicit Defensive.
Import Order.Theory GRing.Theory Num.Theory.
Local Open Scope ring_scope.

Section Limits.
Variable R : rcfType.
Variable same : op R -> op R -> bool.
Variable lazy : bool.
(** The array with the rows [s]. *)
Definition arr (m n : nat) (s : seq (seq R)) : dmx R := mk m n (fun i j => nth 0 (nth [::] s i) j).
Lemma get_arr m n s i j : (i < m)%N -> (j < n)%N -> get (arr m n s) i j = nth 0 (nth [::] s i) j.
Proof. exact: get_mk. Qed.
Definition fl (s l u p : option bool) := Flags s l u p.

(** ** C79: shapes that do not match are broadcast, and the simplification of
    [Selection @ Embedding] does not check them. *)
Theorem C79_ill_shaped_refuted :
  [/\ (* Matrix (1 x 2) + Matrix (2 x 2) *)
      exists A B : dmx R, dshape A <> dshape B /\ add same (mat A) (mat B) <> None,
      (* Scaling (2 x 2) @ Matrix (1 x 2) *)
      exists (d : seq R) (B : dmx R), cols (scV d) <> rows (mat B) /\ matmul lazy (scV d) (mat B) <> None
    & (* Selection (1 x 2) @ Embedding (3 x 1) *)
      exists (S E : op R), [/\ S = sel R 2 [:: 0%N], E = emb 3 [:: 0%N] [:: 0%N] 0,
        cols S <> rows E & matmul lazy S E = Some (idn R 1)]].
Proof.
split.
- by exists (dzero R 1 2), (dzero R 2 2).
- by exists [:: 1; 1], (dzero R 1 2).
- by exists (sel R 2 [:: 0%N]), (emb 3 [:: 0%N] [:: 0%N] 0).
Qed.

(** ** C80: [LambdaLinearOperator]s as Kronecker factors. *)
Theorem C80_lambda_factor_refuted :
  (forall a b, same a b = false) ->
  (* Identity == LambdaLinearOperator holds for equal shapes *)
  (exists (L B D : op R) r, [/\ add same (kro (idn R 2) B) (kro L D) = Some r,
     shape (kro (idn R 2) B) = shape (kro L D) &
     dense r <> dadd (dense (kro (idn R 2) B)) (dense (kro L D))]) /\
  (* Matrix == LambdaLinearOperator fails for equal shapes *)
  (exists L B : op R, [/\ dense L = dense B, shape (kro B B) = shape (kro L B) &
     add same (kro B B) (kro L B) = None]).
Proof.
move=> sf; split.
  exists (lam (dzero R 2 2)), (mat (did R 1)), (mat (did R 1)).
  rewrite /add /= /is_eq sf /=; eexists; split=> //.
  move/(congr1 (fun M => get M 0 0)).
  have -> : dmul (dzero R 2 2) (did R 2) = dzero R 2 2 by rewrite dmul1r.
  rewrite [dense _]/= get_kronE //= get_id // get_mk //= !get_id //=.
  rewrite [RHS]get_mk //= !get_kronE //= !get_id //= get_mk //=.
  rewrite !mul0r !mul1r !addr0 => /eqP.
  by rewrite -subr_eq0 addrK oner_eq0.
exists (lam (did R 1)), (mat (did R 1)); split=> //; first by rewrite /= dmul1l.
by rewrite /add /= /is_eq sf.
Qed.

(** ** C81: flags that are False can be wrong, and so can flags of block diagonal operators
    with rectangular blocks. *)
Theorem C81_false_flags_refuted :
  [/\ (* zero times an operator that is not lower triangular *)
      exists o : op R, [/\ f_low (flags_of o) = Some false, ~~ dlow (dense o),
        f_low (flags_of (mul 0 o)) = Some false & dlow (dense (mul 0 o))],
      (* blocks [1; 0] and [1, 1]: upper triangular blocks, the whole is not *)
      exists l : seq (op R), [/\ all (fun o => dupp (dense o)) l,
        f_upp (flags_of (blk l)) = Some true & ~~ dupp (dense (blk l))]
    & (* blocks [1, 0] and [0; 1]: no block is symmetric, the whole is *)
      exists l : seq (op R), f_sym (flags_of (blk l)) = Some false /\
        dtr (dense (blk l)) = dense (blk l)].
Proof.
split.
- exists (Lam (fl (Some false) (Some false) None None) (arr 2 2 [:: [:: 0; 1]; [:: 0; 0]])); split=> //.
    apply/dlowP => /= /(_ 0%N 1%N isT isT isT); rewrite dmul1r // get_arr //=; exact/eqP/oner_neq0.
  apply/dlowP=> i j im jn ij; rewrite /= get_mk // mul0r //.
- exists [:: Lam (fl (Some false) None (Some true) None) (arr 2 1 [:: [:: 1]; [:: 0]]);
             Lam (fl (Some false) None (Some true) None) (arr 1 2 [:: [:: 1; 1]])]; split=> //.
    rewrite /= !dmul1r // andbT; apply/andP; split; apply/duppP=> -[|[|i]] [|[|j]] //=; rewrite get_arr //.
  apply/duppP => /= /(_ 2%N 1%N isT isT isT); rewrite !dmul1r // get_block2 //= get_block2 //= get_arr //=.
  exact/eqP/oner_neq0.
- exists [:: lam (arr 1 2 [:: [:: 1; 0]]); lam (arr 2 1 [:: [:: 0]; [:: 1]])]; split=> //.
  rewrite /= !dmul1r //; apply: dmx_ext => // i j /= im jn; rewrite [LHS]get_mk //.
  by move: i j im jn => [|[|[|i]]] [|[|[|j]]] //= _ _; rewrite !get_block2 //=  ?get_block2 //= ?get_arr //= ?get_mk //.
Qed.

(** ** C82: [T] raises after consistent assignments. *)
Theorem C82_transpose_raises_refuted :
  (* a sum of a diagonal matrix flagged symmetric and lower triangular and an upper
     triangular one *)
  (exists a u s : op R, [/\ dtr (dense a) = dense a, dlow (dense a), dupp (dense u),
     add same a u = Some s & transpose s = None]) /\
  (* [B = A.T; A.is_symmetric = True; B.T] *)
  (exists a b a' : op R, [/\ transpose a = Some b, dtr (dense a) = dense a,
     b = Tra (flags_of b) a,
     omap (with_flags a) (assign true (flags_of a) Symmetric (Some true)) = Some a' &
     transpose (Tra (flags_of b) a') = None]).
Proof.
split.
  exists (Lam (fl (Some true) (Some true) None None) (did R 2)),
         (Lam (fl None None (Some true) None) (did R 2)).
  eexists; split; [| | |reflexivity|reflexivity].
  - by rewrite [dense _]/= dmul1r // dtr1.
  - by rewrite [dense _]/= dmul1r // dlow_id.
  - by rewrite [dense _]/= dmul1r // dupp_id.
exists (lam (did R 2)); eexists; eexists; split; [reflexivity| |reflexivity|reflexivity|reflexivity].
by rewrite [dense _]/= dmul1r // dtr1.
Qed.

(** ** C83: the Cholesky factorisation of a positive definite operator exists and the
    library finds it if all factors and blocks are positive definite too. *)
Theorem C83_cholesky_exists_partial trk k (o : op R) lower : ok trk k o -> ready o ->
  exists L, cholesky lower o = Some L /\
    let F := if lower then dense L else dtr (dense L) in dmul F (dtr F) = dense o.
Proof.
move=> oo r; case e: (cholesky lower o) (@cholesky_ready _ _ lower _ _ oo r) => [L|] // _.
by exists L; split=> //; have [[_ _ _ E] _] := cholesky_ok oo e.
Qed.
(** It fails for the product of two negative definite factors and for transposes. *)
Theorem C83_cholesky_exists_refuted :
  (exists o : op R, [/\ f_sym (flags_of o) = Some true, f_pd (flags_of o) = None,
     dpd (dense o) & cholesky true o = None]) /\
  (exists a b : op R, [/\ transpose a = Some b, dpd (dense b) &
     forall g, assign true (flags_of b) Symmetric (Some true) = Some g ->
       cholesky true (with_flags b g) = None]).
Proof.
split.
  pose m := Mat (fl (Some true) None None None) (dscale (-1) (did R 1)); exists (kro m m); split=> //.
    have -> : dense (kro m m) = did R 1.
      apply: dmx_ext => //= -[|i] [|j] //= _ _; rewrite get_kronE //= !get_mk //=.
      by rewrite mulr1 mulrNN mulr1.
    exact: dpd_id.
  rewrite /= /dense_chol; case: ifP => // /andP[_ /eqP]; move: (chol_of _) => C.
  move/matrixP/(_ ord0 ord0); rewrite !mxE big_ord_recl big_ord0 !mxE addr0 !get_mk //= mulr1 => e.
  by have := sqr_ge0 (C ord0 ord0); rewrite expr2 e oppr_ge0 lt_geF ?ltr01.
exists (lam (did R 2)); eexists; split; [reflexivity| |by move=> g [<-]].
by rewrite [dense _]/= dmul1r // dtr1 dpd_id.
Qed.

(** ** C84: determinant and inverse of a product of rectangular operators. *)
Theorem C84_rectangular_product_refuted :
  exists (A B : op R) p, [/\ matmul lazy A B = Some p, dense p = did R 1,
    det p = None & inv p = None].
Proof.
pose A := lam (arr 1 2 [:: [:: 1; 0]]); pose B := lam (arr 2 1 [:: [:: 1]; [:: 0]]).
exists A, B; eexists; split; [reflexivity| |reflexivity|reflexivity].
apply: dmx_ext => //= -[|i] [|j] //= _ _.
by rewrite /reduce /= !dmul1r // get_mk //= !big_ord_recl big_ord0 !get_mk //= mul1r mul0r !addr0.
Qed.

(** ** C85: embeddings with explicit [take_indices] or a fill value, selections with a
    repeated index. *)
Theorem C85_embedding_options_refuted :
  [/\ (* take_indices: the dense form forgets them *)
      exists x, apply (emb 2 [:: 1%N; 0%N] [:: 0%N; 1%N] (0 : R)) x
             <> dmul (dense (emb 2 [:: 1%N; 0%N] [:: 0%N; 1%N] (0 : R))) x,
      (* fill_value: the operator is not linear *)
      apply (emb 2 [:: 0%N] [:: 0%N] (1 : R)) (dzero R 1 1) <> dzero R 2 1
    & (* a repeated index: the transpose is not the transpose *)
      exists t x, transpose (sel R 2 [:: 0%N; 0%N]) = Some t /\
        apply t x <> dmul (dtr (dense (sel R 2 [:: 0%N; 0%N]))) x].
Proof.
split.
- exists (arr 2 1 [:: [:: 1]; [:: 0]]); move/(congr1 (fun M => get M 0 0)).
  rewrite /= get_mk //= get_mk //= get_mk //= !big_ord_recl big_ord0 /=.
  rewrite ![get (dtr _) _ _]get_mk //= ![get (dtake _ _) _ _]get_mk //= !get_mk //= !addr0 mul1r mul0r addr0.
  by move/eqP; rewrite eq_sym oner_eq0.
- move/(congr1 (fun M => get M 1 0)); rewrite /= !get_mk //=; exact/eqP/oner_neq0.
- eexists; exists (arr 2 1 [:: [:: 1]; [:: 1]]); split; first reflexivity.
  move/(congr1 (fun M => get M 0 0)); rewrite /= get_mk //= get_mk //= get_mk //= !big_ord_recl big_ord0 /=.
  rewrite ![get (dtr _) _ _]get_mk //= ![get (dtake _ _) _ _]get_mk //= !get_mk //= !mul1r addr0.
  by move/eqP; rewrite eq_sym -subr_eq0 addrK oner_eq0.
Qed.
End Limits.
(** ** Cases that meet the hypotheses *)
Section Cases.
Variable R : rcfType.
Let none := fun _ _ : op R => false.
Let M : dmx R := arr 2 2 [:: [:: 1; 0]; [:: 3%:R; 2%:R]].
Let A2 : lexp R := EMat (fl None None None None) M.
Let L2 : lexp R := ELam (fl None None None None) (arr 2 2 [:: [:: 1; 2%:R]; [:: 0; 1]]).
(** [Selection([3, 1], (2, 4)) @ Kronecker(A, Identity(2)).T
     @ (BlockDiagonal(L, A) - 2 * Identity(4))] *)
Let e : lexp R := EPrd (EPrd (ESel R 4 [:: 3%N; 1%N]) (ETra (EKro A2 (EIdn R 2))))
  (ESub (EBlk (LCons L2 (LOne A2))) (ESca 2%:R (EIdn R 4))).
Example C20_case : [/\ lamok false e, exists D, denote true e = Some D,
  exists D, denote false e = Some D & exists o, L_LinExp.run none true e = Some o].
Proof. by split=> //; eexists; reflexivity. Qed.
(** A square expression with a True flag: [Kronecker(I, D) + 3 * Identity(4)]. *)
Let q : lexp R := EAdd (EIdK 2 (EScV [:: 1; 2%:R])) (ESca 3%:R (EIdn R 4)).
Example C21_case : exists D o, [/\ lamok false q, denote true q = Some D,
  L_LinExp.run none false q = Some o, f_sym (flags_of o) = Some true & drow D = dcol D].
Proof. by eexists; eexists; split=> //; reflexivity. Qed.
Example C78_case : exists D o, [/\ lamok false q, denote false q = Some D,
  L_LinExp.run none false q = Some o & drow D = dcol D].
Proof. by eexists; eexists; split=> //; reflexivity. Qed.
Example C79_case : exists A B a b, [/\ lamok false (EIdn R 3), denote false (EIdn R 3) = Some A,
    L_LinExp.run none false (EIdn R 3) = Some a, wide a & dshape A <> dshape B] /\
  [/\ lamok false A2, denote false A2 = Some B, L_LinExp.run none false A2 = Some b & wide b].
Proof. by exists (did R 3), M, (idn R 3), (Mat (fl None None None None) M). Qed.
Example C22_case :
  try_all true (base_flags 2 2) [:: (PositiveDefinite, Some true); (Symmetric, Some true);
    (PositiveDefinite, Some true); (Symmetric, Some false); (Symmetric, None);
    (LowerTriangular, Some false)] = Flags (Some true) (Some false) None (Some true).
Proof. by []. Qed.
Example C23_case : exists A B, [/\ lamok true A2, denote false A2 = Some A & L_LinExp.run none true A2 <> None] /\
  [/\ lamok true (EIdn R 2), denote false (EIdn R 2) = Some B & L_LinExp.run none true (EIdn R 2) <> None].
Proof. by exists M, (did R 2). Qed.
Example C24_case : exists s, [/\ lamoks false (LCons L2 (LOne A2)), denotes false (LCons L2 (LOne A2)) = Some s,
  runs none true (LCons L2 (LOne A2)) <> None & all (fun d => drow d == dcol d) s].
Proof. by eexists; split=> //; reflexivity. Qed.
Example C25_case : idx_ok 4 [:: 3%N; 1%N]. Proof. by []. Qed.
(** A Kronecker product of positive definite factors. *)
Example C83_case : let m := Mat (fl (Some true) None None None) (did R 2) in
  ok false false (kro m (idn R 3)) && ready (kro m (idn R 3)).
Proof.
have om : ok false true (Mat (fl (Some true) None None None) (did R 2)).
  have := @user_ok R false true false (fl (Some true) None None None) (did R 2) isT isT; apply=> //.
  by rewrite /admissible /= dtr1 andbT; apply/deqP.
apply/andP; split; first by apply: kro_ok om _; exact: idn_ok.
by rewrite /= /askable /= dkron1 !dpd_id.
Qed.
End Cases.
Print Assumptions C20_operator_arithmetic.
Print Assumptions C79_ill_shaped_partial.
Print Assumptions C21_true_flags.
Print Assumptions C78_derived_quantities.
Print Assumptions C22_write_once.
Print Assumptions C22_reachable_flags.
Print Assumptions C23_kronecker.
Print Assumptions C24_block_diagonal.
Print Assumptions C25_selection_embedding.
Print Assumptions C79_ill_shaped_refuted.
Print Assumptions C80_lambda_factor_refuted.
Print Assumptions C81_false_flags_refuted.
Print Assumptions C82_transpose_raises_refuted.
Print Assumptions C83_cholesky_exists_partial.
Print Assumptions C83_cholesky_exists_refuted.
Print Assumptions C84_rectangular_product_refuted.
Print Assumptions C85_embedding_options_refuted.
