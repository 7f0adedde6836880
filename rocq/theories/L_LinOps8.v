(** Linear operators: products of operators. *)
From mathcomp Require Import all_ssreflect all_algebra.
From Verif Require Import L_Kalman L_Chol M_DMx L_DMx M_LinOps L_LinOps L_LinOps2 L_LinOps3 L_LinOps4 L_LinOps5
  L_LinOps6 L_LinOps7.
Set Implicit Arguments.
Unset Strict Implicit.
Unset Printing Implicit Defensive.
Import Order.Theory GRing.Theory Num.Theory.
Local Open Scope ring_scope.

Section Ops.
Variable R : rcfType.
Local Notation dmx := (dmx R).
Local Notation op := (op R).
Variable trk : bool.
Local Notation ok := (@L_LinOps2.ok R trk).
Local Notation node_ok := (@L_LinOps2.node_ok R trk).
Local Notation res := (@L_LinOps5.res R trk).
Local Notation tres := (@L_LinOps6.tres R trk).
Implicit Types (o a b : op) (l : seq op).
Local Arguments expand_sum : simpl never.
Local Arguments expand_prd : simpl never.
Local Arguments finish_T : simpl never.
Variable lazy : bool.

(** The parts that products look into. *)
Fixpoint osize o : nat :=
  match o with
  | Kro _ a b => (osize a + osize b).+1
  | IdK _ _ a | Sca _ _ a | Neg _ a => (osize a).+1
  | _ => 1
  end.
Definition mm := @matmul R lazy.
Definition zi a b (mid : option op) : option op :=
  if any_linop a && is_zero b then if cols a == rows b then Some (zer R (rows a) (cols b)) else None
  else if is_zero a && any_linop b then
    if cols a == rows b then Some (zer R (rows a) (cols b)) else None
  else if any_linop a && is_idn b then if cols a == rows b then Some a else None
  else if is_idn a && any_linop b then if cols a == rows b then Some b else None
  else mid.
Definition mm2 a b : option op :=
  let fallback := prd_ [:: a; b] in
  match a with
  | Sca _ c a' => if any_linop b then omap (mul c) (mm a' b) else fallback
  | Neg _ a' => if any_linop b then omap (mul (-1)) (mm a' b) else fallback
  | ScC _ _ _ | ScV _ _ =>
      match b with
      | ScC _ _ _ | ScV _ _ => scaling2 *%R a b
      | Kro _ _ _ | IdK _ _ _ =>
          if cols a == rows b then
            if isotropic a is Some c then Some (mul c b) else fallback
          else None
      | Mat _ B => omap (@mat R) (bcast *%R (mk (rows a) 1 (fun i _ => (factors a)`_i)) B)
      | _ => fallback
      end
  | Kro _ A B =>
      match b with
      | Kro _ C D =>
          if cols a == rows b then
            if (cols A == rows C) && (cols B == rows D)
            then obind2 (mm A C) (mm B D) (fun p q => Some (kro p q)) else fallback
          else None
      | IdK _ k D =>
          if cols a == rows b then
            if (cols A == k) && (cols B == rows D)
            then obind2 (mm A (idn R k)) (mm B D) (fun p q => Some (kro p q)) else fallback
          else None
      | ScC _ _ _ | ScV _ _ =>
          if cols a == rows b then
            if isotropic b is Some c then Some (mul c a) else fallback
          else None
      | _ => fallback
      end
  | IdK _ k B =>
      match b with
      | IdK _ k' D =>
          if cols a == rows b then
            if (k == k') && (cols B == rows D) then omap (idk k) (mm B D) else fallback
          else None
      | Kro _ C D =>
          if cols a == rows b then
            if (k == rows C) && (cols B == rows D)
            then obind2 (if is_zero C then Some (zer R k (cols C))
                         else if any_linop C then Some C else prd_ [:: idn R k; C])
                        (mm B D) (fun p q => Some (kro p q))
            else fallback
          else None
      | ScC _ _ _ | ScV _ _ =>
          if cols a == rows b then
            if isotropic b is Some c then Some (mul c a) else fallback
          else None
      | _ => fallback
      end
  | Mat _ A =>
      match b with
      | Mat _ B => if lazy then fallback
                   else if cols a == rows b then Some (mat (dmul A B)) else None
      | ScC _ _ _ | ScV _ _ =>
          omap (@mat R) (bcast *%R A (mk 1 (cols b) (fun _ j => (factors b)`_j)))
      | Sel _ _ _ | Emb _ _ _ _ _ => omap (@mat R) (arr_op A b)
      | Inv _ _ | Tra _ _ => if lazy then fallback else omap (@mat R) (arr_op A b)
      | _ => fallback
      end
  | Sel _ n idx =>
      match b with
      | Mat _ B => omap (@mat R) (op_arr a B)
      | Emb _ _ _ put _ =>
          if (cols b == rows a) && (idx == put) then Some (idn R (rows a)) else fallback
      | _ => fallback
      end
  | Emb _ _ _ _ _ | Inv _ _ | Tra _ _ =>
      match b with
      | Mat _ B =>
          if lazy && (if a is Emb _ _ _ _ _ then false else true) then fallback
          else omap (@mat R) (op_arr a B)
      | _ => fallback
      end
  | _ => fallback
  end.
Definition mm1 a b : option op :=
  match b with
  | Sca _ c b' =>
      match a with
      | Neg _ a' => omap (mul (-1)) (mm a' b)
      | Lam _ _ | Blk _ _ => prd_ [:: a; b]
      | _ => omap (mul c) (mm a b')
      end
  | Neg _ b' => if any_linop a then omap (mul (-1)) (mm a b') else prd_ [:: a; b]
  | _ => mm2 a b
  end.
Lemma mmE a b : mm a b = zi a b (mm1 a b).
Proof. by case: a => *; case: b. Qed.

Lemma zi_ok k a b mid : ok k a -> ok k b -> cols a = rows b ->
  res k mid (dmul (dense a) (dense b)) -> res k (zi a b mid) (dmul (dense a) (dense b)).
Proof.
move=> oa ob ab Hm; rewrite /zi ab eqxx.
have /andP[ra ca] := shape_gt0 (ok_wf oa); have /andP[rb cb] := shape_gt0 (ok_wf ob).
have ab' : dcol (dense a) = drow (dense b) by rewrite -(ok_cols oa) -(ok_rows ob).
case: ifP => [/andP[_ zb]|_].
  apply: res_some; first exact: zer_ok.
  rewrite /= (ok_rows oa); case: b zb {ob rb cb Hm} ab ab' => //= f m n _ _ e.
  by rewrite dmul0r.
case: ifP => [/andP[za _]|_].
  apply: res_some; first exact: zer_ok.
  rewrite /= (ok_cols ob); case: a za {oa ra ca Hm} ab ab' => //= f m n _ _ e.
  by rewrite dmul0l.
case: ifP => [/andP[_ ib]|_].
  apply: (res_some oa); case: b ib {ob rb cb Hm} ab ab' => //= f n _ _ e.
  by rewrite dmul1r.
case: ifP => [/andP[ia _]|_] //.
apply: (res_some ob); case: a ia {oa ra ca Hm} ab ab' => //= f n _ _ e.
by rewrite dmul1l.
Qed.
Lemma res_mul k (c : R) r D : res k r D -> res k (omap (mul c) r) (dscale c D).
Proof. by move=> H; apply: (res_map H) => t ot dt; have [om dm] := mul_ok c ot; rewrite dm dt. Qed.
Lemma bdim1l n : bdim 1 n = Some n. Proof. by rewrite /bdim; case: eqP => // <-. Qed.
Lemma bdim1r n : bdim n 1 = Some n. Proof. by rewrite /bdim; case: eqP => // ->. Qed.
Lemma bcast_left (d : seq R) (B : dmx) n : n = size d -> size d = drow B ->
  bcast *%R (mk n 1 (fun i _ => d`_i)) B = Some (dmul (ddiag d) B).
Proof.
move=> -> e; rewrite /bcast /= -e bdim_same bdim1l; congr Some; rewrite dmul_diag //.
rewrite -e; apply: mk_ext => i j im jn; by rewrite (bidx_lt im) (bidx_lt jn) get_mk.
Qed.
Lemma dmul_diagr (d : seq R) (A : dmx) : size d = dcol A ->
  dmul A (ddiag d) = mk (drow A) (dcol A) (fun i j => get A i j * d`_j).
Proof.
move=> e; rewrite -[LHS]dtrK dtrM ?dtr_diag //= dmul_diag //.
by apply: dmx_ext => //= i j im jn; rewrite !get_mk // mulrC.
Qed.
Lemma bcast_right (d : seq R) (A : dmx) n : n = size d -> size d = dcol A ->
  bcast *%R A (mk 1 n (fun _ j => d`_j)) = Some (dmul A (ddiag d)).
Proof.
move=> -> e; rewrite /bcast /= e bdim_same bdim1r dmul_diagr //; congr Some.
by apply: mk_ext => i j im jn; rewrite (bidx_lt im) (bidx_lt jn) get_mk // -e.
Qed.
Lemma isotropic_dense a c : isotropic a = Some c -> dense a = dscale c (did R (rows a)).
Proof.
case: a => //= f; first by move=> n d [<-]; rewrite ScC_diag.
by move=> d; case: ifP => // H [<-]; rewrite (isotropic_diag H).
Qed.
Lemma op_arr_ok k a (x : dmx) : ok k a -> cols a = drow x -> (0 < dcol x)%N ->
  res k (omap (@mat R) (op_arr a x)) (dmul (dense a) x).
Proof.
move=> oa e x0; have [r0 c0] := ok_gt0 oa; rewrite /op_arr e eqxx /= (apply_dense (ok_wf oa)) //.
by apply: res_some => //; apply: mat_ok.
Qed.
Lemma arr_op_ok k a (x : dmx) : ok k a -> dcol x = rows a -> (0 < drow x)%N ->
  res k (omap (@mat R) (arr_op x a)) (dmul x (dense a)).
Proof.
move=> oa e x0; have [r0 c0] := ok_gt0 oa; rewrite /arr_op e eqxx.
have [t [-> ot dt ft]] := transpose_ok oa.
have e2 : dtr (apply t (dtr x)) = dmul x (dense a).
  rewrite (apply_dense (ok_wf ot)) ?dt; last by rewrite (ok_cols ot) dt /= e (ok_rows oa).
  by rewrite dtrM ?dtrK //= e (ok_rows oa).
rewrite /= e2; apply: res_some => //; exact: mat_ok.
Qed.
Lemma sel_emb n (idx : seq nat) : idx_ok n idx ->
  dmul (dtake idx (did R n)) (dtr (dtake idx (did R n))) = did R (size idx).
Proof.
case/and4P=> _ _ u lt; rewrite dtake_mul //; apply: dmx_ext => //= i j im jn.
have li : (nth 0 idx i < n)%N by apply: (all_nthP 0%N lt).
have lj : (nth 0 idx j < n)%N by apply: (all_nthP 0%N lt).
by rewrite get_mk // get_mk //= get_mk // get_mk // get_mk // eq_sym nth_uniq.
Qed.
Lemma res_kro k (r r' : option op) (D D' : dmx) : res true r D -> res true r' D' ->
  res k (obind2 r r' (fun p q => Some (kro p q))) (dkron D D').
Proof.
case=> t [-> ot dt] [t' [-> ot' dt']]; apply: res_some; first exact: kro_ok.
by rewrite /= dt dt'.
Qed.

Definition mstep n : Prop := forall k a b, (osize a + osize b <= n)%N ->
  ok k a -> ok k b -> cols a = rows b -> res k (mm a b) (dmul (dense a) (dense b)).
Lemma iso_l k a b c : ok k a -> ok k b -> cols a = rows b -> isotropic a = Some c ->
  res k (Some (mul c b)) (dmul (dense a) (dense b)).
Proof.
move=> oa ob ab ic; have [om dm] := mul_ok c ob; apply: (res_some om).
rewrite dm (isotropic_dense ic) dmulZl dmul1l //.
have -> : rows a = cols a by case: (a) ic.
by rewrite ab (ok_rows ob).
Qed.
Lemma iso_r k a b c : ok k a -> ok k b -> cols a = rows b -> isotropic b = Some c ->
  res k (Some (mul c a)) (dmul (dense a) (dense b)).
Proof.
move=> oa ob ab ic; have [om dm] := mul_ok c oa; apply: (res_some om).
by rewrite dm (isotropic_dense ic) dmulZr ?dmul1r //= -ab (ok_cols oa).
Qed.
Lemma mm2_ok n k a b : mstep n -> (osize a + osize b <= n.+1)%N ->
  ok k a -> ok k b -> cols a = rows b -> res k (mm2 a b) (dmul (dense a) (dense b)).
Proof.
move=> IH sz oa ob ab; have Hf := res_prd2 oa ob ab.
have abd : dcol (dense a) = drow (dense b) by rewrite -(ok_cols oa) -(ok_rows ob).
have [ra ca] := ok_gt0 oa; have [rb cb] := ok_gt0 ob.
have scal : is_scaling a -> is_scaling b -> res k (scaling2 *%R a b) (dmul (dense a) (dense b)).
  move=> sa sb; have e : size (factors a) = size (factors b).
    by move: ab; rewrite /rows /cols (scaling_size sa) (scaling_size sb).
  apply: scaling2_ok => //; first by rewrite (scaling_size sa) (scaling_size sb) e.
  rewrite !scaling_dense // dmul_diag //= /rows (scaling_size sa) e /=.
  apply: mk_ext => i j im jn; rewrite get_diag //; case: eqP => // _; by rewrite mulr0.
have scalm g B : is_scaling a -> b = Mat g B ->
    res k (omap (@mat R) (bcast *%R (mk (rows a) 1 (fun i _ => (factors a)`_i)) B))
      (dmul (dense a) (dense b)).
  move=> sa eb; subst b; rewrite (scaling_dense sa) in abd ra *.
  rewrite bcast_left //=; last by rewrite /rows (scaling_size sa).
  by apply: res_some => //; apply: mat_ok.
have mscal g A : is_scaling b -> a = Mat g A ->
    res k (omap (@mat R) (bcast *%R A (mk 1 (cols b) (fun _ j => (factors b)`_j))))
      (dmul (dense a) (dense b)).
  move=> sb ea; subst a; rewrite (scaling_dense sb) in abd cb *.
  have e : cols b = size (factors b) by rewrite /cols (scaling_size sb).
  rewrite (bcast_right e (esym abd)) /=.
  by apply: res_some => //; apply: mat_ok.
have isoa : res k (if cols a == rows b then
    if isotropic a is Some c then Some (mul c b) else prd_ [:: a; b] else None)
    (dmul (dense a) (dense b)).
  by rewrite ab eqxx; case e: (isotropic a) => [c|] //; exact: iso_l e.
have isob : res k (if cols a == rows b then
    if isotropic b is Some c then Some (mul c a) else prd_ [:: a; b] else None)
    (dmul (dense a) (dense b)).
  by rewrite ab eqxx; case e: (isotropic b) => [c|] //; exact: iso_r e.
have opm g B : b = Mat g B -> res k (omap (@mat R) (op_arr a B)) (dmul (dense a) (dense b)).
  by move=> eb; subst b; exact: op_arr_ok.
have mop g A : a = Mat g A -> res k (omap (@mat R) (arr_op A b)) (dmul (dense a) (dense b)).
  by move=> ea; subst a; exact: arr_op_ok.
case: a sz oa ab Hf abd ra ca scal scalm mscal isoa isob opm mop =>
  [f A|f A|f p|f p c|f d|f m p|f p i|f m t q v|f a1 a2|f p a1|f a1 a2 i|f p|f a1
  |f a1|f c a1|f a1|f l|f l|f l] sz oa ab Hf abd ra ca scal scalm mscal isoa isob opm mop.
(* Mat *)
- case: b sz ob ab Hf abd rb cb scal scalm mscal isoa isob opm mop =>
    [g B|g B|g p'|g p' c'|g d'|g p' m'|g p' i'|g m' t' q' v'|g b1 b2|g p' b1|g b1 b2 i'|g p'|g b1|g b1|g c' b1|g b1|g l'|g l'|g l']
    sz ob ab Hf abd rb cb scal scalm mscal isoa isob opm mop; rewrite /mm2; try exact: Hf.
  + case: (lazy); first exact: Hf.
    by rewrite ab eqxx; apply: res_some => //; exact: mat_ok.
  + exact: mscal.
  + exact: mscal.
  + exact: mop.
  + exact: mop.
  + by case: (lazy) (Hf) (mop) => // _ H; exact: H.
  + by case: (lazy) (Hf) (mop) => // _ H; exact: H.
- exact: Hf.
- exact: Hf.
(* ScC, ScV *)
- case: b sz ob ab Hf abd rb cb scal scalm mscal isoa isob opm mop =>
    [g B|g B|g p'|g p' c'|g d'|g p' m'|g p' i'|g m' t' q' v'|g b1 b2|g p' b1|g b1 b2 i'|g p'|g b1|g b1|g c' b1|g b1|g l'|g l'|g l']
    sz ob ab Hf abd rb cb scal scalm mscal isoa isob opm mop; rewrite /mm2; first [exact: Hf|exact: scalm|exact: scal|exact: isoa].
- case: b sz ob ab Hf abd rb cb scal scalm mscal isoa isob opm mop =>
    [g B|g B|g p'|g p' c'|g d'|g p' m'|g p' i'|g m' t' q' v'|g b1 b2|g p' b1|g b1 b2 i'|g p'|g b1|g b1|g c' b1|g b1|g l'|g l'|g l']
    sz ob ab Hf abd rb cb scal scalm mscal isoa isob opm mop; rewrite /mm2; first [exact: Hf|exact: scalm|exact: scal|exact: isoa].
- exact: Hf.
(* Sel, Emb *)
- case: b sz ob ab Hf abd rb cb scal scalm mscal isoa isob opm mop =>
    [g B|g B|g p'|g p' c'|g d'|g p' m'|g p' i'|g m' t' q' v'|g b1 b2|g p' b1|g b1 b2 i'|g p'|g b1|g b1|g c' b1|g b1|g l'|g l'|g l']
    sz ob ab Hf abd rb cb scal scalm mscal isoa isob opm mop; rewrite /mm2; try exact: Hf; first exact: opm.
  case: ifP => [/andP[_ /eqP e]|_]; last exact: Hf.
  subst q'; have w := ok_wf oa; apply: res_some; first by apply: idn_ok; case/and4P: w.
  have em : p = m' by move: ab.
  by rewrite /= -em sel_emb.
- case: b sz ob ab Hf abd rb cb scal scalm mscal isoa isob opm mop =>
    [g B|g B|g p'|g p' c'|g d'|g p' m'|g p' i'|g m' t' q' v'|g b1 b2|g p' b1|g b1 b2 i'|g p'|g b1|g b1|g c' b1|g b1|g l'|g l'|g l']
    sz ob ab Hf abd rb cb scal scalm mscal isoa isob opm mop; rewrite /mm2; try exact: Hf; rewrite andbF; exact: opm.
(* Kro *)
- case: b sz ob ab Hf abd rb cb scal scalm mscal isoa isob opm mop =>
    [g B|g B|g p'|g p' c'|g d'|g p' m'|g p' i'|g m' t' q' v'|g b1 b2|g p' b1|g b1 b2 i'|g p'|g b1|g b1|g c' b1|g b1|g l'|g l'|g l']
    sz ob ab Hf abd rb cb scal scalm mscal isoa isob opm mop; rewrite /mm2; try exact: Hf; try exact: isob.
  + have [oa1 oa2] := ok_kro oa; have [ob1 ob2] := ok_kro ob.
    rewrite ab eqxx; case: ifP => [/andP[/eqP e1 /eqP e2]|_]; last exact: Hf.
    rewrite [dense (Kro _ _ _)]/= [dense (Kro g _ _)]/= dkronM; last first.
    * by rewrite -(ok_cols oa2) -(ok_rows ob2).
    * by rewrite -(ok_cols oa1) -(ok_rows ob1).
    apply: res_kro; apply: IH => //; move: sz; rewrite /= !addSn addnS ltnS => sz.
    * by apply: leq_trans sz; rewrite ltnW // ltnS addnACA leq_addr.
    * by apply: leq_trans sz; rewrite ltnW // ltnS addnACA leq_addl.
  + have [oa1 oa2] := ok_kro oa; have [p0 ob2] := ok_idk ob.
    rewrite ab eqxx; case: ifP => [/andP[/eqP e1 /eqP e2]|_]; last exact: Hf.
    rewrite [dense (Kro _ _ _)]/= [dense (IdK g _ _)]/= dkronM; last first.
    * by rewrite -(ok_cols oa2) -(ok_rows ob2).
    * by rewrite -(ok_cols oa1) e1.
    apply: res_kro; apply: IH => //; move: sz; rewrite /= ?addSn ?addnS ?ltnS ?addn0 => sz.
    * by apply: leq_ltn_trans sz; rewrite -addnA leq_addr.
    * exact: idn_ok.
    * by apply: leq_trans (ltnW sz); rewrite -addnA leq_addl.
(* IdK *)
- case: b sz ob ab Hf abd rb cb scal scalm mscal isoa isob opm mop =>
    [g B|g B|g p'|g p' c'|g d'|g p' m'|g p' i'|g m' t' q' v'|g b1 b2|g p' b1|g b1 b2 i'|g p'|g b1|g b1|g c' b1|g b1|g l'|g l'|g l']
    sz ob ab Hf abd rb cb scal scalm mscal isoa isob opm mop; rewrite /mm2; try exact: Hf; try exact: isob.
  + have [p0 oa2] := ok_idk oa; have [ob1 ob2] := ok_kro ob.
    rewrite ab eqxx; case: ifP => [/andP[/eqP e1 /eqP e2]|_]; last exact: Hf.
    rewrite [dense (IdK _ _ _)]/= [dense (Kro g _ _)]/= dkronM; last first.
    * by rewrite -(ok_cols oa2) -(ok_rows ob2).
    * by rewrite /= e1 (ok_rows ob1).
    apply: res_kro; last first.
      by apply: IH => //; move: sz; rewrite /= !addSn addnS ltnS => sz; apply: leq_trans sz;
         rewrite ltnW // ltnS addnCA leq_addl.
    have e1' : p = drow (dense b1) by rewrite e1 (ok_rows ob1).
    case: ifP => [zb|_].
      have /andP[_ c0] := shape_gt0 (ok_wf ob1); apply: res_some; first exact: zer_ok.
      by rewrite dmul1l //; case: b1 zb e1' {Hf sz ob ab abd scal scalm mscal isoa isob opm mop rb cb ob1 c0 e1} => //= ? ? ? _ ->.
    case: ifP => _; first by apply: (res_some ob1); rewrite dmul1l.
    exact: (res_prd2 (@idn_ok R trk true p p0) ob1 e1).
  + have [p0 oa2] := ok_idk oa; have [p0' ob2] := ok_idk ob.
    rewrite ab eqxx; case: ifP => [/andP[/eqP e1 /eqP e2]|_]; last exact: Hf.
    subst p'; rewrite [dense (IdK _ _ _)]/= [dense (IdK g _ _)]/= dkronM //; last first.
      by rewrite -(ok_cols oa2) -(ok_rows ob2).
    rewrite dmul1l //; apply: (@res_map' _ trk true k _ (dmul (dense a1) (dense b1))).
      by apply: IH => //; move: sz; rewrite /= !addSn addnS ltnS => sz; exact: ltnW.
    by move=> t ot dt; split; [exact: idk_ok|rewrite /= dt].
- exact: Hf.
- exact: Hf.
(* Tra, Inv *)
- case: b sz ob ab Hf abd rb cb scal scalm mscal isoa isob opm mop =>
    [g B|g B|g p'|g p' c'|g d'|g p' m'|g p' i'|g m' t' q' v'|g b1 b2|g p' b1|g b1 b2 i'|g p'|g b1|g b1|g c' b1|g b1|g l'|g l'|g l']
    sz ob ab Hf abd rb cb scal scalm mscal isoa isob opm mop; rewrite /mm2; try exact: Hf; case: (lazy) => /=; [exact: Hf|exact: opm].
- case: b sz ob ab Hf abd rb cb scal scalm mscal isoa isob opm mop =>
    [g B|g B|g p'|g p' c'|g d'|g p' m'|g p' i'|g m' t' q' v'|g b1 b2|g p' b1|g b1 b2 i'|g p'|g b1|g b1|g c' b1|g b1|g l'|g l'|g l']
    sz ob ab Hf abd rb cb scal scalm mscal isoa isob opm mop; rewrite /mm2; try exact: Hf; case: (lazy) => /=; [exact: Hf|exact: opm].
(* Sca, Neg *)
- rewrite /mm2; case: ifP => _; last exact: Hf.
  rewrite [dense _]/= dmulZl; apply: res_mul; apply: IH => //; exact: ok_sca oa.
- rewrite /mm2; case: ifP => _; last exact: Hf.
  rewrite [dense _]/= dmulZl; apply: res_mul; apply: IH => //; exact: ok_neg oa.
- exact: Hf.
- exact: Hf.
- exact: Hf.
Qed.
Lemma mm1_ok n k a b : mstep n -> (osize a + osize b <= n.+1)%N ->
  ok k a -> ok k b -> cols a = rows b -> res k (mm1 a b) (dmul (dense a) (dense b)).
Proof.
move=> IH sz oa ob ab; have Hf := res_prd2 oa ob ab; have H2 := mm2_ok IH sz oa ob ab.
have abd : dcol (dense a) = drow (dense b) by rewrite -(ok_cols oa) -(ok_rows ob).
case: b sz ob ab abd Hf H2 => [g B|g B|g p'|g p' c'|g d'|g p' m'|g p' i'|g m' t' q' v'|g b1 b2|g p' b1
  |g b1 b2 i'|g p'|g b1|g b1|g c' b1|g b1|g l'|g l'|g l'] sz ob ab abd Hf H2; try exact: H2.
- have D : dmul (dense a) (dense (Sca g c' b1)) = dscale c' (dmul (dense a) (dense b1)).
    by rewrite [dense (Sca _ _ _)]/= dmulZr.
  have Hb : res k (omap (mul c') (mm a b1)) (dmul (dense a) (dense (Sca g c' b1))).
    rewrite D; apply: res_mul; apply: IH => //; last exact: ok_sca ob.
    by move: sz; rewrite /= addnS ltnS.
  rewrite /mm1; case: a sz oa ab Hf Hb {H2 D abd} => [f A|f A|f p|f p c|f d|f m p|f p i|f m t q v|f a1 a2|f p a1
    |f a1 a2 i|f p|f a1|f a1|f c a1|f a1|f l|f l|f l] sz oa ab Hf Hb; try exact: Hb; try exact: Hf.
  rewrite [dense (Neg _ _)]/= dmulZl; apply: res_mul; apply: IH => //; exact: ok_neg oa.
- rewrite /mm1; case: ifP => _; last exact: Hf.
  rewrite [dense (Neg _ _)]/= dmulZr //; apply: res_mul; apply: IH => //; last exact: ok_neg ob.
  by move: sz; rewrite /= addnS ltnS.
Qed.
Lemma osize_gt0 o : (0 < osize o)%N. Proof. by case: o. Qed.
Lemma mstep_all n : mstep n.
Proof.
elim: n => [|n IH] k a b sz oa ob ab.
  by move: sz; rewrite leqn0 addn_eq0 (gtn_eqF (osize_gt0 a)).
by rewrite mmE; apply: zi_ok => //; exact: (mm1_ok IH).
Qed.
Lemma matmul_ok k a b : ok k a -> ok k b -> cols a = rows b ->
  res k (matmul lazy a b) (dmul (dense a) (dense b)).
Proof. by move=> oa ob ab; exact: (mstep_all (leqnn _) oa ob ab). Qed.
End Ops.
