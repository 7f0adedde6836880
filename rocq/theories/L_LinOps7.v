(** Linear operators: addition and subtraction. *)
From mathcomp Require Import all_ssreflect all_algebra.
From Verif Require Import L_Kalman L_Chol M_DMx L_DMx M_LinOps L_LinOps L_LinOps2 L_LinOps3 L_LinOps4 L_LinOps5
  L_LinOps6.
Set Implicit Arguments.
Unset Strict Implicit.
Unset Printing Implicit Defensive.
Import Order.Theory GRing.Theory Num.Theory.
Local Open Scope ring_scope.

Section Ops.
Variable R : rcfType.
Local Notation dmx := (dmx R).
Local Notation op := (op R).
Variable trk : bool.
Local Notation ok := (@L_LinOps2.ok R trk).
Local Notation node_ok := (@L_LinOps2.node_ok R trk).
Local Notation res := (@L_LinOps5.res R trk).
Local Notation tres := (@L_LinOps6.tres R trk).
Implicit Types (o a b : op) (l : seq op).
Local Arguments expand_sum : simpl never.
Local Arguments expand_prd : simpl never.
Local Arguments finish_T : simpl never.

Definition is_scaling o := match o with ScC _ _ _ | ScV _ _ => true | _ => false end.
Lemma scaling_dense o : is_scaling o -> dense o = ddiag (factors o).
Proof. by case: o => //= f n c _; rewrite ScC_diag -ddiag_nseq. Qed.
Lemma scaling_size o : is_scaling o -> shape o = (size (factors o), size (factors o)).
Proof. by case: o => //= f n c _; rewrite size_nseq. Qed.
Lemma scaling_gt0 k o : is_scaling o -> wf k o -> (0 < size (factors o))%N.
Proof. by case: o => //= f n c _; rewrite size_nseq. Qed.

Lemma res_map k r D (f : op -> op) D' : res k r D ->
  (forall t, ok k t -> dense t = D -> ok k (f t) /\ dense (f t) = D') -> res k (omap f r) D'.
Proof. by case=> t [-> ot dt] H; have [] := H t ot dt; exists (f t). Qed.
Lemma res_map' k k' r D (f : op -> op) D' : res k r D ->
  (forall t, ok k t -> dense t = D -> ok k' (f t) /\ dense (f t) = D') -> res k' (omap f r) D'.
Proof. by case=> t [-> ot dt] H; have [] := H t ot dt; exists (f t). Qed.

Lemma get_diag (d : seq R) i j : (i < size d)%N -> (j < size d)%N ->
  get (ddiag d) i j = if i == j then d`_i else 0.
Proof. by move=> im jn; rewrite get_mk. Qed.

(** ** Broadcasting arrays of the same shape *)
Lemma bdim_same m : bdim m m = Some m. Proof. by rewrite /bdim eqxx. Qed.
Lemma bidx_lt m i : (i < m)%N -> bidx m i = i.
Proof. by rewrite /bidx; case: eqP => // -> ; case: i. Qed.
Lemma bcast_same (h : R -> R -> R) (A B : dmx) : dshape A = dshape B ->
  bcast h A B = Some (mk (drow A) (dcol A) (fun i j => h (get A i j) (get B i j))).
Proof.
case=> e1 e2; rewrite /bcast -e1 -e2 !bdim_same; congr Some; apply: mk_ext => i j im jn.
by rewrite !bidx_lt.
Qed.
Definition dsub (A B : dmx) : dmx := dadd A (dopp B).
Lemma scaling2_ok k (h : R -> R -> R) a b D : ok k a -> ok k b -> is_scaling a -> is_scaling b ->
  shape a = shape b ->
  D = mk (rows a) (rows a) (fun i j => if i == j then h (factors a)`_i (factors b)`_i else 0) ->
  res k (scaling2 h a b) D.
Proof.
move=> oa ob sa sb sab ->; rewrite /scaling2 sab eqxx.
have e : size (factors a) = size (factors b).
  by have := scaling_size sa; rewrite sab (scaling_size sb) => -[].
have z : size [seq h p.1 p.2 | p <- zip (factors a) (factors b)] = size (factors a).
  by rewrite size_map size_zip e minnn.
apply: res_some; first by apply: scV_ok; rewrite z (scaling_gt0 sa (ok_wf oa)).
rewrite /rows (scaling_size sa) /= /ddiag z; apply: mk_ext => i j im jn; case: eqP => // _.
by rewrite (nth_map (0, 0)) ?size_zip -?e ?minnn // nth_zip.
Qed.

Variable same : op -> op -> bool.
Hypothesis same_ok : forall a b, same a b -> a = b.

Lemma is_eq_ok a b : ok true a -> ok true b ->
  exists e, is_eq same a b = Some e /\ (e -> dense a = dense b).
Proof.
move=> oa ob; rewrite /is_eq; case: ifP => [/same_ok ->|_]; first by exists true.
have scal : is_scaling a -> is_scaling b ->
    exists e, Some (factors a == factors b) = Some e /\ (e -> dense a = dense b).
  by move=> sa sb; eexists; split; first reflexivity; move=> /eqP e; rewrite !scaling_dense // e.
case: a oa scal => [f A|f A|f n|f n c|f d|f m n|f n i|f m t q v|f a1 a2|f n a1|f a1 a2 i|f n|f a1
  |f a1|f c a1|f a1|f l|f l|f l] oa scal;
case: b ob scal => [g B|g B|g p|g p c'|g d'|g p p'|g p i'|g p t' q' v'|g b1 b2|g p b1|g b1 b2 i'|g p|g b1
  |g b1|g c' b1|g b1|g l'|g l'|g l'] ob scal;
  try (by exists false); try (exact: scal); try (by have /= := ok_wf oa); try (by have /= := ok_wf ob).
- by exists (deq A B); split=> // /deqP.
- by exists (n == p); split=> // /eqP ->.
Qed.

(** ** Addition *)
Definition zeros a b (za zb mid : option op) : option op :=
  if any_linop a && is_zero b then if shape a == shape b then za else None
  else if is_zero a && any_linop b then if shape a == shape b then zb else None
  else mid.
Lemma zeros_ok k a b za zb mid D : shape a = shape b ->
  (is_zero b -> res k za D) -> (is_zero a -> res k zb D) -> res k mid D -> res k (zeros a b za zb mid) D.
Proof.
move=> sab Ha Hb Hm; rewrite /zeros sab eqxx.
by case: ifP => [/andP[_ /Ha]//|_]; case: ifP => [/andP[/Hb]|].
Qed.
Definition kro2 (f : op -> op -> option op) A B A' B' (mid : option op) : option op :=
  match is_eq same A A' with
  | None => None
  | Some true => omap (kro A) (f B B')
  | Some false =>
      match is_eq same B B' with
      | None => None
      | Some true => omap (fun s => kro s B') (f A A')
      | Some false => mid
      end
  end.
Definition core (f : op -> op -> option op) (h : R -> R -> R) (fb : option op) a b : option op :=
  if is_scaling a && is_scaling b then scaling2 h a b
  else match a, b with
  | Mat _ A, Mat _ B => omap (@mat R) (bcast h A B)
  | Kro _ A B, Kro _ A' B' => kro2 f A B A' B' fb
  | IdK _ p B, IdK _ p' B' => if p == p' then omap (idk p) (f B B') else fb
  | _, _ => fb
  end.
Lemma addE a b : add same a b =
  zeros a b (Some a) (Some b) (core (add same) +%R (sum_ [:: a; b]) a b).
Proof. by case: a => *; case: b. Qed.
Lemma subE a b : sub same a b =
  zeros a b (Some a) (Some (neg b)) (core (sub same) (fun x y => x - y) (sum_ [:: a; neg b]) a b).
Proof. by case: a => *; case: b. Qed.
Lemma dkron_shapes (A B A' B' : dmx) : (0 < drow A)%N -> (0 < dcol A)%N -> A = A' ->
  dshape (dkron A B) = dshape (dkron A' B') -> dshape B = dshape B'.
Proof.
move=> r0 c0 <- [] /eqP; rewrite eqn_mul2l (gtn_eqF r0) => /eqP e /eqP.
by rewrite eqn_mul2l (gtn_eqF c0) => /eqP e'; rewrite /dshape e e'.
Qed.
Lemma dkron_shapes' (A B A' B' : dmx) : (0 < drow B)%N -> (0 < dcol B)%N -> B = B' ->
  dshape (dkron A B) = dshape (dkron A' B') -> dshape A = dshape A'.
Proof.
move=> r0 c0 <- [] /eqP; rewrite eqn_mul2r (gtn_eqF r0) => /eqP e /eqP.
by rewrite eqn_mul2r (gtn_eqF c0) => /eqP e'; rewrite /dshape e e'.
Qed.
Lemma ok_gt0 k o : ok k o -> (0 < drow (dense o))%N /\ (0 < dcol (dense o))%N.
Proof.
by move=> oo; have /andP[r c] := shape_gt0 (ok_wf oo); rewrite -(ok_rows oo) -(ok_cols oo).
Qed.
Definition dlin (c : R) (A B : dmx) : dmx := dadd A (dscale c B).
Definition step (f : op -> op -> option op) (c : R) a : Prop := forall k b,
  ok k a -> ok k b -> shape a = shape b -> res k (f a b) (dlin c (dense a) (dense b)).
Lemma core_ok f (c : R) (h : R -> R -> R) fb k a b : (forall x y, h x y = x + c * y) ->
  ok k a -> ok k b -> shape a = shape b ->
  (forall g A B, a = Kro g A B -> step f c A /\ step f c B) ->
  (forall g n B, a = IdK g n B -> step f c B) ->
  res k fb (dlin c (dense a) (dense b)) -> res k (core f h fb a b) (dlin c (dense a) (dense b)).
Proof.
move=> hE oa ob sab IHK IHI Hfb; rewrite /core; case: ifP => [/andP[sa sb]|_].
  apply: scaling2_ok => //; rewrite !scaling_dense // /dlin /dscale /dadd /rows.
  have e : size (factors a) = size (factors b).
    by have := scaling_size sa; rewrite sab (scaling_size sb) => -[].
  rewrite (scaling_size sa) /=; apply: mk_ext => i j im jn.
  rewrite get_mk -?e // !get_diag -?e // hE.
  by case: eqP => // _; rewrite mulr0 addr0.
case: a oa sab IHK IHI Hfb => [g A|g A|g n|g n d|g d|g m n|g n i|g m t q v|g a1 a2|g n a1|g a1 a2 i|g n|g a1
  |g a1|g d a1|g a1|g l|g l|g l] oa sab IHK IHI Hfb; try exact: Hfb;
case: b ob sab Hfb => [g' B|g' B|g' p|g' p d'|g' d'|g' p p'|g' p i'|g' p t' q' v'|g' b1 b2|g' p b1|g' b1 b2 i'|g' p|g' b1
  |g' b1|g' d' b1|g' b1|g' l'|g' l'|g' l'] ob sab Hfb; try exact: Hfb.
- rewrite bcast_same //=; have [r0 c0] := ok_gt0 oa; apply: res_some; first exact: mat_ok.
  rewrite /= /dlin /dadd; apply: mk_ext => i j im jn; rewrite hE get_mk //.
  + by case: sab => <-.
  + by case: sab => _ <-.
- have [oa1 oa2] := ok_kro oa; have [ob1 ob2] := ok_kro ob.
  have [IH1 IH2] := IHK _ _ _ erefl.
  have sd : dshape (dkron (dense a1) (dense a2)) = dshape (dkron (dense b1) (dense b2)).
    by have := sab; rewrite (ok_shape oa) (ok_shape ob).
  rewrite /kro2; have [e [-> He]] := is_eq_ok oa1 ob1; case: e He => [/(_ isT) He|_].
    have [r0 c0] := ok_gt0 oa1; have sh := dkron_shapes r0 c0 He sd.
    have s2 : shape a2 = shape b2 by rewrite (ok_shape oa2) (ok_shape ob2).
    apply: res_map' (IH2 _ _ oa2 ob2 s2) _ => t ot dt; split; first exact: kro_ok.
    by rewrite /= dt /dlin -He dkronDr -?dkronZr.
  have [e [-> He]] := is_eq_ok oa2 ob2; case: e He => [/(_ isT) He|_]; last exact: Hfb.
  have [r0 c0] := ok_gt0 oa2; have sh := dkron_shapes' r0 c0 He sd.
  have s2 : shape a1 = shape b1 by rewrite (ok_shape oa1) (ok_shape ob1).
  apply: res_map' (IH1 _ _ oa1 ob1 s2) _ => t ot dt; split; first exact: kro_ok.
  by rewrite /= dt /dlin He dkronDl -?dkronZl.
- have [n0 oa1] := ok_idk oa; have [p0 ob1] := ok_idk ob.
  have IH1 := IHI _ _ _ erefl; case: eqP => [np|_]; last exact: Hfb.
  have sd : dshape (dkron (did R n) (dense a1)) = dshape (dkron (did R p) (dense b1)).
    by have := sab; rewrite (ok_shape oa) (ok_shape ob).
  have sh : dshape (dense a1) = dshape (dense b1).
    by apply: (@dkron_shapes (did R n) _ (did R p)) => //; rewrite np.
  have s2 : shape a1 = shape b1 by rewrite (ok_shape oa1) (ok_shape ob1).
  apply: res_map' (IH1 _ _ oa1 ob1 s2) _ => t ot dt; split; first exact: idk_ok.
  by rewrite /= dt /dlin -np dkronDr -?dkronZr.
Qed.
Lemma dlin0l c m n (A : dmx) : (m, n) = dshape A -> dlin c (dzero R m n) A = dscale c A.
Proof. by move=> e; rewrite /dlin dadd0l. Qed.
Lemma dlin0r c m n (A : dmx) : (m, n) = dshape A -> dlin c A (dzero R m n) = A.
Proof. by move=> e; rewrite /dlin dscale0 dadd0r. Qed.
Lemma add_main k a b : ok k a -> ok k b -> shape a = shape b ->
  (forall g A B, a = Kro g A B -> step (add same) 1 A /\ step (add same) 1 B) ->
  (forall g n B, a = IdK g n B -> step (add same) 1 B) ->
  res k (add same a b) (dlin 1 (dense a) (dense b)).
Proof.
move=> oa ob sab H1 H2; rewrite addE; apply: (zeros_ok sab).
- move=> zb; apply: (res_some oa); have := ok_shape oa; rewrite sab.
  by case: b zb {ob sab} => //= f m n _ e; rewrite dlin0r.
- move=> za; apply: (res_some ob); have := ok_shape ob; rewrite -sab.
  by case: a za {oa sab H1 H2} => //= f m n _ e; rewrite dlin0l // dscale1.
- apply: core_ok => //; first by move=> x y; rewrite mul1r.
  by rewrite /dlin dscale1; exact: res_sum2.
Qed.
Lemma sub_main k a b : ok k a -> ok k b -> shape a = shape b ->
  (forall g A B, a = Kro g A B -> step (sub same) (-1) A /\ step (sub same) (-1) B) ->
  (forall g n B, a = IdK g n B -> step (sub same) (-1) B) ->
  res k (sub same a b) (dlin (-1) (dense a) (dense b)).
Proof.
move=> oa ob sab H1 H2; have [on dn] := neg_ok ob; rewrite subE; apply: (zeros_ok sab).
- move=> zb; apply: (res_some oa); have := ok_shape oa; rewrite sab.
  by case: b zb {ob sab on dn} => //= f m n _ e; rewrite dlin0r.
- move=> za; apply: (res_some on); rewrite dn; have := ok_shape ob; rewrite -sab.
  by case: a za {oa sab H1 H2} => //= f m n _ e; rewrite dlin0l // dscaleN.
- apply: core_ok => //; first by move=> x y; rewrite mulN1r.
  by rewrite /dlin dscaleN -dn; apply: res_sum2; rewrite // (neg_shape ob).
Qed.
Lemma add_step a : step (add same) 1 a.
Proof.
elim/op_rect': a.
9-10: by move=> *; move=> ? ? ? ? ?; apply: add_main => // ? ? ? [] *; subst.
all: by move=> *; move=> ? ? ? ? ?; apply: add_main.
Qed.
Lemma sub_step a : step (sub same) (-1) a.
Proof.
elim/op_rect': a.
9-10: by move=> *; move=> ? ? ? ? ?; apply: sub_main => // ? ? ? [] *; subst.
all: by move=> *; move=> ? ? ? ? ?; apply: sub_main.
Qed.
Lemma add_ok k a b : ok k a -> ok k b -> shape a = shape b ->
  res k (add same a b) (dadd (dense a) (dense b)).
Proof. by move=> oa ob sab; have := add_step oa ob sab; rewrite /dlin dscale1. Qed.
Lemma sub_ok k a b : ok k a -> ok k b -> shape a = shape b ->
  res k (sub same a b) (dsub (dense a) (dense b)).
Proof. by move=> oa ob sab; have := sub_step oa ob sab; rewrite /dlin dscaleN. Qed.
End Ops.
