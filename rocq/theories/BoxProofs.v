(* Proofs about Aabb2 and Aabb3. *)
From Coq Require Import Reals Lra ZArith Floats.SpecFloat.
From Verif Require Import Prelude Scalar RInst Flt Geo2 Geo3 Rdp1 FltOrd BoxSpec.

Ltac conjs := match goal with |- _ /\ _ => split; conjs | _ => idtac end.

Lemma BoxOn_R : BoxOn RS (fun _ => True).
Proof.
  constructor.
  - apply OrdOn_R.
  - intros a b _ _; cbn [smin sltb RS car]. rewrite !Rltb_false. unfold Rmin. destruct (Rle_dec a b); repeat split; auto; lra.
  - intros a b _ _; cbn [smax sltb RS car]. rewrite !Rltb_false. unfold Rmax. destruct (Rle_dec a b); repeat split; auto; lra.
  - auto.
Qed.

Lemma SFeqb_inv a b : SFeqb a b = true -> a = b \/ exists s t, a = S754_zero s /\ b = S754_zero t.
Proof.
  unfold SFeqb. destruct a as [[]|[]| |[] m e], b as [[]|[]| |[] n f]; cbn [SFcompare]; try discriminate; eauto.
  all: destruct (Z.compare_spec e f); cbn [CompOpp]; try discriminate.
  all: change (Pos.compare_cont Eq m n) with (Pos.compare m n); destruct (Pos.compare_spec m n); cbn [CompOpp]; try discriminate.
  all: intros _; subst; auto.
Qed.

Lemma fl_ulps_eq prec emax eps a b : SFleb (S754_zero false) eps = true -> SFleb (S754_zero true) eps = true ->
  a <> S754_nan -> SFeqb a b = true -> fl_ulps_with prec emax eps 4 a b = true.
Proof.
  intros H0 H1 Ha E. unfold fl_ulps_with. destruct (SFeqb_inv _ _ E) as [<-|(s & t & -> & ->)].
  - destruct (fl_absdiff _ _ _ _ _); auto. destruct a; try congruence; cbn [fl_is_nan orb];
      rewrite Bool.eqb_reflx; cbn [negb]; rewrite Z.sub_diag; reflexivity.
  - unfold fl_absdiff. destruct s, t; cbn; rewrite ?H0, ?H1; auto.
Qed.

Lemma BoxOn_float prec emax epsexp at2 :
  SFleb (S754_zero false) (fl_pow2 prec emax epsexp) = true -> SFleb (S754_zero true) (fl_pow2 prec emax epsexp) = true ->
  BoxOn (FloatS prec emax epsexp at2) (fun x => x <> S754_nan).
Proof.
  intros H0 H1. pose proof (OrdOn_float prec emax epsexp at2) as HO. constructor; auto.
  - intros a b Da Db. cbv beta in Da, Db. cbn [smin FloatS]. unfold fl_min.
    destruct (fl_is_nan a) eqn:Na; [destruct a; try discriminate; exfalso; apply Da; reflexivity|]. destruct (fl_is_nan b) eqn:Nb; [destruct b; try discriminate; exfalso; apply Db; reflexivity|].
    pose proof (ord_irrefl _ _ HO a Da) as Ia. pose proof (ord_irrefl _ _ HO b Db) as Ib.
    cbn [sltb FloatS] in *. destruct (SFltb b a) eqn:E; repeat split; auto.
    destruct (SFltb a b) eqn:E2; auto. pose proof (ord_trans _ _ HO a b a Da Db Da E2 E) as T. cbn [sltb FloatS] in T. congruence.
  - intros a b Da Db. cbv beta in Da, Db. cbn [smax FloatS]. unfold fl_max.
    destruct (fl_is_nan a) eqn:Na; [destruct a; try discriminate; exfalso; apply Da; reflexivity|]. destruct (fl_is_nan b) eqn:Nb; [destruct b; try discriminate; exfalso; apply Db; reflexivity|].
    pose proof (ord_irrefl _ _ HO a Da) as Ia. pose proof (ord_irrefl _ _ HO b Db) as Ib.
    cbn [sltb FloatS] in *. destruct (SFltb a b) eqn:E; repeat split; auto.
    destruct (SFltb b a) eqn:E2; auto. pose proof (ord_trans _ _ HO a b a Da Db Da E E2) as T. cbn [sltb FloatS] in T. congruence.
  - intros a b Da Db E. cbn [sulps FloatS]. apply fl_ulps_eq; auto.
Qed.
Lemma BoxOn_F64 at2 : BoxOn (F64 at2) (fun x => x <> S754_nan).
Proof. apply BoxOn_float; vm_compute; reflexivity. Qed.
Lemma BoxOn_F32 at2 : BoxOn (F32 at2) (fun x => x <> S754_nan).
Proof. apply BoxOn_float; vm_compute; reflexivity. Qed.

Section Axis.
  Context {S : Scalar} (D : car S -> Prop) (HB : BoxOn S D).
  Notation F := (car S).
  Let HO := box_ord _ _ HB.

  Lemma least_set (vs ws : list F) lo : (forall v, In v vs <-> In v ws) -> least vs lo -> least ws lo.
  Proof. intros H [H1 H2]. split; [apply H; auto|]. intros v Hv. apply H2, H; auto. Qed.
  Lemma greatest_set (vs ws : list F) lo : (forall v, In v vs <-> In v ws) -> greatest vs lo -> greatest ws lo.
  Proof. intros H [H1 H2]. split; [apply H; auto|]. intros v Hv. apply H2, H; auto. Qed.
  Lemma least_one x : D x -> least [x] x.
  Proof. intros Dx. split; [left; auto|]. intros v [<-|[]]. apply (ord_irrefl _ _ HO); auto. Qed.
  Lemma greatest_one x : D x -> greatest [x] x.
  Proof. intros Dx. split; [left; auto|]. intros v [<-|[]]. apply (ord_irrefl _ _ HO); auto. Qed.

  (* a value that is one of lo, x and undercut by neither *)
  Lemma least_snoc vs lo x r : Forall D vs -> D x -> least vs lo ->
    (r = lo \/ r = x) -> sltb lo r = false -> sltb x r = false -> least (vs ++ [x]) r.
  Proof.
    intros Dv Dx [H1 H2] Hr E1 E2. rewrite Forall_forall in Dv. split.
    - apply in_app_iff. destruct Hr as [E0|E0]; rewrite E0; [left; auto|right; left; auto].
    - assert (Dr : D r) by (destruct Hr; subst; auto).
      intros v Hv. apply in_app_iff in Hv as [Hv|[<-|[]]]; auto.
      eapply (ord_neg_trans _ _ HO) with (b := lo); auto.
  Qed.
  Lemma greatest_snoc vs hi x r : Forall D vs -> D x -> greatest vs hi ->
    (r = hi \/ r = x) -> sltb r hi = false -> sltb r x = false -> greatest (vs ++ [x]) r.
  Proof.
    intros Dv Dx [H1 H2] Hr E1 E2. rewrite Forall_forall in Dv. split.
    - apply in_app_iff. destruct Hr as [E0|E0]; rewrite E0; [left; auto|right; left; auto].
    - assert (Dr : D r) by (destruct Hr; subst; auto).
      intros v Hv. apply in_app_iff in Hv as [Hv|[<-|[]]]; auto.
      eapply (ord_neg_trans _ _ HO) with (b := hi); auto.
  Qed.
  Lemma least_smin vs lo x : Forall D vs -> D x -> least vs lo -> least (vs ++ [x]) (smin lo x).
  Proof.
    intros Dv Dx L. assert (Dl : D lo) by (destruct L as [L _]; rewrite Forall_forall in Dv; auto).
    destruct (box_min _ _ HB lo x Dl Dx) as (A & B & C). eapply least_snoc; eauto.
  Qed.
  Lemma greatest_smax vs hi x : Forall D vs -> D x -> greatest vs hi -> greatest (vs ++ [x]) (smax hi x).
  Proof.
    intros Dv Dx L. assert (Dl : D hi) by (destruct L as [L _]; rewrite Forall_forall in Dv; auto).
    destruct (box_max _ _ HB hi x Dl Dx) as (A & B & C). eapply greatest_snoc; eauto.
  Qed.
  Lemma lt_asym a b : D a -> D b -> sltb a b = true -> sltb b a = false.
  Proof.
    intros Da Db E. destruct (sltb b a) eqn:E2; auto.
    pose proof (ord_trans _ _ HO a b a Da Db Da E E2) as T. rewrite (ord_irrefl _ _ HO) in T; auto.
  Qed.
  Lemma least_if vs lo x : Forall D vs -> D x -> least vs lo -> least (vs ++ [x]) (if sltb x lo then x else lo).
  Proof.
    intros Dv Dx L. assert (Dl : D lo) by (destruct L as [L _]; rewrite Forall_forall in Dv; auto).
    eapply least_snoc; eauto.
    - destruct (sltb x lo); auto.
    - destruct (sltb x lo) eqn:E; [apply lt_asym; auto|apply (ord_irrefl _ _ HO); auto].
    - destruct (sltb x lo) eqn:E; auto. apply (ord_irrefl _ _ HO); auto.
  Qed.
  Lemma greatest_if vs hi x : Forall D vs -> D x -> greatest vs hi -> greatest (vs ++ [x]) (if sltb hi x then x else hi).
  Proof.
    intros Dv Dx L. assert (Dl : D hi) by (destruct L as [L _]; rewrite Forall_forall in Dv; auto).
    eapply greatest_snoc; eauto.
    - destruct (sltb hi x); auto.
    - destruct (sltb hi x) eqn:E; [apply lt_asym; auto|apply (ord_irrefl _ _ HO); auto].
    - destruct (sltb hi x) eqn:E; auto. apply (ord_irrefl _ _ HO); auto.
  Qed.
  (* adding the two corners of ws' box is as good as adding ws *)
  Lemma least_merge vs ws mn mx r : Forall D vs -> Forall D ws -> least ws mn -> In mx ws ->
    least (vs ++ [mn] ++ [mx]) r -> least (vs ++ ws) r.
  Proof.
    intros Dv Dw [W1 W2] Hx [L1 L2]. rewrite Forall_forall in Dv, Dw. split.
    - rewrite in_app_iff in *. simpl in L1. intuition (subst; auto).
    - assert (Dr : D r) by (rewrite !in_app_iff in L1; simpl in L1; intuition (subst; auto)).
      intros v Hv. apply in_app_iff in Hv as [Hv|Hv]; [apply L2, in_app_iff; auto|].
      eapply (ord_neg_trans _ _ HO) with (b := mn); auto. apply L2. rewrite !in_app_iff; simpl; auto.
  Qed.
  Lemma greatest_merge vs ws mn mx r : Forall D vs -> Forall D ws -> greatest ws mx -> In mn ws ->
    greatest (vs ++ [mn] ++ [mx]) r -> greatest (vs ++ ws) r.
  Proof.
    intros Dv Dw [W1 W2] Hx [L1 L2]. rewrite Forall_forall in Dv, Dw. split.
    - rewrite in_app_iff in *. simpl in L1. intuition (subst; auto).
    - assert (Dr : D r) by (rewrite !in_app_iff in L1; simpl in L1; intuition (subst; auto)).
      intros v Hv. apply in_app_iff in Hv as [Hv|Hv]; [apply L2, in_app_iff; auto|].
      eapply (ord_neg_trans _ _ HO) with (b := mx); auto. apply L2. rewrite !in_app_iff; simpl; auto.
  Qed.
  Lemma least_uniq vs ws a b : (forall v, In v vs <-> In v ws) -> Forall D vs -> least vs a -> least ws b -> seqb a b = true.
  Proof.
    intros H Dv [A1 A2] [B1 B2]. rewrite Forall_forall in Dv.
    rewrite (ord_eqb _ _ HO) by (auto; apply Dv, H; auto).
    rewrite (A2 b) by (apply H; auto). rewrite (B2 a) by (apply H; auto). auto.
  Qed.
  Lemma greatest_uniq vs ws a b : (forall v, In v vs <-> In v ws) -> Forall D vs -> greatest vs a -> greatest ws b -> seqb a b = true.
  Proof.
    intros H Dv [A1 A2] [B1 B2]. rewrite Forall_forall in Dv.
    rewrite (ord_eqb _ _ HO) by (auto; apply Dv, H; auto).
    rewrite (A2 b) by (apply H; auto). rewrite (B2 a) by (apply H; auto). auto.
  Qed.
  (* the per-axis containment test *)
  Lemma low_ok vs lo v : Forall D vs -> least vs lo -> In v vs -> (sltb lo v || sulps lo v)%bool = true.
  Proof.
    intros Dv [A1 A2] Hv. rewrite Forall_forall in Dv. destruct (sltb lo v) eqn:E; auto. simpl.
    apply (box_ulps _ _ HB); auto. rewrite (ord_eqb _ _ HO), E, (A2 v); auto.
  Qed.
  Lemma high_ok vs hi v : Forall D vs -> greatest vs hi -> In v vs -> (sltb v hi || sulps hi v)%bool = true.
  Proof.
    intros Dv [A1 A2] Hv. rewrite Forall_forall in Dv. destruct (sltb v hi) eqn:E; auto. simpl.
    apply (box_ulps _ _ HB); auto. rewrite (ord_eqb _ _ HO), E, (A2 v); auto.
  Qed.
End Axis.

(* values of a coordinate over a list of points *)
Lemma map_set {A B} (f : A -> B) (ps qs : list A) : (forall p, In p ps <-> In p qs) -> forall v, In v (map f ps) <-> In v (map f qs).
Proof. intros H v. rewrite !in_map_iff. split; intros (p & E & Hp); exists p; split; auto; apply H; auto. Qed.

Section Box2.
  Context {S : Scalar} (D : car S -> Prop) (HB : BoxOn S D).
  Definition D2 (p : V2 S) : Prop := D (vx p) /\ D (vy p).
  Lemma D2x ps : Forall D2 ps -> Forall D (map vx ps).
  Proof. intros H. apply Forall_map. eapply Forall_impl; [|exact H]. intros p [? ?]; auto. Qed.
  Lemma D2y ps : Forall D2 ps -> Forall D (map vy ps).
  Proof. intros H. apply Forall_map. eapply Forall_impl; [|exact H]. intros p [? ?]; auto. Qed.

  Lemma bounds2_set (ps qs : list (V2 S)) mm : (forall p, In p ps <-> In p qs) -> bounds2 ps mm -> bounds2 qs mm.
  Proof.
    intros H (A & B & C & E). unfold bounds2.
    conjs; try (eapply least_set; [apply map_set; exact H|auto]); try (eapply greatest_set; [apply map_set; exact H|auto]).
  Qed.
  Lemma bounds2_one p : D2 p -> bounds2 [p] (p, p).
  Proof. intros [? ?]. unfold bounds2; simpl. auto using (least_one D HB), (greatest_one D HB). Qed.
  Lemma bounds2_widen ps mm p : Forall D2 ps -> D2 p -> bounds2 ps mm -> bounds2 (ps ++ [p]) (aabb2_widen mm p).
  Proof.
    intros Dp [Dx Dy] (A & B & C & E). unfold bounds2, aabb2_widen. rewrite !map_app. cbn [fst snd vx vy map].
    pose proof (D2x _ Dp). pose proof (D2y _ Dp).
    conjs; try (apply (least_smin D HB); auto); try (apply (greatest_smax D HB); auto).
  Qed.
  Lemma bounds2_fold qs : forall ps mm, Forall D2 ps -> Forall D2 qs -> bounds2 ps mm -> bounds2 (ps ++ qs) (fold_left aabb2_widen qs mm).
  Proof.
    induction qs as [|q qs IH]; intros ps mm Dp Dq H; cbn [fold_left]; [rewrite app_nil_r; auto|].
    inversion Dq; subst. replace (ps ++ q :: qs) with ((ps ++ [q]) ++ qs) by (rewrite <- app_assoc; auto).
    apply IH; auto; [apply Forall_app; auto|]. apply bounds2_widen; auto.
  Qed.
  Definition ok2 (a : Aabb2 S) (ps : list (V2 S)) : Prop :=
    match a with None => ps = [] | Some mm => bounds2 ps mm end.
  Lemma ok2_point a ps p : Forall D2 ps -> D2 p -> ok2 a ps -> ok2 (aabb2_update_point a p) (ps ++ [p]).
  Proof.
    intros Dp Dq H. destruct a as [mm|]; simpl in *; [apply bounds2_widen; auto|subst; simpl; apply bounds2_one; auto].
  Qed.
  Lemma ok2_points a ps qs : Forall D2 ps -> Forall D2 qs -> ok2 a ps -> ok2 (aabb2_update_points a qs) (ps ++ qs).
  Proof.
    intros Dp Dq H. destruct qs as [|q qs]; [simpl; rewrite app_nil_r; auto|]. unfold aabb2_update_points.
    destruct a as [mm|]; simpl in H; cbn [ok2].
    - apply bounds2_fold; auto.
    - subst ps. cbn [aabb2_update_point ok2 app]. eapply bounds2_set; [|apply (bounds2_fold (q :: qs) [q])]; auto.
      + intros x; simpl; tauto.
      + inversion Dq; subst; auto.
      + apply bounds2_one. inversion Dq; subst; auto.
  Qed.
  Lemma ok2_fold_points ps : forall a qs, Forall D2 qs -> Forall D2 ps -> ok2 a qs -> ok2 (fold_left aabb2_update_point ps a) (qs ++ ps).
  Proof.
    induction ps as [|p ps IH]; intros a qs Dq Dp H; cbn [fold_left]; [rewrite app_nil_r; auto|].
    inversion Dp; subst. replace (qs ++ p :: ps) with ((qs ++ [p]) ++ ps) by (rewrite <- app_assoc; auto).
    apply IH; auto; [apply Forall_app; auto|]. apply ok2_point; auto.
  Qed.
  Lemma In_map_ex {A B} (f : A -> B) l v : In v (map f l) -> exists p, In p l /\ f p = v.
  Proof. rewrite in_map_iff. intros (p & ? & ?); eauto. Qed.
  Lemma bounds2_D ps mm : Forall D2 ps -> bounds2 ps mm -> D2 (fst mm) /\ D2 (snd mm).
  Proof.
    intros Dp ((A & _) & (B & _) & (C & _) & (E & _)).
    pose proof (D2x _ Dp) as Hx. pose proof (D2y _ Dp) as Hy. rewrite Forall_forall in Hx, Hy. unfold D2; auto.
  Qed.
  Lemma ok2_aabb a ps b qs : Forall D2 ps -> Forall D2 qs -> ok2 a ps -> ok2 b qs -> ok2 (aabb2_update_aabb a b) (ps ++ qs).
  Proof.
    intros Dp Dq Ha Hb. destruct b as [[mn mx]|]; simpl in Hb; cbn [aabb2_update_aabb]; [|subst; rewrite app_nil_r; auto].
    destruct (bounds2_D _ _ Dq Hb) as [Dn Dx]. cbn [fst snd] in *.
    assert (H1 : ok2 (aabb2_update_point a mn) (ps ++ [mn])) by (apply ok2_point; auto).
    assert (H2 : ok2 (aabb2_update_point (aabb2_update_point a mn) mx) ((ps ++ [mn]) ++ [mx])).
    { apply ok2_point; auto. apply Forall_app; auto. }
    rewrite <- app_assoc in H2.
    destruct (aabb2_update_point (aabb2_update_point a mn) mx) as [mm|] eqn:E.
    2:{ simpl in H2. destruct ps; discriminate. }
    cbn [ok2] in *. destruct H2 as (A & B & C & G). destruct Hb as (A' & B' & C' & G'). cbn [fst snd] in *.
    rewrite !map_app in *. cbn [map] in *. unfold bounds2. rewrite !map_app.
    pose proof (D2x _ Dp). pose proof (D2y _ Dp). pose proof (D2x _ Dq). pose proof (D2y _ Dq).
    conjs.
    - eapply (least_merge D HB); eauto. apply C'.
    - eapply (least_merge D HB); eauto. apply G'.
    - eapply (greatest_merge D HB); eauto. apply A'.
    - eapply (greatest_merge D HB); eauto. apply B'.
  Qed.
  Lemma built2_ok a ps : built2 a ps -> Forall D2 ps -> ok2 a ps.
  Proof.
    induction 1 as [|p|ps|ps|a ps p _ IH|a ps qs _ IH|a ps b qs _ IHa _ IHb]; intros Dp.
    - reflexivity.
    - apply bounds2_one. inversion Dp; auto.
    - unfold aabb2_with_points. destruct ps as [|p ps]; [reflexivity|].
      apply (ok2_points None [] (p :: ps)); auto. reflexivity.
    - apply (ok2_fold_points ps None []); auto. reflexivity.
    - apply Forall_app in Dp as [Dp Dq]. inversion Dq; subst. apply ok2_point; auto.
    - apply Forall_app in Dp as [Dp Dq]. apply ok2_points; auto.
    - apply Forall_app in Dp as [Dp Dq]. apply ok2_aabb; auto.
  Qed.
  Lemma bounds2_contains ps mm p : Forall D2 ps -> bounds2 ps mm -> In p ps -> aabb2_contains_ mm p = true.
  Proof.
    intros Dp (A & B & C & E) Hp. unfold aabb2_contains_.
    rewrite (low_ok D HB (map vx ps)), (low_ok D HB (map vy ps)), (high_ok D HB (map vx ps)), (high_ok D HB (map vy ps));
      auto using D2x, D2y, in_map.
  Qed.
  (* whatever box contains all the points contains the smallest one (no order law needed) *)
  Lemma bounds2_smallest (ps : list (V2 S)) mm B : bounds2 ps mm -> (forall p, In p ps -> aabb2_contains_ B p = true) ->
    aabb2_contains_ B (fst mm) = true /\ aabb2_contains_ B (snd mm) = true.
  Proof.
    intros ((A & _) & (C & _) & (E & _) & (G & _)) H.
    apply In_map_ex in A as (p1 & I1 & A), C as (p2 & I2 & C), E as (p3 & I3 & E), G as (p4 & I4 & G).
    apply H in I1, I2, I3, I4. unfold aabb2_contains_ in *.
    apply andb_prop in I1 as [I1 I1d]. apply andb_prop in I1 as [I1 I1c]. apply andb_prop in I1 as [I1a I1b].
    apply andb_prop in I2 as [I2 I2d]. apply andb_prop in I2 as [I2 I2c]. apply andb_prop in I2 as [I2a I2b].
    apply andb_prop in I3 as [I3 I3d]. apply andb_prop in I3 as [I3 I3c]. apply andb_prop in I3 as [I3a I3b].
    apply andb_prop in I4 as [I4 I4d]. apply andb_prop in I4 as [I4 I4c]. apply andb_prop in I4 as [I4a I4b].
    rewrite A in *. rewrite C in *. rewrite E in *. rewrite G in *.
    rewrite I1a, I1c, I2b, I2d, I3a, I3c, I4b, I4d. auto.
  Qed.
  Lemma bounds2_uniq ps qs a b : (forall p, In p ps <-> In p qs) -> Forall D2 ps -> bounds2 ps a -> bounds2 qs b ->
    veqb (fst a) (fst b) = true /\ veqb (snd a) (snd b) = true.
  Proof.
    intros H Dp (A & B & C & E) (A' & B' & C' & E'). unfold veqb.
    pose proof (D2x _ Dp) as Hx. pose proof (D2y _ Dp) as Hy.
    rewrite (least_uniq D HB _ _ _ _ (map_set vx _ _ H) Hx A A'), (least_uniq D HB _ _ _ _ (map_set vy _ _ H) Hy B B').
    rewrite (greatest_uniq D HB _ _ _ _ (map_set vx _ _ H) Hx C C'), (greatest_uniq D HB _ _ _ _ (map_set vy _ _ H) Hy E E'). auto.
  Qed.
End Box2.

Section Box3.
  Context {S : Scalar} (D : car S -> Prop) (HB : BoxOn S D).
  Definition D3 (p : V3 S) : Prop := D (wx p) /\ D (wy p) /\ D (wz p).
  Lemma D3x ps : Forall D3 ps -> Forall D (map wx ps).
  Proof. intros H. apply Forall_map. eapply Forall_impl; [|exact H]. intros p (? & ? & ?); auto. Qed.
  Lemma D3y ps : Forall D3 ps -> Forall D (map wy ps).
  Proof. intros H. apply Forall_map. eapply Forall_impl; [|exact H]. intros p (? & ? & ?); auto. Qed.
  Lemma D3z ps : Forall D3 ps -> Forall D (map wz ps).
  Proof. intros H. apply Forall_map. eapply Forall_impl; [|exact H]. intros p (? & ? & ?); auto. Qed.

  Lemma bounds3_set (ps qs : list (V3 S)) mm : (forall p, In p ps <-> In p qs) -> bounds3 ps mm -> bounds3 qs mm.
  Proof.
    intros H (A & B & C & E & G & I). unfold bounds3.
    conjs; try (eapply least_set; [apply map_set; exact H|assumption]); try (eapply greatest_set; [apply map_set; exact H|assumption]).
  Qed.
  Lemma bounds3_one p : D3 p -> bounds3 [p] (p, p).
  Proof. intros (? & ? & ?). unfold bounds3; simpl. conjs; auto using (least_one D HB), (greatest_one D HB). Qed.
  Lemma bounds3_widen ps mm p : Forall D3 ps -> D3 p -> bounds3 ps mm ->
    bounds3 (ps ++ [p]) (aabb3_widen mm p) /\ bounds3 (ps ++ [p]) (aabb3_widen_point mm p).
  Proof.
    destruct mm as [mn mx]. intros Dp (Dx & Dy & Dz) (A & B & C & E & G & I).
    unfold bounds3, aabb3_widen, aabb3_widen_point. rewrite !map_app. cbn [fst snd wx wy wz map] in *.
    pose proof (D3x _ Dp). pose proof (D3y _ Dp). pose proof (D3z _ Dp).
    split; conjs; first [apply (least_smin D HB)|apply (greatest_smax D HB)|apply (least_if D HB)|apply (greatest_if D HB)]; auto.
  Qed.
  Lemma bounds3_fold qs : forall ps mm, Forall D3 ps -> Forall D3 qs -> bounds3 ps mm -> bounds3 (ps ++ qs) (fold_left aabb3_widen qs mm).
  Proof.
    induction qs as [|q qs IH]; intros ps mm Dp Dq H; cbn [fold_left]; [rewrite app_nil_r; auto|].
    inversion Dq; subst. replace (ps ++ q :: qs) with ((ps ++ [q]) ++ qs) by (rewrite <- app_assoc; auto).
    apply IH; auto; [apply Forall_app; auto|]. apply bounds3_widen; auto.
  Qed.
  Definition ok3 (a : Aabb3 S) (ps : list (V3 S)) : Prop :=
    match a with None => ps = [] | Some mm => bounds3 ps mm end.
  Lemma ok3_point a ps p : Forall D3 ps -> D3 p -> ok3 a ps -> ok3 (aabb3_update_point a p) (ps ++ [p]).
  Proof.
    intros Dp Dq H. destruct a as [mm|]; cbn [ok3 aabb3_update_point] in *; [apply bounds3_widen; auto|subst; simpl; apply bounds3_one; auto].
  Qed.
  Lemma ok3_points a ps qs : Forall D3 ps -> Forall D3 qs -> ok3 a ps -> ok3 (aabb3_update_points a qs) (ps ++ qs).
  Proof.
    intros Dp Dq H. destruct qs as [|q qs]; [simpl; rewrite app_nil_r; auto|]. unfold aabb3_update_points.
    destruct a as [mm|]; simpl in H; cbn [ok3].
    - apply bounds3_fold; auto.
    - subst ps. cbn [aabb3_update_point ok3 app]. eapply bounds3_set; [|apply (bounds3_fold (q :: qs) [q])]; auto.
      + intros x; simpl; tauto.
      + inversion Dq; subst; auto.
      + apply bounds3_one. inversion Dq; subst; auto.
  Qed.
  Lemma bounds3_D ps mm : Forall D3 ps -> bounds3 ps mm -> D3 (fst mm) /\ D3 (snd mm).
  Proof.
    intros Dp ((A & _) & (B & _) & (C & _) & (E & _) & (G & _) & (I & _)).
    pose proof (D3x _ Dp) as Hx. pose proof (D3y _ Dp) as Hy. pose proof (D3z _ Dp) as Hz.
    rewrite Forall_forall in Hx, Hy, Hz. unfold D3; auto 8.
  Qed.
  Lemma ok3_aabb a ps b qs : Forall D3 ps -> Forall D3 qs -> ok3 a ps -> ok3 b qs -> ok3 (aabb3_update_aabb a b) (ps ++ qs).
  Proof.
    intros Dp Dq Ha Hb. destruct b as [[mn mx]|]; simpl in Hb; cbn [aabb3_update_aabb]; [|subst; rewrite app_nil_r; auto].
    destruct (bounds3_D _ _ Dq Hb) as [Dn Dx]. cbn [fst snd] in *.
    assert (H1 : ok3 (aabb3_update_point a mn) (ps ++ [mn])) by (apply ok3_point; auto).
    assert (H2 : ok3 (aabb3_update_point (aabb3_update_point a mn) mx) ((ps ++ [mn]) ++ [mx])).
    { apply ok3_point; auto. apply Forall_app; auto. }
    rewrite <- app_assoc in H2.
    destruct (aabb3_update_point (aabb3_update_point a mn) mx) as [mm|] eqn:E.
    2:{ simpl in H2. destruct ps; discriminate. }
    cbn [ok3] in *. destruct H2 as (A & B & C & G & J & K). destruct Hb as (A' & B' & C' & G' & J' & K'). cbn [fst snd] in *.
    rewrite !map_app in *. cbn [map] in *. unfold bounds3. rewrite !map_app.
    pose proof (D3x _ Dp). pose proof (D3y _ Dp). pose proof (D3z _ Dp). pose proof (D3x _ Dq). pose proof (D3y _ Dq). pose proof (D3z _ Dq).
    conjs.
    - eapply (least_merge D HB); eauto. apply G'.
    - eapply (least_merge D HB); eauto. apply J'.
    - eapply (least_merge D HB); eauto. apply K'.
    - eapply (greatest_merge D HB); eauto. apply A'.
    - eapply (greatest_merge D HB); eauto. apply B'.
    - eapply (greatest_merge D HB); eauto. apply C'.
  Qed.
  Lemma built3_ok a ps : built3 a ps -> Forall D3 ps -> ok3 a ps.
  Proof.
    induction 1 as [|ps|a ps p _ IH|a ps qs _ IH|a ps b qs _ IHa _ IHb]; intros Dp.
    - reflexivity.
    - unfold aabb3_with_points. destruct ps as [|p ps]; [reflexivity|].
      apply (ok3_points None [] (p :: ps)); auto. reflexivity.
    - apply Forall_app in Dp as [Dp Dq]. inversion Dq; subst. apply ok3_point; auto.
    - apply Forall_app in Dp as [Dp Dq]. apply ok3_points; auto.
    - apply Forall_app in Dp as [Dp Dq]. apply ok3_aabb; auto.
  Qed.
  Lemma bounds3_contains ps mm p : Forall D3 ps -> bounds3 ps mm -> In p ps -> aabb3_contains_ mm p = true.
  Proof.
    intros Dp (A & B & C & E & G & I) Hp. unfold aabb3_contains_.
    rewrite (low_ok D HB (map wx ps)), (low_ok D HB (map wy ps)), (low_ok D HB (map wz ps)),
      (high_ok D HB (map wx ps)), (high_ok D HB (map wy ps)), (high_ok D HB (map wz ps));
      auto using D3x, D3y, D3z, in_map.
  Qed.
  Lemma bounds3_smallest (ps : list (V3 S)) mm B : bounds3 ps mm -> (forall p, In p ps -> aabb3_contains_ B p = true) ->
    aabb3_contains_ B (fst mm) = true /\ aabb3_contains_ B (snd mm) = true.
  Proof.
    intros ((A1 & _) & (A2 & _) & (A3 & _) & (A4 & _) & (A5 & _) & (A6 & _)) H.
    assert (K : forall (f : V3 S -> car S) v, In v (map f ps) -> exists p, f p = v /\ aabb3_contains_ B p = true).
    { intros f v (p & E & Hp)%in_map_iff. eauto. }
    assert (X : forall v, In v (map wx ps) -> (sltb (wx (fst B)) v || sulps (wx (fst B)) v)%bool = true /\ (sltb v (wx (snd B)) || sulps (wx (snd B)) v)%bool = true).
    { intros v (p & <- & E)%K. unfold aabb3_contains_ in E. repeat (apply andb_prop in E as [E ?]). auto. }
    assert (Y : forall v, In v (map wy ps) -> (sltb (wy (fst B)) v || sulps (wy (fst B)) v)%bool = true /\ (sltb v (wy (snd B)) || sulps (wy (snd B)) v)%bool = true).
    { intros v (p & <- & E)%K. unfold aabb3_contains_ in E. repeat (apply andb_prop in E as [E ?]). auto. }
    assert (Z : forall v, In v (map wz ps) -> (sltb (wz (fst B)) v || sulps (wz (fst B)) v)%bool = true /\ (sltb v (wz (snd B)) || sulps (wz (snd B)) v)%bool = true).
    { intros v (p & <- & E)%K. unfold aabb3_contains_ in E. repeat (apply andb_prop in E as [E ?]). auto. }
    apply X in A1, A4. apply Y in A2, A5. apply Z in A3, A6.
    destruct A1 as [A1 A1'], A2 as [A2 A2'], A3 as [A3 A3'], A4 as [A4 A4'], A5 as [A5 A5'], A6 as [A6 A6'].
    unfold aabb3_contains_. rewrite A1, A2, A3, A4, A5, A6, A1', A2', A3', A4', A5', A6'. auto.
  Qed.
  Lemma bounds3_uniq ps qs a b : (forall p, In p ps <-> In p qs) -> Forall D3 ps -> bounds3 ps a -> bounds3 qs b ->
    weqb (fst a) (fst b) = true /\ weqb (snd a) (snd b) = true.
  Proof.
    intros H Dp (A & B & C & E & G & I) (A' & B' & C' & E' & G' & I'). unfold weqb.
    pose proof (D3x _ Dp) as Hx. pose proof (D3y _ Dp) as Hy. pose proof (D3z _ Dp) as Hz.
    rewrite (least_uniq D HB _ _ _ _ (map_set wx _ _ H) Hx A A'), (least_uniq D HB _ _ _ _ (map_set wy _ _ H) Hy B B'), (least_uniq D HB _ _ _ _ (map_set wz _ _ H) Hz C C').
    rewrite (greatest_uniq D HB _ _ _ _ (map_set wx _ _ H) Hx E E'), (greatest_uniq D HB _ _ _ _ (map_set wy _ _ H) Hy G G'), (greatest_uniq D HB _ _ _ _ (map_set wz _ _ H) Hz I I'). auto.
  Qed.
End Box3.
