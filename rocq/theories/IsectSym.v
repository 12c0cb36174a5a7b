(* Segment intersection and rays in exact arithmetic depend on the geometry only: the result for two segments is determined by
   the set of their common points, and both move along with affine maps. *)
From Coq Require Import Reals Lra Psatz.
From Verif Require Import Prelude Scalar RInst Geo2 GeoSpec DistR IsectProofs.
Local Open Scope R_scope.

(* an overlap is reported from left to right, and upwards when vertical *)
Lemma parallel_rightward (a b : Line2 RS) s : lstart a <> lend a -> lstart b <> lend b ->
  vperp (vsub (lend a) (lstart a)) (vsub (lend b) (lstart b)) = 0 ->
  (Rmin (vx (lstart b)) (vx (lend b)) <= Rmax (vx (lstart a)) (vx (lend a)) /\
   Rmin (vx (lstart a)) (vx (lend a)) <= Rmax (vx (lstart b)) (vx (lend b)) /\
   Rmin (vy (lstart b)) (vy (lend b)) <= Rmax (vy (lstart a)) (vy (lend a)) /\
   Rmin (vy (lstart a)) (vy (lend a)) <= Rmax (vy (lstart b)) (vy (lend b))) ->
  intersection_parallel a b = Some (IOverlap s) -> lexpos (vx (lend s) - vx (lstart s)) (vy (lend s) - vy (lstart s)).
Proof.
  destruct a as [a1 a2], b as [b1 b2]. cbn [lstart lend]. intros Ha Hb Hp HB.
  unfold intersection_parallel. cbn [lstart lend].
  destruct (normalise a1 a2 Ha) as (p & rx & ry & -> & Lr & Da & Sa & Na1 & Na2 & Na3).
  destruct (normalise b1 b2 Hb) as (q & sx & sy & -> & Ls & Db & Sb & Nb1 & Nb2 & Nb3).
  unfold vperp, vsub in Hp. rsimp.
  assert (Hx : sx * ry - sy * rx = 0) by (destruct Da as [[Da1 Da2]|[Da1 Da2]], Db as [[Db1 Db2]|[Db1 Db2]];
    rewrite Da1, Da2, Db1, Db2 in Hp; lra).
  clear Hp Da Db.
  destruct p as [px py], q as [qx qy]. rewrite Na1, Na2, Nb1, Nb2 in HB. rsimp.
  pose proof (lexpos_nz _ _ Lr) as Nr.
  destruct (parallel_multiple rx ry sx sy Nr Hx) as [Ks1 Ks2].
  set (k := (sx * rx + sy * ry) / (rx * rx + ry * ry)) in *.
  assert (Kp : 0 < k) by (apply (lexpos_multiple rx ry); auto; rewrite <- Ks1, <- Ks2; auto).
  unfold vperp, vdot, vsub, vadd, vscale. rsimp. fold k.
  match goal with |- context [Reqb ?u 0] => destruct (Reqb_spec u 0) as [E|E] end; [|discriminate].
  destruct (parallel_multiple rx ry (qx - px) (qy - py) Nr E) as [Kq1 Kq2].
  set (t0 := ((qx - px) * rx + (qy - py) * ry) / (rx * rx + ry * ry)) in *.
  set (t1 := t0 + k).
  assert (Ht0 : t0 <= 1 /\ 0 <= t1).
  { destruct Lr as [Lr|[Lr0 Lr]].
    - split; apply Rmult_le_reg_r with rx; auto; unfold t1; lra.
    - destruct (Na3 Lr0) as [Na4 Na5]. rewrite Lr0, Rmult_0_r in Ks1. destruct (Nb3 Ks1) as [Nb4 Nb5].
      rewrite Na4, Na5, Nb4, Nb5 in HB. split; apply Rmult_le_reg_r with ry; auto; unfold t1; lra. }
  set (u := Rmax t0 0). set (v := Rmin t1 1).
  assert (Huv : u <= v).
  { unfold u, v, Rmax, Rmin. unfold t1 in *. destruct (Rle_dec t0 0), (Rle_dec (t0 + k) 1); lra. }
  match goal with |- (if veqb ?x ?y then _ else _) = _ -> _ => destruct (veqb x y) eqn:Ev end; [discriminate|].
  intros Es. injection Es as <-. cbn [lstart lend vx vy]. 
  assert (Ne : u <> v). { intros Q. rewrite Q in Ev. rewrite (proj2 (veqb_R _ _) eq_refl) in Ev. discriminate. }
  assert (D : 0 < v - u) by lra. destruct Lr as [Lr|[Lr0 Lr]]; [left|right].
  - replace (px + rx * v - (px + rx * u)) with (rx * (v - u)) by ring. apply Rmult_lt_0_compat; auto.
  - rewrite Lr0. split; [ring|]. replace (py + ry * v - (py + ry * u)) with (ry * (v - u)) by ring. apply Rmult_lt_0_compat; auto.
Qed.
Lemma intersection_rightward (a b : Line2 RS) s : intersection_point a b = Some (IOverlap s) ->
  lexpos (vx (lend s) - vx (lstart s)) (vy (lend s) - vy (lstart s)).
Proof.
  unfold intersection_point.
  destruct (vulps (lstart a) (lend a)) eqn:Da.
  { pose proof (intersect_line_point_R b (lstart a)) as H. destruct (intersect_line_point b (lstart a)) as [i|]; [|discriminate]. destruct H as [-> _]. discriminate. }
  destruct (vulps (lstart b) (lend b)) eqn:Db.
  { pose proof (intersect_line_point_R a (lstart b)) as H. destruct (intersect_line_point a (lstart b)) as [i|]; [|discriminate]. destruct H as [-> _]. discriminate. }
  assert (Na : lstart a <> lend a) by (intros E; apply vulps_R in E; congruence).
  assert (Nb : lstart b <> lend b) by (intros E; apply vulps_R in E; congruence).
  cbv zeta. match goal with |- (if ?c then _ else _) = _ -> _ => destruct c eqn:B end; [discriminate|].
  rsimp. rewrite !orb_false_iff, !Rltb_false in B.
  match goal with |- (if Reqb ?c 0 then _ else _) = _ -> _ => destruct (Reqb_spec c 0) as [E|E] end.
  - apply parallel_rightward; auto. tauto.
  - unfold intersection_cross. destruct (_ && _)%bool; discriminate.
Qed.

(* the ends of a segment are determined by its points *)
Lemma segment_ends (p q p' q' : pt) : p <> q -> p' <> q' -> (forall x, on_segment x p q <-> on_segment x p' q') ->
  (p = p' /\ q = q') \/ (p = q' /\ q = p').
Proof.
  intros N N' H.
  destruct (proj1 (H p) (on_segment_start p q)) as (t & Ht & Et). destruct (proj1 (H q) (on_segment_end p q)) as (u & Hu & Eu).
  destruct (proj2 (H p') (on_segment_start p' q')) as (w & Hw & Ew). destruct (proj2 (H q') (on_segment_end p' q')) as (z & Hz & Ez).
  assert (Nd : (vx q' - vx p') * (vx q' - vx p') + (vy q' - vy p') * (vy q' - vy p') <> 0).
  { intros Z. apply N'. pose proof (sq_nn (vx q' - vx p')); pose proof (sq_nn (vy q' - vy p')).
    assert (Zx : (vx q' - vx p') * (vx q' - vx p') = 0) by lra. assert (Zy : (vy q' - vy p') * (vy q' - vy p') = 0) by lra.
    apply Rmult_integral in Zx, Zy. apply V2_ext; lra. }
  assert (L : forall s, lerp p' q' s = p' -> s = 0).
  { intros s E. unfold lerp in E. assert (Ex := f_equal (fun v : pt => vx v) E). assert (Ey := f_equal (fun v : pt => vy v) E). cbn [vx vy] in Ex, Ey.
    apply (line_param_inj (vx p') (vy p') (vx q' - vx p') (vy q' - vy p')); auto; lra. }
  assert (L1 : forall s, lerp p' q' s = q' -> s = 1).
  { intros s E. unfold lerp in E. assert (Ex := f_equal (fun v : pt => vx v) E). assert (Ey := f_equal (fun v : pt => vy v) E). cbn [vx vy] in Ex, Ey.
    apply (line_param_inj (vx p') (vy p') (vx q' - vx p') (vy q' - vy p')); auto; lra. }
  assert (W : (1 - w) * t + w * u = 0). { apply L. transitivity (lerp p q w); [|symmetry; exact Ew]. rewrite Et, Eu. unfold lerp. apply V2_ext; rsimp; rring. }
  assert (Z : (1 - z) * t + z * u = 1). { apply L1. transitivity (lerp p q z); [|symmetry; exact Ez]. rewrite Et, Eu. unfold lerp. apply V2_ext; rsimp; rring. }
  assert (Cs : (t = 0 /\ u = 1) \/ (t = 1 /\ u = 0)).
  { assert (A1 : 0 <= (1 - w) * t) by (apply Rmult_le_pos; lra). assert (A2 : 0 <= w * u) by (apply Rmult_le_pos; lra).
    assert (B1 : (1 - w) * t = 0) by lra. assert (B2 : w * u = 0) by lra.
    apply Rmult_integral in B1, B2. destruct B1 as [B1|B1].
    - assert (u = 0) by lra. right. subst u. split; [|auto]. assert ((1 - z) * t <= 1 * t) by (apply Rmult_le_compat_r; lra). lra.
    - left. subst t. split; auto. assert (z * u <= 1 * u) by (apply Rmult_le_compat_r; lra). lra. }
  destruct Cs as [[-> ->]|[-> ->]]; [left|right]; rewrite Et, Eu; unfold lerp; split; apply V2_ext; rsimp; rring.
Qed.

(* the result is determined by the common points *)
Theorem intersection_determined (a b a' b' : Line2 RS) : (forall q, common a b q <-> common a' b' q) -> intersection_point a b = intersection_point a' b'.
Proof.
  intros H. pose proof (intersection_correct a b) as C. pose proof (intersection_correct a' b') as C'.
  pose proof (intersection_rightward a b) as Rw. pose proof (intersection_rightward a' b') as Rw'.
  destruct (intersection_point a b) as [[p|s]|], (intersection_point a' b') as [[p'|s']|]; cbn [correct] in C, C'; auto.
  - f_equal. f_equal. apply C', H, C. auto.
  - destruct C' as [N C']. exfalso. apply N. transitivity p; [|symmetry]; apply C, H, C'; [apply on_segment_start|apply on_segment_end].
  - exfalso. apply (C' p), H, C. auto.
  - destruct C as [N C]. exfalso. apply N. transitivity p'; [|symmetry]; apply C', H, C; [apply on_segment_start|apply on_segment_end].
  - destruct C as [N C], C' as [N' C']. specialize (Rw s eq_refl). specialize (Rw' s' eq_refl).
    destruct (segment_ends _ _ _ _ N N') as [[E1 E2]|[E1 E2]].
    + intros x. rewrite <- C, <- C'. apply H.
    + destruct s as [s1 s2], s' as [r1 r2]. cbn [lstart lend] in *. subst. auto.
    + exfalso. rewrite E1, E2 in Rw. destruct Rw as [?|[? ?]], Rw' as [?|[? ?]]; lra.
  - destruct C as [N C]. exfalso. apply (C' (lstart s)), H, C, on_segment_start.
  - exfalso. apply (C p'), H, C'. auto.
  - destruct C' as [N' C']. exfalso. apply (C (lstart s')), H, C', on_segment_start.
Qed.

(* ---- maps ---- *)
(* the image of a point under the affine map with matrix (a k; m c) and offset (b, d), and of a direction *)
Section Map.
  Context (a k m c b d : R) (det : a * c - k * m <> 0).
  Definition Tp (p : pt) : pt := @mkV2 RS (a * vx p + k * vy p + b) (m * vx p + c * vy p + d).
  Definition Tv (v : pt) : pt := @mkV2 RS (a * vx v + k * vy v) (m * vx v + c * vy v).
  Definition Tl (l : Line2 RS) : Line2 RS := @mkL RS (Tp (lstart l)) (Tp (lend l)).
  Definition Ti (i : Intersection RS) : Intersection RS := match i with IPoint p => IPoint (Tp p) | IOverlap s => IOverlap (Tl s) end.
  Lemma Tp_lerp s e t : Tp (lerp s e t) = lerp (Tp s) (Tp e) t.
  Proof. unfold Tp, lerp. apply V2_ext; rsimp; rring. Qed.
  Lemma Tp_inj p q : Tp p = Tp q -> p = q.
  Proof.
    intros E. assert (Ex := f_equal (fun v : pt => vx v) E). assert (Ey := f_equal (fun v : pt => vy v) E). unfold Tp in Ex, Ey. cbn [vx vy] in Ex, Ey.
    assert (X : (a * c - k * m) * (vx p - vx q) = 0).
    { replace ((a * c - k * m) * (vx p - vx q)) with (c * (a * vx p + k * vy p + b - (a * vx q + k * vy q + b)) - k * (m * vx p + c * vy p + d - (m * vx q + c * vy q + d))) by ring. rewrite Ex, Ey. ring. }
    assert (Y : (a * c - k * m) * (vy p - vy q) = 0).
    { replace ((a * c - k * m) * (vy p - vy q)) with (a * (m * vx p + c * vy p + d - (m * vx q + c * vy q + d)) - m * (a * vx p + k * vy p + b - (a * vx q + k * vy q + b))) by ring. rewrite Ex, Ey. ring. }
    apply Rmult_integral in X as [X|X]; [lra|]. apply Rmult_integral in Y as [Y|Y]; [lra|]. apply V2_ext; lra.
  Qed.
  Lemma Tp_sur q : exists p, Tp p = q.
  Proof.
    exists (@mkV2 RS ((c * (vx q - b) - k * (vy q - d)) / (a * c - k * m)) ((a * (vy q - d) - m * (vx q - b)) / (a * c - k * m))). unfold Tp. apply V2_ext; rsimp; field; auto.
  Qed.
  Lemma Tp_seg x p q : on_segment (Tp x) (Tp p) (Tp q) <-> on_segment x p q.
  Proof.
    split; intros (t & Ht & E); exists t; (split; [exact Ht|]); [apply Tp_inj; rewrite Tp_lerp; auto|rewrite E; apply Tp_lerp].
  Qed.
  Lemma T_common l l' q : common (Tl l) (Tl l') (Tp q) <-> common l l' q.
  Proof. unfold common, Tl. cbn [lstart lend]. rewrite !Tp_seg. tauto. Qed.

  (* up to the direction of an overlap *)
  Definition same_up_to_direction (i j : option (Intersection RS)) : Prop :=
    match i, j with
    | None, None => True
    | Some (IPoint p), Some (IPoint q) => p = q
    | Some (IOverlap s), Some (IOverlap t) => s = t \/ s = mkL (lend t) (lstart t)
    | _, _ => False
    end.
  Theorem intersection_mapped l l' : same_up_to_direction (intersection_point (Tl l) (Tl l')) (option_map Ti (intersection_point l l')).
  Proof.
    pose proof (intersection_correct l l') as C. pose proof (intersection_correct (Tl l) (Tl l')) as C'.
    destruct (intersection_point l l') as [[p|s]|], (intersection_point (Tl l) (Tl l')) as [[p'|s']|]; cbn [correct option_map Ti same_up_to_direction] in *; auto.
    - symmetry. apply C', T_common, C. auto.
    - destruct C' as [N C']. destruct (Tp_sur (lstart s')) as [x Ex], (Tp_sur (lend s')) as [y Ey]. apply N. rewrite <- Ex, <- Ey. f_equal.
      transitivity p; [|symmetry]; apply C, T_common; [rewrite Ex|rewrite Ey]; apply C'; [apply on_segment_start|apply on_segment_end].
    - apply (C' (Tp p)), T_common, C. auto.
    - destruct C as [N C]. apply N, Tp_inj. transitivity p'; [|symmetry]; apply C', T_common, C; [apply on_segment_start|apply on_segment_end].
    - destruct C as [N C], C' as [N' C'].
      destruct (segment_ends (lstart s') (lend s') (Tp (lstart s)) (Tp (lend s)) N') as [[E1 E2]|[E1 E2]].
      + intros Q. apply N, Tp_inj, Q.
      + intros x. destruct (Tp_sur x) as [y <-]. rewrite <- C', T_common, C, Tp_seg. tauto.
      + left. destruct s' as [r1 r2]. unfold Tl. cbn [lstart lend] in *. rewrite E1, E2. auto.
      + right. destruct s' as [r1 r2]. unfold Tl. cbn [lstart lend] in *. rewrite E1, E2. auto.
    - destruct C as [N C]. apply (C' (Tp (lstart s))), T_common, C, on_segment_start.
    - destruct (Tp_sur p') as [x Ex]. apply (C x), T_common. rewrite Ex. apply C'. auto.
    - destruct C' as [N C']. destruct (Tp_sur (lstart s')) as [x Ex]. apply (C x), T_common. rewrite Ex. apply C', on_segment_start.
  Qed.
  (* exactly, when left to right stays left to right *)
  Theorem intersection_moved l l' : 0 < a -> k = 0 -> 0 < c -> intersection_point (Tl l) (Tl l') = option_map Ti (intersection_point l l').
  Proof.
    intros Pa K0 Pc. pose proof (intersection_mapped l l') as H. pose proof (intersection_rightward l l') as Rw. pose proof (intersection_rightward (Tl l) (Tl l')) as Rw'.
    destruct (intersection_point l l') as [[p|s]|], (intersection_point (Tl l) (Tl l')) as [[p'|s']|]; cbn [option_map Ti same_up_to_direction] in *; try contradiction; auto.
    - subst; auto.
    - destruct H as [-> |H]; auto. exfalso. specialize (Rw s eq_refl). specialize (Rw' s' eq_refl). subst s'. unfold Tl, Tp in Rw'. cbn [lstart lend vx vy] in Rw'. subst k.
      set (X := vx (lend s) - vx (lstart s)) in *. set (Y := vy (lend s) - vy (lstart s)) in *.
      replace (a * vx (lstart s) + 0 * vy (lstart s) + b - (a * vx (lend s) + 0 * vy (lend s) + b)) with (- (a * X)) in Rw' by (unfold X; ring).
      replace (m * vx (lstart s) + c * vy (lstart s) + d - (m * vx (lend s) + c * vy (lend s) + d)) with (- (m * X) - c * Y) in Rw' by (unfold X, Y; ring).
      assert (Py : forall y, 0 < y -> 0 < c * y) by (intros; apply Rmult_lt_0_compat; auto). assert (Px : forall x, 0 < x -> 0 < a * x) by (intros; apply Rmult_lt_0_compat; auto).
      destruct Rw as [Q|[Q1 Q2]]; [specialize (Px _ Q)|specialize (Py _ Q2); rewrite Q1 in Rw']; destruct Rw' as [W|[W1 W2]]; lra.
  Qed.

  (* ---- rays ---- *)
  Lemma T_ray o v t : Tp (ray_at o v t) = ray_at (Tp o) (Tv v) t.
  Proof. unfold Tp, Tv, ray_at. apply V2_ext; rsimp; rring. Qed.
  Lemma Tv_nz (v : pt) : vx v <> 0 \/ vy v <> 0 -> vx (Tv v) <> 0 \/ vy (Tv v) <> 0.
  Proof.
    intros H. destruct (Req_dec (vx (Tv v)) 0) as [E|]; [|auto]. right. intros E2. unfold Tv in E, E2. cbn [vx vy] in E, E2.
    assert (X : (a * c - k * m) * vx v = 0) by (replace ((a * c - k * m) * vx v) with (c * (a * vx v + k * vy v) - k * (m * vx v + c * vy v)) by ring; rewrite E, E2; ring).
    assert (Y : (a * c - k * m) * vy v = 0) by (replace ((a * c - k * m) * vy v) with (a * (m * vx v + c * vy v) - m * (a * vx v + k * vy v)) by ring; rewrite E, E2; ring).
    apply Rmult_integral in X as [X|X]; [lra|]. apply Rmult_integral in Y as [Y|Y]; lra.
  Qed.
  Lemma ray_inj (o v : pt) t t' : vx v <> 0 \/ vy v <> 0 -> ray_at o v t = ray_at o v t' -> t = t'.
  Proof.
    intros Hv E. assert (Ex := f_equal (fun v : pt => vx v) E). assert (Ey := f_equal (fun v : pt => vy v) E). unfold ray_at in Ex, Ey. cbn [vx vy] in Ex, Ey.
    apply (line_param_inj (vx o) (vy o) (vx v) (vy v)); auto. pose proof (sq_nn (vx v)); pose proof (sq_nn (vy v)). destruct Hv as [Hv|Hv]; apply sq_pos in Hv; lra.
  Qed.
  Theorem ray_edge_mapped (o v p q : pt) : vx v <> 0 \/ vy v <> 0 -> ray_edge_intersection (Tp o) (Tv v) (Tp p) (Tp q) = ray_edge_intersection o v p q.
  Proof.
    intros Hv. pose proof (Tv_nz v Hv) as Hv'.
    assert (Pr : vx (Tv v) * (vy (Tp q) - vy (Tp p)) - vy (Tv v) * (vx (Tp q) - vx (Tp p)) = (a * c - k * m) * (vx v * (vy q - vy p) - vy v * (vx q - vx p))).
    { unfold Tv, Tp. cbn [vx vy]. ring. }
    destruct (Req_dec (vx v * (vy q - vy p) - vy v * (vx q - vx p)) 0) as [E|E].
    - assert (E' : vx (Tv v) * (vy (Tp q) - vy (Tp p)) - vy (Tv v) * (vx (Tp q) - vx (Tp p)) = 0) by (rewrite Pr, E; ring).
      pose proof (ray_edge_parallel o v p q Hv E) as G. pose proof (ray_edge_parallel (Tp o) (Tv v) (Tp p) (Tp q) Hv' E') as G'.
      destruct (ray_edge_intersection o v p q) as [t|], (ray_edge_intersection (Tp o) (Tv v) (Tp p) (Tp q)) as [t'|]; auto.
      + destruct G as (t0 & t1 & E0 & E1 & ->), G' as (u0 & u1 & F0 & F1 & ->). rewrite E0, T_ray in F0. rewrite E1, T_ray in F1.
        apply ray_inj in F0, F1; auto. subst. auto.
      + destruct G as (t0 & t1 & E0 & E1 & ->). exfalso. apply (G' t0). rewrite <- T_ray, <- E0. apply on_segment_start.
      + destruct G' as (t0 & t1 & E0 & E1 & ->). exfalso. apply (G t0). apply Tp_seg. rewrite T_ray, <- E0. apply on_segment_start.
    - assert (E' : vx (Tv v) * (vy (Tp q) - vy (Tp p)) - vy (Tv v) * (vx (Tp q) - vx (Tp p)) <> 0) by (rewrite Pr; intros Z; apply Rmult_integral in Z as [Z|Z]; auto).
      assert (H : forall t, ray_edge_intersection (Tp o) (Tv v) (Tp p) (Tp q) = Some t <-> ray_edge_intersection o v p q = Some t).
      { intros t. rewrite ray_edge_cross by exact E'. rewrite ray_edge_cross by exact E. rewrite <- T_ray, Tp_seg. tauto. }
      destruct (ray_edge_intersection o v p q) as [t|]; [apply H; auto|].
      destruct (ray_edge_intersection (Tp o) (Tv v) (Tp p) (Tp q)) as [t'|]; auto. discriminate (proj1 (H t') eq_refl).
  Qed.
  Lemma windows_map {A B} (f : A -> B) l : windows (map f l) = map (fun w => (f (fst w), f (snd w))) (windows l).
  Proof. induction l as [|x [|y l] IH]; auto. change (windows (map f (x :: y :: l))) with ((f x, f y) :: windows (map f (y :: l))). rewrite IH. reflexivity. Qed.
  Lemma ray_point o v t : scale_to_coordinate (S := RS) o v t = ray_at o v t.
  Proof. unfold scale_to_coordinate, vadd, vscale, ray_at. apply V2_ext; rsimp; rring. Qed.
  Theorem closest_mapped (l : list pt) (o v : pt) : vx v <> 0 \/ vy v <> 0 ->
    closest_ray_intersection (map Tp l) (Tv v) (Tp o) = option_map Tp (closest_ray_intersection l v o).
  Proof.
    intros Hv. unfold closest_ray_intersection. rewrite map_length. destruct (Nat.leb (length l) 1); [reflexivity|].
    assert (H : fold_left (ray_step (Tp o) (Tv v)) (windows (map Tp l)) None = fold_left (ray_step o v) (windows l) None).
    { rewrite windows_map. generalize (@None (car RS)). induction (windows l) as [|w ws IH]; intros acc; [reflexivity|]. cbn [map fold_left].
      replace (ray_step (Tp o) (Tv v) acc (Tp (fst w), Tp (snd w))) with (ray_step o v acc w); [apply IH|].
      unfold ray_step. cbn [fst snd]. rewrite ray_edge_mapped by exact Hv. reflexivity. }
    rewrite H. destruct (fold_left (ray_step o v) (windows l) None) as [t|]; cbn [option_map]; [|reflexivity].
    f_equal. pose proof (T_ray o v t) as Q. unfold ray_at in Q. unfold vadd, vscale. cbn [sadd smul RS] in *. rewrite Rmult_comm, (Rmult_comm (vy (Tv v))), (Rmult_comm (vx v)), (Rmult_comm (vy v)). symmetry. exact Q.
  Qed.
End Map.
