(* Proofs about segment intersection, rays and self-intersection in exact arithmetic (Geo2.v). *)
From Coq Require Import Reals Lra Psatz.
From Verif Require Import Prelude Scalar RInst Geo2 GeoSpec DistR.
Local Open Scope R_scope.

(* q is a point of both segments *)
Definition common (a b : Line2 RS) (q : pt) : Prop :=
  on_segment q (lstart a) (lend a) /\ on_segment q (lstart b) (lend b).
(* the set of points a reported intersection stands for *)
Definition described (i : option (Intersection RS)) (q : pt) : Prop :=
  match i with
  | None => False
  | Some (IPoint p) => q = p
  | Some (IOverlap s) => on_segment q (lstart s) (lend s)
  end.

Lemma on_segment_coord (x y ax ay bx by_ : R) :
  on_segment (@mkV2 RS x y) (@mkV2 RS ax ay) (@mkV2 RS bx by_) <->
  exists t, 0 <= t <= 1 /\ x = ax + t * (bx - ax) /\ y = ay + t * (by_ - ay).
Proof.
  unfold on_segment, lerp. rsimp. split; intros (t & Ht & E); exists t; (split; [auto|]).
  - injection E; auto.
  - destruct E as [-> ->]; auto.
Qed.

Lemma on_segment_sym p a b : on_segment p a b <-> on_segment p b a.
Proof.
  destruct p, a, b. rewrite !on_segment_coord.
  split; intros (t & Ht & E1 & E2); exists (1 - t); (split; [lra|]); rewrite E1, E2; split; ring.
Qed.

Lemma on_segment_start a b : on_segment a a b.
Proof. destruct a, b. apply on_segment_coord. exists 0. repeat split; try lra; ring. Qed.
Lemma on_segment_end a b : on_segment b a b.
Proof. apply on_segment_sym, on_segment_start. Qed.
Lemma on_segment_point p a : on_segment p a a <-> p = a.
Proof.
  split; [|intros ->; apply on_segment_start].
  destruct p, a. rewrite on_segment_coord. intros (t & _ & E1 & E2). f_equal; [rewrite E1|rewrite E2]; rring.
Qed.

Lemma mul01 t d : 0 <= t <= 1 -> (0 <= d -> 0 <= t * d <= d) /\ (d <= 0 -> d <= t * d <= 0).
Proof. intros Ht. split; intros Hd; split; nra. Qed.

Lemma on_segment_range p a b : on_segment p a b ->
  Rmin (vx a) (vx b) <= vx p <= Rmax (vx a) (vx b) /\ Rmin (vy a) (vy b) <= vy p <= Rmax (vy a) (vy b).
Proof.
  destruct p as [x y], a as [ax ay], b as [bx by_]. rewrite on_segment_coord. intros (t & Ht & -> & ->). rsimp.
  pose proof (mul01 t (bx - ax) Ht). pose proof (mul01 t (by_ - ay) Ht).
  unfold Rmin, Rmax. destruct (Rle_dec ax bx), (Rle_dec ay by_); lra.
Qed.

(* ---- C31: the triangle inequality is an equality exactly on the segment ---- *)
Lemma sqrt_scale t d : 0 <= t -> 0 <= d -> sqrt (t * t * d) = t * sqrt d.
Proof.
  intros Ht Hd. rewrite sqrt_mult by (try apply sq_nn; auto). rewrite sqrt_square by auto. auto.
Qed.

Lemma triangle_eq (ux uy dx dy : R) :
  sqrt (dx * dx + dy * dy) = sqrt (ux * ux + uy * uy) + sqrt ((dx - ux) * (dx - ux) + (dy - uy) * (dy - uy)) ->
  exists t, 0 <= t <= 1 /\ ux = t * dx /\ uy = t * dy.
Proof.
  set (A := dx * dx + dy * dy). set (B := ux * ux + uy * uy). set (C := (dx - ux) * (dx - ux) + (dy - uy) * (dy - uy)).
  assert (HA : 0 <= A) by (unfold A; pose proof (sq_nn dx); pose proof (sq_nn dy); lra).
  assert (HB : 0 <= B) by (unfold B; pose proof (sq_nn ux); pose proof (sq_nn uy); lra).
  assert (HC : 0 <= C) by (unfold C; pose proof (sq_nn (dx - ux)); pose proof (sq_nn (dy - uy)); lra).
  intros H. pose proof (sqrt_pos A) as PA. pose proof (sqrt_pos B) as PB. pose proof (sqrt_pos C) as PC.
  assert (EC : C = A - 2 * (dx * ux + dy * uy) + B) by (unfold A, B, C; ring).
  assert (D : dx * ux + dy * uy = sqrt A * sqrt B).
  { assert (E : sqrt C * sqrt C = (sqrt A - sqrt B) * (sqrt A - sqrt B)) by (replace (sqrt C) with (sqrt A - sqrt B) by lra; ring).
    rewrite sqrt_sqrt in E by auto. pose proof (sqrt_sqrt A HA). pose proof (sqrt_sqrt B HB).
    replace ((sqrt A - sqrt B) * (sqrt A - sqrt B)) with (sqrt A * sqrt A - 2 * (sqrt A * sqrt B) + sqrt B * sqrt B) in E by ring. lra. }
  assert (X : (dx * uy - dy * ux) * (dx * uy - dy * ux) = 0).
  { replace ((dx * uy - dy * ux) * (dx * uy - dy * ux)) with (A * B - (dx * ux + dy * uy) * (dx * ux + dy * uy)) by (unfold A, B; ring).
    rewrite D. replace (sqrt A * sqrt B * (sqrt A * sqrt B)) with ((sqrt A * sqrt A) * (sqrt B * sqrt B)) by ring.
    rewrite !sqrt_sqrt by auto. ring. }
  apply Rmult_integral in X. assert (X0 : dx * uy - dy * ux = 0) by tauto. clear X.
  destruct (Req_dec A 0) as [Z|NZ].
  - assert (Hdx : dx = 0). { destruct (Req_dec dx 0); auto. pose proof (sq_pos dx H0). pose proof (sq_nn dy). unfold A in Z. lra. }
    assert (Hdy : dy = 0). { destruct (Req_dec dy 0); auto. pose proof (sq_pos dy H0). pose proof (sq_nn dx). unfold A in Z. lra. }
    rewrite Z, sqrt_0 in H. assert (sqrt B = 0) by lra. apply sqrt_eq_0 in H0; auto.
    exists 0. split; [lra|]. subst dx dy.
    assert (ux = 0). { destruct (Req_dec ux 0); auto. pose proof (sq_pos ux H1). pose proof (sq_nn uy). unfold B in H0. lra. }
    assert (uy = 0). { destruct (Req_dec uy 0); auto. pose proof (sq_pos uy H2). pose proof (sq_nn ux). unfold B in H0. lra. }
    lra.
  - assert (PA' : 0 < A) by lra. exists ((dx * ux + dy * uy) / A). split; [split|split].
    + rewrite D. apply Rmult_le_pos; [nra|]. left. apply Rinv_0_lt_compat; auto.
    + apply Rmult_le_reg_r with A; auto. unfold Rdiv. rewrite Rmult_assoc, Rinv_l by auto. rewrite Rmult_1_r, Rmult_1_l.
      rewrite D. rewrite <- (sqrt_sqrt A) at 2 by auto. apply Rmult_le_compat_l; auto. lra.
    + apply Rmult_eq_reg_r with A; auto. field_simplify; auto. unfold A. 
      replace (ux * (dx * dx + dy * dy)) with ((dx * ux + dy * uy) * dx - dy * (dx * uy - dy * ux)) by ring. rewrite X0. ring.
    + apply Rmult_eq_reg_r with A; auto. field_simplify; auto. unfold A.
      replace (uy * (dx * dx + dy * dy)) with ((dx * ux + dy * uy) * dy + dx * (dx * uy - dy * ux)) by ring. rewrite X0. ring.
Qed.

Lemma intersect_line_point_R (l : Line2 RS) (p : pt) :
  match intersect_line_point l p with
  | Some i => i = IPoint p /\ on_segment p (lstart l) (lend l)
  | None => ~ on_segment p (lstart l) (lend l)
  end.
Proof.
  destruct l as [a b]. unfold intersect_line_point. cbn [lstart lend].
  destruct (sulps (vx a) (vx p) && sulps (vy a) (vy p))%bool eqn:E1.
  { change (vulps a p = true) in E1. apply vulps_R in E1. subst. split; auto. apply on_segment_start. }
  destruct (sulps (vx b) (vx p) && sulps (vy b) (vy p))%bool eqn:E2.
  { change (vulps b p = true) in E2. apply vulps_R in E2. subst. split; auto. apply on_segment_end. }
  clear E1 E2. destruct p as [x y], a as [ax ay], b as [bx by_]. rsimp.
  match goal with |- context [Reqb ?u ?v] => destruct (Reqb_spec u v) as [E|E] end.
  - split; auto. rewrite on_segment_coord. destruct (triangle_eq (x - ax) (y - ay) (bx - ax) (by_ - ay)) as (t & Ht & E1 & E2).
    + rewrite E. f_equal. f_equal. ring.
    + exists t. lra.
  - rewrite on_segment_coord. intros (t & Ht & -> & ->). apply E.
    replace ((ax + t * (bx - ax) - ax) * (ax + t * (bx - ax) - ax) + (ay + t * (by_ - ay) - ay) * (ay + t * (by_ - ay) - ay))
      with (t * t * ((bx - ax) * (bx - ax) + (by_ - ay) * (by_ - ay))) by ring.
    replace ((bx - (ax + t * (bx - ax))) * (bx - (ax + t * (bx - ax))) + (by_ - (ay + t * (by_ - ay))) * (by_ - (ay + t * (by_ - ay))))
      with ((1 - t) * (1 - t) * ((bx - ax) * (bx - ax) + (by_ - ay) * (by_ - ay))) by ring.
    rewrite !sqrt_scale by (try lra; pose proof (sq_nn (bx - ax)); pose proof (sq_nn (by_ - ay)); lra). ring.
Qed.

(* ---- parallel directions ---- *)
(* lexicographically positive direction *)
Definition lexpos (rx ry : R) : Prop := 0 < rx \/ (rx = 0 /\ 0 < ry).

Lemma parallel_multiple rx ry sx sy : rx * rx + ry * ry <> 0 -> sx * ry - sy * rx = 0 ->
  sx = (sx * rx + sy * ry) / (rx * rx + ry * ry) * rx /\ sy = (sx * rx + sy * ry) / (rx * rx + ry * ry) * ry.
Proof.
  intros H E. split; apply Rmult_eq_reg_r with (rx * rx + ry * ry); auto; field_simplify; auto.
  - replace (sx * rx ^ 2 + sx * ry ^ 2) with (sx * rx ^ 2 + rx * sy * ry + ry * (sx * ry - sy * rx)) by ring. rewrite E. ring.
  - replace (sy * rx ^ 2 + sy * ry ^ 2) with (sx * rx * ry + ry ^ 2 * sy - rx * (sx * ry - sy * rx)) by ring. rewrite E. ring.
Qed.

Lemma lexpos_multiple rx ry k : lexpos rx ry -> lexpos (k * rx) (k * ry) -> 0 < k.
Proof.
  intros [H|[H H']] [G|[G G']].
  - destruct (Rle_dec k 0); [nra|lra].
  - apply Rmult_integral in G as [->| ->]; lra.
  - rewrite H in G. lra.
  - destruct (Rle_dec k 0); [nra|lra].
Qed.

Lemma lexpos_nz rx ry : lexpos rx ry -> rx * rx + ry * ry <> 0.
Proof.
  intros [H|[H H']]; [pose proof (sq_pos rx)|pose proof (sq_pos ry)]; pose proof (sq_nn rx); pose proof (sq_nn ry); lra.
Qed.

Lemma normalise (a b : pt) : a <> b -> exists p rx ry,
  (if precedes a b then (b, vneg (vsub b a)) else (a, vsub b a)) = (p, @mkV2 RS rx ry) /\ lexpos rx ry /\
  ((vx b - vx a = rx /\ vy b - vy a = ry) \/ (vx b - vx a = - rx /\ vy b - vy a = - ry)) /\
  (forall q, on_segment q a b <-> on_segment q p (@mkV2 RS (vx p + rx) (vy p + ry))) /\
  Rmin (vx a) (vx b) = vx p /\ Rmax (vx a) (vx b) = vx p + rx /\
  (rx = 0 -> Rmin (vy a) (vy b) = vy p /\ Rmax (vy a) (vy b) = vy p + ry).
Proof.
  destruct a as [ax ay], b as [bx by_]. intros Hne.
  assert (Hne' : ~ (ax = bx /\ ay = by_)) by (intros [-> ->]; auto). clear Hne.
  unfold precedes. rsimp.
  destruct (Rltb_spec bx ax) as [H|H]; [|destruct (Rltb_spec by_ ay) as [H1|H1]; [destruct (Reqb_spec ax bx) as [H2|H2]|]]; cbn [andb];
   [exists (@mkV2 RS bx by_), (ax - bx), (ay - by_)|exists (@mkV2 RS bx by_), (ax - bx), (ay - by_)|
    exists (@mkV2 RS ax ay), (bx - ax), (by_ - ay)|exists (@mkV2 RS ax ay), (bx - ax), (by_ - ay)].
  1,2: split; [unfold vneg, vsub; rsimp; f_equal; f_equal; ring|].
  3,4: split; [reflexivity|].
  all: split; [unfold lexpos; lra|]; split; [rsimp; lra|]; rsimp.
  1,2: split; [intros q; replace (bx + (ax - bx)) with ax by ring; replace (by_ + (ay - by_)) with ay by ring; apply on_segment_sym|].
  3,4: split; [intros q; replace (ax + (bx - ax)) with bx by ring; replace (ay + (by_ - ay)) with by_ by ring; tauto|].
  all: unfold Rmin, Rmax; destruct (Rle_dec ax bx), (Rle_dec ay by_); repeat split; try lra.
Qed.

Lemma on_segment_dir (x y a b rx ry : R) :
  on_segment (@mkV2 RS x y) (@mkV2 RS a b) (@mkV2 RS (a + rx) (b + ry)) <->
  exists t, 0 <= t <= 1 /\ x = a + t * rx /\ y = b + t * ry.
Proof.
  rewrite on_segment_coord. split; intros (t & Ht & E1 & E2); exists t; (split; [auto|]); rewrite E1, E2; split; ring.
Qed.

(* the stretch of a line between two parameters *)
Lemma on_segment_params (px py rx ry u v x y : R) : u <= v -> rx * rx + ry * ry <> 0 ->
  on_segment (@mkV2 RS x y) (@mkV2 RS (px + u * rx) (py + u * ry)) (@mkV2 RS (px + v * rx) (py + v * ry)) <->
  exists t, u <= t <= v /\ x = px + t * rx /\ y = py + t * ry.
Proof.
  intros Huv Hn. rewrite on_segment_coord. split.
  - intros (t & Ht & -> & ->). exists (u + t * (v - u)). pose proof (mul01 t (v - u) Ht). repeat split; try lra; ring.
  - intros (t & Ht & -> & ->). destruct (Req_dec u v) as [E|E].
    + exists 0. replace t with u by lra. repeat split; try lra; ring.
    + exists ((t - u) / (v - u)). split; [|split; field; lra]. split.
      * apply Rmult_le_pos; [lra|]. left; apply Rinv_0_lt_compat; lra.
      * apply Rmult_le_reg_r with (v - u); [lra|]. unfold Rdiv. rewrite Rmult_assoc, Rinv_l by lra. lra.
Qed.

Lemma line_param_inj (px py rx ry t u : R) : rx * rx + ry * ry <> 0 ->
  px + t * rx = px + u * rx -> py + t * ry = py + u * ry -> t = u.
Proof.
  intros Hn E1 E2. assert (A : (t - u) * (rx * rx + ry * ry) = 0).
  { replace ((t - u) * (rx * rx + ry * ry)) with ((px + t * rx - (px + u * rx)) * rx + (py + t * ry - (py + u * ry)) * ry) by ring.
    rewrite E1, E2. ring. }
  apply Rmult_integral in A as [A|A]; lra.
Qed.

Definition correct (a b : Line2 RS) (i : option (Intersection RS)) : Prop :=
  match i with
  | None => forall q, ~ common a b q
  | Some (IPoint p) => forall q, common a b q <-> q = p
  | Some (IOverlap s) => lstart s <> lend s /\ forall q, common a b q <-> on_segment q (lstart s) (lend s)
  end.

Lemma parallel_correct (a b : Line2 RS) :
  lstart a <> lend a -> lstart b <> lend b ->
  vperp (vsub (lend a) (lstart a)) (vsub (lend b) (lstart b)) = 0 ->
  (Rmin (vx (lstart b)) (vx (lend b)) <= Rmax (vx (lstart a)) (vx (lend a)) /\
   Rmin (vx (lstart a)) (vx (lend a)) <= Rmax (vx (lstart b)) (vx (lend b)) /\
   Rmin (vy (lstart b)) (vy (lend b)) <= Rmax (vy (lstart a)) (vy (lend a)) /\
   Rmin (vy (lstart a)) (vy (lend a)) <= Rmax (vy (lstart b)) (vy (lend b))) ->
  correct a b (intersection_parallel a b).
Proof.
  destruct a as [a1 a2], b as [b1 b2]. cbn [lstart lend]. intros Ha Hb Hp HB.
  unfold intersection_parallel. cbn [lstart lend].
  destruct (normalise a1 a2 Ha) as (p & rx & ry & -> & Lr & Da & Sa & Na1 & Na2 & Na3).
  destruct (normalise b1 b2 Hb) as (q & sx & sy & -> & Ls & Db & Sb & Nb1 & Nb2 & Nb3).
  unfold vperp, vsub in Hp. rsimp.
  assert (Hx : sx * ry - sy * rx = 0) by (destruct Da as [[Da1 Da2]|[Da1 Da2]], Db as [[Db1 Db2]|[Db1 Db2]];
    rewrite Da1, Da2, Db1, Db2 in Hp; lra).
  clear Hp Da Db.
  destruct p as [px py], q as [qx qy]. rewrite Na1, Na2, Nb1, Nb2 in HB. rsimp.
  pose proof (lexpos_nz _ _ Lr) as Nr.
  destruct (parallel_multiple rx ry sx sy Nr Hx) as [Ks1 Ks2].
  set (k := (sx * rx + sy * ry) / (rx * rx + ry * ry)) in *.
  assert (Kp : 0 < k) by (apply (lexpos_multiple rx ry); auto; rewrite <- Ks1, <- Ks2; auto).
  assert (Hcom : forall x y, common (mkL a1 a2) (mkL b1 b2) (@mkV2 RS x y) <->
     (exists t, 0 <= t <= 1 /\ x = px + t * rx /\ y = py + t * ry) /\ (exists t, 0 <= t <= 1 /\ x = qx + t * sx /\ y = qy + t * sy)).
  { intros x y. unfold common. cbn [lstart lend]. rewrite Sa, Sb. rsimp. rewrite !on_segment_dir. tauto. }
  unfold vperp, vdot, vsub, vadd, vscale. rsimp. fold k.
  match goal with |- context [Reqb ?u 0] => destruct (Reqb_spec u 0) as [E|E] end.
  - destruct (parallel_multiple rx ry (qx - px) (qy - py) Nr E) as [Kq1 Kq2].
    set (t0 := ((qx - px) * rx + (qy - py) * ry) / (rx * rx + ry * ry)) in *.
    set (t1 := t0 + k).
    assert (Ht0 : t0 <= 1 /\ 0 <= t1).
    { destruct Lr as [Lr|[Lr0 Lr]].
      - split; apply Rmult_le_reg_r with rx; auto; unfold t1; lra.
      - destruct (Na3 Lr0) as [Na4 Na5]. rewrite Lr0, Rmult_0_r in Ks1. destruct (Nb3 Ks1) as [Nb4 Nb5].
        rewrite Na4, Na5, Nb4, Nb5 in HB. split; apply Rmult_le_reg_r with ry; auto; unfold t1; lra. }
    set (u := Rmax t0 0). set (v := Rmin t1 1).
    assert (Huv : u <= v /\ t0 <= u /\ 0 <= u /\ v <= t1 /\ v <= 1 /\ (u = t0 \/ u = 0) /\ (v = t1 \/ v = 1)).
    { unfold u, v, Rmax, Rmin. unfold t1 in *. destruct (Rle_dec t0 0), (Rle_dec (t0 + k) 1); repeat split; lra. }
    assert (Hset : forall x y, common (mkL a1 a2) (mkL b1 b2) (@mkV2 RS x y) <-> exists t, u <= t <= v /\ x = px + t * rx /\ y = py + t * ry).
    { intros x y. rewrite Hcom. split.
      - intros [(t & Ht & E1 & E2) (w & Hw & E3 & E4)]. exists t. split; auto.
        assert (t = t0 + w * k).
        { apply (line_param_inj px py rx ry); auto.
          - rewrite <- E1, E3, Ks1. replace qx with (px + (qx - px)) by ring. rewrite Kq1. ring.
          - rewrite <- E2, E4, Ks2. replace qy with (py + (qy - py)) by ring. rewrite Kq2. ring. }
        pose proof (mul01 w k Hw) as [M _]. specialize (M (Rlt_le _ _ Kp)). unfold t1 in *. unfold u, v, Rmax, Rmin.
        destruct (Rle_dec t0 0), (Rle_dec (t0 + k) 1); split; lra.
      - intros (t & Ht & E1 & E2). split; [exists t; repeat split; try lra|].
        exists ((t - t0) / k). split.
        + split; [apply Rmult_le_pos; [lra|]; left; apply Rinv_0_lt_compat; auto|].
          apply Rmult_le_reg_r with k; auto. unfold Rdiv. rewrite Rmult_assoc, Rinv_l by lra. unfold t1 in *. lra.
        + split.
          * rewrite E1, Ks1. replace qx with (px + t0 * rx) by lra. field. lra.
          * rewrite E2, Ks2. replace qy with (py + t0 * ry) by lra. field. lra. }
    rewrite (Rmult_comm rx u), (Rmult_comm ry u), (Rmult_comm rx v), (Rmult_comm ry v).
    destruct (veqb (@mkV2 RS (px + u * rx) (py + u * ry)) (@mkV2 RS (px + v * rx) (py + v * ry))) eqn:Ev; cbn [correct].
    + apply veqb_R in Ev. injection Ev as Ev1 Ev2. assert (Euv : u = v) by (apply (line_param_inj px py rx ry); auto).
      intros [x y]. rewrite Hset. split.
      * intros (t & Ht & -> & ->). replace t with u by lra. auto.
      * intros Exy. injection Exy as -> ->. exists u. repeat split; lra.
    + cbn [lstart lend]. split.
      * intros Ee. apply veqb_R in Ee. congruence.
      * intros [x y]. rewrite Hset, on_segment_params by tauto. tauto.
  - cbn [correct]. intros [x y]. rewrite Hcom. intros [(t & _ & E1 & E2) (w & _ & E3 & E4)]. apply E.
    replace (qx - px) with (t * rx - w * sx) by lra. replace (qy - py) with (t * ry - w * sy) by lra.
    replace ((t * rx - w * sx) * ry - (t * ry - w * sy) * rx) with (- w * (sx * ry - sy * rx)) by ring. rewrite Hx. ring.
Qed.

Lemma cross_correct (a b : Line2 RS) :
  vperp (vsub (lend a) (lstart a)) (vsub (lend b) (lstart b)) <> 0 -> correct a b (intersection_cross a b).
Proof.
  destruct a as [[a1x a1y] [a2x a2y]], b as [[b1x b1y] [b2x b2y]]. unfold intersection_cross, vperp, vsub, vadd, vscale, in_range. rsimp.
  cbn [lstart lend]. rsimp. intros Hn.
  set (D := (a2x - a1x) * (b2y - b1y) - (a2y - a1y) * (b2x - b1x)) in *.
  set (t := ((b1x - a1x) * (b2y - b1y) - (b1y - a1y) * (b2x - b1x)) / D).
  set (u := ((b1x - a1x) * (a2y - a1y) - (b1y - a1y) * (a2x - a1x)) / D).
  assert (Uniq : forall t' u', a1x + t' * (a2x - a1x) = b1x + u' * (b2x - b1x) -> a1y + t' * (a2y - a1y) = b1y + u' * (b2y - b1y) -> t' = t /\ u' = u).
  { intros t' u' E1 E2. split; apply Rmult_eq_reg_r with D; auto; unfold t, u, Rdiv; rewrite Rmult_assoc, Rinv_l, Rmult_1_r by auto; unfold D.
    - replace (b1x - a1x) with (t' * (a2x - a1x) - u' * (b2x - b1x)) by lra.
      replace (b1y - a1y) with (t' * (a2y - a1y) - u' * (b2y - b1y)) by lra. ring.
    - replace (b1x - a1x) with (t' * (a2x - a1x) - u' * (b2x - b1x)) by lra.
      replace (b1y - a1y) with (t' * (a2y - a1y) - u' * (b2y - b1y)) by lra. ring. }
  assert (Sol : a1x + t * (a2x - a1x) = b1x + u * (b2x - b1x) /\ a1y + t * (a2y - a1y) = b1y + u * (b2y - b1y)).
  { unfold t, u. split; apply Rmult_eq_reg_r with D; auto; field_simplify; auto; unfold D; ring. }
  destruct (Rleb_spec 0 t), (Rleb_spec t 1), (Rleb_spec 0 u), (Rleb_spec u 1); cbn [andb correct].
  1: { intros [x y]. unfold common. cbn [lstart lend]. rewrite !on_segment_coord. split.
       - intros [(t' & Ht & E1 & E2) (u' & Hu & E3 & E4)]. destruct (Uniq t' u') as [-> _]; [lra|lra|]. subst x y. apply V2_ext; rsimp; ring.
       - intros E. injection E as -> ->. split; [exists t|exists u]; (split; [lra|]); lra. }
  all: intros [x y] Hc; unfold common in Hc; cbn [lstart lend] in Hc; rewrite !on_segment_coord in Hc;
       destruct Hc as [(t' & Ht & E1 & E2) (u' & Hu & E3 & E4)]; destruct (Uniq t' u') as [-> ->]; lra.
Qed.

Lemma intersection_correct (a b : Line2 RS) : correct a b (intersection_point a b).
Proof.
  unfold intersection_point.
  destruct (vulps (lstart a) (lend a)) eqn:Da.
  { apply vulps_R in Da. pose proof (intersect_line_point_R b (lstart a)) as H.
    assert (G : forall q, common a b q <-> (q = lstart a /\ on_segment q (lstart b) (lend b))).
    { intros q. unfold common. rewrite <- Da, on_segment_point. tauto. }
    destruct (intersect_line_point b (lstart a)) as [i|]; cbn [correct].
    - destruct H as [-> H]. intros q. rewrite G. split; [tauto|intros ->; auto].
    - intros q. rewrite G. intros [-> ?]; auto. }
  destruct (vulps (lstart b) (lend b)) eqn:Db.
  { apply vulps_R in Db. pose proof (intersect_line_point_R a (lstart b)) as H.
    assert (G : forall q, common a b q <-> (q = lstart b /\ on_segment q (lstart a) (lend a))).
    { intros q. unfold common. rewrite <- Db, on_segment_point. tauto. }
    destruct (intersect_line_point a (lstart b)) as [i|]; cbn [correct].
    - destruct H as [-> H]. intros q. rewrite G. split; [tauto|intros ->; auto].
    - intros q. rewrite G. intros [-> ?]; auto. }
  assert (Na : lstart a <> lend a) by (intros E; apply vulps_R in E; congruence).
  assert (Nb : lstart b <> lend b) by (intros E; apply vulps_R in E; congruence).
  cbv zeta.
  match goal with |- correct a b (if ?c then _ else _) => destruct c eqn:B end.
  { cbn [correct]. intros q [Ha Hb]. apply on_segment_range in Ha, Hb. rsimp.
    rewrite !orb_true_iff, !Rltb_true in B. lra. }
  rsimp. rewrite !orb_false_iff, !Rltb_false in B.
  match goal with |- correct a b (if Reqb ?c 0 then _ else _) => destruct (Reqb_spec c 0) as [E|E] end.
  - apply parallel_correct; auto. tauto.
  - apply cross_correct. auto.
Qed.

(* ---- rays ---- *)
Definition ray_at (o d : pt) (t : R) : pt := @mkV2 RS (vx o + t * vx d) (vy o + t * vy d).

Lemma ray_edge_cross (o d p0 p1 : pt) t :
  vx d * (vy p1 - vy p0) - vy d * (vx p1 - vx p0) <> 0 ->
  (ray_edge_intersection o d p0 p1 = Some t <-> 0 <= t /\ on_segment (ray_at o d t) p0 p1).
Proof.
  destruct o as [ox oy], d as [dx dy], p0 as [ax ay], p1 as [bx by_]. unfold ray_at. rewrite on_segment_coord.
  unfold ray_edge_intersection, vperp, vsub, in_range. rsimp. intros Hn.
  destruct (Reqb_spec (dx * (by_ - ay) - dy * (bx - ax)) 0) as [E|_]; [tauto|].
  set (D := dx * (by_ - ay) - dy * (bx - ax)) in *.
  set (T := ((ax - ox) * (by_ - ay) - (ay - oy) * (bx - ax)) / D).
  set (U := ((ax - ox) * dy - (ay - oy) * dx) / D).
  assert (Uniq : forall t' u', ox + t' * dx = ax + u' * (bx - ax) -> oy + t' * dy = ay + u' * (by_ - ay) -> t' = T /\ u' = U).
  { intros t' u' E1 E2. split; apply Rmult_eq_reg_r with D; auto; unfold T, U, Rdiv; rewrite Rmult_assoc, Rinv_l, Rmult_1_r by auto; unfold D.
    - replace (ax - ox) with (t' * dx - u' * (bx - ax)) by lra. replace (ay - oy) with (t' * dy - u' * (by_ - ay)) by lra. ring.
    - replace (ax - ox) with (t' * dx - u' * (bx - ax)) by lra. replace (ay - oy) with (t' * dy - u' * (by_ - ay)) by lra. ring. }
  assert (Sol : ox + T * dx = ax + U * (bx - ax) /\ oy + T * dy = ay + U * (by_ - ay)).
  { unfold T, U. split; apply Rmult_eq_reg_r with D; auto; field_simplify; auto; unfold D; ring. }
  split.
  - destruct (Rleb_spec 0 T), (Rleb_spec 0 U), (Rleb_spec U 1); cbn [andb]; try discriminate.
    intros E. injection E as <-. split; auto. exists U. lra.
  - intros [Ht (u & Hu & E1 & E2)]. destruct (Uniq t u E1 E2) as [-> ->].
    rewrite !(proj2 (Rleb_true _ _)) by lra. auto.
Qed.

Lemma ray_edge_parallel (o d p0 p1 : pt) :
  (vx d <> 0 \/ vy d <> 0) -> vx d * (vy p1 - vy p0) - vy d * (vx p1 - vx p0) = 0 ->
  match ray_edge_intersection o d p0 p1 with
  | Some t => exists t0 t1, p0 = ray_at o d t0 /\ p1 = ray_at o d t1 /\ t = Rmin t0 t1
  | None => forall t, ~ on_segment (ray_at o d t) p0 p1
  end.
Proof.
  destruct o as [ox oy], d as [dx dy], p0 as [ax ay], p1 as [bx by_]. unfold ray_at. cbn [vx vy]. intros Hd Hp.
  assert (Nd : dx * dx + dy * dy <> 0).
  { pose proof (sq_nn dx); pose proof (sq_nn dy). destruct Hd as [Hd|Hd]; apply sq_pos in Hd; lra. }
  unfold ray_edge_intersection, vperp, vsub, vdot. rsimp.
  rewrite (proj2 (Reqb_true _ _) Hp).
  destruct (Reqb_spec ((ax - ox) * dy - (ay - oy) * dx) 0) as [E|E].
  - destruct (parallel_multiple dx dy (ax - ox) (ay - oy) Nd E) as [K1 K2].
    assert (Hp' : (bx - ax) * dy - (by_ - ay) * dx = 0) by lra.
    destruct (parallel_multiple dx dy (bx - ax) (by_ - ay) Nd Hp') as [L1 L2].
    set (t0 := ((ax - ox) * dx + (ay - oy) * dy) / (dx * dx + dy * dy)) in *.
    set (k := ((bx - ax) * dx + (by_ - ay) * dy) / (dx * dx + dy * dy)) in *.
    exists t0, (t0 + k). split; [|split]; auto; apply V2_ext; rsimp; lra.
  - intros t. rewrite on_segment_coord. intros (u & _ & E1 & E2). apply E.
    replace (ax - ox) with (t * dx - u * (bx - ax)) by lra. replace (ay - oy) with (t * dy - u * (by_ - ay)) by lra.
    replace ((t * dx - u * (bx - ax)) * dy - (t * dy - u * (by_ - ay)) * dx) with (u * (dx * (by_ - ay) - dy * (bx - ax))) by ring.
    rewrite Hp. ring.
Qed.

(* closest_ray_intersection: the fold keeps the least positive parameter *)
Lemma ray_fold_least (f : V2 RS * V2 RS -> option R) o d (ws : list (V2 RS * V2 RS)) :
  (forall w, f w = ray_edge_intersection o d (fst w) (snd w)) ->
  forall acc, (match acc with Some t => 0 < t | None => True end) ->
  match fold_left (ray_step o d) ws acc with
  | Some t => 0 < t /\ (acc = Some t \/ exists w, In w ws /\ f w = Some t) /\
              (forall t', acc = Some t' -> t <= t') /\
              (forall w t', In w ws -> f w = Some t' -> 0 < t' -> t <= t')
  | None => acc = None /\ forall w t', In w ws -> f w = Some t' -> t' <= 0
  end.
Proof.
  intros Hf. induction ws as [|w ws IH]; intros acc Hacc; cbn [fold_left].
  - destruct acc as [t|].
    + split; auto. split; auto. split; [intros t' E; injection E; lra|]. intros w t' [].
    + split; auto. intros w t' [].
  - assert (Hs : match ray_step o d acc w with Some t => 0 < t | None => True end).
    { unfold ray_step. destruct (ray_edge_intersection o d (fst w) (snd w)) as [t|], acc as [nt|]; cbn [s0 RS sltb car]; auto.
      - destruct (Rltb_spec 0 t); cbn [andb]; auto. destruct (Rltb t nt); auto.
      - destruct (Rltb_spec 0 t); auto. }
    specialize (IH _ Hs). set (r := fold_left _ _ _) in *.
    assert (Hstep : (ray_step o d acc w = acc /\ (forall t, f w = Some t -> 0 < t -> exists t', acc = Some t' /\ t' <= t)) \/
                    (exists t, f w = Some t /\ 0 < t /\ ray_step o d acc w = Some t /\ forall t', acc = Some t' -> t < t')).
    { unfold ray_step in *. rewrite <- Hf in *. destruct (f w) as [t|], acc as [nt|]; cbn [s0 RS sltb car] in *.
      - destruct (Rltb_spec 0 t), (Rltb_spec t nt); cbn [andb] in *.
        + right. exists t. repeat split; auto. intros t' E; injection E; lra.
        + left. split; auto. intros t' E Ht; injection E as <-. exists nt. split; auto; lra.
        + left. split; auto. intros t' E Ht; injection E as <-. lra.
        + left. split; auto. intros t' E Ht; injection E as <-. lra.
      - destruct (Rltb_spec 0 t).
        + right. exists t. repeat split; auto. discriminate.
        + left. split; auto. intros t' E Ht; injection E as <-. lra.
      - left. split; auto; discriminate.
      - left. split; auto; discriminate. }
    destruct r as [t|].
    + destruct IH as (H0 & H1 & H2 & H3). split; auto. destruct Hstep as [[Es Hd]|(u & Hu & Pu & Es & Hlt)]; rewrite Es in *.
      * split; [destruct H1 as [H1|(w' & Hw & H1)]; [left; auto|right; exists w'; simpl; auto]|].
        split; auto. intros w' t' [<-|Hw] E Ht'; [|eauto].
        destruct (Hd t' E Ht') as (t'' & E'' & Hle). specialize (H2 _ E''). lra.
      * split; [right; destruct H1 as [H1|(w' & Hw & H1)]; [injection H1 as <-; exists w; simpl; auto|exists w'; simpl; auto]|].
        specialize (H2 u eq_refl). split; [intros t' E; specialize (Hlt _ E); lra|].
        intros w' t' [<-|Hw] E Ht'; [|eauto]. rewrite Hu in E. injection E as <-. auto.
    + destruct IH as (H0 & H1). destruct Hstep as [[Es Hd]|(u & Hu & Pu & Es & Hlt)]; rewrite Es in *; [|discriminate].
      split; auto. intros w' t' [<-|Hw] E; [|eauto].
      destruct (Rle_dec t' 0); auto. destruct (Hd t' E) as (t'' & E'' & _); [lra|]. congruence.
Qed.

(* ---- edges of a line string ---- *)
Definition edge_of {A} (l : list A) (i : nat) (a b : A) : Prop :=
  nth_error l i = Some a /\ nth_error l (i + 1) = Some b.

Lemma windows_nth {A} (l : list A) i a b : nth_error (windows l) i = Some (a, b) <-> edge_of l i a b.
Proof.
  unfold edge_of. revert i; induction l as [|x l IH]; intros i.
  - simpl. destruct i; simpl; split; try discriminate; intros [? ?]; discriminate.
  - destruct l as [|y l].
    + simpl. destruct i as [|i]; simpl; split; try discriminate; intros [? ?]; try discriminate; destruct i; discriminate.
    + change (windows (x :: y :: l)) with ((x, y) :: windows (y :: l)). destruct i as [|i]; simpl (nth_error _ 0).
      * simpl. split; [intros E; injection E; intros; subst; auto|intros [E1 E2]; congruence].
      * change (nth_error ((x, y) :: windows (y :: l)) (Datatypes.S i)) with (nth_error (windows (y :: l)) i). rewrite IH. simpl. tauto.
Qed.
Lemma windows_In {A} (l : list A) a b : In (a, b) (windows l) <-> exists i, edge_of l i a b.
Proof.
  split.
  - intros H. apply In_nth_error in H as (i & H). exists i. apply windows_nth; auto.
  - intros (i & H). apply windows_nth in H. eapply nth_error_In; eauto.
Qed.
Lemma window_iter_nth {S : Scalar} (l : list (V2 S)) i a b : nth_error (window_iter l) i = Some (mkL a b) <-> edge_of l i a b.
Proof.
  rewrite <- windows_nth. unfold window_iter. rewrite nth_error_map. destruct (nth_error (windows l) i) as [[u v]|]; simpl; split; congruence.
Qed.

Lemma nth_error_enumerate {A} (l : list A) i : nth_error (enumerate l) i = option_map (fun a => (i, a)) (nth_error l i).
Proof.
  unfold enumerate. enough (G : forall k i, nth_error (combine (seq k (length l)) l) i = option_map (fun a => (k + i, a)%nat) (nth_error l i)) by apply G.
  induction l as [|a l IH]; intros k [|j]; simpl; auto.
  - f_equal. f_equal. lia.
  - rewrite IH. replace (k + Datatypes.S j)%nat with (Datatypes.S k + j)%nat by lia. auto.
Qed.
Lemma enumerate_length {A} (l : list A) : length (enumerate l) = length l.
Proof. unfold enumerate. rewrite combine_length, seq_length. lia. Qed.

Lemma nth_error_skipn' {A} (l : list A) k i : nth_error (skipn k l) i = nth_error l (k + i).
Proof. revert l; induction k; intros [|a l]; simpl; auto. destruct i; auto. Qed.
Lemma nth_error_firstn' {A} (l : list A) k i : (i < k)%nat -> nth_error (firstn k l) i = nth_error l i.
Proof. revert l i; induction k; intros [|a l] [|i] H; simpl; auto; try lia. apply IHk; lia. Qed.

Lemma self_short_spec {S : Scalar} (l : list (V2 S)) : self_intersecting_short l = true <->
  exists i j a b c d, (i < j)%nat /\ edge_of l i a b /\ edge_of l j c d /\ self_pair i (mkL a b) j (mkL c d) = true.
Proof.
  unfold self_intersecting_short. set (es := enumerate (window_iter l)). split.
  - intros H. apply existsb_exists in H as (e0 & H0 & H). apply existsb_exists in H as (e1 & H1 & H).
    apply In_nth_error in H0 as (i & H0). apply In_nth_error in H1 as (j & H1).
    assert (Hi : nth_error es i = Some e0).
    { destruct (Nat.lt_ge_cases i (length es - 1)) as [G|G]; [rewrite nth_error_firstn' in H0; auto|].
      assert (length (firstn (length es - 1) es) <= i)%nat by (rewrite firstn_length; lia). apply nth_error_None in H2. congruence. }
    rewrite nth_error_skipn' in H1. unfold es in Hi, H1. rewrite nth_error_enumerate in Hi, H1.
    destruct (nth_error (window_iter l) i) as [[a b]|] eqn:Ei; [|discriminate]. simpl in Hi. injection Hi as <-.
    simpl (fst _) in H1. destruct (nth_error (window_iter l) (i + 1 + j)) as [[c d]|] eqn:Ej; [|discriminate]. simpl in H1. injection H1 as <-.
    apply window_iter_nth in Ei, Ej. simpl in H. exists i, (i + 1 + j)%nat, a, b, c, d. repeat split; try apply Ei; try apply Ej; auto; lia.
  - intros (i & j & a & b & c & d & Hij & Hi & Hj & H). apply window_iter_nth in Hi, Hj.
    assert (Ei : nth_error es i = Some (i, mkL a b)) by (unfold es; rewrite nth_error_enumerate, Hi; auto).
    assert (Ej : nth_error es j = Some (j, mkL c d)) by (unfold es; rewrite nth_error_enumerate, Hj; auto).
    assert (j < length es)%nat by (apply nth_error_Some; congruence).
    apply existsb_exists. exists (i, mkL a b). split.
    { apply nth_error_In with i. rewrite nth_error_firstn'; auto. lia. }
    apply existsb_exists. exists (j, mkL c d). split; auto. simpl.
    apply nth_error_In with (j - (i + 1))%nat. rewrite nth_error_skipn'. replace (i + 1 + (j - (i + 1)))%nat with j by lia. auto.
Qed.

(* what intersection_point3 tests when nothing is vertical or divides by zero *)
Lemma intersection_point3_R (a b c : pt) :
  vx a <> vx b -> vx b <> vx c -> vy b <> vx a -> vy b <> vy c ->
  (intersection_point3 a b c = None <-> (vx b - vx a) * (vy b - vy c) <> (vx b - vx c) * (vy b - vx a)).
Proof.
  destruct a as [ax ay], b as [bx by_], c as [cx cy]. unfold intersection_point3. rsimp. intros H1 H2 H3 H4.
  rewrite !(proj2 (Reqb_false _ _)) by lra. cbn [andb orb].
  match goal with |- context [Reqb ?u ?v] => destruct (Reqb_spec u v) as [E|E] end; cbn [negb].
  - split; [destruct (Rltb _ _); discriminate|]. intros N. destruct N.
    apply Rmult_eq_reg_r with (/ ((by_ - ax) * (by_ - cy))); [|apply Rinv_neq_0_compat, Rmult_integral_contrapositive; split; lra].
    transitivity ((bx - ax) / (by_ - ax)); [field; lra|]. rewrite E. field. lra.
  - split; auto. intros _ F. apply E.
    apply Rmult_eq_reg_r with ((by_ - ax) * (by_ - cy)); [|apply Rmult_integral_contrapositive; split; lra].
    transitivity ((bx - ax) * (by_ - cy)); [field; lra|]. rewrite F. field. lra.
Qed.
