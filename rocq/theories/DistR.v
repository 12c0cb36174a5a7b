(* Distances in exact arithmetic. *)
From Coq Require Import Reals Lra Psatz.
From Verif Require Import Prelude Scalar RInst Geo2 Geo3 GeoSpec.
Local Open Scope R_scope.

Ltac rsimp := cbn [car s0 s1 s2 sadd ssub smul sdiv sneg ssqrt sltb sleb seqb smin smax sulps sfin RS
                   vx vy wx wy wz] in *.

(* ring on goals whose sides may be bare coordinates of type car RS *)
Ltac rring := match goal with |- @eq _ ?a ?b => apply (Rminus_diag_uniq a b); rsimp; ring end.

Lemma sqdist_nonneg p q : 0 <= sqdist p q.
Proof. unfold sqdist. apply Rplus_le_le_0_compat; apply Rle_0_sqr. Qed.
Lemma sq_pos (x : R) : x <> 0 -> 0 < x * x.
Proof. apply Rsqr_pos_lt. Qed.
Lemma sq_nn (x : R) : 0 <= x * x.
Proof. apply Rle_0_sqr. Qed.
Lemma pow2_nn (x : R) : 0 <= x ^ 2.
Proof. replace (x ^ 2) with (x * x) by ring. apply sq_nn. Qed.

Lemma sqdist_lerp a b p t :
  sqdist p (lerp a b t) =
  (vx p - vx a - t * (vx b - vx a)) ^ 2 + (vy p - vy a - t * (vy b - vy a)) ^ 2.
Proof. unfold sqdist, lerp; simpl. ring. Qed.

(* quadratic along the segment *)
Lemma lerp_ineq (ax ay ux uy t s : R) :
  0 < ux * ux + uy * uy ->
  s * (ux * ux + uy * uy) = ax * ux + ay * uy ->
  (ax - s * ux) ^ 2 + (ay - s * uy) ^ 2 + (t - s) ^ 2 * (ux * ux + uy * uy)
  = (ax - t * ux) ^ 2 + (ay - t * uy) ^ 2.
Proof.
  intros Hu Hs.
  assert (E : (ax - t * ux) ^ 2 + (ay - t * uy) ^ 2 =
     ax ^ 2 + ay ^ 2 - 2 * t * (ax * ux + ay * uy) + t ^ 2 * (ux * ux + uy * uy)) by ring.
  assert (E2 : (ax - s * ux) ^ 2 + (ay - s * uy) ^ 2 =
     ax ^ 2 + ay ^ 2 - 2 * s * (ax * ux + ay * uy) + s ^ 2 * (ux * ux + uy * uy)) by ring.
  rewrite E, E2, <- Hs. ring.
Qed.

Lemma dist_line2_safe_R (a b p : pt) :
  (exists t, 0 <= t <= 1 /\ dist_line2_safe a b p = sqdist p (lerp a b t)) /\
  (forall t, 0 <= t <= 1 -> dist_line2_safe a b p <= sqdist p (lerp a b t)).
Proof.
  unfold dist_line2_safe. destruct (vulps a b) eqn:E.
  - apply vulps_R in E. subst b. split.
    + exists 0. split; [lra|]. unfold vdist2, vmag2, vdot, vsub, sqdist, lerp; simpl. ring.
    + intros t Ht. unfold vdist2, vmag2, vdot, vsub, sqdist, lerp; simpl. right; ring.
  - assert (Hab : a <> b) by (intros ->; assert (vulps b b = true) by (apply vulps_R; auto); congruence).
    clear E.
    assert (HU : 0 < (vx b - vx a) * (vx b - vx a) + (vy b - vy a) * (vy b - vy a)).
    { pose proof (sq_nn (vx b - vx a)). pose proof (sq_nn (vy b - vy a)).
      destruct (Req_dec (vx b - vx a) 0) as [Ex|Ex]; [|apply sq_pos in Ex; rsimp; lra].
      destruct (Req_dec (vy b - vy a) 0) as [Ey|Ey]; [|apply sq_pos in Ey; rsimp; lra].
      exfalso; apply Hab; apply V2_ext; rsimp; lra. }
    unfold dist_line2. unfold vmag2, vdot, vsub, vperp. rsimp.
    set (ux := vx b - vx a) in *. set (uy := vy b - vy a) in *.
    set (ax := vx p - vx a). set (ay := vy p - vy a).
    set (s := (ax * ux + ay * uy) / (ux * ux + uy * uy)).
    assert (Hs : s * (ux * ux + uy * uy) = ax * ux + ay * uy) by (unfold s; field; lra).
    assert (Ed : ((vx a - vx p) * (vx a - vx b) + (vy a - vy p) * (vy a - vy b)) /
                 ((vx a - vx b) * (vx a - vx b) + (vy a - vy b) * (vy a - vy b)) = s).
    { unfold s, ax, ay, ux, uy. apply (f_equal2 Rdiv); ring. }
    rewrite Ed.
    assert (SL : forall t, sqdist p (lerp a b t) = (ax - t * ux) ^ 2 + (ay - t * uy) ^ 2)
      by (intros t; apply sqdist_lerp).
    pose proof (lerp_ineq ax ay ux uy) as K.
    pose proof pow2_nn as Hsq.
    destruct (Rltb_spec s 0) as [H0|H0]; [|destruct (Rltb_spec 1 s) as [H1|H1]].
    + replace ((vx a - vx p) * (vx a - vx p) + (vy a - vy p) * (vy a - vy p)) with (sqdist p (lerp a b 0))
        by (rewrite SL; unfold ax, ay; ring).
      split; [exists 0; split; [lra|auto]|]. intros t Ht. rewrite !SL.
      rewrite <- (K 0 s), <- (K t s) by auto.
      assert ((0 - s) ^ 2 <= (t - s) ^ 2) by nra. nra.
    + replace ((vx b - vx p) * (vx b - vx p) + (vy b - vy p) * (vy b - vy p)) with (sqdist p (lerp a b 1))
        by (rewrite SL; unfold ax, ay, ux, uy; ring).
      split; [exists 1; split; [lra|auto]|]. intros t Ht. rewrite !SL.
      rewrite <- (K 1 s), <- (K t s) by auto.
      assert ((1 - s) ^ 2 <= (t - s) ^ 2) by nra. nra.
    + assert (Ec : ((vx a - vx p) * (vy a - vy b) - (vy a - vy p) * (vx a - vx b)) *
                   ((vx a - vx p) * (vy a - vy b) - (vy a - vy p) * (vx a - vx b)) /
                   ((vx a - vx b) * (vx a - vx b) + (vy a - vy b) * (vy a - vy b))
                   = sqdist p (lerp a b s)).
      { rewrite SL.
        replace ((vx a - vx p) * (vy a - vy b) - (vy a - vy p) * (vx a - vx b)) with (ax * uy - ay * ux)
          by (unfold ax, ay, ux, uy; ring).
        replace ((vx a - vx b) * (vx a - vx b) + (vy a - vy b) * (vy a - vy b)) with (ux * ux + uy * uy)
          by (unfold ux, uy; ring).
        apply Rmult_eq_reg_r with (ux * ux + uy * uy); [|lra].
        unfold Rdiv. rewrite Rmult_assoc, Rinv_l, Rmult_1_r by lra.
        assert (E0 : ((ax - s * ux) ^ 2 + (ay - s * uy) ^ 2) * (ux * ux + uy * uy) =
          (ax ^ 2 + ay ^ 2) * (ux * ux + uy * uy) - 2 * (ax * ux + ay * uy) * (s * (ux * ux + uy * uy))
          + (s * (ux * ux + uy * uy)) ^ 2) by ring.
        rewrite E0, Hs. ring. }
      rewrite Ec. split; [exists s; split; [lra|auto]|]. intros t Ht. rewrite !SL.
      rewrite <- (K t s) by auto. specialize (Hsq (t - s)). nra.
Qed.

(* 3D: the distance to the whole line *)
Lemma dist_line3_safe_R (a b p : pt3) : a <> b ->
  (exists t, dist_line3_safe a b p = sqdist3 p (lerp3 a b t)) /\
  (forall t, dist_line3_safe a b p <= sqdist3 p (lerp3 a b t)).
Proof.
  intros Hab. unfold dist_line3_safe. destruct (wulps a b) eqn:E; [apply wulps_R in E; congruence|].
  unfold cross_abs_squared, wsub. rsimp.
  set (ux := wx b - wx a). set (uy := wy b - wy a). set (uz := wz b - wz a).
  set (ax := wx p - wx a). set (ay := wy p - wy a). set (az := wz p - wz a).
  assert (HU : 0 < ux * ux + uy * uy + uz * uz).
  { pose proof (sq_nn ux). pose proof (sq_nn uy). pose proof (sq_nn uz).
    destruct (Req_dec ux 0) as [Ex|Ex]; [|apply sq_pos in Ex; lra].
    destruct (Req_dec uy 0) as [Ey|Ey]; [|apply sq_pos in Ey; lra].
    destruct (Req_dec uz 0) as [Ez|Ez]; [|apply sq_pos in Ez; lra].
    exfalso; apply Hab; apply V3_ext; unfold ux, uy, uz in *; lra. }
  set (U := ux * ux + uy * uy + uz * uz) in *.
  set (s := (ax * ux + ay * uy + az * uz) / U).
  assert (Hs : s * U = ax * ux + ay * uy + az * uz) by (unfold s; field; lra).
  assert (SL : forall t, sqdist3 p (lerp3 a b t) = (ax - t * ux) ^ 2 + (ay - t * uy) ^ 2 + (az - t * uz) ^ 2).
  { intros t; unfold sqdist3, lerp3, ax, ay, az, ux, uy, uz; simpl; ring. }
  assert (Ec : (((wy a - wy p) * (wz a - wz b) - (wz a - wz p) * (wy a - wy b)) *
       ((wy a - wy p) * (wz a - wz b) - (wz a - wz p) * (wy a - wy b)) +
       ((wz a - wz p) * (wx a - wx b) - (wx a - wx p) * (wz a - wz b)) *
       ((wz a - wz p) * (wx a - wx b) - (wx a - wx p) * (wz a - wz b)) +
       ((wx a - wx p) * (wy a - wy b) - (wy a - wy p) * (wx a - wx b)) *
       ((wx a - wx p) * (wy a - wy b) - (wy a - wy p) * (wx a - wx b))) /
      ((wx a - wx b) * (wx a - wx b) + (wy a - wy b) * (wy a - wy b) + (wz a - wz b) * (wz a - wz b))
      = sqdist3 p (lerp3 a b s)).
  { rewrite SL.
    replace ((wx a - wx b) * (wx a - wx b) + (wy a - wy b) * (wy a - wy b) + (wz a - wz b) * (wz a - wz b))
      with U by (unfold U, ux, uy, uz; ring).
    apply Rmult_eq_reg_r with U; [|lra].
    unfold Rdiv. rewrite Rmult_assoc, Rinv_l, Rmult_1_r by lra.
    assert (E0 : ((ax - s * ux) ^ 2 + (ay - s * uy) ^ 2 + (az - s * uz) ^ 2) * U =
      (ax ^ 2 + ay ^ 2 + az ^ 2) * U - 2 * (ax * ux + ay * uy + az * uz) * (s * U) + (s * U) ^ 2)
      by (unfold U; ring).
    rewrite E0, Hs. unfold U, ax, ay, az, ux, uy, uz. ring. }
  rewrite Ec. split; [exists s; auto|]. intros t. rewrite !SL.
  assert (E1 : (ax - t * ux) ^ 2 + (ay - t * uy) ^ 2 + (az - t * uz) ^ 2 =
     (ax - s * ux) ^ 2 + (ay - s * uy) ^ 2 + (az - s * uz) ^ 2 + (t - s) ^ 2 * U).
  { assert (E2 : forall t, (ax - t * ux) ^ 2 + (ay - t * uy) ^ 2 + (az - t * uz) ^ 2 =
       ax ^ 2 + ay ^ 2 + az ^ 2 - 2 * t * (ax * ux + ay * uy + az * uz) + t ^ 2 * U) by (intros; unfold U; ring).
    rewrite !E2, <- Hs. ring. }
  rewrite E1. pose proof (pow2_nn (t - s)). nra.
Qed.

Lemma dist_line3_safe_point (a p : pt3) : dist_line3_safe a a p = sqdist3 p a.
Proof.
  unfold dist_line3_safe. replace (wulps a a) with true by (symmetry; apply wulps_R; auto).
  unfold wdist2, wmag2, wdot, wsub, sqdist3; simpl. ring.
Qed.
(* the same formula without the guard (src/linestring_3d.rs:626-633) *)
Lemma dist_line3_eq (a b p : pt3) : a <> b -> dist_line3 a b p = dist_line3_safe a b p.
Proof.
  intros H. unfold dist_line3_safe. destruct (wulps a b) eqn:E; [apply wulps_R in E; congruence|]. reflexivity.
Qed.
Lemma dist_line2_eq (a b p : pt) : a <> b -> dist_line2 a b p = dist_line2_safe a b p.
Proof.
  intros H. unfold dist_line2_safe. destruct (vulps a b) eqn:E; [apply vulps_R in E; congruence|]. reflexivity.
Qed.
