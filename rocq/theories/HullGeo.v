(* Plane geometry for the convex hull proofs. *)
From Coq Require Import Reals Lra Psatz.
From Verif Require Import Prelude Scalar RInst GeoSpec DistR HullSpec.
Local Open Scope R_scope.

Ltac pts := repeat match goal with p : pt |- _ => destruct p as [? ?] end.
Ltac flat := unfold orient, sqdist, lerp in *; pts; rsimp.

Lemma orient_rot a b c : orient a b c = orient b c a.
Proof. flat. ring. Qed.
Lemma orient_swap a b c : orient a b c = - orient b a c.
Proof. flat. ring. Qed.
Lemma orient_aab a b : orient a a b = 0. Proof. flat. ring. Qed.
Lemma orient_aba a b : orient a b a = 0. Proof. flat. ring. Qed.
Lemma orient_abb a b : orient a b b = 0. Proof. flat. ring. Qed.

(* d seen from o in the cone spanned by a and b *)
Lemma cone_id q o a b d : orient q o d * orient o a b = orient o d b * orient q o a + orient o a d * orient q o b.
Proof. flat. ring. Qed.
Lemma cone_id2 o p a b d : orient o p d * orient o a b = orient o d b * orient o p a + orient o a d * orient o p b.
Proof. flat. ring. Qed.
(* barycentric coordinates *)
Lemma bary_id a b u v w p : orient u v w * orient a b p = orient v w p * orient a b u + orient w u p * orient a b v + orient u v p * orient a b w.
Proof. flat. ring. Qed.

Lemma pos_of_mul A K B C D E : A * K = B * C + D * E -> 0 < K -> 0 <= B -> 0 <= C -> 0 <= D -> 0 <= E -> 0 <= A.
Proof.
  intros HE HK HB HC HD HF. apply Rmult_le_reg_r with K; auto. rewrite Rmult_0_l, HE.
  apply Rplus_le_le_0_compat; apply Rmult_le_pos; auto.
Qed.
Lemma spos_of_mul A K B C D E : A * K = B * C + D * E -> 0 < K -> 0 <= B -> 0 <= C -> 0 <= D -> 0 <= E -> (0 < B * C \/ 0 < D * E) -> 0 < A.
Proof.
  intros HE HK HB HC HD HF Hs. apply Rmult_lt_reg_r with K; auto. rewrite Rmult_0_l, HE.
  assert (0 <= B * C) by (apply Rmult_le_pos; auto). assert (0 <= D * E) by (apply Rmult_le_pos; auto). lra.
Qed.

(* ---- a half plane of directions ---- *)
Section Half.
  Variables (zx zy : R).
  Hypothesis Hz : 0 < zx * zx + zy * zy.
  (* v is strictly left of the direction z, or points exactly backwards *)
  Definition hv (x y : R) : Prop := 0 < zx * y - zy * x \/ (zx * y - zy * x = 0 /\ zx * x + zy * y < 0).

  Lemma back x y : zx * y - zy * x = 0 -> zx * x + zy * y < 0 -> exists k, 0 < k /\ x = - k * zx /\ y = - k * zy.
  Proof.
    intros H0 Hd. exists (- (zx * x + zy * y) / (zx * zx + zy * zy)). split; [|split].
    - apply Rdiv_lt_0_compat; lra.
    - apply Rmult_eq_reg_r with (zx * zx + zy * zy); [|lra].
      replace (- (- (zx * x + zy * y) / (zx * zx + zy * zy)) * zx * (zx * zx + zy * zy)) with ((zx * x + zy * y) * zx) by (field; lra).
      replace ((zx * x + zy * y) * zx) with (x * (zx * zx + zy * zy) + zy * (zx * y - zy * x)) by ring. rewrite H0. ring.
    - apply Rmult_eq_reg_r with (zx * zx + zy * zy); [|lra].
      replace (- (- (zx * x + zy * y) / (zx * zx + zy * zy)) * zy * (zx * zx + zy * zy)) with ((zx * x + zy * y) * zy) by (field; lra).
      replace ((zx * x + zy * y) * zy) with (y * (zx * zx + zy * zy) - zx * (zx * y - zy * x)) by ring. rewrite H0. ring.
  Qed.

  Lemma hv_trans px py qx qy rx ry : hv px py -> hv qx qy -> hv rx ry ->
    0 <= px * qy - py * qx -> 0 <= qx * ry - qy * rx ->
    0 <= px * ry - py * rx /\ (0 < px * qy - py * qx \/ 0 < qx * ry - qy * rx -> 0 < px * ry - py * rx).
  Proof.
    intros HP HQ HR H1 H2.
    assert (Id : (px * ry - py * rx) * (zx * qy - zy * qx) = (qx * ry - qy * rx) * (zx * py - zy * px) + (px * qy - py * qx) * (zx * ry - zy * rx)) by ring.
    destruct HQ as [HQ|[HQ0 HQ1]].
    - assert (HPp : 0 < zx * py - zy * px).
      { destruct HP as [HP|[HP0 HP1]]; auto. exfalso. destruct (back _ _ HP0 HP1) as (k & Hk & -> & ->).
        assert (0 < k * (zx * qy - zy * qx)) by (apply Rmult_lt_0_compat; auto). lra. }
      assert (HRp : 0 <= zx * ry - zy * rx) by (destruct HR as [HR|[HR _]]; lra).
      split.
      + eapply pos_of_mul; eauto; lra.
      + intros [Hs|Hs].
        * destruct HR as [HR|[HR0 HR1]].
          -- eapply spos_of_mul; eauto; try lra. right. apply Rmult_lt_0_compat; auto.
          -- destruct (back _ _ HR0 HR1) as (k & Hk & -> & ->).
             replace (px * (- k * zy) - py * (- k * zx)) with (k * (zx * py - zy * px)) by ring. apply Rmult_lt_0_compat; auto.
        * eapply spos_of_mul; eauto; try lra. left. apply Rmult_lt_0_compat; auto.
    - destruct (back _ _ HQ0 HQ1) as (k & Hk & -> & ->).
      assert (HR0 : zx * ry - zy * rx = 0).
      { destruct HR as [HR|[HR _]]; auto. exfalso. assert (0 < k * (zx * ry - zy * rx)) by (apply Rmult_lt_0_compat; auto). lra. }
      assert (HR1 : zx * rx + zy * ry < 0) by (destruct HR as [HR|[_ HR]]; lra).
      destruct (back _ _ HR0 HR1) as (k' & Hk' & -> & ->).
      assert (HPn : 0 <= zx * py - zy * px) by (destruct HP as [HP|[HP _]]; lra).
      assert (E1 : px * (- k' * zy) - py * (- k' * zx) = k' * (zx * py - zy * px)) by ring.
      assert (E2 : px * (- k * zy) - py * (- k * zx) = k * (zx * py - zy * px)) by ring.
      assert (E3 : - k * zx * (- k' * zy) - - k * zy * (- k' * zx) = 0) by ring.
      rewrite E1. split; [apply Rmult_le_pos; lra|]. rewrite E2, E3. intros [Hs|Hs]; [|lra].
      apply Rmult_lt_0_compat; auto. destruct HPn as [|HPn]; auto. rewrite <- HPn, Rmult_0_r in Hs. lra.
  Qed.

  (* parallel directions of the half plane are positive multiples *)
  Lemma hv_ray px py qx qy : hv px py -> hv qx qy -> px * qy - py * qx = 0 -> exists k, 0 < k /\ qx = k * px /\ qy = k * py.
  Proof.
    intros HP HQ H0.
    assert (HN : 0 < px * px + py * py).
    { destruct (Req_dec px 0) as [->|Hx]; [destruct (Req_dec py 0) as [->|Hy]|].
      - exfalso. destruct HP as [HP|[_ HP]]; lra.
      - pose proof (sq_pos _ Hy). lra.
      - pose proof (sq_pos _ Hx). pose proof (sq_nn py). lra. }
    assert (Hk : exists k, qx = k * px /\ qy = k * py).
    { exists ((px * qx + py * qy) / (px * px + py * py)). split.
      - apply Rmult_eq_reg_r with (px * px + py * py); [|lra].
        replace ((px * qx + py * qy) / (px * px + py * py) * px * (px * px + py * py)) with ((px * qx + py * qy) * px) by (field; lra).
        replace (qx * (px * px + py * py)) with (px * (px * qx + py * qy) - py * (px * qy - py * qx)) by ring. rewrite H0. ring.
      - apply Rmult_eq_reg_r with (px * px + py * py); [|lra].
        replace ((px * qx + py * qy) / (px * px + py * py) * py * (px * px + py * py)) with ((px * qx + py * qy) * py) by (field; lra).
        replace (qy * (px * px + py * py)) with (py * (px * qx + py * qy) + px * (px * qy - py * qx)) by ring. rewrite H0. ring. }
    destruct Hk as (k & -> & ->). exists k. split; auto.
    assert (E1 : zx * (k * py) - zy * (k * px) = k * (zx * py - zy * px)) by ring.
    assert (E2 : zx * (k * px) + zy * (k * py) = k * (zx * px + zy * py)) by ring.
    unfold hv in *. rewrite E1, E2 in HQ. set (c := zx * py - zy * px) in *. set (d := zx * px + zy * py) in *. clearbody c d.
    destruct (Rlt_dec 0 k) as [|Hn]; auto. exfalso.
    destruct HP as [HP|[HP0 HP1]].
    - assert (k * c <= 0) by nra. destruct HQ as [HQ|[HQ1 HQ2]]; [lra|].
      assert (k = 0) by (apply Rmult_integral in HQ1; destruct HQ1; lra). subst k. lra.
    - rewrite HP0, Rmult_0_r in HQ. destruct HQ as [HQ|[_ HQ]]; [lra|]. nra.
  Qed.
End Half.

(* ---- points ahead of s, and their order around s ---- *)
Definition ahead (zx zy : R) (s p : pt) : Prop := hv zx zy (vx p - vx s) (vy p - vy s).
Definition ord (s p q : pt) : Prop := 0 < orient s p q \/ (orient s p q = 0 /\ sqdist s p <= sqdist s q).

Section Around.
  Variables (zx zy : R).
  Hypothesis Hz : 0 < zx * zx + zy * zy.
  Notation ahead := (ahead zx zy).

  Lemma orient_trans s p q r : ahead s p -> ahead s q -> ahead s r -> 0 <= orient s p q -> 0 <= orient s q r ->
    0 <= orient s p r /\ (0 < orient s p q \/ 0 < orient s q r -> 0 < orient s p r).
  Proof.
    intros HP HQ HR H1 H2. unfold HullGeo.ahead in *. apply (hv_trans zx zy Hz _ _ _ _ _ _ HP HQ HR); auto.
  Qed.
  Lemma ray s p q : ahead s p -> ahead s q -> orient s p q = 0 ->
    exists k, 0 < k /\ vx q = vx s + k * (vx p - vx s) /\ vy q = vy s + k * (vy p - vy s).
  Proof.
    intros HP HQ H. destruct (hv_ray zx zy _ _ _ _ HP HQ H) as (k & Hk & E1 & E2). exists k.
    split; auto. split; rsimp; lra.
  Qed.
  Lemma ahead_ne s p : ahead s p -> p <> s.
  Proof. intros H ->. unfold HullGeo.ahead, hv in H. rsimp. destruct H as [H|[_ H]]; lra. Qed.
  Lemma sqdist_pos s p : p <> s -> 0 < sqdist s p.
  Proof.
    intros H. unfold sqdist. destruct (Req_dec (vx s - vx p) 0) as [Hx|Hx]; [destruct (Req_dec (vy s - vy p) 0) as [Hy|Hy]|].
    - exfalso. apply H. apply V2_ext; rsimp; lra.
    - pose proof (sq_pos _ Hy). pose proof (sq_nn (vx s - vx p)). rsimp. lra.
    - pose proof (sq_pos _ Hx). pose proof (sq_nn (vy s - vy p)). rsimp. lra.
  Qed.
  Lemma ray_far s p q : ahead s p -> ahead s q -> orient s p q = 0 -> sqdist s p <= sqdist s q ->
    exists k, 1 <= k /\ vx q = vx s + k * (vx p - vx s) /\ vy q = vy s + k * (vy p - vy s).
  Proof.
    intros HP HQ H Hd. destruct (ray s p q HP HQ H) as (k & Hk & E1 & E2). exists k. split; auto.
    assert (Hp : 0 < sqdist s p) by (apply sqdist_pos, ahead_ne; auto).
    assert (E : sqdist s q = k * k * sqdist s p) by (unfold sqdist; rewrite E1, E2; rsimp; ring).
    rewrite E in Hd. destruct (Rle_dec 1 k); auto. exfalso.
    assert (k * k < 1) by nra. nra.
  Qed.
  Lemma ord_trans s p q r : ahead s p -> ahead s q -> ahead s r -> ord s p q -> ord s q r -> ord s p r.
  Proof.
    intros HP HQ HR H1 H2.
    assert (A1 : 0 <= orient s p q) by (destruct H1 as [|[]]; lra). assert (A2 : 0 <= orient s q r) by (destruct H2 as [|[]]; lra).
    destruct (orient_trans s p q r HP HQ HR A1 A2) as [B1 B2].
    destruct H1 as [H1|[H1 D1]]; [left; auto|]. destruct H2 as [H2|[H2 D2]]; [left; auto|].
    destruct B1 as [B1|B1]; [left; auto|]. right. split; [auto|lra].
  Qed.
  Lemma ord_total s p q : ord s p q \/ ord s q p.
  Proof.
    unfold ord. assert (E : orient s q p = - orient s p q) by (flat; ring). rewrite E.
    destruct (Rtotal_order (orient s p q) 0) as [H|[H|H]]; [right; left; lra| |left; left; lra].
    destruct (Rle_dec (sqdist s p) (sqdist s q)); [left; right; auto|right; right; lra].
  Qed.
End Around.
