(* Distance from a point to a segment (2D) and to a line (3D) as a function of the point and of the segment (C150).
   Model: Geo2.v, Geo3.v; vocabulary: GeoSpec.v. The functions return squared distances. *)
From Coq Require Import Reals Lra Psatz.
From Verif Require Import Prelude Scalar RInst Geo2 Geo3 GeoSpec DistR DiscSym Rdp3 RdpRev Properties_Rdp.
Local Open Scope R_scope.

Lemma cauchy3 (x y z u v w : R) : (x * u + y * v + z * w) * (x * u + y * v + z * w) <= (x * x + y * y + z * z) * (u * u + v * v + w * w).
Proof.
  apply Rminus_le. replace (_ - _) with (- ((x * v - y * u) * (x * v - y * u) + (x * w - z * u) * (x * w - z * u) + (y * w - z * v) * (y * w - z * v))) by ring.
  pose proof (Rle_0_sqr (x * v - y * u)) as A. pose proof (Rle_0_sqr (x * w - z * u)) as B. pose proof (Rle_0_sqr (y * w - z * v)) as C. unfold Rsqr in *. lra.
Qed.
Lemma norm_sum (x y z u v w : R) :
  sqrt ((x + u) * (x + u) + (y + v) * (y + v) + (z + w) * (z + w)) <= sqrt (x * x + y * y + z * z) + sqrt (u * u + v * v + w * w).
Proof.
  set (A := x * x + y * y + z * z). set (B := u * u + v * v + w * w).
  assert (HA : 0 <= A) by (unfold A; pose proof (Rle_0_sqr x); pose proof (Rle_0_sqr y); pose proof (Rle_0_sqr z); unfold Rsqr in *; lra).
  assert (HB : 0 <= B) by (unfold B; pose proof (Rle_0_sqr u); pose proof (Rle_0_sqr v); pose proof (Rle_0_sqr w); unfold Rsqr in *; lra).
  assert (HC : x * u + y * v + z * w <= sqrt A * sqrt B).
  { rewrite <- sqrt_mult by auto. eapply Rle_trans; [apply Rle_abs|]. rewrite <- sqrt_Rsqr_abs. apply sqrt_le_1_alt. unfold Rsqr. apply cauchy3. }
  pose proof (sqrt_pos A) as PA. pose proof (sqrt_pos B) as PB.
  apply Rsqr_incr_0_var; [|lra]. rewrite Rsqr_sqrt by (pose proof (Rle_0_sqr (x + u)); pose proof (Rle_0_sqr (y + v)); pose proof (Rle_0_sqr (z + w)); unfold Rsqr in *; lra).
  unfold Rsqr. replace ((sqrt A + sqrt B) * (sqrt A + sqrt B)) with (sqrt A * sqrt A + sqrt B * sqrt B + 2 * (sqrt A * sqrt B)) by ring. rewrite !sqrt_sqrt by auto. unfold A, B in *. lra.
Qed.
Lemma edist_triangle (a b c : pt) : sqrt (sqdist a c) <= sqrt (sqdist a b) + sqrt (sqdist b c).
Proof.
  pose proof (norm_sum (vx a - vx b) (vy a - vy b) 0 (vx b - vx c) (vy b - vy c) 0) as H. unfold sqdist. rsimp.
  eapply Rle_trans; [|eapply Rle_trans; [exact H|]]; [right|apply Rplus_le_compat; right]; f_equal; ring.
Qed.
Lemma edist3_triangle (a b c : pt3) : sqrt (sqdist3 a c) <= sqrt (sqdist3 a b) + sqrt (sqdist3 b c).
Proof.
  pose proof (norm_sum (wx a - wx b) (wy a - wy b) (wz a - wz b) (wx b - wx c) (wy b - wy c) (wz b - wz c)) as H. unfold sqdist3. rsimp.
  eapply Rle_trans; [|eapply Rle_trans; [exact H|]]; [right|apply Rplus_le_compat; right]; f_equal; ring.
Qed.
Lemma d2_nonneg (a b p : pt) : (0 <= dist_line2_safe a b p)%R.
Proof. destruct (C32_distance_to_segment a b p) as ((t & _ & E) & _). rewrite E. apply sqdist_nonneg. Qed.

Theorem C150_segment_distance : forall (a b p q : pt),
  (* the direction of the segment does not matter *) dist_line2_safe b a p = dist_line2_safe a b p /\
  (* zero exactly on the segment *) (dist_line2_safe a b p = 0%R <-> on_segment p a b) /\
  (* no farther than the ends *) (dist_line2_safe a b p <= sqdist p a /\ dist_line2_safe a b p <= sqdist p b)%R /\
  (* a point as far away from another moves the distance by no more *)
  Rabs (sqrt (dist_line2_safe a b p) - sqrt (dist_line2_safe a b q)) <= sqrt (sqdist p q) /\
  (* part of a segment is no closer *)
  (forall c d, on_segment c a b -> on_segment d a b -> (dist_line2_safe a b p <= dist_line2_safe c d p)%R) /\
  (* maps that scale all distances by k scale this one *)
  (forall (f : pt -> pt) (k : R), 0 <= k -> (forall u v, sqdist (f u) (f v) = k * sqdist u v) -> dist_line2_safe (f a) (f b) (f p) = k * dist_line2_safe a b p).
Proof.
  intros a b p q. split; [apply dist2_sym|]. destruct (C32_distance_to_segment a b p) as ((t & Ht & E) & M & _).
  split; [|split; [|split; [|split]]].
  - split; [intros H|].
    + exists t. split; auto. apply sqdist_eq0. rewrite <- E. exact H.
    + intros (s & Hs & ->). pose proof (M s Hs) as K. rewrite sqdist_refl in K || (replace (sqdist (lerp a b s) (lerp a b s)) with 0 in K by (unfold sqdist; rsimp; ring)).
      apply Rle_antisym; auto. rewrite E. apply sqdist_nonneg.
  - split; [pose proof (M 0 ltac:(lra)) as K; replace (lerp a b 0) with a in K; [exact K|unfold lerp; apply V2_ext; rsimp; rring]|]. pose proof (M 1 ltac:(lra)) as K.
    replace (lerp a b 1) with b in K; [exact K|]. unfold lerp. apply V2_ext; rsimp; rring.
  - assert (G : forall p q : pt, sqrt (dist_line2_safe (S := RS) a b q) <= sqrt (dist_line2_safe (S := RS) a b p) + sqrt (sqdist p q)).
    { clear. intros p q. destruct (C32_distance_to_segment a b p) as ((t & Ht & E) & _). destruct (C32_distance_to_segment a b q) as (_ & M & _).
      rewrite E. eapply Rle_trans; [apply sqrt_le_1_alt; exact (M t Ht)|]. rewrite (Rplus_comm (sqrt _)).
      replace (sqdist p q) with (sqdist q p) by (unfold sqdist; rring). apply edist_triangle. }
    pose proof (G p q) as G1. pose proof (G q p) as G2. replace (sqdist q p) with (sqdist p q) in G2 by (unfold sqdist; rring). apply Rabs_le. revert G1 G2.
    generalize (sqrt (dist_line2_safe (S := RS) a b q)), (sqrt (dist_line2_safe (S := RS) a b p)), (sqrt (sqdist p q)). intros x y z. rsimp. lra.
  - intros c d (i & Hi & ->) (j & Hj & ->). destruct (C32_distance_to_segment (lerp a b i) (lerp a b j) p) as ((s & Hs & ->) & _).
    replace (lerp (lerp a b i) (lerp a b j) s) with (lerp a b (i + s * (j - i))) by (unfold lerp; apply V2_ext; rsimp; rring).
    apply M. revert Hi Hj Hs. clear. intros. split; nra.
  - intros f k Hk Hf. destruct (C32_distance_to_segment (f a) (f b) (f p)) as ((s & Hs & E') & M' & _).
    apply Rle_antisym.
    + pose proof (M' t Ht) as K. rewrite <- (lerp_similar f k Hf), Hf in K. rewrite E. exact K.
    + rewrite E', <- (lerp_similar f k Hf), Hf. apply Rmult_le_compat_l; auto.
Qed.
Print Assumptions C150_segment_distance.

Theorem C150_line_distance_3d : forall (a b p q : pt3), a <> b ->
  dist_line3_safe b a p = dist_line3_safe a b p /\
  (* zero exactly on the line *) (dist_line3_safe a b p = 0%R <-> exists t, p = lerp3 a b t) /\
  Rabs (sqrt (dist_line3_safe a b p) - sqrt (dist_line3_safe a b q)) <= sqrt (sqdist3 p q) /\
  (* any other two points of the line give the same distance *)
  (forall i j, i <> j -> dist_line3_safe (lerp3 a b i) (lerp3 a b j) p = dist_line3_safe a b p) /\
  (forall (f : pt3 -> pt3) (k : R), 0 < k -> (forall u v, sqdist3 (f u) (f v) = k * sqdist3 u v) -> dist_line3_safe (f a) (f b) (f p) = k * dist_line3_safe a b p).
Proof.
  intros a b p q Hab. split; [apply dist3_sym|]. destruct (proj1 (C33_distance_to_line_3d a b p) Hab) as ((t & E) & M & _).
  split; [|split; [|split]].
  - split; [intros H; exists t; apply sqdist3_eq0; rewrite <- E; exact H|]. intros (s & ->). pose proof (M s) as K. rewrite sqdist3_refl in K.
    apply Rle_antisym; auto. rewrite E. unfold sqdist3. repeat apply Rplus_le_le_0_compat; apply Rle_0_sqr.
  - assert (G : forall p q : pt3, sqrt (dist_line3_safe (S := RS) a b q) <= sqrt (dist_line3_safe (S := RS) a b p) + sqrt (sqdist3 p q)).
    { clear -Hab. intros p q. destruct (proj1 (C33_distance_to_line_3d a b p) Hab) as ((t & E) & _). destruct (proj1 (C33_distance_to_line_3d a b q) Hab) as (_ & M & _).
      rewrite E. eapply Rle_trans; [apply sqrt_le_1_alt; exact (M t)|]. rewrite (Rplus_comm (sqrt _)).
      replace (sqdist3 p q) with (sqdist3 q p) by (unfold sqdist3; rring). apply edist3_triangle. }
    pose proof (G p q) as G1. pose proof (G q p) as G2. replace (sqdist3 q p) with (sqdist3 p q) in G2 by (unfold sqdist3; rring). apply Rabs_le. revert G1 G2.
    generalize (sqrt (dist_line3_safe (S := RS) a b q)), (sqrt (dist_line3_safe (S := RS) a b p)), (sqrt (sqdist3 p q)). intros x y z. rsimp. lra.
  - intros i j Hij. assert (Hne : lerp3 a b i <> lerp3 a b j).
    { intros K. apply Hab. apply sqdist3_eq0. pose proof (f_equal (fun z => sqdist3 z (lerp3 a b j)) K) as Z. cbn beta in Z. rewrite sqdist3_refl in Z.
      assert (X : sqdist3 (lerp3 a b i) (lerp3 a b j) = (i - j) * (i - j) * sqdist3 a b) by (unfold sqdist3, lerp3; rsimp; ring).
      rewrite X in Z. apply Rmult_integral in Z as [Z|Z]; auto. exfalso. apply Rmult_integral in Z. lra. }
    assert (L : forall s, lerp3 (lerp3 a b i) (lerp3 a b j) s = lerp3 a b (i + s * (j - i))) by (intros s; unfold lerp3; apply V3_ext; rsimp; rring).
    destruct (proj1 (C33_distance_to_line_3d _ _ p) Hne) as ((s & E') & M' & _). apply Rle_antisym.
    + rewrite E. pose proof (M' ((t - i) / (j - i))) as K. rewrite L in K. replace (i + (t - i) / (j - i) * (j - i)) with t in K by (field; lra). exact K.
    + rewrite E', L. apply M.
  - intros f k Hk Hf. assert (Hne : f a <> f b).
    { intros K. apply Hab. apply sqdist3_eq0. pose proof (Hf a b) as Z. rewrite K, sqdist3_refl in Z. symmetry in Z. apply Rmult_integral in Z. destruct Z; [exfalso; lra|auto]. }
    destruct (proj1 (C33_distance_to_line_3d _ _ (f p)) Hne) as ((s & E') & M' & _). apply Rle_antisym.
    + pose proof (M' t) as K. rewrite <- (lerp3_similar f k Hf), Hf in K. rewrite E. exact K.
    + rewrite E', <- (lerp3_similar f k Hf), Hf. apply Rmult_le_compat_l; [lra|]. apply M.
Qed.
Print Assumptions C150_line_distance_3d.
(* in a horizontal plane the 3D distance is at most the 2D one, and equal when the nearest point of the line is on the segment *)
Theorem C150_planar : forall (a b p : pt) (z : R), a <> b ->
  let up := fun v : pt => @mkV3 RS (vx v) (vy v) z in
  (dist_line3_safe (up a) (up b) (up p) <= dist_line2_safe a b p)%R /\
  (forall t, (0 <= t <= 1)%R -> dist_line3_safe (up a) (up b) (up p) = sqdist p (lerp a b t) -> dist_line3_safe (up a) (up b) (up p) = dist_line2_safe a b p).
Proof.
  intros a b p z Hab up. assert (Hne : up a <> up b) by (intros K; apply Hab; apply V2_ext; [exact (f_equal (@wx RS) K)|exact (f_equal (@wy RS) K)]).
  destruct (proj1 (C33_distance_to_line_3d _ _ (up p)) Hne) as (_ & M & _). destruct (C32_distance_to_segment a b p) as ((t & Ht & E) & M2 & _).
  assert (Q : forall s, sqdist3 (up p) (lerp3 (up a) (up b) s) = sqdist p (lerp a b s)) by (intros s; unfold up, sqdist3, sqdist, lerp3, lerp; cbn; rsimp; ring).
  assert (Le : (dist_line3_safe (S := RS) (up a) (up b) (up p) <= dist_line2_safe (S := RS) a b p)%R).
  { rewrite E, <- Q. apply M. }
  split; [exact Le|]. intros s Hs K. apply Rle_antisym; [exact Le|]. rewrite K. apply M2; auto.
Qed.
Print Assumptions C150_planar.
Example C150_a_map : forall u v : pt, sqdist (@mkV2 RS (3 * vx u - 4 * vy u + 1) (4 * vx u + 3 * vy u)) (@mkV2 RS (3 * vx v - 4 * vy v + 1) (4 * vx v + 3 * vy v)) = 25 * sqdist u v.
Proof. intros u v. unfold sqdist. cbn. rsimp. ring. Qed.
Example C150_a_segment : @mkV2 RS 0 0 <> @mkV2 RS 4 0 /\ @mkV3 RS 0 0 0 <> @mkV3 RS 4 0 1 /\ dist_line2_safe (S := RS) (@mkV2 RS 0 0) (@mkV2 RS 4 0) (@mkV2 RS 1 2) = 4.
Proof.
  split; [intros K; apply (f_equal (@vx RS)) in K; cbn in K; lra|]. split; [intros K; apply (f_equal (@wx RS)) in K; cbn in K; lra|].
  destruct (C32_distance_to_segment (@mkV2 RS 0 0) (@mkV2 RS 4 0) (@mkV2 RS 1 2)) as ((t & _ & E) & M & _).
  apply Rle_antisym; [eapply Rle_trans; [apply (M (1/4)); lra|unfold sqdist, lerp; cbn; lra]|]. rewrite E.
  assert (H : forall u : R, 4 <= (1 - 4 * u) * (1 - 4 * u) + 4) by (intros u; pose proof (Rle_0_sqr (1 - 4 * u)) as K; unfold Rsqr in K; lra).
  eapply Rle_trans; [apply (H t)|]. right. unfold sqdist, lerp. cbn. rsimp. ring.
Qed.
