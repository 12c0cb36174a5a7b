(* f64 and f32 point-to-line distances on coordinates that are small multiples of a power of two (C158), and what follows
   for Ramer-Douglas-Peucker (C159). Models: Flt.v, Geo2.v (dist_line2, dist_line2_safe: src/linestring_2d.rs:1415-1447), Geo3.v
   (dist_line3, dist_line3_safe: src/linestring_3d.rs:626-654), Simplify.v. Vocabulary: FloatSpec.v (grids, value64, ...), GeoSpec.v
   (on_segment, sqdist, lerp3, sqdist3, edist, edist3), Properties_Float2 (tolerance64, tolerance32). *)
From Coq Require Import ZArith Reals Lra Lia Psatz Floats.SpecFloat.
From Flocq Require Import Core BinarySingleNaN.
From Verif Require Import Prelude Scalar RInst Flt FloatSpec FloatLink FloatGrid FloatRound FloatRdp FloatDist Geo2 Geo3 GeoSpec DistR Simplify Properties_Hull Properties_Float Properties_Float2.
Local Open Scope R_scope.

(* m is the smallest squared distance between p and the segment a b *)
Definition to_segment (m : R) (a b p : pt) : Prop :=
  (exists q, on_segment q a b /\ m = sqdist p q) /\ forall q, on_segment q a b -> m <= sqdist p q.
(* m is the smallest squared distance between p and the line through a and b (the point a when a = b) *)
Definition to_line3 (m : R) (a b p : pt3) : Prop :=
  (exists t, m = sqdist3 p (lerp3 a b t)) /\ forall t, m <= sqdist3 p (lerp3 a b t).
(* x is m up to k relative errors of e *)
Definition times_ (k : nat) (e m x : R) : Prop := (1 - e) ^ k * m <= x <= (1 + e) ^ k * m.

Lemma safe_to_segment (a b p : pt) : to_segment (dist_line2_safe a b p) a b p.
Proof.
  destruct (dist_line2_safe_R a b p) as [(t & Ht & E) L]. split.
  - exists (lerp a b t). split; [exists t; auto|exact E].
  - intros q (t' & Ht' & ->). apply L; auto.
Qed.
Lemma safe_to_line3 (a b p : pt3) : to_line3 (dist_line3_safe a b p) a b p.
Proof.
  split; [exact (dist3_line_R a b p)|]. intros t. destruct (weqb (S := RS) a b) eqn:E.
  - apply weqb_R in E. rewrite <- E, dist_line3_safe_point. right. unfold sqdist3, lerp3. cbn [wx wy wz]. rring.
  - apply dist_line3_safe_R. intros C. rewrite C in E. assert (weqb (S := RS) b b = true) by (apply weqb_R; auto). congruence.
Qed.
Lemma times2 e m x : (1 - e) * (1 - e) * m <= x <= (1 + e) * (1 + e) * m -> times_ 2 e m x.
Proof. unfold times_. cbn [pow]. lra. Qed.
Lemma times4 e m x : (1 - e) * (1 - e) * ((1 - e) * (1 - e)) * m <= x <= (1 + e) * (1 + e) * ((1 + e) * (1 + e)) * m -> times_ 4 e m x.
Proof. unfold times_. cbn [pow]. intros [H1 H2]. split; [eapply Rle_trans; [|exact H1]|eapply Rle_trans; [exact H2|]]; right; ring. Qed.

(* ---- C158: computed distances are the exact ones up to a few roundings ---- *)
(* distance_to_line_squared(_safe), f64, 2D: two relative errors of 2^-53 *)
Theorem C158_distance_2d_f64 : forall at2 s (a b p : V2 (F64 at2)), grid64_to (2 ^ 24) s a -> grid64_to (2 ^ 24) s b -> grid64_to (2 ^ 24) s p ->
  exists m, to_segment m (value64 a) (value64 b) (value64 p) /\
    (value64 a <> value64 b -> finite_float 53 1024 (dist_line2 a b p) /\ times_ 2 (bpow radix2 (-53)) m (fvalue (dist_line2 a b p))) /\
    ((-51 <= s)%Z -> finite_float 53 1024 (dist_line2_safe a b p) /\ times_ 2 (bpow radix2 (-53)) m (fvalue (dist_line2_safe a b p))).
Proof.
  intros at2 s a b p [Hs Ha] [_ Hb] [_ Hp]. exists (dist_line2_safe (S := RS) (value64 a) (value64 b) (value64 p)). split; [apply safe_to_segment|]. split.
  - intros N. destruct (dist2_both 53 1024 (-52) at2 P53 M53 s (2 ^ 24) (rdp_ok64 s Hs) a b p Ha Hb Hp N) as [G H]. split; [exact G|apply times2; exact H].
  - intros H51. destruct (dist2_safe_both 53 1024 (-52) at2 P53 M53 s (2 ^ 24) (rdp_ok64 s Hs) ltac:(lia) ltac:(lia) ltac:(unfold SpecFloat.emin; lia) ltac:(lia) a b p Ha Hb Hp) as [G H]. split; [exact G|apply times2; exact H].
Qed.
Print Assumptions C158_distance_2d_f64.
(* f32, 2D: two relative errors of 2^-24 *)
Theorem C158_distance_2d_f32 : forall at2 s (a b p : V2 (F32 at2)), grid32_to (2 ^ 10) s a -> grid32_to (2 ^ 10) s b -> grid32_to (2 ^ 10) s p ->
  exists m, to_segment m (value32 a) (value32 b) (value32 p) /\
    (value32 a <> value32 b -> finite_float 24 128 (dist_line2 a b p) /\ times_ 2 (bpow radix2 (-24)) m (fvalue (dist_line2 a b p))) /\
    ((-22 <= s)%Z -> finite_float 24 128 (dist_line2_safe a b p) /\ times_ 2 (bpow radix2 (-24)) m (fvalue (dist_line2_safe a b p))).
Proof.
  intros at2 s a b p [Hs Ha] [_ Hb] [_ Hp]. exists (dist_line2_safe (S := RS) (value32 a) (value32 b) (value32 p)). split; [apply safe_to_segment|]. split.
  - intros N. destruct (dist2_both 24 128 (-23) at2 P24 M24 s (2 ^ 10) (rdp_ok32 s Hs) a b p Ha Hb Hp N) as [G H]. split; [exact G|apply times2; exact H].
  - intros H51. destruct (dist2_safe_both 24 128 (-23) at2 P24 M24 s (2 ^ 10) (rdp_ok32 s Hs) ltac:(lia) ltac:(lia) ltac:(unfold SpecFloat.emin; lia) ltac:(lia) a b p Ha Hb Hp) as [G H]. split; [exact G|apply times2; exact H].
Qed.
Print Assumptions C158_distance_2d_f32.
(* 3D: four relative errors *)
Theorem C158_distance_3d_f64 : forall at2 s (a b p : V3 (F64 at2)), grid64_to3 (2 ^ 24) s a -> grid64_to3 (2 ^ 24) s b -> grid64_to3 (2 ^ 24) s p ->
  exists m, to_line3 m (value64_3 a) (value64_3 b) (value64_3 p) /\
    (value64_3 a <> value64_3 b -> finite_float 53 1024 (dist_line3 a b p) /\ times_ 4 (bpow radix2 (-53)) m (fvalue (dist_line3 a b p))) /\
    ((-51 <= s)%Z -> finite_float 53 1024 (dist_line3_safe a b p) /\ times_ 4 (bpow radix2 (-53)) m (fvalue (dist_line3_safe a b p))).
Proof.
  intros at2 s a b p [Hs Ha] [_ Hb] [_ Hp]. exists (dist_line3_safe (S := RS) (value64_3 a) (value64_3 b) (value64_3 p)). split; [apply safe_to_line3|]. split.
  - intros N. destruct (dist3_both 53 1024 (-52) at2 P53 M53 s (2 ^ 24) (rdp_ok64 s Hs) a b p Ha Hb Hp N) as [G H]. split; [exact G|apply times4; exact H].
  - intros H51. destruct (dist3_safe_both 53 1024 (-52) at2 P53 M53 s (2 ^ 24) (rdp_ok64 s Hs) ltac:(lia) ltac:(lia) ltac:(unfold SpecFloat.emin; lia) ltac:(lia) a b p Ha Hb Hp) as [G H]. split; [exact G|apply times4; exact H].
Qed.
Print Assumptions C158_distance_3d_f64.
Theorem C158_distance_3d_f32 : forall at2 s (a b p : V3 (F32 at2)), grid32_to3 (2 ^ 10) s a -> grid32_to3 (2 ^ 10) s b -> grid32_to3 (2 ^ 10) s p ->
  exists m, to_line3 m (value32_3 a) (value32_3 b) (value32_3 p) /\
    (value32_3 a <> value32_3 b -> finite_float 24 128 (dist_line3 a b p) /\ times_ 4 (bpow radix2 (-24)) m (fvalue (dist_line3 a b p))) /\
    ((-22 <= s)%Z -> finite_float 24 128 (dist_line3_safe a b p) /\ times_ 4 (bpow radix2 (-24)) m (fvalue (dist_line3_safe a b p))).
Proof.
  intros at2 s a b p [Hs Ha] [_ Hb] [_ Hp]. exists (dist_line3_safe (S := RS) (value32_3 a) (value32_3 b) (value32_3 p)). split; [apply safe_to_line3|]. split.
  - intros N. destruct (dist3_both 24 128 (-23) at2 P24 M24 s (2 ^ 10) (rdp_ok32 s Hs) a b p Ha Hb Hp N) as [G H]. split; [exact G|apply times4; exact H].
  - intros H51. destruct (dist3_safe_both 24 128 (-23) at2 P24 M24 s (2 ^ 10) (rdp_ok32 s Hs) ltac:(lia) ltac:(lia) ltac:(unfold SpecFloat.emin; lia) ltac:(lia) a b p Ha Hb Hp) as [G H]. split; [exact G|apply times4; exact H].
Qed.
Print Assumptions C158_distance_3d_f32.
Example C158_hypotheses_met at2 : grid64_to (2 ^ 24) 0 (@I64 at2 1 1) /\ grid64_to (2 ^ 24) 0 (@I64 at2 0 0) /\ grid64_to (2 ^ 24) 0 (@I64 at2 16777216 7).
Proof. split; [|split]; apply I64_to; lia. Qed.

(* grid steps of 2^-53 or less are refuted for the _safe variants: ends closer than the machine epsilon count as one point.
   The distance of the end b = (2^-53, 0) of the segment from (0, 0) to b is computed as 2^-53 (squared: 2^-106), the exact one is 0 *)
Definition tiny : V2 F64_ := @mkV2 F64_ (S754_finite false 4503599627370496 (-105)) (S754_zero false).
Theorem C158_close_ends_refuted :
  dist_line2_safe (S := F64_) (P 0 0) tiny tiny = S754_finite false 4503599627370496 (-158) /\ fvalue (S754_finite false 4503599627370496 (-158)) = bpow radix2 (-106) /\
  to_segment 0 (value64 (P 0 0)) (value64 tiny) (value64 tiny).
Proof.
  split; [apply sf_eqb_eq; vm_compute; reflexivity|]. split.
  - unfold fvalue, SF2R, Defs.F2R. cbn [cond_Zopp Fnum Fexp]. change 4503599627370496%Z with (Zpower radix2 52). rewrite (IZR_Zpower radix2) by lia. rewrite <- bpow_plus. reflexivity.
  - split; [|intros q _; apply sqdist_nonneg]. exists (value64 tiny). split; [exists 1; split; [lra|]|].
    + unfold lerp. apply V2_ext; cbn [vx vy]; rring.
    + unfold sqdist. rring.
Qed.
Print Assumptions C158_close_ends_refuted.

(* ---- C159: float lines that stay within the tolerance keep their ends only ---- *)
Theorem C159_ends_kept_f64 : forall at2 s (a b : V2 (F64 at2)) mid d, (-51 <= s)%Z -> Forall (grid64_to (2 ^ 24) s) (a :: mid ++ [b]) -> tolerance64 d ->
  (forall p, In p mid -> exists q, on_segment q (value64 a) (value64 b) /\ edist (value64 p) q <= fvalue d * (1 - bpow radix2 (-52))) ->
  simplify_rdp_2d (S := F64 at2) (a :: mid ++ [b]) d = Val [a; b].
Proof.
  intros at2 s a b mid d H51 HL Hd H. destruct (all64 _ _ _ (a :: mid ++ [b]) ltac:(discriminate) HL) as [Hs HG]. apply tol64 in Hd.
  pose proof (two_u 53) as U. change (1 - 53)%Z with (-52)%Z in U. rewrite <- U in H.
  exact (ends2_float 53 1024 (-52) at2 P53 M53 s (2 ^ 24) (rdp_ok64 s Hs) ltac:(lia) ltac:(lia) ltac:(unfold SpecFloat.emin; lia) ltac:(lia) a mid b d HG Hd H).
Qed.
Print Assumptions C159_ends_kept_f64.
Theorem C159_ends_kept_f32 : forall at2 s (a b : V2 (F32 at2)) mid d, (-22 <= s)%Z -> Forall (grid32_to (2 ^ 10) s) (a :: mid ++ [b]) -> tolerance32 d ->
  (forall p, In p mid -> exists q, on_segment q (value32 a) (value32 b) /\ edist (value32 p) q <= fvalue d * (1 - bpow radix2 (-23))) ->
  simplify_rdp_2d (S := F32 at2) (a :: mid ++ [b]) d = Val [a; b].
Proof.
  intros at2 s a b mid d H51 HL Hd H. destruct (all32 _ _ _ (a :: mid ++ [b]) ltac:(discriminate) HL) as [Hs HG]. apply tol32 in Hd.
  pose proof (two_u 24) as U. change (1 - 24)%Z with (-23)%Z in U. rewrite <- U in H.
  exact (ends2_float 24 128 (-23) at2 P24 M24 s (2 ^ 10) (rdp_ok32 s Hs) ltac:(lia) ltac:(lia) ltac:(unfold SpecFloat.emin; lia) ltac:(lia) a mid b d HG Hd H).
Qed.
Print Assumptions C159_ends_kept_f32.
Theorem C159_ends_kept_3d_f64 : forall at2 s (a b : V3 (F64 at2)) mid d, (-51 <= s)%Z -> Forall (grid64_to3 (2 ^ 24) s) (a :: mid ++ [b]) -> tolerance64 d ->
  (forall p, In p mid -> exists t, edist3 (value64_3 p) (lerp3 (value64_3 a) (value64_3 b) t) <= fvalue d * (1 - bpow radix2 (-51))) ->
  simplify_rdp_3d (S := F64 at2) (a :: mid ++ [b]) d = Val [a; b].
Proof.
  intros at2 s a b mid d H51 HL Hd H. destruct (all64_3 _ _ _ (a :: mid ++ [b]) ltac:(discriminate) HL) as [Hs HG]. apply tol64 in Hd.
  pose proof (four_u 53) as U. change (2 - 53)%Z with (-51)%Z in U. rewrite <- U in H.
  exact (ends3_float 53 1024 (-52) at2 P53 M53 s (2 ^ 24) (rdp_ok64 s Hs) ltac:(lia) ltac:(lia) ltac:(unfold SpecFloat.emin; lia) ltac:(lia) a mid b d HG Hd H).
Qed.
Print Assumptions C159_ends_kept_3d_f64.
Theorem C159_ends_kept_3d_f32 : forall at2 s (a b : V3 (F32 at2)) mid d, (-22 <= s)%Z -> Forall (grid32_to3 (2 ^ 10) s) (a :: mid ++ [b]) -> tolerance32 d ->
  (forall p, In p mid -> exists t, edist3 (value32_3 p) (lerp3 (value32_3 a) (value32_3 b) t) <= fvalue d * (1 - bpow radix2 (-22))) ->
  simplify_rdp_3d (S := F32 at2) (a :: mid ++ [b]) d = Val [a; b].
Proof.
  intros at2 s a b mid d H51 HL Hd H. destruct (all32_3 _ _ _ (a :: mid ++ [b]) ltac:(discriminate) HL) as [Hs HG]. apply tol32 in Hd.
  pose proof (four_u 24) as U. change (2 - 24)%Z with (-22)%Z in U. rewrite <- U in H.
  exact (ends3_float 24 128 (-23) at2 P24 M24 s (2 ^ 10) (rdp_ok32 s Hs) ltac:(lia) ltac:(lia) ltac:(unfold SpecFloat.emin; lia) ltac:(lia) a mid b d HG Hd H).
Qed.
Print Assumptions C159_ends_kept_3d_f32.
Example C159_hypotheses_met at2 : Forall (grid64_to (2 ^ 24) 0) [@I64 at2 0 0; I64 1 1; I64 4 0] /\ tolerance64 (f64 3) /\
  exists q, on_segment q (value64 (@I64 at2 0 0)) (value64 (@I64 at2 4 0)) /\ edist (value64 (@I64 at2 1 1)) q <= fvalue (f64 3) * (1 - bpow radix2 (-52)).
Proof.
  destruct (C110_hypotheses_met at2) as [_ T]. split; [repeat (apply Forall_cons; [apply I64_to; lia|]); apply Forall_nil|]. split; [exact T|].
  assert (V : forall x y, (Z.abs x <= 2 ^ 24)%Z -> (Z.abs y <= 2 ^ 24)%Z -> value64 (@I64 at2 x y) = at_ (IZR x) (IZR y)).
  { intros x y Hx Hy. unfold value64, point_value, I64. cbn [vx vy].
    destruct (fl_of_Z_good 53 1024 P53 M53 x) as [_ Ex]; [lia|split; cbn; lia|]. destruct (fl_of_Z_good 53 1024 P53 M53 y) as [_ Ey]; [lia|split; cbn; lia|].
    rewrite Ex, Ey. reflexivity. }
  rewrite !V by lia. exists (at_ 0 0). split; [exists 0; split; [lra|unfold lerp; apply V2_ext; cbn [vx vy]; rring]|].
  destruct (fl_of_Z_good 53 1024 P53 M53 3) as [_ E]; [lia|split; cbn; lia|]. change (fvalue (f64 3)) with (fvalue (fl_of_Z 53 1024 3)). rewrite E.
  assert (B : bpow radix2 (-52) <= / 4) by (apply Rle_trans with (bpow radix2 (-2)); [apply bpow_le; lia|cbn; lra]).
  apply Rle_trans with 2; [|lra]. unfold edist. rewrite <- (sqrt_square 2) by lra. apply sqrt_le_1; [apply sqdist_nonneg|lra|].
  unfold sqdist. cbn [vx vy]. rsimp. lra.
Qed.
