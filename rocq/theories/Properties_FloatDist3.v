(* f64 and f32 Ramer-Douglas-Peucker of moved, turned and mirrored lines whose coordinates, before and after, are small multiples of a
   power of two (C162). Models: Flt.v, Geo2.v, Geo3.v, Simplify.v. Vocabulary: FloatSpec.v (grids, value64, ...), Properties_Float2
   (tolerance64, tolerance32), edist (GeoSpec.v). *)
From Coq Require Import ZArith Reals Lra Lia Psatz Floats.SpecFloat.
From Flocq Require Import Core BinarySingleNaN.
From Verif Require Import Prelude Scalar RInst Flt FloatSpec FloatLink FloatGrid FloatRound FloatRdp FloatDist FloatVal FloatRdp2 Geo2 Geo3 GeoSpec DistR Simplify Properties_Hull Properties_Float Properties_Float2 Properties_FloatDist2.
Local Open Scope R_scope.

(* every turn, shift and mirror of the plane, and every combination of them *)
Definition keeps_distances (f : pt -> pt) : Prop := forall a b, edist (f a) (f b) = edist a b.
(* shifts by (x, y, z) after mirroring each coordinate or not *)
Definition shifted_mirrored (f : pt3 -> pt3) : Prop := exists u v w x y z : R, u * u = 1 /\ v * v = 1 /\ w * w = 1 /\
  forall p, f p = @mkV3 RS (u * wx p + x) (v * wy p + y) (w * wz p + z).

Lemma keeps_sq f : keeps_distances f -> forall a b, sqdist (f a) (f b) = sqdist a b.
Proof. intros H a b. specialize (H a b). unfold edist in H. apply sqrt_inj in H; auto; apply sqdist_nonneg. Qed.
Lemma by_distances A B P : vmag2 (S := RS) (vsub A B) = sqdist A B /\ vdot (S := RS) (vsub A P) (vsub A B) = (sqdist A P + sqdist A B - sqdist P B) / 2 /\
  vperp (S := RS) (vsub A P) (vsub A B) * vperp (S := RS) (vsub A P) (vsub A B) = sqdist A P * sqdist A B - ((sqdist A P + sqdist A B - sqdist P B) / 2) * ((sqdist A P + sqdist A B - sqdist P B) / 2).
Proof.
  destruct A as [a1 a2], B as [b1 b2], P as [p1 p2]. unfold vmag2, vdot, vperp, vsub, sqdist. cbn [vx vy sadd ssub smul RS car] in *. split; [ring|split; field].
Qed.
Lemma sq0_eq (a b : pt) : sqdist a b = 0 <-> a = b.
Proof.
  split; [|intros ->; destruct b as [b1 b2]; unfold sqdist; cbn [vx vy car RS] in *; ring].
  destruct a as [a1 a2], b as [b1 b2]. unfold sqdist. cbn [vx vy car RS] in *. intros E.
  assert (a1 - b1 = 0 /\ a2 - b2 = 0) as [E1 E2] by (assert (H1 := Rle_0_sqr (a1 - b1)); assert (H2 := Rle_0_sqr (a2 - b2)); unfold Rsqr in *; split; apply Rsqr_0_uniq; unfold Rsqr; nra).
  apply V2_ext; cbn [vx vy]; lra.
Qed.
Lemma dsafe2_iso prec emax f : keeps_distances f -> forall A B P, dsafe2 prec emax (f A) (f B) (f P) = dsafe2 prec emax A B P.
Proof.
  intros Hf A B P. assert (K := keeps_sq f Hf). unfold dsafe2.
  assert (E : veqb (S := RS) (f A) (f B) = veqb (S := RS) A B).
  { destruct (veqb (S := RS) A B) eqn:E.
    - apply veqb_R in E. apply veqb_R. congruence.
    - apply Bool.not_true_iff_false. intros C. apply veqb_R in C. apply Bool.not_true_iff_false in E. apply E, veqb_R, sq0_eq. rewrite <- K. apply sq0_eq; auto. }
  rewrite E. destruct (veqb (S := RS) A B); [apply K|]. unfold dval2. cbv zeta.
  destruct (by_distances A B P) as (E1 & E2 & E3), (by_distances (f A) (f B) (f P)) as (F1 & F2 & F3).
  rewrite E1, E2, E3, F1, F2, F3, !K. reflexivity.
Qed.
Lemma dsafe3_iso prec emax f : shifted_mirrored f -> forall A B P, dsafe3 prec emax (f A) (f B) (f P) = dsafe3 prec emax A B P.
Proof.
  intros (u & v & w & x & y & z & Hu & Hv & Hw & Hf) A B P. unfold dsafe3.
  assert (NZ : forall t, t * t = 1 -> t <> 0) by (intros t Ht ->; lra).
  assert (E : weqb (S := RS) (f A) (f B) = weqb (S := RS) A B).
  { destruct (weqb (S := RS) A B) eqn:E.
    - apply weqb_R in E. apply weqb_R. congruence.
    - apply Bool.not_true_iff_false. intros C. apply weqb_R in C. apply Bool.not_true_iff_false in E. apply E, weqb_R.
      rewrite !Hf in C. injection C as C1 C2 C3. apply Rplus_eq_reg_r in C1. apply Rplus_eq_reg_r in C2. apply Rplus_eq_reg_r in C3.
      apply Rmult_eq_reg_l in C1; auto. apply Rmult_eq_reg_l in C2; auto. apply Rmult_eq_reg_l in C3; auto. apply V3_ext; auto. }
  rewrite E. clear E.
  assert (SQ : forall t r, t * t = 1 -> (t * r) * (t * r) = r * r) by (intros t r Ht; replace ((t * r) * (t * r)) with ((t * t) * (r * r)) by ring; rewrite Ht; ring).
  assert (D3 : forall c a : pt3, sqdist3 (f c) (f a) = sqdist3 c a).
  { intros c a. rewrite !Hf. destruct a as [a1 a2 a3], c as [c1 c2 c3]. unfold sqdist3. cbn [wx wy wz car RS] in *.
    replace (u * c1 + x - (u * a1 + x)) with (u * (c1 - a1)) by ring. replace (v * c2 + y - (v * a2 + y)) with (v * (c2 - a2)) by ring. replace (w * c3 + z - (w * a3 + z)) with (w * (c3 - a3)) by ring.
    rewrite !SQ by auto. reflexivity. }
  destruct (weqb (S := RS) A B); [apply D3|]. unfold dval3. cbv zeta.
  assert (ED : dD (f A) (f B) = dD A B).
  { rewrite !Hf. destruct A as [a1 a2 a3], B as [c1 c2 c3]. unfold dD. cbn [wx wy wz car RS] in *.
    replace (u * a1 + x - (u * c1 + x)) with (u * (a1 - c1)) by ring. replace (v * a2 + y - (v * c2 + y)) with (v * (a2 - c2)) by ring. replace (w * a3 + z - (w * c3 + z)) with (w * (a3 - c3)) by ring.
    rewrite !SQ by auto. reflexivity. }
  assert (EX : dX (f A) (f B) (f P) = (v * w) * dX A B P) by (rewrite !Hf; destruct A as [a1 a2 a3], B as [b1 b2 b3], P as [p1 p2 p3]; unfold dX; cbn [wx wy wz car RS] in *; ring).
  assert (EY : dY (f A) (f B) (f P) = (w * u) * dY A B P) by (rewrite !Hf; destruct A as [a1 a2 a3], B as [b1 b2 b3], P as [p1 p2 p3]; unfold dY; cbn [wx wy wz car RS] in *; ring).
  assert (EZ : dZ (f A) (f B) (f P) = (u * v) * dZ A B P) by (rewrite !Hf; destruct A as [a1 a2 a3], B as [b1 b2 b3], P as [p1 p2 p3]; unfold dZ; cbn [wx wy wz car RS] in *; ring).
  assert (ONE : forall s t, s * s = 1 -> t * t = 1 -> (s * t) * (s * t) = 1) by (intros s t Hs Ht; replace ((s * t) * (s * t)) with ((s * s) * (t * t)) by ring; rewrite Hs, Ht; ring).
  rewrite EX, EY, EZ, ED, !SQ by (apply ONE; auto). reflexivity.
Qed.
Lemma related {A B} (val : A -> B) (f : B -> B) (pts qs : list A) : map val qs = map f (map val pts) <-> Forall2 (fun p q => val q = f (val p)) pts qs.
Proof.
  revert qs. induction pts as [|p pts IH]; intros [|q qs]; cbn [map]; split; intros H; try discriminate; try (inversion H; fail); auto.
  - injection H as H1 H2. constructor; auto. apply IH; auto.
  - inversion H; subst. f_equal; auto. apply IH; auto.
Qed.

(* ---- C162 ---- *)
Theorem C162_moved_f64 : forall at2 s s' (f : pt -> pt) (pts qs : list (V2 (F64 at2))) d, keeps_distances f -> pts <> [] -> (-51 <= s)%Z -> (-51 <= s')%Z ->
  Forall (grid64_to (2 ^ 24) s) pts -> Forall (grid64_to (2 ^ 24) s') qs -> tolerance64 d -> map value64 qs = map f (map value64 pts) ->
  exists out out', simplify_rdp_2d (S := F64 at2) pts d = Val out /\ simplify_rdp_2d (S := F64 at2) qs d = Val out' /\ map value64 out' = map f (map value64 out).
Proof.
  intros at2 s s' f pts qs d Hf Hne Hlo Hlo' HL HL' Hd Hm. assert (Hne' : qs <> []) by (intros ->; destruct pts; [congruence|discriminate]).
  destruct (all64 _ _ _ pts Hne HL) as [Hs HG]. destruct (all64 _ _ _ qs Hne' HL') as [Hs' HG']. apply tol64 in Hd. apply related in Hm.
  destruct (scale_float 53 1024 (-52) at2 P53 M53 (dist_line2_safe (S := FloatS 53 1024 (-52) at2)) (@point_value 53 1024 (-52) at2) (dsafe2 53 1024)
    (@grid_point 53 1024 (-52) at2 s (2 ^ 24)) (@grid_point 53 1024 (-52) at2 s' (2 ^ 24)) 0 pts qs d d
    (fits2 53 1024 (-52) at2 P53 M53 s (2 ^ 24) (fine64 s ltac:(lia))) (fits2 53 1024 (-52) at2 P53 M53 s' (2 ^ 24) (fine64 s' ltac:(lia))) HG HG' Hd Hd
    ltac:(cbn [bpow]; ring) (fun p q => value64 q = f (value64 p)) Hm) as (out & out' & E1 & E2 & H).
  - intros a b p a' b' p' _ _ _ _ _ _ Ea Eb Ep. change (@point_value 53 1024 (-52) at2) with (@value64 at2) in *. rewrite Ea, Eb, Ep, (dsafe2_iso _ _ f Hf). cbn [bpow]. ring.
  - exists out, out'. split; [exact E1|]. split; [exact E2|]. apply related. exact H.
Qed.
Print Assumptions C162_moved_f64.
Theorem C162_moved_f32 : forall at2 s s' (f : pt -> pt) (pts qs : list (V2 (F32 at2))) d, keeps_distances f -> pts <> [] -> (-22 <= s)%Z -> (-22 <= s')%Z ->
  Forall (grid32_to (2 ^ 10) s) pts -> Forall (grid32_to (2 ^ 10) s') qs -> tolerance32 d -> map value32 qs = map f (map value32 pts) ->
  exists out out', simplify_rdp_2d (S := F32 at2) pts d = Val out /\ simplify_rdp_2d (S := F32 at2) qs d = Val out' /\ map value32 out' = map f (map value32 out).
Proof.
  intros at2 s s' f pts qs d Hf Hne Hlo Hlo' HL HL' Hd Hm. assert (Hne' : qs <> []) by (intros ->; destruct pts; [congruence|discriminate]).
  destruct (all32 _ _ _ pts Hne HL) as [Hs HG]. destruct (all32 _ _ _ qs Hne' HL') as [Hs' HG']. apply tol32 in Hd. apply related in Hm.
  destruct (scale_float 24 128 (-23) at2 P24 M24 (dist_line2_safe (S := FloatS 24 128 (-23) at2)) (@point_value 24 128 (-23) at2) (dsafe2 24 128)
    (@grid_point 24 128 (-23) at2 s (2 ^ 10)) (@grid_point 24 128 (-23) at2 s' (2 ^ 10)) 0 pts qs d d
    (fits2 24 128 (-23) at2 P24 M24 s (2 ^ 10) (fine32 s ltac:(lia))) (fits2 24 128 (-23) at2 P24 M24 s' (2 ^ 10) (fine32 s' ltac:(lia))) HG HG' Hd Hd
    ltac:(cbn [bpow]; ring) (fun p q => value32 q = f (value32 p)) Hm) as (out & out' & E1 & E2 & H).
  - intros a b p a' b' p' _ _ _ _ _ _ Ea Eb Ep. change (@point_value 24 128 (-23) at2) with (@value32 at2) in *. rewrite Ea, Eb, Ep, (dsafe2_iso _ _ f Hf). cbn [bpow]. ring.
  - exists out, out'. split; [exact E1|]. split; [exact E2|]. apply related. exact H.
Qed.
Print Assumptions C162_moved_f32.
Theorem C162_moved_3d_f64 : forall at2 s s' (f : pt3 -> pt3) (pts qs : list (V3 (F64 at2))) d, shifted_mirrored f -> pts <> [] -> (-51 <= s)%Z -> (-51 <= s')%Z ->
  Forall (grid64_to3 (2 ^ 24) s) pts -> Forall (grid64_to3 (2 ^ 24) s') qs -> tolerance64 d -> map value64_3 qs = map f (map value64_3 pts) ->
  exists out out', simplify_rdp_3d (S := F64 at2) pts d = Val out /\ simplify_rdp_3d (S := F64 at2) qs d = Val out' /\ map value64_3 out' = map f (map value64_3 out).
Proof.
  intros at2 s s' f pts qs d Hf Hne Hlo Hlo' HL HL' Hd Hm. assert (Hne' : qs <> []) by (intros ->; destruct pts; [congruence|discriminate]).
  destruct (all64_3 _ _ _ pts Hne HL) as [Hs HG]. destruct (all64_3 _ _ _ qs Hne' HL') as [Hs' HG']. apply tol64 in Hd. apply related in Hm.
  destruct (scale_float 53 1024 (-52) at2 P53 M53 (dist_line3_safe (S := FloatS 53 1024 (-52) at2)) (@point_value3 53 1024 (-52) at2) (dsafe3 53 1024)
    (@grid_point3 53 1024 (-52) at2 s (2 ^ 24)) (@grid_point3 53 1024 (-52) at2 s' (2 ^ 24)) 0 pts qs d d
    (fits3 53 1024 (-52) at2 P53 M53 s (2 ^ 24) (fine64 s ltac:(lia))) (fits3 53 1024 (-52) at2 P53 M53 s' (2 ^ 24) (fine64 s' ltac:(lia))) HG HG' Hd Hd
    ltac:(cbn [bpow]; ring) (fun p q => value64_3 q = f (value64_3 p)) Hm) as (out & out' & E1 & E2 & H).
  - intros a b p a' b' p' _ _ _ _ _ _ Ea Eb Ep. change (@point_value3 53 1024 (-52) at2) with (@value64_3 at2) in *. rewrite Ea, Eb, Ep, (dsafe3_iso _ _ f Hf). cbn [bpow]. ring.
  - exists out, out'. split; [exact E1|]. split; [exact E2|]. apply related. exact H.
Qed.
Print Assumptions C162_moved_3d_f64.
Theorem C162_moved_3d_f32 : forall at2 s s' (f : pt3 -> pt3) (pts qs : list (V3 (F32 at2))) d, shifted_mirrored f -> pts <> [] -> (-22 <= s)%Z -> (-22 <= s')%Z ->
  Forall (grid32_to3 (2 ^ 10) s) pts -> Forall (grid32_to3 (2 ^ 10) s') qs -> tolerance32 d -> map value32_3 qs = map f (map value32_3 pts) ->
  exists out out', simplify_rdp_3d (S := F32 at2) pts d = Val out /\ simplify_rdp_3d (S := F32 at2) qs d = Val out' /\ map value32_3 out' = map f (map value32_3 out).
Proof.
  intros at2 s s' f pts qs d Hf Hne Hlo Hlo' HL HL' Hd Hm. assert (Hne' : qs <> []) by (intros ->; destruct pts; [congruence|discriminate]).
  destruct (all32_3 _ _ _ pts Hne HL) as [Hs HG]. destruct (all32_3 _ _ _ qs Hne' HL') as [Hs' HG']. apply tol32 in Hd. apply related in Hm.
  destruct (scale_float 24 128 (-23) at2 P24 M24 (dist_line3_safe (S := FloatS 24 128 (-23) at2)) (@point_value3 24 128 (-23) at2) (dsafe3 24 128)
    (@grid_point3 24 128 (-23) at2 s (2 ^ 10)) (@grid_point3 24 128 (-23) at2 s' (2 ^ 10)) 0 pts qs d d
    (fits3 24 128 (-23) at2 P24 M24 s (2 ^ 10) (fine32 s ltac:(lia))) (fits3 24 128 (-23) at2 P24 M24 s' (2 ^ 10) (fine32 s' ltac:(lia))) HG HG' Hd Hd
    ltac:(cbn [bpow]; ring) (fun p q => value32_3 q = f (value32_3 p)) Hm) as (out & out' & E1 & E2 & H).
  - intros a b p a' b' p' _ _ _ _ _ _ Ea Eb Ep. change (@point_value3 24 128 (-23) at2) with (@value32_3 at2) in *. rewrite Ea, Eb, Ep, (dsafe3_iso _ _ f Hf). cbn [bpow]. ring.
  - exists out, out'. split; [exact E1|]. split; [exact E2|]. apply related. exact H.
Qed.
Print Assumptions C162_moved_3d_f32.
(* a turn by the angle of the 3-4-5 triangle *)
Definition turn345 (p : pt) : pt := @mkV2 RS ((3 * vx p - 4 * vy p) / 5) ((4 * vx p + 3 * vy p) / 5).
Example C162_hypotheses_met at2 : keeps_distances turn345 /\
  let pts := [@I64 at2 0 0; I64 5 5; I64 10 15; I64 20 0] in let qs := [@I64 at2 0 0; I64 (-1) 7; I64 (-6) 17; I64 12 16] in
  Forall (grid64_to (2 ^ 24) 0) pts /\ Forall (grid64_to (2 ^ 24) 0) qs /\ map value64 qs = map turn345 (map value64 pts).
Proof.
  split.
  - intros a b. unfold edist. f_equal. destruct a as [a1 a2], b as [b1 b2]. unfold sqdist, turn345. cbn [vx vy car RS] in *. field.
  - intros pts qs. split; [repeat (apply Forall_cons; [apply I64_to; lia|]); apply Forall_nil|]. split; [repeat (apply Forall_cons; [apply I64_to; lia|]); apply Forall_nil|].
    assert (V : forall x y, (Z.abs x <= 2 ^ 24)%Z -> (Z.abs y <= 2 ^ 24)%Z -> value64 (@I64 at2 x y) = at_ (IZR x) (IZR y)).
    { intros x y Hx Hy. unfold value64, point_value, I64. cbn [vx vy].
      destruct (fl_of_Z_good 53 1024 P53 M53 x) as [_ Ex]; [lia|split; cbn; lia|]. destruct (fl_of_Z_good 53 1024 P53 M53 y) as [_ Ey]; [lia|split; cbn; lia|].
      rewrite Ex, Ey. reflexivity. }
    unfold pts, qs. cbn [map]. rewrite !V by lia. unfold turn345. cbn [vx vy]. repeat (apply (f_equal2 (@cons pt)); [apply V2_ext; cbn [vx vy car RS]; field|]). reflexivity.
Qed.
Example C162_hypotheses_met_3d : shifted_mirrored (fun p => @mkV3 RS (- wx p + 1) (wy p) (wz p + / 2)).
Proof. exists (-1), 1, 1, 1, 0, (/ 2). repeat split; try lra. intros [p1 p2 p3]. apply V3_ext; cbn [wx wy wz car RS] in *; ring. Qed.
