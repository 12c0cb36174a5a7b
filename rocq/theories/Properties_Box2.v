(* C130: centre and size of a box in f64 and f32. Model: Geo2.v, Geo3.v. Vocabulary: BoxSpec.v ([built2 a ps]: the box a was built
   from the points ps; [bounds2 ps (lo, hi)]: lo, hi are the least and greatest coordinates), FloatSpec.v, FloatBox.v
   ([nearest_float .. f m]: f is finite and no finite float is closer to the real number m; [float_to .. e x]: x is finite and |x| <= 2^e). *)
From Coq Require Import ZArith Reals Lra Lia Floats.SpecFloat.
From Flocq Require Import Core BinarySingleNaN.
From Verif Require Import Prelude Scalar RInst Flt FloatSpec FloatLink FloatGrid Geo2 Geo3 BoxSpec BoxProofs FloatBox Properties_Float Properties_Float2.
Local Open Scope R_scope.

Notation up_to64 := (float_to 53 1024 1022).
Notation up_to32 := (float_to 24 128 126).
Notation nearest64 := (nearest_float 53 1024).
Notation nearest32 := (nearest_float 24 128).

Theorem C130_box_f64_partial : forall at2 (a : Aabb2 (F64 at2)) ps, built2 a ps -> ps <> [] -> Forall (fun p : V2 (F64 at2) => up_to64 (vx p) /\ up_to64 (vy p)) ps ->
  exists lo hi d c, bounds2 ps (lo, hi) /\ aabb2_extents a = Some (lo, hi, d) /\ aabb2_center a = Some c /\
    nearest64 (vx d) (fvalue (vx hi) - fvalue (vx lo)) /\ nearest64 (vy d) (fvalue (vy hi) - fvalue (vy lo)) /\
    nearest64 (vx c) ((fvalue (vx lo) + fvalue (vx hi)) / 2) /\ nearest64 (vy c) ((fvalue (vy lo) + fvalue (vy hi)) / 2) /\
    fvalue (vx lo) <= fvalue (vx c) <= fvalue (vx hi) /\ fvalue (vy lo) <= fvalue (vy c) <= fvalue (vy hi) /\ aabb2_contains_point a c = true.
Proof. intros at2 a ps. exact (centre2 53 1024 (-52) at2 eq_refl eq_refl ltac:(lia) ltac:(lia) (BoxOn_F64 at2) a ps). Qed.
Print Assumptions C130_box_f64_partial.
Theorem C130_box3_f64_partial : forall at2 (a : Aabb3 (F64 at2)) ps, built3 a ps -> ps <> [] ->
  Forall (fun p : V3 (F64 at2) => up_to64 (wx p) /\ up_to64 (wy p) /\ up_to64 (wz p)) ps ->
  exists lo hi d c, bounds3 ps (lo, hi) /\ aabb3_extents a = Some (lo, hi, d) /\ aabb3_center a = Some c /\
    nearest64 (wx d) (fvalue (wx hi) - fvalue (wx lo)) /\ nearest64 (wy d) (fvalue (wy hi) - fvalue (wy lo)) /\ nearest64 (wz d) (fvalue (wz hi) - fvalue (wz lo)) /\
    nearest64 (wx c) ((fvalue (wx lo) + fvalue (wx hi)) / 2) /\ nearest64 (wy c) ((fvalue (wy lo) + fvalue (wy hi)) / 2) /\
    nearest64 (wz c) ((fvalue (wz lo) + fvalue (wz hi)) / 2) /\
    fvalue (wx lo) <= fvalue (wx c) <= fvalue (wx hi) /\ fvalue (wy lo) <= fvalue (wy c) <= fvalue (wy hi) /\ fvalue (wz lo) <= fvalue (wz c) <= fvalue (wz hi) /\
    aabb3_contains_point a c = true.
Proof. intros at2 a ps. exact (centre3 53 1024 (-52) at2 eq_refl eq_refl ltac:(lia) ltac:(lia) (BoxOn_F64 at2) a ps). Qed.
Print Assumptions C130_box3_f64_partial.

Theorem C130_box_f32_partial : forall at2 (a : Aabb2 (F32 at2)) ps, built2 a ps -> ps <> [] -> Forall (fun p : V2 (F32 at2) => up_to32 (vx p) /\ up_to32 (vy p)) ps ->
  exists lo hi d c, bounds2 ps (lo, hi) /\ aabb2_extents a = Some (lo, hi, d) /\ aabb2_center a = Some c /\
    nearest32 (vx d) (fvalue (vx hi) - fvalue (vx lo)) /\ nearest32 (vy d) (fvalue (vy hi) - fvalue (vy lo)) /\
    nearest32 (vx c) ((fvalue (vx lo) + fvalue (vx hi)) / 2) /\ nearest32 (vy c) ((fvalue (vy lo) + fvalue (vy hi)) / 2) /\
    fvalue (vx lo) <= fvalue (vx c) <= fvalue (vx hi) /\ fvalue (vy lo) <= fvalue (vy c) <= fvalue (vy hi) /\ aabb2_contains_point a c = true.
Proof. intros at2 a ps. exact (centre2 24 128 (-23) at2 eq_refl eq_refl ltac:(lia) ltac:(lia) (BoxOn_F32 at2) a ps). Qed.
Print Assumptions C130_box_f32_partial.
Theorem C130_box3_f32_partial : forall at2 (a : Aabb3 (F32 at2)) ps, built3 a ps -> ps <> [] ->
  Forall (fun p : V3 (F32 at2) => up_to32 (wx p) /\ up_to32 (wy p) /\ up_to32 (wz p)) ps ->
  exists lo hi d c, bounds3 ps (lo, hi) /\ aabb3_extents a = Some (lo, hi, d) /\ aabb3_center a = Some c /\
    nearest32 (wx d) (fvalue (wx hi) - fvalue (wx lo)) /\ nearest32 (wy d) (fvalue (wy hi) - fvalue (wy lo)) /\ nearest32 (wz d) (fvalue (wz hi) - fvalue (wz lo)) /\
    nearest32 (wx c) ((fvalue (wx lo) + fvalue (wx hi)) / 2) /\ nearest32 (wy c) ((fvalue (wy lo) + fvalue (wy hi)) / 2) /\
    nearest32 (wz c) ((fvalue (wz lo) + fvalue (wz hi)) / 2) /\
    fvalue (wx lo) <= fvalue (wx c) <= fvalue (wx hi) /\ fvalue (wy lo) <= fvalue (wy c) <= fvalue (wy hi) /\ fvalue (wz lo) <= fvalue (wz c) <= fvalue (wz hi) /\
    aabb3_contains_point a c = true.
Proof. intros at2 a ps. exact (centre3 24 128 (-23) at2 eq_refl eq_refl ltac:(lia) ltac:(lia) (BoxOn_F32 at2) a ps). Qed.
Print Assumptions C130_box3_f32_partial.

(* a finite coordinate of 3 * 2^1022: the centre of the box of that single point is infinite and not in the box *)
Theorem C130_centre_refuted : exists p c : V2 F64_, finite_float 53 1024 (vx p) /\ finite_float 53 1024 (vy p) /\
  aabb2_center (aabb2_new p) = Some c /\ vx c = S754_infinity false /\ aabb2_contains_point (aabb2_new p) c = false.
Proof.
  exists (mkV2 (S := F64_) (S754_finite false 6755399441055744 971) (S754_zero false)). eexists.
  split; [split; vm_compute; reflexivity|]. split; [split; vm_compute; reflexivity|]. split; [reflexivity|]. split; [vm_compute; reflexivity|]. vm_compute; reflexivity.
Qed.
Print Assumptions C130_centre_refuted.
(* two integer points *)
Example C130_hypotheses_met at2 : built2 (aabb2_with_points [@I64 at2 0 7; @I64 at2 (-3) 1]) [@I64 at2 0 7; @I64 at2 (-3) 1] /\
  Forall (fun p : V2 (F64 at2) => up_to64 (vx p) /\ up_to64 (vy p)) [@I64 at2 0 7; @I64 at2 (-3) 1].
Proof.
  split; [constructor|]. assert (K : forall z, (Z.abs z <= 8)%Z -> up_to64 (fl_of_Z 53 1024 z)).
  { intros z Hz. destruct (fl_of_Z_good 53 1024 P53 M53 z) as [G E]; [lia|split; cbn; lia|]. split; [exact G|]. rewrite E, <- abs_IZR.
    apply Rle_trans with (bpow radix2 3); [|apply bpow_le; lia]. cbn. apply IZR_le. lia. }
  constructor; [split; apply K; cbn; lia|]. constructor; [split; apply K; cbn; lia|]. constructor.
Qed.
