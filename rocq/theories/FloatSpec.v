(* Float vocabulary: the real number a float stands for, and the points whose coordinates are small multiples of a
   power of two. [SF2R] and [bpow radix2 s] (= 2^s) are Flocq's. *)
From Coq Require Import ZArith Reals Floats.SpecFloat.
From Flocq Require Import Core BinarySingleNaN.
From Verif Require Import Prelude Scalar RInst Flt GeoSpec.
Local Open Scope R_scope.

(* a well-formed float of the format that is neither infinite nor NaN *)
Definition finite_float (prec emax : Z) (x : spec_float) : Prop := valid_binary prec emax x = true /\ is_finite_SF x = true.
(* its value *)
Definition fvalue (x : spec_float) : R := SF2R radix2 x.
(* the float is k * 2^s for an integer k with |k| <= n *)
Definition on_grid (prec emax s n : Z) (x : spec_float) : Prop :=
  finite_float prec emax x /\ exists k : Z, (Z.abs k <= n)%Z /\ fvalue x = IZR k * bpow radix2 s.

(* the same for points *)
Definition point_value {prec emax epsexp at2} (p : V2 (FloatS prec emax epsexp at2)) : pt := @mkV2 RS (fvalue (vx p)) (fvalue (vy p)).
Definition grid_point {prec emax epsexp at2} (s n : Z) (p : V2 (FloatS prec emax epsexp at2)) : Prop :=
  on_grid prec emax s n (vx p) /\ on_grid prec emax s n (vy p).

Definition point_value3 {prec emax epsexp at2} (p : V3 (FloatS prec emax epsexp at2)) : pt3 := @mkV3 RS (fvalue (wx p)) (fvalue (wy p)) (fvalue (wz p)).
Definition grid_point3 {prec emax epsexp at2} (s n : Z) (p : V3 (FloatS prec emax epsexp at2)) : Prop :=
  on_grid prec emax s n (wx p) /\ on_grid prec emax s n (wy p) /\ on_grid prec emax s n (wz p).

(* f64: multiples of 2^s up to 2^25 * 2^s, with s from -25 to 485; f32: up to 1448 * 2^s, with s from -11 to 51.
   Integer coordinates are the case s = 0. *)
Definition grid64 {at2} (s : Z) (p : V2 (F64 at2)) : Prop := (-25 <= s <= 485)%Z /\ @grid_point 53 1024 (-52) at2 s (2 ^ 25) p.
Definition grid32 {at2} (s : Z) (p : V2 (F32 at2)) : Prop := (-11 <= s <= 51)%Z /\ @grid_point 24 128 (-23) at2 s 1448 p.
Definition value64 {at2} (p : V2 (F64 at2)) : pt := @point_value 53 1024 (-52) at2 p.
Definition value32 {at2} (p : V2 (F32 at2)) : pt := @point_value 24 128 (-23) at2 p.
(* the computed atan2 puts the directions from st to p and to q in the same order as the exact one *)
Definition same_angle_order {prec emax epsexp at2} (st p q : V2 (FloatS prec emax epsexp at2)) : Prop :=
  let angle (v : V2 (FloatS prec emax epsexp at2)) := at2 (SFsub prec emax (vy v) (vy st)) (SFsub prec emax (vx v) (vx st)) in
  let exact (v : V2 (FloatS prec emax epsexp at2)) := Ratan2 (fvalue (vy v) - fvalue (vy st)) (fvalue (vx v) - fvalue (vx st)) in
  (SFltb (angle p) (angle q) = true <-> exact p < exact q) /\ (SFeqb (angle p) (angle q) = true <-> exact p = exact q).

(* the grids of C109 and C110: multiples k * 2^s with |k| <= n; s from -255 to 228 (f64), from -31 to 19 (f32) *)
Definition grid64_to {at2} (n s : Z) (p : V2 (F64 at2)) : Prop := (-255 <= s <= 228)%Z /\ @grid_point 53 1024 (-52) at2 s n p.
Definition grid32_to {at2} (n s : Z) (p : V2 (F32 at2)) : Prop := (-31 <= s <= 19)%Z /\ @grid_point 24 128 (-23) at2 s n p.
Definition grid64_to3 {at2} (n s : Z) (p : V3 (F64 at2)) : Prop := (-255 <= s <= 228)%Z /\ @grid_point3 53 1024 (-52) at2 s n p.
Definition grid32_to3 {at2} (n s : Z) (p : V3 (F32 at2)) : Prop := (-31 <= s <= 19)%Z /\ @grid_point3 24 128 (-23) at2 s n p.
Definition value64_3 {at2} (p : V3 (F64 at2)) : pt3 := @point_value3 53 1024 (-52) at2 p.
Definition value32_3 {at2} (p : V3 (F32 at2)) : pt3 := @point_value3 24 128 (-23) at2 p.

(* the area of a triangle; in 3D from its cross product *)
Definition triangle_area (a b c : pt) : car RS := (Rabs (orient a b c) / 2)%R.
Definition triangle_area3 (a b c : pt3) : car RS :=
  let ux := (wx a - wx b)%R in let uy := (wy a - wy b)%R in let uz := (wz a - wz b)%R in
  let vx := (wx c - wx b)%R in let vy := (wy c - wy b)%R in let vz := (wz c - wz b)%R in
  (sqrt ((uy * vz - uz * vy)² + (uz * vx - ux * vz)² + (ux * vy - uy * vx)²) / 2)%R.
