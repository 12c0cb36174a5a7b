(* The scalar type the crate is generic over (vector_traits::GenericScalar: f32 or f64) as a record of
   operations. No law is assumed: a theorem quantified over every [Scalar] also covers IEEE floats,
   NaN and infinities included. *)
From Verif Require Import Prelude.
From Coq Require Import NArith.

Record Scalar := {
  car : Type;
  s0 : car; s1 : car; s2 : car;               (* ZERO, ONE, TWO *)
  sadd : car -> car -> car;
  ssub : car -> car -> car;
  smul : car -> car -> car;
  sdiv : car -> car -> car;
  sneg : car -> car;
  ssqrt : car -> car;
  satan2 : car -> car -> car;                 (* satan2 y x = y.atan2(x) *)
  sltb : car -> car -> bool;                  (* a < b *)
  sleb : car -> car -> bool;                  (* a <= b *)
  seqb : car -> car -> bool;                  (* a == b *)
  smin : car -> car -> car;                   (* Float::min, ignores a NaN operand *)
  smax : car -> car -> car;
  sfin : car -> bool;                         (* is_finite *)
  sulps : car -> car -> bool;                 (* approx::ulps_eq! with default epsilon and max_ulps *)
  sulps_with : car -> N -> car -> car -> bool;(* ulps_eq(epsilon, max_ulps) *)
  sabsdiff : car -> car -> car -> bool;       (* abs_diff_eq(epsilon) *)
  sceil : car -> car;
  s_to_usize : car -> N;                      (* AsPrimitive<usize>: truncating, saturating, NaN -> 0 *)
  s_of_usize : N -> car;                      (* usize as scalar *)
  ssignneg : car -> bool;                     (* is_sign_negative *)
  smaxval : car;                              (* Float::max_value() *)
  sinf : car                                  (* Float::infinity() *)
}.

Arguments s0 {s}. Arguments s1 {s}. Arguments s2 {s}.
Arguments sadd {s}. Arguments ssub {s}. Arguments smul {s}. Arguments sdiv {s}. Arguments sneg {s}.
Arguments ssqrt {s}. Arguments satan2 {s}. Arguments sltb {s}. Arguments sleb {s}. Arguments seqb {s}.
Arguments smin {s}. Arguments smax {s}. Arguments sfin {s}. Arguments sulps {s}.
Arguments sulps_with {s}. Arguments sabsdiff {s}. Arguments sceil {s}.
Arguments s_to_usize {s}. Arguments s_of_usize {s}. Arguments ssignneg {s}.
Arguments smaxval {s}. Arguments sinf {s}.

Declare Scope sc_scope.
Delimit Scope sc_scope with sc.
Notation "a + b" := (sadd a b) : sc_scope.
Notation "a - b" := (ssub a b) : sc_scope.
Notation "a * b" := (smul a b) : sc_scope.
Notation "a / b" := (sdiv a b) : sc_scope.
Notation "- a" := (sneg a) : sc_scope.
Notation "a <? b" := (sltb a b) : sc_scope.
Notation "a <=? b" := (sleb a b) : sc_scope.
Notation "a >? b" := (sltb b a) (at level 70, only parsing) : sc_scope.
Notation "a >=? b" := (sleb b a) (at level 70, only parsing) : sc_scope.
Notation "a =? b" := (seqb a b) : sc_scope.

(* PartialOrd::partial_cmp on floats *)
Definition spcmp {S : Scalar} (a b : car S) : option comparison :=
  if sltb a b then Some Lt else if seqb a b then Some Eq else if sltb b a then Some Gt else None.

(* (lo..=hi).contains(&x) *)
Definition in_range {S : Scalar} (lo hi x : car S) : bool := (sleb lo x && sleb x hi)%bool.

(* ---- two- and three-dimensional vectors: vector_traits GenericVector2 / GenericVector3 as implemented
   for glam's Vec2/DVec2/Vec3A/DVec3 ---- *)
Record V2 (S : Scalar) := mkV2 { vx : car S; vy : car S }.
Arguments mkV2 {S}. Arguments vx {S}. Arguments vy {S}.
Record V3 (S : Scalar) := mkV3 { wx : car S; wy : car S; wz : car S }.
Arguments mkV3 {S}. Arguments wx {S}. Arguments wy {S}. Arguments wz {S}.

Section V.
  Context {S : Scalar}.
  Local Open Scope sc_scope.
  Definition vadd (a b : V2 S) : V2 S := mkV2 (vx a + vx b) (vy a + vy b).
  Definition vsub (a b : V2 S) : V2 S := mkV2 (vx a - vx b) (vy a - vy b).
  Definition vscale (a : V2 S) (k : car S) : V2 S := mkV2 (vx a * k) (vy a * k).
  Definition vdivs (a : V2 S) (k : car S) : V2 S := mkV2 (vx a / k) (vy a / k).
  Definition vneg (a : V2 S) : V2 S := mkV2 (- vx a) (- vy a).
  Definition vdot (a b : V2 S) : car S := vx a * vx b + vy a * vy b.
  Definition vperp (a b : V2 S) : car S := vx a * vy b - vy a * vx b.   (* perp_dot *)
  Definition vmag2 (a : V2 S) : car S := vdot a a.                      (* magnitude_sq *)
  Definition vmag (a : V2 S) : car S := ssqrt (vmag2 a).                (* magnitude *)
  Definition vdist2 (a b : V2 S) : car S := vmag2 (vsub a b).           (* distance_sq *)
  Definition vdist (a b : V2 S) : car S := ssqrt (vdist2 a b).          (* distance *)
  Definition veqb (a b : V2 S) : bool := (vx a =? vx b) && (vy a =? vy b).
  Definition vulps (a b : V2 S) : bool := sulps (vx a) (vx b) && sulps (vy a) (vy b).

  Definition wadd (a b : V3 S) : V3 S := mkV3 (wx a + wx b) (wy a + wy b) (wz a + wz b).
  Definition wsub (a b : V3 S) : V3 S := mkV3 (wx a - wx b) (wy a - wy b) (wz a - wz b).
  Definition wscale (a : V3 S) (k : car S) : V3 S := mkV3 (wx a * k) (wy a * k) (wz a * k).
  Definition wdivs (a : V3 S) (k : car S) : V3 S := mkV3 (wx a / k) (wy a / k) (wz a / k).
  Definition wdot (a b : V3 S) : car S := wx a * wx b + wy a * wy b + wz a * wz b.
  Definition wcross (a b : V3 S) : V3 S :=
    mkV3 (wy a * wz b - wy b * wz a) (wz a * wx b - wz b * wx a) (wx a * wy b - wx b * wy a).
  Definition wmag2 (a : V3 S) : car S := wdot a a.
  Definition wmag (a : V3 S) : car S := ssqrt (wmag2 a).
  Definition wdist2 (a b : V3 S) : car S := wmag2 (wsub a b).
  Definition wdist (a b : V3 S) : car S := ssqrt (wdist2 a b).
  Definition weqb (a b : V3 S) : bool := (wx a =? wx b) && (wy a =? wy b) && (wz a =? wz b).
  Definition wulps (a b : V3 S) : bool := sulps (wx a) (wx b) && sulps (wy a) (wy b) && sulps (wz a) (wz b).
End V.

(* src/linestring_2d.rs:180-183  struct Line2 *)
Record Line2 (S : Scalar) := mkL { lstart : V2 S; lend : V2 S }.
Arguments mkL {S}. Arguments lstart {S}. Arguments lend {S}.

(* src/linestring_2d.rs:1373-1378  enum Intersection *)
Inductive Intersection (S : Scalar) := IPoint (p : V2 S) | IOverlap (l : Line2 S).
Arguments IPoint {S}. Arguments IOverlap {S}.
