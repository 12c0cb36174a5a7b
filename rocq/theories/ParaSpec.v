(* Vocabulary for the parabolic arc properties: plain coordinates, no model code. *)
From Coq Require Import Reals Lra.
From Verif Require Import Prelude Scalar RInst GeoSpec.
Local Open Scope R_scope.

(* h is the foot of the perpendicular from m on the line through a and b *)
Definition foot (a b m h : pt) : Prop :=
  (exists t, h = lerp a b t) /\
  (vx m - vx h) * (vx b - vx a) + (vy m - vy h) * (vy b - vy a) = 0.
(* m is as far from the point f as from the line through a and b *)
Definition equidistant (a b f m : pt) : Prop := exists h, foot a b m h /\ sqdist m h = sqdist m f.
(* position of m along the direction a -> b (scaled by the length of a b) *)
Definition along (a b m : pt) : R := (vx b - vx a) * (vx m - vx a) + (vy b - vy a) * (vy m - vy a).
Definition between (x y z : R) : Prop := x <= y <= z \/ z <= y <= x.
Definition strictly_between (x y z : R) : Prop := x < y < z \/ z < y < x.
(* a proper arc: the segment is not a point, the focus is not on its line, and the two ends are at
   different positions along it *)
Definition proper_arc (a b f p q : pt) : Prop :=
  a <> b /\ orient a b f <> 0 /\ along a b p <> along a b q.
