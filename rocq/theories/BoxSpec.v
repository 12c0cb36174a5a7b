(* Vocabulary for bounding boxes: what a smallest box is, and which boxes the public API can build. *)
From Verif Require Import Prelude Scalar Geo2 Geo3 Rdp1.

(* laws used about Float::min, Float::max and ulps_eq! on comparable values *)
Record BoxOn (S : Scalar) (D : car S -> Prop) : Prop := {
  box_ord : OrdOn S D;
  box_min : forall a b, D a -> D b ->
    (smin a b = a \/ smin a b = b) /\ sltb a (smin a b) = false /\ sltb b (smin a b) = false;
  box_max : forall a b, D a -> D b ->
    (smax a b = a \/ smax a b = b) /\ sltb (smax a b) a = false /\ sltb (smax a b) b = false;
  box_ulps : forall a b, D a -> D b -> seqb a b = true -> sulps a b = true
}.

Section BoxSpec.
  Context {S : Scalar}.
  (* lo is the least / hi the greatest of the values vs *)
  Definition least (vs : list (car S)) (lo : car S) : Prop := In lo vs /\ forall v, In v vs -> sltb v lo = false.
  Definition greatest (vs : list (car S)) (hi : car S) : Prop := In hi vs /\ forall v, In v vs -> sltb hi v = false.
  (* (lo, hi) is the smallest axis-parallel box around the points ps *)
  Definition bounds2 (ps : list (V2 S)) (mm : V2 S * V2 S) : Prop :=
    least (map vx ps) (vx (fst mm)) /\ least (map vy ps) (vy (fst mm)) /\
    greatest (map vx ps) (vx (snd mm)) /\ greatest (map vy ps) (vy (snd mm)).
  Definition bounds3 (ps : list (V3 S)) (mm : V3 S * V3 S) : Prop :=
    least (map wx ps) (wx (fst mm)) /\ least (map wy ps) (wy (fst mm)) /\ least (map wz ps) (wz (fst mm)) /\
    greatest (map wx ps) (wx (snd mm)) /\ greatest (map wy ps) (wy (snd mm)) /\ greatest (map wz ps) (wz (snd mm)).

  (* [built2 a ps]: the box a results from some sequence of public calls that added exactly the points ps *)
  Inductive built2 : Aabb2 S -> list (V2 S) -> Prop :=
  | b2_default : built2 None []
  | b2_new p : built2 (aabb2_new p) [p]
  | b2_with ps : built2 (aabb2_with_points ps) ps
  | b2_from ps : built2 (aabb2_from_iter ps) ps
  | b2_point a ps p : built2 a ps -> built2 (aabb2_update_point a p) (ps ++ [p])
  | b2_points a ps qs : built2 a ps -> built2 (aabb2_update_points a qs) (ps ++ qs)
  | b2_aabb a ps b qs : built2 a ps -> built2 b qs -> built2 (aabb2_update_aabb a b) (ps ++ qs).
  Inductive built3 : Aabb3 S -> list (V3 S) -> Prop :=
  | b3_default : built3 None []
  | b3_with ps : built3 (aabb3_with_points ps) ps
  | b3_point a ps p : built3 a ps -> built3 (aabb3_update_point a p) (ps ++ [p])
  | b3_points a ps qs : built3 a ps -> built3 (aabb3_update_points a qs) (ps ++ qs)
  | b3_aabb a ps b qs : built3 a ps -> built3 b qs -> built3 (aabb3_update_aabb a b) (ps ++ qs).
End BoxSpec.
