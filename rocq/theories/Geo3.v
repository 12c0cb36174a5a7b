(* Model of src/linestring_3d.rs (planes, Line3, Aabb3, distances, copies between 2D and 3D). *)
From Coq Require Import NArith.
From Verif Require Import Prelude Scalar.

(* src/linestring_3d.rs:62-66  enum Plane *)
Inductive Plane := XY | XZ | YZ.

Section Geo3.
  Context {S : Scalar}.
  Notation F := (car S).
  Notation V := (V2 S).
  Notation W := (V3 S).
  Local Open Scope sc_scope.

  (* src/linestring_3d.rs:155-158  struct Line3 *)
  Record Line3 := mkL3 { wstart : W; wend : W }.

  (* src/linestring_3d.rs:203-205  struct Aabb3 { min_max: Option<(T, T)> } *)
  Definition Aabb3 := option (W * W).

  (* src/linestring_3d.rs:301-327  update_with_point, one axis at a time with < and > *)
  Definition aabb3_widen_point (mm : W * W) (p : W) : W * W :=
    let '(mn, mx) := mm in
    (mkV3 (if wx p <? wx mn then wx p else wx mn)
          (if wy p <? wy mn then wy p else wy mn)
          (if wz p <? wz mn then wz p else wz mn),
     mkV3 (if wx p >? wx mx then wx p else wx mx)
          (if wy p >? wy mx then wy p else wy mx)
          (if wz p >? wz mx then wz p else wz mx)).
  Definition aabb3_update_point (a : Aabb3) (p : W) : Aabb3 :=
    match a with None => Some (p, p) | Some mm => Some (aabb3_widen_point mm p) end.
  (* src/linestring_3d.rs:226-233  body of the loop of update_with_points (Float::min / max) *)
  Definition aabb3_widen (mm : W * W) (p : W) : W * W :=
    (mkV3 (smin (wx (fst mm)) (wx p)) (smin (wy (fst mm)) (wy p)) (smin (wz (fst mm)) (wz p)),
     mkV3 (smax (wx (snd mm)) (wx p)) (smax (wy (snd mm)) (wy p)) (smax (wz (snd mm)) (wz p))).
  (* src/linestring_3d.rs:218-235  update_with_points *)
  Definition aabb3_update_points (a : Aabb3) (ps : list W) : Aabb3 :=
    match ps with
    | [] => a
    | p0 :: _ =>
        match (match a with None => aabb3_update_point a p0 | _ => a end) with
        | Some mm => Some (fold_left aabb3_widen ps mm)
        | None => None
        end
    end.
  (* src/linestring_3d.rs:209-215  with_points *)
  Definition aabb3_with_points (ps : list W) : Aabb3 :=
    match ps with [] => None | _ => aabb3_update_points None ps end.
  (* src/linestring_3d.rs:294-299  update_with_aabb *)
  Definition aabb3_update_aabb (a b : Aabb3) : Aabb3 :=
    match b with Some (mn, mx) => aabb3_update_point (aabb3_update_point a mn) mx | None => a end.
  (* src/linestring_3d.rs:329-341  get_high, get_low *)
  Definition aabb3_high (a : Aabb3) : option W := option_map snd a.
  Definition aabb3_low (a : Aabb3) : option W := option_map fst a.
  (* src/linestring_3d.rs:344-353  extents *)
  Definition aabb3_extents (a : Aabb3) : option (W * W * W) :=
    match a with
    | Some (low, high) =>
        Some (low, high, mkV3 (wx high - wx low) (wy high - wy low) (wz high - wz low))
    | None => None
    end.
  (* src/linestring_3d.rs:238-243  center *)
  Definition aabb3_center (a : Aabb3) : option W :=
    match a with Some (low, high) => Some (wdivs (wadd low high) s2) | None => None end.
  (* src/linestring_3d.rs:277-284  contains_point_inclusive_ *)
  Definition aabb3_contains_ (mm : W * W) (p : W) : bool :=
    ((wx (fst mm) <? wx p) || sulps (wx (fst mm)) (wx p))
    && ((wy (fst mm) <? wy p) || sulps (wy (fst mm)) (wy p))
    && ((wz (fst mm) <? wz p) || sulps (wz (fst mm)) (wz p))
    && ((wx (snd mm) >? wx p) || sulps (wx (snd mm)) (wx p))
    && ((wy (snd mm) >? wy p) || sulps (wy (snd mm)) (wy p))
    && ((wz (snd mm) >? wz p) || sulps (wz (snd mm)) (wz p)).
  (* src/linestring_3d.rs:247-253  contains_point_inclusive *)
  Definition aabb3_contains_point (a : Aabb3) (p : W) : bool :=
    match a with Some mm => aabb3_contains_ mm p | None => false end.
  (* src/linestring_3d.rs:257-265  contains_aabb_inclusive *)
  Definition aabb3_contains_aabb (a b : Aabb3) : bool :=
    match a, b with
    | Some mm, Some (l, h) => aabb3_contains_ mm l && aabb3_contains_ mm h
    | _, _ => false
    end.
  (* src/linestring_3d.rs:269-275  contains_line_inclusive *)
  Definition aabb3_contains_line (a : Aabb3) (l : Line3) : bool :=
    match a with Some mm => aabb3_contains_ mm (wstart l) && aabb3_contains_ mm (wend l) | None => false end.

  (* src/linestring_3d.rs:92-120  Plane::get_plane_relaxed; [flat] is ulps_eq(0, _, epsilon, max_ulps) *)
  Definition get_plane_relaxed (flat : F -> bool) (a : Aabb3) : option Plane :=
    match aabb3_low a, aabb3_high a with
    | Some low, Some high =>
        let dx := wx high - wx low in
        let dy := wy high - wy low in
        let dz := wz high - wz low in
        let max_delta := smax (smax dx dy) dz in
        let fx := flat (dx / max_delta) in
        let fy := flat (dy / max_delta) in
        let fz := flat (dz / max_delta) in
        if (fx && negb fy && negb fz)%bool then Some YZ
        else if (fy && negb fx && negb fz)%bool then Some XZ
        else if (fz && negb fx && negb fy)%bool then Some XY
        else None
    | _, _ => None
    end.
  (* src/linestring_3d.rs:77-83  Plane::get_plane *)
  Definition get_plane (a : Aabb3) : option Plane := get_plane_relaxed (sulps s0) a.

  (* src/linestring_3d.rs:129-135  Plane::point_to_3d *)
  Definition point_to_3d (pl : Plane) (p : V) : W :=
    match pl with
    | XY => mkV3 (vx p) (vy p) s0
    | XZ => mkV3 (vx p) s0 (vy p)
    | YZ => mkV3 s0 (vx p) (vy p)
    end.
  (* src/linestring_3d.rs:144-150  Plane::point_to_2d *)
  Definition point_to_2d (pl : Plane) (p : W) : V :=
    match pl with
    | XY => mkV2 (wx p) (wy p)
    | XZ => mkV2 (wx p) (wz p)
    | YZ => mkV2 (wy p) (wz p)
    end.
  (* src/linestring_2d.rs:391-396  Line2::copy_to_3d *)
  Definition line_copy_to_3d (l : Line2 S) (pl : Plane) : Line3 :=
    mkL3 (point_to_3d pl (lstart l)) (point_to_3d pl (lend l)).
  (* src/linestring_3d.rs:192-197  Line3::copy_to_2d *)
  Definition line_copy_to_2d (l : Line3) (pl : Plane) : Line2 S :=
    mkL (point_to_2d pl (wstart l)) (point_to_2d pl (wend l)).
  (* src/linestring_2d.rs:898-910  LineString2::copy_to_3d: YZ stores (0, y, x) *)
  Definition ls_copy_to_3d (l : list V) (pl : Plane) : list W :=
    match pl with
    | XY => map (fun p => mkV3 (vx p) (vy p) s0) l
    | XZ => map (fun p => mkV3 (vx p) s0 (vy p)) l
    | YZ => map (fun p => mkV3 s0 (vy p) (vx p)) l
    end.
  (* src/linestring_3d.rs:453-468  LineString3::copy_to_2d: YZ stores (z, y) *)
  Definition ls_copy_to_2d (l : list W) (pl : Plane) : list V :=
    match pl with
    | XY => map (fun p => mkV2 (wx p) (wy p)) l
    | XZ => map (fun p => mkV2 (wx p) (wz p)) l
    | YZ => map (fun p => mkV2 (wz p) (wy p)) l
    end.

  (* src/linestring_3d.rs:474-476  LineString3::is_connected *)
  Definition is_connected3 (l : list W) : bool :=
    match l with [] => true | a :: _ => weqb a (last l a) end.
  (* src/linestring_3d.rs:481-490  window_iter, chunk_iter *)
  Definition window_iter3 (l : list W) : list Line3 := map (fun w => mkL3 (fst w) (snd w)) (windows l).
  Definition chunk_iter3 (l : list W) : list Line3 := map (fun w => mkL3 (fst w) (snd w)) (chunks2 l).

  (* src/linestring_3d.rs:166-179  Line3::triangle_area_squared_times_4 *)
  Definition area3 (p1 p2 p3 : W) : F :=
    let v1x := wx p1 - wx p2 in let v1y := wy p1 - wy p2 in let v1z := wz p1 - wz p2 in
    let v2x := wx p3 - wx p2 in let v2y := wy p3 - wy p2 in let v2z := wz p3 - wz p2 in
    let x := v1y * v2z - v2y * v1z in
    let y := v1x * v2z - v2x * v1z in
    let z := v1x * v2y - v2x * v1y in
    x * x + y * y + z * z.

  (* src/linestring_3d.rs:613-618  cross_abs_squared *)
  Definition cross_abs_squared (a b : W) : F :=
    let x := wy a * wz b - wz a * wy b in
    let y := wz a * wx b - wx a * wz b in
    let z := wx a * wy b - wy a * wx b in
    x * x + y * y + z * z.
  (* src/linestring_3d.rs:626-633  distance_to_line_squared *)
  Definition dist_line3 (l0 l1 p : W) : F :=
    let d := wsub l0 l1 in
    let l0_sub_p := wsub l0 p in
    cross_abs_squared l0_sub_p d / (wx d * wx d + wy d * wy d + wz d * wz d).
  (* src/linestring_3d.rs:638-654  distance_to_line_squared_safe *)
  Definition dist_line3_safe (l0 l1 p : W) : F :=
    if wulps l0 l1 then wdist2 l0 p
    else
      let d := wsub l0 l1 in
      let l0_sub_p := wsub l0 p in
      cross_abs_squared l0_sub_p d / (wx d * wx d + wy d * wy d + wz d * wz d).

  (* src/linestring_3d.rs:588-609  Approx for Vec<T> *)
  Definition ls3_approx (cmp : F -> F -> bool) (a b : list W) : bool :=
    Nat.eqb (length a) (length b)
    && forallb (fun ab => cmp (wx (fst ab)) (wx (snd ab)) && cmp (wy (fst ab)) (wy (snd ab))
                          && cmp (wz (fst ab)) (wz (snd ab))) (combine a b).
End Geo3.
Arguments Line3 : clear implicits.
Arguments Aabb3 : clear implicits.
