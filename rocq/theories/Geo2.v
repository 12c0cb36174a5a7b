(* Model of src/linestring_2d.rs and src/linestring_2d/impls.rs except the parabolic arc (Parabola.v),
   the convex hull (Hull.v), the sweep line (Sweep.v) and simplification (Simplify.v). *)
From Coq Require Import NArith.
From Verif Require Import Prelude Scalar.

Section Geo2.
  Context {S : Scalar}.
  Notation F := (car S).
  Notation V := (V2 S).
  Notation L := (Line2 S).
  Local Open Scope sc_scope.

  (* src/linestring_2d.rs:1344-1371  intersect_line_point *)
  Definition intersect_line_point (line : L) (point : V) : option (Intersection S) :=
    if sulps (vx (lstart line)) (vx point) && sulps (vy (lstart line)) (vy point) then Some (IPoint point)
    else if sulps (vx (lend line)) (vx point) && sulps (vy (lend line)) (vy point) then Some (IPoint point)
    else
      let l0x := vx (lstart line) in let l1x := vx (lend line) in
      let l0y := vy (lstart line) in let l1y := vy (lend line) in
      let px := vx point in let py := vy point in
      let ab := ssqrt ((l1x - l0x) * (l1x - l0x) + (l1y - l0y) * (l1y - l0y)) in
      let ap := ssqrt ((px - l0x) * (px - l0x) + (py - l0y) * (py - l0y)) in
      let pb := ssqrt ((l1x - px) * (l1x - px) + (l1y - py) * (l1y - py)) in
      if sulps ab (ap + pb) then Some (IPoint point) else None.

  (* src/linestring_2d.rs:315-321  Line2::precedes *)
  Definition precedes (a b : V) : bool :=
    if vx a >? vx b then true else ((vy a >? vy b) && sulps (vx a) (vx b))%bool.

  (* src/linestring_2d.rs:276-303  the parallel branch of Line2::intersection_point *)
  Definition intersection_parallel (self other : L) : option (Intersection S) :=
    let r0 := vsub (lend self) (lstart self) in
    let s0' := vsub (lend other) (lstart other) in
    let '(p, r) := if precedes (lstart self) (lend self) then (lend self, vneg r0)
                   else (lstart self, r0) in
    let '(q, s) := if precedes (lstart other) (lend other) then (lend other, vneg s0')
                   else (lstart other, s0') in
    let q_minus_p := vsub q p in
    let q_minus_p_cross_r := vperp q_minus_p r in
    if sulps q_minus_p_cross_r s0 then
      let r_dot_r := vdot r r in
      let t0 := vdot q_minus_p r / r_dot_r in
      let t1 := t0 + vdot s r / r_dot_r in
      let overlap_start := vadd p (vscale r (smax t0 s0)) in
      let overlap_end := vadd p (vscale r (smin t1 s1)) in
      if veqb overlap_start overlap_end then Some (IPoint overlap_start)
      else Some (IOverlap (mkL overlap_start overlap_end))
    else None.

  (* src/linestring_2d.rs:304-311  the general branch of Line2::intersection_point *)
  Definition intersection_cross (self other : L) : option (Intersection S) :=
    let p := lstart self in let q := lstart other in
    let r := vsub (lend self) p in let s := vsub (lend other) q in
    let r_cross_s := vperp r s in
    let q_minus_p := vsub q p in
    let t := vperp q_minus_p s / r_cross_s in
    let u := vperp q_minus_p r / r_cross_s in
    if (in_range s0 s1 t && in_range s0 s1 u)%bool then Some (IPoint (vadd p (vscale r t))) else None.

  (* src/linestring_2d.rs:227-311  Line2::intersection_point *)
  Definition intersection_point (self other : L) : option (Intersection S) :=
    if vulps (lstart self) (lend self) then intersect_line_point other (lstart self)
    else if vulps (lstart other) (lend other) then intersect_line_point self (lstart other)
    else
      let self_min_x := smin (vx (lstart self)) (vx (lend self)) in
      let self_max_x := smax (vx (lstart self)) (vx (lend self)) in
      let self_min_y := smin (vy (lstart self)) (vy (lend self)) in
      let self_max_y := smax (vy (lstart self)) (vy (lend self)) in
      let other_min_x := smin (vx (lstart other)) (vx (lend other)) in
      let other_max_x := smax (vx (lstart other)) (vx (lend other)) in
      let other_min_y := smin (vy (lstart other)) (vy (lend other)) in
      let other_max_y := smax (vy (lstart other)) (vy (lend other)) in
      if (self_max_x <? other_min_x) || (self_min_x >? other_max_x)
         || (self_max_y <? other_min_y) || (self_min_y >? other_max_y) then None
      else
        let r := vsub (lend self) (lstart self) in
        let s := vsub (lend other) (lstart other) in
        if sulps (vperp r s) s0 then intersection_parallel self other
        else intersection_cross self other.

  (* src/linestring_2d.rs:326-376  Line2::intersection_point3 (the y component of middle_sub_start
     subtracts start.x(), as in the source); the Result is always Ok *)
  Definition intersection_point3 (start middle end_ : V) : option (Intersection S) :=
    let ms := mkV2 (vx middle - vx start) (vy middle - vx start) in
    let me := mkV2 (vx middle - vx end_) (vy middle - vy end_) in
    let start_is_vertical := sulps (vx ms) s0 in
    let end_is_vertical := sulps (vx me) s0 in
    let shorter := (vx ms * vx ms + vy ms * vy ms) <? (vx me * vx me + vy me * vy me) in
    let pick := if shorter then Some (IOverlap (mkL start middle)) else Some (IOverlap (mkL middle end_)) in
    if (start_is_vertical && end_is_vertical)%bool then
      if (ssignneg (vy ms) && negb (ssignneg (vy me)))%bool then None else pick
    else if (start_is_vertical || end_is_vertical)%bool then None
    else
      let start_slope := vx ms / vy ms in
      let end_slope := vx me / vy me in
      if negb (sulps start_slope end_slope) then None else pick.

  (* src/linestring_2d.rs:380-386  Line2::triangle_area_squared_times_4 *)
  Definition area2 (p1 p2 p3 : V) : F :=
    let area := vx p1 * vy p2 + vx p2 * vy p3 + vx p3 * vy p1
                - vx p1 * vy p3 - vx p2 * vy p1 - vx p3 * vy p2 in
    area * area.

  (* src/linestring_2d.rs:1382-1402  Intersection::single, Intersection::closest *)
  Definition isingle (i : Intersection S) : V :=
    match i with IOverlap l => lstart l | IPoint p => p end.
  Definition iclosest (i : Intersection S) (other : V) : V :=
    match i with
    | IOverlap l => if vdist2 other (lstart l) <? vdist2 other (lend l) then lstart l else lend l
    | IPoint p => p
    end.

  (* src/linestring_2d.rs:1405-1407  scale_to_coordinate *)
  Definition scale_to_coordinate (point vector : V) (scale : F) : V := vadd point (vscale vector scale).

  (* src/linestring_2d.rs:1415-1431  distance_to_line_squared *)
  Definition dist_line2 (l0 l1 p : V) : F :=
    let d := vsub l0 l1 in
    let d_sq := vmag2 d in
    let l0_sub_p := vsub l0 p in
    let dot := vdot l0_sub_p d / d_sq in
    if dot <? s0 then vmag2 l0_sub_p
    else if dot >? s1 then vmag2 (vsub l1 p)
    else let c := vperp l0_sub_p d in c * c / d_sq.

  (* src/linestring_2d.rs:1436-1447  distance_to_line_squared_safe *)
  Definition dist_line2_safe (l0 l1 p : V) : F :=
    if vulps l0 l1 then vdist2 l0 p else dist_line2 l0 l1 p.

  (* ---- LineString2 for Vec<T> ---- *)
  Definition LS := list V.

  (* src/linestring_2d.rs:701-703  is_connected (first().unwrap() / last().unwrap() on a non-empty list) *)
  Definition is_connected (l : LS) : bool :=
    match l with [] => true | a :: _ => veqb a (last l a) end.

  (* src/linestring_2d.rs:707-713  point_count *)
  Definition point_count (l : LS) : nat :=
    if (Nat.ltb 2 (length l) && is_connected l)%bool then Nat.sub (length l) 1 else length l.

  (* src/linestring_2d.rs:884-886, impls.rs:155-164  window_iter *)
  Definition window_iter (l : LS) : list L := map (fun w => mkL (fst w) (snd w)) (windows l).
  (* src/linestring_2d.rs:891-893, impls.rs:166-175  chunk_iter *)
  Definition chunk_iter (l : LS) : list L := map (fun w => mkL (fst w) (snd w)) (chunks2 l).
  (* src/linestring_2d.rs:691-693  ChunkIterator::remainder (chunks_exact(2).remainder()) *)
  Fixpoint chunk_remainder {A} (l : list A) : list A :=
    match l with _ :: _ :: t => chunk_remainder t | r => r end.

  (* src/linestring_2d.rs:728-757  body of the inner loop of is_self_intersecting:
     Some true = return Ok(true), None = continue with the next pair *)
  Definition self_pair (i : nat) (l0 : L) (j : nat) (l1 : L) : bool :=
    if Nat.eqb i j then false
    else if Nat.eqb (i + 1) j then
      match intersection_point3 (lstart l0) (lend l0) (lend l1) with Some _ => true | None => false end
    else
      match intersection_point l0 l1 with
      | Some it =>
          let point := isingle it in
          negb ((vulps point (lstart l0) || vulps point (lend l0))
                && (vulps point (lstart l1) || vulps point (lend l1)))
      | None => false
      end.

  Definition enumerate {A} (l : list A) : list (nat * A) := combine (seq 0 (length l)) l.

  (* src/linestring_2d.rs:721-760  is_self_intersecting for 3 to 9 points (brute force) *)
  Definition self_intersecting_short (l : LS) : bool :=
    let es := enumerate (window_iter l) in
    existsb (fun e0 => existsb (fun e1 => self_pair (fst e0) (snd e0) (fst e1) (snd e1))
                               (skipn (fst e0 + 1) es))
            (firstn (length es - 1) es).

  (* src/linestring_2d.rs:772-780  intersection *)
  Fixpoint first_some {A B} (f : A -> option B) (l : list A) : option B :=
    match l with [] => None | a :: t => match f a with Some b => Some b | None => first_some f t end end.
  Definition ls_intersection (l : LS) (other : L) : option (Intersection S) :=
    first_some (fun e => intersection_point e other) (window_iter l).

  (* src/linestring_2d.rs:785-821  find_two_intersections: the loop keeps the growing vector *)
  Definition vmem (p : V) (l : list V) : bool := existsb (fun q => veqb q p) l.
  Definition push_new (acc : list V) (p : V) : list V := if vmem p acc then acc else acc ++ [p].
  Fixpoint two_loop (edges : list L) (other : L) (acc : list V) : list V :=
    match edges with
    | [] => acc
    | e :: t =>
        let acc' :=
          match intersection_point e other with
          | Some (IPoint p) => push_new acc p
          | Some (IOverlap l) =>
              let acc1 := push_new acc (lstart l) in
              if (Nat.ltb (length acc1) 2)%bool then push_new acc1 (lend l) else acc1
          | None => acc
          end in
        if Nat.eqb (length acc') 2 then acc' else two_loop t other acc'
    end.
  Definition find_two_intersections (l : LS) (other : L) : option V * option V :=
    let r := two_loop (window_iter l) other [] in (nth_error r 0, nth_error r 1).

  (* src/linestring_2d.rs:824-833  find_all_intersections *)
  Fixpoint filter_some {A B} (f : A -> option B) (l : list A) : list B :=
    match l with [] => [] | a :: t => match f a with Some b => b :: filter_some f t | None => filter_some f t end end.
  Definition find_all_intersections (l : LS) (other : L) : list (Intersection S) :=
    filter_some (fun e => intersection_point e other) (window_iter l).

  (* src/linestring_2d.rs:837-858  ray_edge_intersection *)
  Definition ray_edge_intersection (origin ray_dir p0 p1 : V) : option F :=
    let s := vsub p1 p0 in
    let r_cross_s := vperp ray_dir s in
    if sulps r_cross_s s0 then
      let q_minus_p := vsub p0 origin in
      if sulps (vperp q_minus_p ray_dir) s0 then
        let r_dot_r := vdot ray_dir ray_dir in
        let t0 := vdot q_minus_p ray_dir / r_dot_r in
        let t1 := t0 + vdot s ray_dir / r_dot_r in
        Some (smin t0 t1)
      else None
    else
      let q_minus_p := vsub p0 origin in
      let t := vperp q_minus_p s / r_cross_s in
      let u := vperp q_minus_p ray_dir / r_cross_s in
      if ((t >=? s0) && in_range s0 s1 u)%bool then Some t else None.

  (* src/linestring_2d.rs:862-879  closest_ray_intersection *)
  Definition ray_step (origin ray_dir : V) (nearest : option F) (v : V * V) : option F :=
    match ray_edge_intersection origin ray_dir (fst v) (snd v), nearest with
    | Some t, Some nt => if ((t >? s0) && (t <? nt))%bool then Some t else nearest
    | Some t, None => if t >? s0 then Some t else nearest
    | None, _ => nearest
    end.
  Definition closest_ray_intersection (l : LS) (ray_dir origin : V) : option V :=
    if Nat.leb (length l) 1 then None
    else option_map (fun t => vadd origin (vscale ray_dir t))
                    (fold_left (ray_step origin ray_dir) (windows l) None).

  (* ---- Aabb2 ---- *)
  (* src/linestring_2d.rs:1166-1168  struct Aabb2 { min_max: Option<(T, T)> } *)
  Definition Aabb2 := option (V * V).

  (* src/linestring_2d.rs:1172-1176 *)
  Definition aabb2_new (p : V) : Aabb2 := Some (p, p).
  (* src/linestring_2d.rs:1201-1206, 1217-1222  widening by one point *)
  Definition aabb2_widen (mm : V * V) (p : V) : V * V :=
    (mkV2 (smin (vx (fst mm)) (vx p)) (smin (vy (fst mm)) (vy p)),
     mkV2 (smax (vx (snd mm)) (vx p)) (smax (vy (snd mm)) (vy p))).
  (* src/linestring_2d.rs:1196-1207  update_with_point *)
  Definition aabb2_update_point (a : Aabb2) (p : V) : Aabb2 :=
    match a with None => Some (p, p) | Some mm => Some (aabb2_widen mm p) end.
  (* src/linestring_2d.rs:1210-1225  update_with_points *)
  Definition aabb2_update_points (a : Aabb2) (ps : list V) : Aabb2 :=
    match ps with
    | [] => a
    | p0 :: _ =>
        match (match a with None => aabb2_update_point a p0 | _ => a end) with
        | Some mm => Some (fold_left aabb2_widen ps mm)
        | None => None   (* unreachable: update_with_point always leaves Some *)
        end
    end.
  (* src/linestring_2d.rs:1179-1185  with_points *)
  Definition aabb2_with_points (ps : list V) : Aabb2 :=
    match ps with [] => None | _ => aabb2_update_points None ps end.
  (* src/linestring_2d.rs:1188-1193  update_with_aabb *)
  Definition aabb2_update_aabb (a b : Aabb2) : Aabb2 :=
    match b with Some (mn, mx) => aabb2_update_point (aabb2_update_point a mn) mx | None => a end.
  (* src/linestring_2d/impls.rs:261-269  From<I> for Aabb2 *)
  Definition aabb2_from_iter (ps : list V) : Aabb2 := fold_left aabb2_update_point ps None.
  (* src/linestring_2d.rs:1228-1241  high, low *)
  Definition aabb2_high (a : Aabb2) : option V := option_map snd a.
  Definition aabb2_low (a : Aabb2) : option V := option_map fst a.
  (* src/linestring_2d.rs:1244-1252  extents *)
  Definition aabb2_extents (a : Aabb2) : option (V * V * V) :=
    match a with
    | Some (low, high) => Some (low, high, mkV2 (vx high - vx low) (vy high - vy low))
    | None => None
    end.
  (* src/linestring_2d.rs:1260-1268  center *)
  Definition aabb2_center (a : Aabb2) : option V :=
    match a with
    | Some (low, high) => Some (mkV2 ((vx low + vx high) / s2) ((vy low + vy high) / s2))
    | None => None
    end.
  (* src/linestring_2d.rs:1303-1308  contains_point_inclusive_ *)
  Definition aabb2_contains_ (mm : V * V) (p : V) : bool :=
    ((vx (fst mm) <? vx p) || sulps (vx (fst mm)) (vx p))
    && ((vy (fst mm) <? vy p) || sulps (vy (fst mm)) (vy p))
    && ((vx (snd mm) >? vx p) || sulps (vx (snd mm)) (vx p))
    && ((vy (snd mm) >? vy p) || sulps (vy (snd mm)) (vy p)).
  (* src/linestring_2d.rs:1294-1299  contains_point_inclusive *)
  Definition aabb2_contains_point (a : Aabb2) (p : V) : bool :=
    match a with Some mm => aabb2_contains_ mm p | None => false end.
  (* src/linestring_2d.rs:1272-1280  contains_aabb_inclusive *)
  Definition aabb2_contains_aabb (a b : Aabb2) : bool :=
    match a, b with
    | Some mm, Some (l, h) => aabb2_contains_ mm l && aabb2_contains_ mm h
    | _, _ => false
    end.
  (* src/linestring_2d.rs:1284-1290  contains_line_inclusive *)
  Definition aabb2_contains_line (a : Aabb2) (l : L) : bool :=
    match a with Some mm => aabb2_contains_ mm (lstart l) && aabb2_contains_ mm (lend l) | None => false end.
  (* src/linestring_2d.rs:1314-1329  Aabb2::convex_hull *)
  Definition aabb2_convex_hull (a : Aabb2) : option (list V) :=
    match a with
    | Some (mn, mx) => Some [mkV2 (vx mn) (vy mn); mkV2 (vx mx) (vy mn); mkV2 (vx mx) (vy mx);
                             mkV2 (vx mn) (vy mx); mkV2 (vx mn) (vy mn)]
    | None => None
    end.
  (* src/linestring_2d/impls.rs:102-118  From<Aabb2<T>> for Vec<T> *)
  Definition aabb2_to_linestring (a : Aabb2) : list V :=
    match a with
    | Some (mn, mx) => [mn; mkV2 (vx mx) (vy mn); mx; mkV2 (vx mn) (vy mx); mn]
    | None => []
    end.
  (* src/linestring_2d/impls.rs:120-133  PartialEq for Aabb2 *)
  Definition aabb2_eqb (a b : Aabb2) : bool :=
    match a, b with
    | Some s, Some o => sulps (vx (fst s)) (vx (fst o)) && sulps (vx (snd s)) (vx (snd o))
                        && sulps (vy (fst s)) (vy (fst o)) && sulps (vy (snd s)) (vy (snd o))
    | None, None => true
    | _, _ => false
    end.

  (* ---- SimpleAffine ---- *)
  (* src/linestring_2d.rs:1453-1462  struct SimpleAffine (two-element arrays as vectors) *)
  Record SimpleAffine := mkAff { a_offset : V; scale : V; b_offset : V }.
  (* src/linestring_2d/impls.rs:144-153  Default for SimpleAffine *)
  Definition affine_default : SimpleAffine := mkAff (mkV2 s0 s0) (mkV2 s1 s1) (mkV2 s0 s0).
  (* src/linestring_2d.rs:1465-1507  SimpleAffine::new *)
  Definition affine_new (a b : Aabb2) : outcome SimpleAffine :=
    match aabb2_low a, aabb2_high a, aabb2_low b, aabb2_high b with
    | Some sl, Some sh, Some dl, Some dh =>
        let src_center := mkV2 (- (vx sl + vx sh) / s2) (- (vy sl + vy sh) / s2) in
        let src_w := smax (vx sh - vx sl) s1 in
        let src_h := smax (vy sh - vy sl) s1 in
        let dst_center := mkV2 ((vx dl + vx dh) / s2) ((vy dl + vy dh) / s2) in
        let dst_w := smax (vx dh - vx dl) s1 in
        let dst_h := smax (vy dh - vy dl) s1 in
        let src := smax src_w src_h in
        let dst := smin dst_w dst_h in
        let sc := dst / src in
        Val (mkAff src_center (mkV2 sc sc) dst_center)
    | _, _, _, _ => Fail AabbError
    end.
  (* src/linestring_2d.rs:1512-1522  transform_ba *)
  Definition transform_ba (t : SimpleAffine) (p : V) : outcome V :=
    let x := (vx p - vx (b_offset t)) / vx (scale t) - vx (a_offset t) in
    let y := (vy p - vy (b_offset t)) / vy (scale t) - vy (a_offset t) in
    if (sfin x && sfin y)%bool then Val (mkV2 x y) else Fail TransformError.
  (* src/linestring_2d.rs:1527-1537  transform_ab *)
  Definition transform_ab (t : SimpleAffine) (p : V) : outcome V :=
    let x := (vx p + vx (a_offset t)) * vx (scale t) + vx (b_offset t) in
    let y := (vy p + vy (a_offset t)) * vy (scale t) + vy (b_offset t) in
    if (sfin x && sfin y)%bool then Val (mkV2 x y) else Fail TransformError.
  (* src/linestring_2d.rs:1541-1556  transform_ba_a (the four-element array as nested pairs) *)
  Definition transform_ba_a (t : SimpleAffine) (q : F * F * F * F) : outcome (F * F * F * F) :=
    let '(q0, q1, q2, q3) := q in
    let x1 := (q0 - vx (b_offset t)) / vx (scale t) - vx (a_offset t) in
    let y1 := (q1 - vy (b_offset t)) / vy (scale t) - vy (a_offset t) in
    let x2 := (q2 - vx (b_offset t)) / vx (scale t) - vx (a_offset t) in
    let y2 := (q3 - vy (b_offset t)) / vy (scale t) - vy (a_offset t) in
    if (sfin x1 && sfin y1 && sfin x2 && sfin y2)%bool then Val (x1, y1, x2, y2) else Fail TransformError.
  (* src/linestring_2d.rs:1560-1576  transform_ab_a *)
  Definition transform_ab_a (t : SimpleAffine) (q : F * F * F * F) : outcome (F * F * F * F) :=
    let '(q0, q1, q2, q3) := q in
    let x1 := (q0 + vx (a_offset t)) * vx (scale t) + vx (b_offset t) in
    let y1 := (q1 + vy (a_offset t)) * vy (scale t) + vy (b_offset t) in
    let x2 := (q2 + vx (a_offset t)) * vx (scale t) + vx (b_offset t) in
    let y2 := (q3 + vy (a_offset t)) * vy (scale t) + vy (b_offset t) in
    if (sfin x1 && sfin y1 && sfin x2 && sfin y2)%bool then Val (x1, y1, x2, y2) else Fail TransformError.

  (* ---- approximate equality ---- *)
  (* src/linestring_2d/impls.rs:52-59  PartialEq for Line2 *)
  Definition line_eqb (a b : L) : bool :=
    sulps (vx (lstart a)) (vx (lstart b)) && sulps (vy (lstart a)) (vy (lstart b))
    && sulps (vx (lend a)) (vx (lend b)) && sulps (vy (lend a)) (vy (lend b)).
  (* src/linestring_2d/impls.rs:203-215 and 223-235: abs_diff_eq and ulps_eq of Line2 are the same text
     with a different coordinate comparison [cmp] *)
  Definition line_approx (cmp : F -> F -> bool) (a b : L) : bool :=
    if (cmp (vx (lstart a)) (vx (lstart b)) && cmp (vy (lstart a)) (vy (lstart b)))%bool then
      cmp (vx (lend a)) (vx (lend b)) && cmp (vy (lend a)) (vy (lend b))
    else
      cmp (vx (lstart a)) (vx (lend b)) && cmp (vy (lstart a)) (vy (lend b))
      && cmp (vx (lend a)) (vx (lstart b)) && cmp (vy (lend a)) (vy (lstart b)).
  Definition line_abs_diff_eq (eps : F) (a b : L) : bool := line_approx (sabsdiff eps) a b.
  Definition line_ulps_eq (eps : F) (mu : N) (a b : L) : bool := line_approx (sulps_with eps mu) a b.
  (* src/linestring_2d.rs:1140-1161  Approx for Vec<T> (is_ulps_eq / is_abs_diff_eq compare both axes) *)
  Definition ls_approx (cmp : F -> F -> bool) (a b : LS) : bool :=
    Nat.eqb (length a) (length b)
    && forallb (fun ab => cmp (vx (fst ab)) (vx (snd ab)) && cmp (vy (fst ab)) (vy (snd ab))) (combine a b).
  Definition ls_ulps_eq (eps : F) (mu : N) (a b : LS) : bool := ls_approx (sulps_with eps mu) a b.
  Definition ls_abs_diff_eq (eps : F) (a b : LS) : bool := ls_approx (sabsdiff eps) a b.

  (* src/linestring_2d.rs:1055-1062  apply *)
  Definition ls_apply (f : V -> V) (l : LS) : LS := map f l.
End Geo2.
Arguments SimpleAffine : clear implicits.
Arguments LS : clear implicits.
Arguments Aabb2 : clear implicits.
