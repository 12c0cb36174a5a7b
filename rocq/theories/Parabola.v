(* Model of VoronoiParabolicArc, src/linestring_2d.rs:399-652. *)
From Verif Require Import Prelude Scalar Geo2.

Section Parabola.
  Context {S : Scalar}.
  Notation F := (car S).
  Notation V := (V2 S).
  Local Open Scope sc_scope.

  (* src/linestring_2d.rs:408-418  struct VoronoiParabolicArc *)
  Record Arc := mkArc { segment : Line2 S; cell_point : V; start_point : V; end_point : V }.

  (* src/linestring_2d.rs:620-622  parabola_y *)
  Definition parabola_y (x a b : F) : F := ((x - a) * (x - a) + b * b) / (b + b).

  (* src/linestring_2d.rs:632-640  point_projection; 643-651 point_projection_3d is the same on x and y *)
  Definition point_projection (px py : F) (seg : Line2 S) : F :=
    let segment_vec_x := vx (lend seg) - vx (lstart seg) in
    let segment_vec_y := vy (lend seg) - vy (lstart seg) in
    let point_vec_x := px - vx (lstart seg) in
    let point_vec_y := py - vy (lstart seg) in
    let sqr_segment_length := segment_vec_x * segment_vec_x + segment_vec_y * segment_vec_y in
    let vec_dot := segment_vec_x * point_vec_x + segment_vec_y * point_vec_y in
    vec_dot / sqr_segment_length.

  (* the quantities computed before the loop, lines 439-460 and 552-573 *)
  Definition segm_vec_x (c : Arc) : F := vx (lend (segment c)) - vx (lstart (segment c)).
  Definition segm_vec_y (c : Arc) : F := vy (lend (segment c)) - vy (lstart (segment c)).
  Definition sqr_segment_length (c : Arc) : F := segm_vec_x c * segm_vec_x c + segm_vec_y c * segm_vec_y c.
  Definition point_vec_x (c : Arc) : F := vx (cell_point c) - vx (lstart (segment c)).
  Definition point_vec_y (c : Arc) : F := vy (cell_point c) - vy (lstart (segment c)).
  Definition rot_x (c : Arc) : F := segm_vec_x c * point_vec_x c + segm_vec_y c * point_vec_y c.
  Definition rot_y (c : Arc) : F := segm_vec_x c * point_vec_y c - segm_vec_y c * point_vec_x c.

  (* lines 484-487 and 598-601: a transformed sample mapped back *)
  Definition untransform (c : Arc) (x y : F) : V :=
    mkV2 ((segm_vec_x c * x - segm_vec_y c * y) / sqr_segment_length c + vx (lstart (segment c)))
         ((segm_vec_x c * y + segm_vec_y c * x) / sqr_segment_length c + vy (lstart (segment c))).

  (* lines 470-480 and 584-594: squared distance of the furthest point of the arc from the chord *)
  Definition mid_of (c : Arc) (cur_x cur_y new_x new_y : F) : F :=
    (new_y - cur_y) / (new_x - cur_x) * rot_y c + rot_x c.
  Definition dist_of (c : Arc) (cur_x cur_y new_x new_y mid_x mid_y : F) : F :=
    let dist := (new_y - cur_y) * (mid_x - cur_x) - (new_x - cur_x) * (mid_y - cur_y) in
    dist * dist / ((new_y - cur_y) * (new_y - cur_y) + (new_x - cur_x) * (new_x - cur_x)).

  (* loop state: point_stack (top first), cur_x, cur_y, rv (in order) *)
  Record PState (P : Type) := mkP { pstack : list F; cur_x : F; cur_y : F; prv : list P }.
  Arguments mkP {P}. Arguments pstack {P}. Arguments cur_x {P}. Arguments cur_y {P}. Arguments prv {P}.

  (* one iteration of the while loop, lines 464-496 and 577-609; [mk] builds the stored sample *)
  Definition pstep {P} (mk : V -> P) (c : Arc) (max_dist_transformed : F) (st : PState P) : PState P :=
    match pstack st with
    | [] => st
    | new_x :: rest =>
        let new_y := parabola_y new_x (rot_x c) (rot_y c) in
        let mid_x := mid_of c (cur_x st) (cur_y st) new_x new_y in
        let mid_y := parabola_y mid_x (rot_x c) (rot_y c) in
        let dist := dist_of c (cur_x st) (cur_y st) new_x new_y mid_x mid_y in
        if dist <=? max_dist_transformed then
          mkP rest new_x new_y (prv st ++ [mk (untransform c new_x new_y)])
        else mkP (mid_x :: pstack st) (cur_x st) (cur_y st) (prv st)
    end.
  (* while !point_stack.is_empty(); NoFuel = still looping after [fuel] iterations *)
  Fixpoint ploop {P} (mk : V -> P) (c : Arc) (mdt : F) (fuel : nat) (st : PState P) : outcome (list P) :=
    match pstack st with
    | [] => Val (prv st)
    | _ => match fuel with O => NoFuel | Datatypes.S f => ploop mk c mdt f (pstep mk c mdt st) end
    end.
  (* rv[rv.len() - 1] = last (rv is never empty: it starts with the start point) *)
  Definition set_last {P} (l : list P) (x : P) : outcome (list P) :=
    match l with [] => Panic | _ => Val (removelast l ++ [x]) end.

  (* src/linestring_2d.rs:432-501  discretize_2d *)
  Definition max_dist_transformed (c : Arc) (max_dist : F) : F := max_dist * max_dist * sqr_segment_length c.
  Definition discretize_2d (fuel : nat) (c : Arc) (max_dist : F) : outcome (list V) :=
    let projection_start := point_projection (vx (start_point c)) (vy (start_point c)) (segment c) * sqr_segment_length c in
    let projection_end := point_projection (vx (end_point c)) (vy (end_point c)) (segment c) * sqr_segment_length c in
    let st := mkP [projection_end] projection_start (parabola_y projection_start (rot_x c) (rot_y c)) [start_point c] in
    match ploop (fun p => p) c (max_dist_transformed c max_dist) fuel st with
    | Val rv => set_last rv (end_point c)
    | Panic => Panic | NoFuel => NoFuel | Fail e => Fail e
    end.

  (* src/linestring_2d.rs:529-614  discretize_3d: z is minus the distance to the cell point *)
  Definition with_z (c : Arc) (p : V) : V3 S := mkV3 (vx p) (vy p) (- vdist p (cell_point c)).
  Definition discretize_3d (fuel : nat) (c : Arc) (max_dist : F) : outcome (list (V3 S)) :=
    let p0 := with_z c (start_point c) in
    let p1 := with_z c (end_point c) in
    let projection_start := sqr_segment_length c * point_projection (wx p0) (wy p0) (segment c) in
    let projection_end := sqr_segment_length c * point_projection (wx p1) (wy p1) (segment c) in
    let st := mkP [projection_end] projection_start (parabola_y projection_start (rot_x c) (rot_y c)) [p0] in
    match ploop (with_z c) c (max_dist_transformed c max_dist) fuel st with
    | Val rv => set_last rv p1
    | Panic => Panic | NoFuel => NoFuel | Fail e => Fail e
    end.

  (* src/linestring_2d.rs:504-521  discretize_3d_straight_line *)
  Definition discretize_3d_straight_line (c : Arc) : list (V3 S) :=
    [mkV3 (vx (start_point c)) (vy (start_point c))
          (- ssqrt (dist_line2_safe (lstart (segment c)) (lend (segment c)) (start_point c)));
     mkV3 (vx (end_point c)) (vy (end_point c)) (- vdist (end_point c) (cell_point c))].
End Parabola.
Arguments Arc : clear implicits. Arguments PState : clear implicits.
Arguments mkP {S P}. Arguments pstack {S P}. Arguments cur_x {S P}. Arguments cur_y {S P}. Arguments prv {S P}.
