(* Vocabulary for the sweep-line properties: plain coordinates and lists, no model code. *)
From Coq Require Import Reals Permutation.
From Verif Require Import Prelude Scalar RInst GeoSpec.
Local Open Scope R_scope.

(* the hash set of active lines may be iterated in any order, differently at every event *)
Definition any_order (ord : nat -> list nat -> list nat) : Prop := forall n l, Permutation (ord n l) l.
(* p lies on the line with index i *)
Definition line_has (input : list (Line2 RS)) (i : nat) (p : pt) : Prop :=
  exists l, nth_error input i = Some l /\ on_segment p (lstart l) (lend l).
(* p is an end point of the line with index i *)
Definition line_ends_at (input : list (Line2 RS)) (i : nat) (p : pt) : Prop :=
  exists l, nth_error input i = Some l /\ (p = lstart l \/ p = lend l).
(* p comes before q in the order of the sweep: lower, or at the same height and further left *)
Definition before (p q : pt) : Prop := vy p < vy q \/ (vy p = vy q /\ vx p < vx q).
(* no line is a single point *)
Definition proper_lines (input : list (Line2 RS)) : Prop := forall l, In l input -> lstart l <> lend l.

(* ---- positions of the lines relative to each other (completeness) ---- *)
(* two different lines of the input pass through p *)
Definition meeting (input : list (Line2 RS)) (p : pt) : Prop := exists i j, i <> j /\ line_has input i p /\ line_has input j p.
(* p is an end point of some line, or a meeting point *)
Definition corner (input : list (Line2 RS)) (p : pt) : Prop := (exists i, line_ends_at input i p) \/ meeting input p.
(* line i contains p and also points above p *)
Definition goes_up (input : list (Line2 RS)) (i : nat) (p : pt) : Prop :=
  line_has input i p /\ exists q, line_has input i q /\ vy p < vy q.
Definition no_horizontal (input : list (Line2 RS)) : Prop := forall l, In l input -> vy (lstart l) <> vy (lend l).
(* two lines have at most one point in common *)
Definition meet_once (input : list (Line2 RS)) : Prop := forall i j p q, i <> j ->
  line_has input i p -> line_has input j p -> line_has input i q -> line_has input j q -> p = q.
(* no line starts (at its lower end) in the interior of another *)
Definition no_start_inside (input : list (Line2 RS)) : Prop := forall i j p,
  line_ends_at input i p -> goes_up input i p -> line_has input j p -> line_ends_at input j p.
(* to the right of a point from which two lines go up, at the same height, there is no end point and no meeting point *)
Definition clear_right (input : list (Line2 RS)) : Prop := forall i j p r, i <> j ->
  goes_up input i p -> goes_up input j p -> corner input r -> vy r = vy p -> vx r <= vx p.
(* no end point lies on another line; no three lines through a point *)
Definition no_touching (input : list (Line2 RS)) : Prop := forall i j p, line_ends_at input i p -> line_has input j p -> i = j.
Definition no_triple (input : list (Line2 RS)) : Prop := forall i j k p, line_has input i p -> line_has input j p -> line_has input k p ->
  i = j \/ i = k \/ j = k.
(* no two end points or meeting points at the same height *)
Definition heights_differ (input : list (Line2 RS)) : Prop := forall p q, corner input p -> corner input q -> vy p = vy q -> p = q.
