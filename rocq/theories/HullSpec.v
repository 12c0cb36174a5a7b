(* Convex hull vocabulary: plain coordinates, no model code. *)
From Coq Require Import Reals Lra.
From Verif Require Import Prelude Scalar RInst GeoSpec.
Local Open Scope R_scope.

(* p is lexicographically at most q: x first, then y *)
Definition lex_le (p q : pt) : Prop := vx p < vx q \/ (vx p = vx q /\ vy p <= vy q).

(* the directed edges of the closed polygon with these vertices *)
Definition edges {A} (vs : list A) : list (A * A) :=
  match vs with [] => [] | v :: t => combine vs (t ++ [v]) end.

(* the point is left of or on / strictly left of every edge *)
Definition inside (vs : list pt) (p : pt) : Prop := forall a b, In (a, b) (edges vs) -> 0 <= orient a b p.
Definition strictly_inside (vs : list pt) (p : pt) : Prop := forall a b, In (a, b) (edges vs) -> 0 < orient a b p.

(* a strictly convex polygon in counter-clockwise order: every vertex that is not an end of an edge is
   strictly to the left of it *)
Definition convex_polygon (vs : list pt) : Prop :=
  (3 <= length vs)%nat /\ NoDup vs /\
  forall a b c, In (a, b) (edges vs) -> In c vs -> c <> a -> c <> b -> 0 < orient a b c.

(* vs is the convex hull of pts *)
Definition hull_of (pts vs : list pt) : Prop :=
  incl vs pts /\ convex_polygon vs /\ forall p, In p pts -> inside vs p.

(* the closed list a hull function should return; collinear inputs give the two extreme points *)
Inductive hull_result (pts : list pt) : list pt -> Prop :=
| hull_proper v vs : hull_of pts (v :: vs) -> (forall p, In p pts -> lex_le v p) -> hull_result pts (v :: vs ++ [v])
| hull_segment a b : a <> b -> In a pts -> In b pts -> (forall p, In p pts -> on_segment p a b) ->
    (forall p, In p pts -> lex_le a p) -> hull_result pts [a; b; a]
| hull_point a : In a pts -> (forall p, In p pts -> p = a) -> hull_result pts [a].

(* ps are the vertices selected by the indices is *)
Definition picks (vertices : list pt) (is : list nat) (ps : list pt) : Prop :=
  Forall2 (fun i p => nth_error vertices i = Some p) is ps.

(* at least four points, not counting a closing point that repeats the first one *)
Definition enough {A} (l : list A) : Prop :=
  exists a m b, l = a :: m ++ [b] /\ ((a <> b /\ (2 <= length m)%nat) \/ (a = b /\ (3 <= length m)%nat)).
(* l is open, or open with its first element repeated at the end *)
Definition ring_of {A} (l opn : list A) : Prop := l = opn \/ exists a m, opn = a :: m /\ l = opn ++ [a].
(* p lies in the triangle (or segment) spanned by points of the list different from p itself: it is not a corner of the hull *)
Definition covered (pts : list pt) (p : pt) : Prop :=
  exists a b c u v w, In a pts /\ In b pts /\ In c pts /\ a <> p /\ b <> p /\ c <> p /\
    0 <= u /\ 0 <= v /\ 0 <= w /\ u + v + w = 1 /\
    vx p = u * vx a + v * vx b + w * vx c /\ vy p = u * vy a + v * vy b + w * vy c.
