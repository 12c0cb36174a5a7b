(* Property theorems C01-C06: divide_into_shapes (src/shape.rs). *)
From Coq Require Import Sorting.Permutation.
From Verif Require Import Prelude Shape ShapeSpec ShapeProofs ShapeProofs2 ShapeProofs3 ShapeUniq.

(* C01: no panic, no endless loop, for every input *)
Theorem C01_divide_total : forall indices,
  exists shapes visited, divide_into_shapes indices = Val (shapes, visited).
Proof. exact divide_total. Qed.
Print Assumptions C01_divide_total.

(* C02: consecutive indices of a shape are input edges *)
Theorem C02_divide_edges_sound : forall indices shapes visited,
  loop_free indices -> divide_into_shapes indices = Val (shapes, visited) ->
  forall s a b, In s shapes -> In (a, b) (windows s) -> edge indices a b.
Proof.
  exact (fun i s v H E => proj1 (divide_correct i s v (fun a Hi => False_ind _ (H a Hi)) E)).
Qed.
Print Assumptions C02_divide_edges_sound.

(* C03: every distinct undirected edge is walked exactly once *)
Theorem C03_divide_edges_once : forall indices shapes visited,
  loop_free indices -> divide_into_shapes indices = Val (shapes, visited) ->
  NoDup (walked shapes) /\
  forall a b, In (undirected (a, b)) (walked shapes) <-> edge indices a b.
Proof. exact divide_edges_once. Qed.
Print Assumptions C03_divide_edges_once.

(* C04: shapes are maximal chains *)
Theorem C04_divide_maximal : forall indices shapes visited,
  loop_free indices -> divide_into_shapes indices = Val (shapes, visited) ->
  forall s, In s shapes -> maximal_chain indices s.
Proof. exact divide_maximal. Qed.
Print Assumptions C04_divide_maximal.

(* C05: the returned bit vector *)
Theorem C05_divide_bits : forall indices shapes visited,
  loop_free indices -> divide_into_shapes indices = Val (shapes, visited) ->
  (exists mx, is_highest indices mx /\ length visited = mx + 1) /\
  (forall v, nth_error visited v = Some true <-> two_neighbours indices v).
Proof. exact divide_bits. Qed.
Print Assumptions C05_divide_bits.

(* C06: with self-loops the guarantees fail: a pair that is no edge is walked, and an edge is lost ... *)
Theorem C06_divide_selfloop_refuted :
  (exists indices shapes visited s a b, divide_into_shapes indices = Val (shapes, visited) /\
     In s shapes /\ In (a, b) (windows s) /\ ~ edge indices a b) /\
  (exists indices shapes visited a b, divide_into_shapes indices = Val (shapes, visited) /\
     edge indices a b /\ a <> b /\ ~ In (undirected (a, b)) (walked shapes)).
Proof. exact divide_selfloop_refuted. Qed.
Print Assumptions C06_divide_selfloop_refuted.

(* ... but they hold, with self-loops ignored, whenever no self-looped vertex has exactly one
   other neighbour. *)
Theorem C06_divide_selfloop_partial : forall indices shapes visited,
  (forall a, In (a, a) (chunks2 indices) -> ~ two_neighbours indices a) ->
  divide_into_shapes indices = Val (shapes, visited) ->
  NoDup (walked shapes) /\
  (forall a b, In (undirected (a, b)) (walked shapes) <-> edge indices a b /\ a <> b) /\
  (forall s, In s shapes -> maximal_chain indices s).
Proof. exact divide_selfloop_partial. Qed.
Print Assumptions C06_divide_selfloop_partial.

(* non-vacuity: a junction, a loop, duplicated edges and an odd trailing index *)
Example shape_example :
  loop_free [0; 1; 2; 3; 1; 4; 4; 5; 6; 7; 1; 9; 10; 11; 11; 12; 12; 10; 1; 0; 3] /\
  divide_into_shapes [0; 1; 2; 3; 1; 4; 4; 5; 6; 7; 1; 9; 10; 11; 11; 12; 12; 10; 1; 0; 3] =
  Val ([[6; 7]; [5; 4; 1]; [2; 3]; [1; 9]; [0; 1]; [10; 11; 12; 10]],
       [false; false; false; false; true; false; false; false; false; false; true; true; true]).
Proof.
  split; [|vm_compute; reflexivity].
  intros a H; vm_compute in H; repeat destruct H as [H|H]; try congruence; try contradiction.
Qed.

Example selfloop_example :
  no_looped_pair [0; 1; 1; 2; 1; 1; 2; 3; 3; 0] /\
  exists r, divide_into_shapes [0; 1; 1; 2; 1; 1; 2; 3; 3; 0] = Val r.
Proof.
  split; [|eexists; vm_compute; reflexivity].
  intros a H; vm_compute in H. repeat destruct H as [H|H]; try congruence; try contradiction.
  injection H as <-. intros (x & y & Hxy & E).
  assert (E0 : 0 = x \/ 0 = y) by (apply E; left + right; vm_compute; tauto).
  assert (E1 : 1 = x \/ 1 = y) by (apply E; left + right; vm_compute; tauto).
  assert (E2 : 2 = x \/ 2 = y) by (apply E; left + right; vm_compute; tauto).
  lia.
Qed.

(* C115: the result depends only on the set of undirected edges: whatever order, direction or repetition the edges are given
   in, the shapes are the same chains (possibly in another order, reversed, or closed ones begun elsewhere), and the
   bit vectors are equal *)
Theorem C115_divide_depends_on_edge_set : forall indices1 indices2 shapes1 visited1 shapes2 visited2,
  loop_free indices1 -> (forall a b, edge indices1 a b <-> edge indices2 a b) ->
  divide_into_shapes indices1 = Val (shapes1, visited1) -> divide_into_shapes indices2 = Val (shapes2, visited2) ->
  (exists shapes, Permutation shapes2 shapes /\ Forall2 same_chain shapes1 shapes) /\ visited1 = visited2.
Proof. exact divide_unique. Qed.
Print Assumptions C115_divide_depends_on_edge_set.
Example C115_input : exists i j s t v, (forall a b, edge i a b <-> edge j a b) /\ loop_free i /\ divide_into_shapes i = Val (s, v) /\ divide_into_shapes j = Val (t, v) /\ s <> t.
Proof.
  exists [0; 1; 1; 2; 2; 0; 4; 5; 5; 6], [6; 5; 2; 1; 0; 2; 5; 4; 1; 0; 4; 5]. do 3 eexists. split; [|split; [|split; [vm_compute; reflexivity|split; [vm_compute; reflexivity|]]]].
  - intros a b. unfold edge. cbn. intuition congruence.
  - intros a H. vm_compute in H. repeat destruct H as [H|H]; try congruence; try contradiction.
  - discriminate.
Qed.
