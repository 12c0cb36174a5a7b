(* C129: the hull functions on three points. Model: Hull.v. Vocabulary: HullSpec.v ([hull_of pts vs]: vs is the strictly convex
   counter-clockwise polygon around pts; [ring_of l opn]: l is opn, or opn followed by its first element again),
   HullThree.v ([triangle pts vs]: vs are three of the given points and the hull of all of them; [index_hull vertices opn out]: the
   same for indices), FloatSpec.v ([grid64], [value64]). *)
From Coq Require Import ZArith Reals Lra Lia Floats.SpecFloat.
From Flocq Require Import Core BinarySingleNaN.
From Verif Require Import Prelude Scalar RInst Flt FloatSpec FloatLink FloatGrid Geo2 GeoSpec DistR Hull HullSpec ContainProofs HullThree Properties_Hull Properties_Float.
Local Open Scope R_scope.

(* what every function that takes points answers, if it answers at all (the two Graham scans do) *)
Definition points_answer {S : Scalar} (val : V2 S -> pt) (pts : list (V2 S)) : Prop :=
  (forall fuel, exists vs, gift_wrap fuel pts = Val vs /\ triangle val pts vs) /\
  (exists r, graham_scan pts r) /\ (forall r, graham_scan pts r -> exists vs, r = Val vs /\ triangle val pts vs) /\
  (exists r, graham_scan_wo_atan2 pts r) /\ (forall r, graham_scan_wo_atan2 pts r -> exists vs, r = Val vs /\ triangle val pts vs).
(* and every function that takes indices: the parallel hull leaves the polygon open, the other two close it *)
Definition indices_answer {S : Scalar} (val : V2 S -> pt) (vertices : list (V2 S)) (indices opn : list nat) : Prop :=
  forall fuel, exists out, index_hull val vertices opn out /\ indexed_gift_wrap fuel vertices indices = Val (close_loop out) /\
    (forall r, indexed_graham_scan vertices indices r <-> r = Val (close_loop out)) /\
    (forall chunk r, convex_hull_par fuel vertices indices chunk r <-> r = Val out).

Theorem C129_three_points : forall (pts : list pt) a b c, ring_of pts [a; b; c] -> orient a b c <> 0 -> points_answer (fun p => p) pts.
Proof.
  intros pts a b c Hr H. assert (G := fun fuel => gift_three (S := RS) (fun p => p) (fun _ => True) (fun x y z _ _ _ => left_R x y z) (fun x y _ _ => veqb_R x y) fuel pts a b c Hr I I I H).
  split; [intros fuel; exact (proj1 (G fuel))|exact (proj2 (G 0%nat))].
Qed.
Print Assumptions C129_three_points.
Theorem C129_three_indices : forall (vertices : list pt) indices i j k a b c, ring_of indices [i; j; k] -> picks vertices [i; j; k] [a; b; c] -> orient a b c <> 0 ->
  indices_answer (fun p => p) vertices indices [i; j; k].
Proof.
  intros vertices indices i j k a b c Hr Hp H fuel. inversion_clear Hp as [|? ? ? ? H1 Hp1]. inversion_clear Hp1 as [|? ? ? ? H2 Hp2]. inversion_clear Hp2 as [|? ? ? ? H3 _].
  destruct (indexed_three (S := RS) (fun p => p) (fun _ => True) (fun x y z _ _ _ => left_R x y z) fuel vertices indices i j k a b c Hr H1 H2 H3 I I I H) as (out & A & _ & B & _ & C & D).
  exists out. auto.
Qed.
Print Assumptions C129_three_indices.

(* f64 on a grid *)
Lemma left64 at2 s (a b c : V2 (F64 at2)) : grid64 s a -> grid64 s b -> grid64 s c -> (is_point_left a b c = true <-> 0 < orient (value64 a) (value64 b) (value64 c)).
Proof. intros Ga Gb Gc. apply (C104_orientation_exact_f64 at2 s a b c Ga Gb Gc). Qed.
Lemma eq64 at2 s (a b : V2 (F64 at2)) : grid64 s a -> grid64 s b -> (veqb a b = true <-> value64 a = value64 b).
Proof.
  intros [_ Ga] [_ Gb]. pose proof (grid_eqb 53 1024 (-52) at2 s (2 ^ 25) a b Ga Gb) as E. rewrite <- veqb_R. unfold value64. rewrite E. tauto.
Qed.
Theorem C129_three_points_f64 : forall at2 s (pts : list (V2 (F64 at2))) a b c, Forall (grid64 s) [a; b; c] -> ring_of pts [a; b; c] ->
  orient (value64 a) (value64 b) (value64 c) <> 0 -> points_answer value64 pts.
Proof.
  intros at2 s pts a b c Hg Hr H. inversion_clear Hg as [|? ? Ga Hg1]. inversion_clear Hg1 as [|? ? Gb Hg2]. inversion_clear Hg2 as [|? ? Gc _].
  assert (G := fun fuel => gift_three value64 (grid64 s) (left64 at2 s) (eq64 at2 s) fuel pts a b c Hr Ga Gb Gc H).
  split; [intros fuel; exact (proj1 (G fuel))|exact (proj2 (G 0%nat))].
Qed.
Print Assumptions C129_three_points_f64.
Theorem C129_three_indices_f64 : forall at2 s (vertices : list (V2 (F64 at2))) indices i j k a b c, Forall (grid64 s) [a; b; c] -> ring_of indices [i; j; k] ->
  nth_error vertices i = Some a -> nth_error vertices j = Some b -> nth_error vertices k = Some c ->
  orient (value64 a) (value64 b) (value64 c) <> 0 -> indices_answer value64 vertices indices [i; j; k].
Proof.
  intros at2 s vertices indices i j k a b c Hg Hr H1 H2 H3 H fuel. inversion_clear Hg as [|? ? Ga Hg1]. inversion_clear Hg1 as [|? ? Gb Hg2]. inversion_clear Hg2 as [|? ? Gc _].
  destruct (indexed_three value64 (grid64 s) (left64 at2 s) fuel vertices indices i j k a b c Hr H1 H2 H3 Ga Gb Gc H) as (out & A & _ & B & _ & C & D).
  exists out. auto.
Qed.
Print Assumptions C129_three_indices_f64.

(* f32 on a grid *)
Lemma left32 at2 s (a b c : V2 (F32 at2)) : grid32 s a -> grid32 s b -> grid32 s c -> (is_point_left a b c = true <-> 0 < orient (value32 a) (value32 b) (value32 c)).
Proof. intros Ga Gb Gc. apply (C104_orientation_exact_f32 at2 s a b c Ga Gb Gc). Qed.
Lemma eq32 at2 s (a b : V2 (F32 at2)) : grid32 s a -> grid32 s b -> (veqb a b = true <-> value32 a = value32 b).
Proof.
  intros [_ Ga] [_ Gb]. pose proof (grid_eqb 24 128 (-23) at2 s (1448) a b Ga Gb) as E. rewrite <- veqb_R. unfold value32. rewrite E. tauto.
Qed.
Theorem C129_three_points_f32 : forall at2 s (pts : list (V2 (F32 at2))) a b c, Forall (grid32 s) [a; b; c] -> ring_of pts [a; b; c] ->
  orient (value32 a) (value32 b) (value32 c) <> 0 -> points_answer value32 pts.
Proof.
  intros at2 s pts a b c Hg Hr H. inversion_clear Hg as [|? ? Ga Hg1]. inversion_clear Hg1 as [|? ? Gb Hg2]. inversion_clear Hg2 as [|? ? Gc _].
  assert (G := fun fuel => gift_three value32 (grid32 s) (left32 at2 s) (eq32 at2 s) fuel pts a b c Hr Ga Gb Gc H).
  split; [intros fuel; exact (proj1 (G fuel))|exact (proj2 (G 0%nat))].
Qed.
Print Assumptions C129_three_points_f32.
Theorem C129_three_indices_f32 : forall at2 s (vertices : list (V2 (F32 at2))) indices i j k a b c, Forall (grid32 s) [a; b; c] -> ring_of indices [i; j; k] ->
  nth_error vertices i = Some a -> nth_error vertices j = Some b -> nth_error vertices k = Some c ->
  orient (value32 a) (value32 b) (value32 c) <> 0 -> indices_answer value32 vertices indices [i; j; k].
Proof.
  intros at2 s vertices indices i j k a b c Hg Hr H1 H2 H3 H fuel. inversion_clear Hg as [|? ? Ga Hg1]. inversion_clear Hg1 as [|? ? Gb Hg2]. inversion_clear Hg2 as [|? ? Gc _].
  destruct (indexed_three value32 (grid32 s) (left32 at2 s) fuel vertices indices i j k a b c Hr H1 H2 H3 Ga Gb Gc H) as (out & A & _ & B & _ & C & D).
  exists out. auto.
Qed.
Print Assumptions C129_three_indices_f32.

(* a clockwise triangle, closed *)
Example C129_clockwise : ring_of [at_ 0 0; at_ 0 2; at_ 3 0; at_ 0 0] [at_ 0 0; at_ 0 2; at_ 3 0] /\ orient (at_ 0 0) (at_ 0 2) (at_ 3 0) <> 0.
Proof. split; [right; exists (at_ 0 0), [at_ 0 2; at_ 3 0]; auto|]. unfold orient. cbn. lra. Qed.
Example C129_integer at2 : Forall (grid64 0) [@I64 at2 0 0; I64 0 2; I64 3 0] /\ orient (value64 (@I64 at2 0 0)) (value64 (@I64 at2 0 2)) (value64 (@I64 at2 3 0)) <> 0.
Proof.
  destruct (I64_grid at2 0 0) as [A1 A2]; try (cbn; lia). destruct (I64_grid at2 0 2) as [B1 B2]; try (cbn; lia). destruct (I64_grid at2 3 0) as [C1 C2]; try (cbn; lia).
  split; [auto|]. rewrite A2, B2, C2. unfold orient. cbn. lra.
Qed.
(* the theorems leave out three points on a line: all three come back, also the one in the middle *)
Theorem C129_on_a_line : forall (a b c : pt), a <> c -> orient a b c = 0 -> forall fuel, gift_wrap fuel [a; b; c] = Val [a; c; b] /\ forall r, graham_scan [a; b; c] r -> r = Val [a; c; b].
Proof.
  intros a b c N H fuel. assert (L : is_point_left a b c = false) by (apply Bool.not_true_iff_false; rewrite left_R; lra).
  assert (E : drop_loop_point [a; b; c] = [a; b; c]). { unfold drop_loop_point. cbn [last]. destruct (veqb a c) eqn:E; auto. apply veqb_R in E. contradiction. }
  split.
  - unfold gift_wrap. rewrite E, L. reflexivity.
  - intros r G. destruct G as [G|_ G|x y z G|e G He|i s sorted G Hf Hs]; try discriminate; rewrite E in G; try (cbn in G; lia). injection G as <- <- <-. rewrite L. reflexivity.
Qed.
Print Assumptions C129_on_a_line.
