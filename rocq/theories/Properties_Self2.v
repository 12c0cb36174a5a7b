(* Self-intersection of short line strings in f64 and f32 (C119). Model: Geo2.v. Vocabulary: FloatSpec.v ([grid64_to n s]: both
   coordinates are integers of absolute value at most n times 2^s; [value64]: the point of real numbers a float point stands for),
   IsectProofs.v ([edge_of l i a b]: a and b are the points i and i + 1 of l), FloatSelf.v ([neighbours_hit a b c]: the
   condition the code tests on two edges with a common point, a formula over the exact coordinates). *)
From Coq Require Import ZArith Reals Lra Lia Psatz Floats.SpecFloat.
From Flocq Require Import Core BinarySingleNaN.
From Verif Require Import Prelude Scalar RInst Flt FloatSpec FloatLink FloatGrid Geo2 GeoSpec DistR IsectProofs FloatIsect FloatPoint FloatSelf Properties_Float Properties_Float2 Properties_Isect2 Properties_Point2.
Local Open Scope R_scope.

(* triples for which the code divides zero by zero or asks for the sign of a zero *)
Definition awkward (a b c : pt) : Prop := vy b = vx a /\ (vy b = vy c \/ (vx a = vx b /\ vx b = vx c)).

(* C119: no rounding error changes the answer: in exact terms, a reported line string has two non-neighbouring edges sharing a
   point other than a common end, or neighbours satisfying the condition the code tests; and both are always reported, the first
   when the edges meet in one point *)
Theorem C119_self_intersection_f64 : forall at2 s (l : list (V2 (F64 at2))), (-25 <= s)%Z ->
  Forall (grid64_to (2 ^ 23) s) l ->
  (forall i a b, edge_of l i a b -> value64 a <> value64 b) ->
  (forall i a b c, edge_of l i a b -> edge_of l (i + 1) b c -> ~ awkward (value64 a) (value64 b) (value64 c)) ->
  let v := @value64 at2 in
  (self_intersecting_short l = true ->
     (exists i a b c, edge_of l i a b /\ edge_of l (i + 1) b c /\ neighbours_hit (v a) (v b) (v c)) \/
     (exists i j a b c d p, (i + 1 < j)%nat /\ edge_of l i a b /\ edge_of l j c d /\ on_segment p (v a) (v b) /\ on_segment p (v c) (v d) /\
        ~ ((p = v a \/ p = v b) /\ (p = v c \/ p = v d)))) /\
  (forall i a b c, edge_of l i a b -> edge_of l (i + 1) b c -> neighbours_hit (v a) (v b) (v c) -> self_intersecting_short l = true) /\
  (forall i j a b c d p, (i + 1 < j)%nat -> edge_of l i a b -> edge_of l j c d -> on_segment p (v a) (v b) -> on_segment p (v c) (v d) ->
     ~ ((p = v a \/ p = v b) /\ (p = v c \/ p = v d)) -> (forall q, on_segment q (v a) (v b) -> on_segment q (v c) (v d) -> q = p) ->
     self_intersecting_short l = true).
Proof.
  intros at2 s l Hs HF HN HA v. destruct l as [|x l'] eqn:El.
  { split; [discriminate|]. split; [intros i a b c [H _]|intros i j a b c d p _ [H _]]; destruct i; discriminate. }
  rewrite <- El in *. assert (Hs2 : (-25 <= s <= 228)%Z) by (rewrite El in HF; inversion_clear HF as [|? ? H _]; destruct H; lia).
  refine (self_float 53 1024 (-52) at2 P53 M53 s 23 _ _ _ _ l _ _ _ HN _); try (unfold SpecFloat.emin; lia).
  - split; unfold scale_ok, SpecFloat.emin; lia.
  - eapply Forall_impl; [|exact HF]. intros p Hp. apply Hp.
  - intros i a b c H1 H2 E. specialize (HA i a b c H1 H2). unfold awkward in HA. cbv beta in HA.
    split; intros F; apply HA; (split; [exact E|]); [left|right]; exact F.
Qed.
Print Assumptions C119_self_intersection_f64.
Theorem C119_self_intersection_f32 : forall at2 s (l : list (V2 (F32 at2))), (-11 <= s)%Z ->
  Forall (grid32_to (2 ^ 8) s) l ->
  (forall i a b, edge_of l i a b -> value32 a <> value32 b) ->
  (forall i a b c, edge_of l i a b -> edge_of l (i + 1) b c -> ~ awkward (value32 a) (value32 b) (value32 c)) ->
  let v := @value32 at2 in
  (self_intersecting_short l = true ->
     (exists i a b c, edge_of l i a b /\ edge_of l (i + 1) b c /\ neighbours_hit (v a) (v b) (v c)) \/
     (exists i j a b c d p, (i + 1 < j)%nat /\ edge_of l i a b /\ edge_of l j c d /\ on_segment p (v a) (v b) /\ on_segment p (v c) (v d) /\
        ~ ((p = v a \/ p = v b) /\ (p = v c \/ p = v d)))) /\
  (forall i a b c, edge_of l i a b -> edge_of l (i + 1) b c -> neighbours_hit (v a) (v b) (v c) -> self_intersecting_short l = true) /\
  (forall i j a b c d p, (i + 1 < j)%nat -> edge_of l i a b -> edge_of l j c d -> on_segment p (v a) (v b) -> on_segment p (v c) (v d) ->
     ~ ((p = v a \/ p = v b) /\ (p = v c \/ p = v d)) -> (forall q, on_segment q (v a) (v b) -> on_segment q (v c) (v d) -> q = p) ->
     self_intersecting_short l = true).
Proof.
  intros at2 s l Hs HF HN HA v. destruct l as [|x l'] eqn:El.
  { split; [discriminate|]. split; [intros i a b c [H _]|intros i j a b c d p _ [H _]]; destruct i; discriminate. }
  rewrite <- El in *. assert (Hs2 : (-11 <= s <= 19)%Z) by (rewrite El in HF; inversion_clear HF as [|? ? H _]; destruct H; lia).
  refine (self_float 24 128 (-23) at2 P24 M24 s 8 _ _ _ _ l _ _ _ HN _); try (unfold SpecFloat.emin; lia).
  - split; unfold scale_ok, SpecFloat.emin; lia.
  - eapply Forall_impl; [|exact HF]. intros p Hp. apply Hp.
  - intros i a b c H1 H2 E. specialize (HA i a b c H1 H2). unfold awkward in HA. cbv beta in HA.
    split; intros F; apply HA; (split; [exact E|]); [left|right]; exact F.
Qed.
Print Assumptions C119_self_intersection_f32.
(* the exclusion is needed: on an awkward triple the answer depends on the sign of a zero, which no coordinate value shows *)
Theorem C119_signed_zero_refuted : exists l l' : list (V2 F64_),
  map value64 l = map value64 l' /\ self_intersecting_short l = true /\ self_intersecting_short l' = false.
Proof.
  exists [@mkV2 F64_ (f64 0) (f64 1); @mkV2 F64_ (f64 1) (f64 0); @mkV2 F64_ (f64 (-1)) (f64 0)],
    [@mkV2 F64_ (f64 0) (f64 1); @mkV2 F64_ (f64 1) (S754_zero true); @mkV2 F64_ (f64 (-1)) (S754_zero true)].
  split; [reflexivity|split; vm_compute; reflexivity].
Qed.
Print Assumptions C119_signed_zero_refuted.
(* a line string of four points at the limit of the grid whose edges 0 and 2 cross, and one that does not cross itself *)
Example C119_hypotheses_met : forall l, l = [@I64 no_atan2 0 1; I64 8388608 8388607; I64 8388608 5; I64 3 8388604] ->
  Forall (grid64_to (2 ^ 23) 0) l /\
  (forall i a b, edge_of l i a b -> value64 a <> value64 b) /\
  (forall i a b c, edge_of l i a b -> edge_of l (i + 1) b c -> ~ awkward (value64 a) (value64 b) (value64 c)) /\
  self_intersecting_short (S := F64_) [P 0 1; P 8388608 8388607; P 8388608 5; P 3 8388604] = true /\
  self_intersecting_short (S := F64_) [P 0 1; P 8388608 8388607; P 8388608 5; P 3 (-8388604)] = false.
Proof.
  assert (S0 : scale_ok 53 1024 0) by (split; cbn; lia).
  assert (G : forall x y, (Z.abs x <= 2 ^ 23)%Z -> (Z.abs y <= 2 ^ 23)%Z -> grid64_to (2 ^ 23) 0 (@I64 no_atan2 x y)).
  { intros x y Hx Hy. split; [lia|]. split; apply (ong_of_Z 53 1024 P53 M53); auto; lia. }
  intros l ->. split; [repeat (apply Forall_cons; [apply G; lia|]); apply Forall_nil|].
  split; [|split; [|split; vm_compute; reflexivity]].
  - intros i a b [H1 H2]. destruct i as [|[|[|[|i]]]]; cbn [nth_error Nat.add] in H1, H2; [| | |discriminate H2|destruct i; discriminate H2];
      injection H1 as <-; injection H2 as <-; rewrite !V64 by lia; intros E; injection E; lra.
  - intros i a b c [H1 H2] [_ H3]. destruct i as [|[|[|[|i]]]]; cbn [nth_error Nat.add] in H1, H2, H3; [| |discriminate H3|discriminate H3|destruct i; discriminate H3];
      injection H1 as <-; injection H2 as <-; injection H3 as <-; rewrite !V64 by lia; unfold awkward; cbn [vx vy]; lra.
Qed.
