(* Properties of Ramer-Douglas-Peucker simplification and of the point-line distances (C07-C13, C32, C33).
   Model: Simplify.v, Geo2.v, Geo3.v. Vocabulary: GeoSpec.v (subseq, thinned, on_segment, lerp, edist),
   Rdp1.v (OrdOn: the comparison operators order the values satisfying D), Rdp2.v (same_ends). *)
From Coq Require Import Reals Lra ZArith Floats.SpecFloat.
From Verif Require Import Prelude Scalar RInst Flt Geo2 Geo3 GeoSpec DistR Simplify Rdp1 Rdp2 FltOrd.

(* C07: any scalar type (NaN included), any tolerance. *)
Theorem C07_rdp_subsequence : forall (S : Scalar),
  (forall (pts : list (V2 S)) (d : car S), exists out,
     simplify_rdp_2d pts d = Val out /\ subseq out pts /\
     hd_error out = hd_error pts /\ hd_error (rev out) = hd_error (rev pts) /\
     (length pts <= 2 -> out = pts) /\ (2 <= length pts -> 2 <= length out)) /\
  (forall (pts : list (V3 S)) (d : car S), exists out,
     simplify_rdp_3d pts d = Val out /\ subseq out pts /\
     hd_error out = hd_error pts /\ hd_error (rev out) = hd_error (rev pts) /\
     (length pts <= 2 -> out = pts) /\ (2 <= length pts -> 2 <= length out)).
Proof.
  intros S; split; intros pts d.
  - destruct (simplify_rdp_ok (S := S) dist_line2_safe pts d) as (out & ? & ? & [] & ? & ?); exists out; auto 8.
  - destruct (simplify_rdp_ok (S := S) dist_line3_safe pts d) as (out & ? & ? & [] & ? & ?); exists out; auto 8.
Qed.
Print Assumptions C07_rdp_subsequence.
Example C07_example : (* src/linestring_2d.rs doc example: one of seven points goes away with tolerance 15 *)
  simplify_rdp_2d (S := F64_) [P 77 613; P 689 650; P 710 467; P 220 200; P 120 300; P 121 301; P 100 100; P 77 613] (f64 15)
  = Val [P 77 613; P 689 650; P 710 467; P 220 200; P 121 301; P 100 100; P 77 613].
Proof. fcomp2. Qed.

(* C08: every input point is within d of a segment of the result; the segment is the one joining the two
   retained points between which the point was dropped. *)
Theorem C08_rdp_tolerance : forall (pts : list pt) (d : R) (out : list pt),
  (0 <= d)%R -> (2 <= length pts)%nat -> simplify_rdp_2d pts d = Val out ->
  (forall p, In p pts -> exists a b q, In (a, b) (windows out) /\ on_segment q a b /\ (edist p q <= d)%R) /\
  thinned (fun a b p => exists q, on_segment q a b /\ (edist p q <= d)%R) pts out.
Proof.
  intros pts d out Hd H2 E. split; [exact (rdp2_within pts d out Hd H2 E)|].
  apply (rdp2_thinned pts d out Hd); auto. intros ->; simpl in H2; lia.
Qed.
Print Assumptions C08_rdp_tolerance.
Example C08_hypotheses_met : exists out,
  simplify_rdp_2d [@mkV2 RS 0 0; @mkV2 RS 1 1; @mkV2 RS 2 0]%R 1%R = Val out.
Proof.
  destruct (C07_rdp_subsequence RS) as [H _].
  destruct (H [@mkV2 RS 0 0; @mkV2 RS 1 1; @mkV2 RS 2 0]%R 1%R) as (out & E & _). eauto.
Qed.

(* C09: for every scalar type whose comparisons order the distances that occur. *)
Theorem C09_rdp_idempotent : forall (S : Scalar) (D : car S -> Prop), OrdOn S D ->
  (forall (pts : list (V2 S)) d out,
     (forall a b p, In a pts -> In b pts -> In p pts -> D (dist_line2_safe a b p)) ->
     simplify_rdp_2d pts d = Val out -> simplify_rdp_2d out d = Val out) /\
  (forall (pts : list (V3 S)) d out,
     (forall a b p, In a pts -> In b pts -> In p pts -> D (dist_line3_safe a b p)) ->
     simplify_rdp_3d pts d = Val out -> simplify_rdp_3d out d = Val out).
Proof.
  intros S D HO. split; intros pts d out.
  - exact (simplify_rdp_idem dist_line2_safe D pts d out HO).
  - exact (simplify_rdp_idem dist_line3_safe D pts d out HO).
Qed.
Print Assumptions C09_rdp_idempotent.
(* ... hence for exact arithmetic without condition ... *)
Theorem C09_rdp_idempotent_exact : forall (pts : list pt) d out,
  simplify_rdp_2d pts d = Val out -> simplify_rdp_2d out d = Val out.
Proof. intros pts d out. exact (simplify_rdp_idem dist_line2_safe (fun _ => True) pts d out OrdOn_R (fun _ _ _ _ _ _ => I)). Qed.
Print Assumptions C09_rdp_idempotent_exact.
(* ... and for IEEE floats (here f32 and f64 at once) when no distance between input points is NaN. *)
Theorem C09_rdp_idempotent_float : forall prec emax eps at2 (pts : list (V2 (FloatS prec emax eps at2))) d out,
  (forall a b p, In a pts -> In b pts -> In p pts -> dist_line2_safe a b p <> S754_nan) ->
  simplify_rdp_2d pts d = Val out -> simplify_rdp_2d out d = Val out.
Proof.
  intros prec emax eps at2 pts d out.
  exact (simplify_rdp_idem dist_line2_safe _ pts d out (OrdOn_float prec emax eps at2)).
Qed.
Print Assumptions C09_rdp_idempotent_float.
Example C09_hypotheses_met : (* no NaN distance among these f64 points *)
  forallb (fun a => forallb (fun b => forallb (fun p =>
    negb (fl_is_nan (dist_line2_safe (S := F64_) a b p)))
    [P 0 0; P 1 3; P 2 1; P 7 5]) [P 0 0; P 1 3; P 2 1; P 7 5]) [P 0 0; P 1 3; P 2 1; P 7 5] = true.
Proof. vm_compute. reflexivity. Qed.

(* C10 *)
Theorem C10_rdp_needed_points_kept : forall (pts : list pt) (d : R), (0 <= d)%R ->
  (forall pre a mid b post, pts = pre ++ a :: mid ++ b :: post -> mid <> [] ->
     exists p, In p mid /\ forall q, on_segment q a b -> (d < edist p q)%R) ->
  simplify_rdp_2d pts d = Val pts.
Proof. exact rdp2_unchanged. Qed.
Print Assumptions C10_rdp_needed_points_kept.
Theorem C10_rdp_zero_tolerance : forall (pts out : list pt), (2 <= length pts)%nat ->
  simplify_rdp_2d pts 0%R = Val out ->
  forall p, In p pts -> exists a b, In (a, b) (windows out) /\ on_segment p a b.
Proof. exact rdp2_zero. Qed.
Print Assumptions C10_rdp_zero_tolerance.
Example C10_example : simplify_rdp_2d (S := F64_) [P 0 0; P 1 1; P 2 2; P 3 0] (f64 0) = Val [P 0 0; P 2 2; P 3 0].
Proof. fcomp2. Qed.
Example C10_hypotheses_met : (* a zig-zag none of whose points may be dropped with tolerance 1/2 *)
  let pts := [@mkV2 RS 0 0; @mkV2 RS 1 2; @mkV2 RS 2 0]%R in
  forall pre a mid b post, pts = pre ++ a :: mid ++ b :: post -> mid <> [] ->
     exists p, In p mid /\ forall q, on_segment q a b -> (1/2 < edist p q)%R.
Proof.
  intros pts pre a mid b post E Hm. unfold pts in E.
  assert (pre = [] /\ post = [] /\ a = @mkV2 RS 0 0 /\ mid = [@mkV2 RS 1 2] /\ b = @mkV2 RS 2 0)%R as (_ & _ & -> & -> & ->).
  { pose proof (f_equal (@length _) E) as L. rewrite app_length in L. simpl in L. rewrite app_length in L. simpl in L.
    destruct mid as [|m mid]; [congruence|]. simpl in L.
    destruct pre; simpl in L; [|lia]. destruct mid; simpl in L; [|lia]. destruct post; simpl in L; [|lia].
    simpl in E. injection E as <- <- <-. auto. }
  exists (@mkV2 RS 1 2)%R. split; [left; auto|]. intros q (t & Ht & ->). unfold edist.
  rewrite <- (sqrt_square (1/2)) at 1 by lra. unfold sqdist, lerp; simpl. apply sqrt_lt_1; nra.
Qed.

(* C11 *)
Theorem C11_indexed_rdp_agrees : forall (S : Scalar),
  (forall (vertices : list (V2 S)) indices pts d,
     2 < length vertices -> 2 <= length indices ->
     Forall2 (fun i p => nth_error vertices i = Some p) indices pts ->
     exists iout out, indexed_simplify_rdp_2d vertices indices d = Val iout /\ simplify_rdp_2d pts d = Val out /\
       Forall2 (fun i p => nth_error vertices i = Some p) iout out /\ subseq iout indices /\ same_ends indices iout) /\
  (forall (vertices : list (V3 S)) indices pts d,
     2 < length vertices -> 2 <= length indices ->
     Forall2 (fun i p => nth_error vertices i = Some p) indices pts ->
     exists iout out, indexed_simplify_rdp_3d vertices indices d = Val iout /\ simplify_rdp_3d pts d = Val out /\
       Forall2 (fun i p => nth_error vertices i = Some p) iout out /\ subseq iout indices /\ same_ends indices iout).
Proof.
  intros S; split; intros vertices indices pts d.
  - exact (indexed_rdp_agree' dist_line2_safe vertices indices pts d).
  - exact (indexed_rdp_agree' dist_line3_safe vertices indices pts d).
Qed.
Print Assumptions C11_indexed_rdp_agrees.
Example C11_example : indexed_simplify_rdp_2d (S := F64_) [P 0 3; P 1 2; P 4 1; P 0 0] [0; 1; 2; 3; 2] (f64 1) = Val [0; 2; 3; 2].
Proof. vm_compute. reflexivity. Qed.

(* C12: refuted. One index comes back twice, an empty index list panics, and with at most two vertices the
   index list is returned unsimplified although simplify_rdp would shorten the polyline. *)
Theorem C12_indexed_rdp_degenerate_refuted :
  (exists vertices d out, indexed_simplify_rdp_2d (S := F64_) vertices [1] d = Val out /\ ~ subseq out [1]) /\
  (exists vertices d, indexed_simplify_rdp_2d (S := F64_) vertices [] d = Panic) /\
  (exists vertices d, indexed_simplify_rdp_2d (S := F64_) vertices [0; 1; 0] d = Val [0; 1; 0] /\
     simplify_rdp_2d (map (fun i => nth i vertices (P 0 0)) [0; 1; 0]) d = Val (map (fun i => nth i vertices (P 0 0)) [0; 0])).
Proof.
  split; [|split].
  - exists [P 0 0; P 1 0; P 2 1], (f64 1), [1; 1]. split; [vm_compute; reflexivity|].
    intros H. apply subseq_length in H. simpl in H. lia.
  - exists [P 0 0; P 1 0; P 2 1], (f64 1). vm_compute. reflexivity.
  - exists [P 0 0; P 1 0], (f64 5). split; [vm_compute; reflexivity|fcomp2].
Qed.
Print Assumptions C12_indexed_rdp_degenerate_refuted.
(* what does hold: at most two vertices, or at least two valid indices *)
Theorem C12_indexed_rdp_subsequence_partial : forall (S : Scalar) (vertices : list (V2 S)) indices d,
  length vertices <= 2 \/ (2 <= length indices /\ forall i, In i indices -> i < length vertices) ->
  exists out, indexed_simplify_rdp_2d vertices indices d = Val out /\ subseq out indices.
Proof.
  intros S vertices indices d H.
  destruct (Nat.leb (length vertices) 2) eqn:E.
  - exists indices. unfold indexed_simplify_rdp_2d, indexed_simplify_rdp. rewrite E. split; auto. apply subseq_refl.
  - apply Nat.leb_gt in E. destruct H as [H|[H1 H2]]; [lia|].
    destruct vertices as [|v0 vs] eqn:Ev; [simpl in E; lia|]. rewrite <- Ev in *.
    destruct (indexed_rdp_agree dist_line2_safe vertices v0 indices d E H1 H2) as (out & E1 & _ & E3 & _). eauto.
Qed.
Print Assumptions C12_indexed_rdp_subsequence_partial.

(* C13: refuted; the 3D distance is to the infinite line, so an overshooting point is lost. *)
Theorem C13_rdp3_tolerance_refuted : exists (pts : list pt3) d out, (0 <= d)%R /\ simplify_rdp_3d pts d = Val out /\
  exists p, In p pts /\
    forall a b t, In (a, b) (windows out) -> (0 <= t <= 1)%R -> (d < edist3 p (lerp3 a b t))%R.
Proof. exact c13_refuted. Qed.
Print Assumptions C13_rdp3_tolerance_refuted.
(* what does hold: a dropped point is within d of the (infinite) line through its retained neighbours *)
Theorem C13_rdp3_line_tolerance_partial : forall (pts : list pt3) (d : R) out,
  (0 <= d)%R -> pts <> [] -> simplify_rdp_3d pts d = Val out ->
  thinned (fun a b p => exists t, (edist3 p (lerp3 a b t) <= d)%R) pts out.
Proof. exact rdp3_thinned. Qed.
Print Assumptions C13_rdp3_line_tolerance_partial.

(* C32: squared distance to the segment = minimum over the points of the segment, attained *)
Theorem C32_distance_to_segment : forall (a b p : pt),
  (exists t, (0 <= t <= 1)%R /\ dist_line2_safe a b p = sqdist p (lerp a b t)) /\
  (forall t, (0 <= t <= 1)%R -> (dist_line2_safe a b p <= sqdist p (lerp a b t))%R) /\
  (a <> b -> dist_line2 a b p = dist_line2_safe a b p).
Proof.
  intros a b p. destruct (dist_line2_safe_R a b p) as [H1 H2]. repeat split; auto. apply dist_line2_eq.
Qed.
Print Assumptions C32_distance_to_segment.

(* C33: squared distance to the infinite line through two distinct points; to the point if they coincide *)
Theorem C33_distance_to_line_3d : forall (a b p : pt3),
  (a <> b -> (exists t, dist_line3_safe a b p = sqdist3 p (lerp3 a b t)) /\
             (forall t, (dist_line3_safe a b p <= sqdist3 p (lerp3 a b t))%R) /\
             dist_line3 a b p = dist_line3_safe a b p) /\
  dist_line3_safe a a p = sqdist3 p a.
Proof.
  intros a b p. split; [|apply dist_line3_safe_point]. intros H.
  destruct (dist_line3_safe_R a b p H) as [H1 H2]. repeat split; auto. apply dist_line3_eq; auto.
Qed.
Print Assumptions C33_distance_to_line_3d.
Example C33_hypotheses_met : (@mkV3 RS 0 0 0 <> @mkV3 RS 1 2 3)%R.
Proof. intros E. apply (f_equal wx) in E. simpl in E. lra. Qed.
