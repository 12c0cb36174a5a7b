(* C144: Ramer-Douglas-Peucker on a line given backwards. Model: Simplify.v, Geo2.v, Geo3.v. Vocabulary: GeoSpec.v
   (on_segment, lerp3, sqdist, sqdist3). *)
From Coq Require Import Reals Lra Psatz.
From Verif Require Import Prelude Scalar RInst Flt Geo2 Geo3 GeoSpec DistR Simplify Rdp1 RdpRev FltOrd.
Local Open Scope R_scope.

(* the squared distance from p to the segment from a to b is r *)
Definition sq_to_segment (p a b : pt) (r : R) : Prop :=
  (exists q, on_segment q a b /\ sqdist p q = r) /\ forall q, on_segment q a b -> r <= sqdist p q.
(* the squared distance from p to the (unbounded) line through a and b, or to a when a = b, is r *)
Definition sq_to_line3 (p a b : pt3) (r : R) : Prop :=
  (exists t, sqdist3 p (lerp3 a b t) = r) /\ forall t, r <= sqdist3 p (lerp3 a b t).
(* whenever two points between two others are equally far from the chord of those, they are within tolerance of it
   or a third point between them is farther away *)
Definition no_tied_farthest {T} (far : T -> T -> T -> R -> Prop) (d : R) (pts : list T) : Prop :=
  forall l1 a m1 p m2 q m3 b l2 r, pts = l1 ++ a :: (m1 ++ p :: m2 ++ q :: m3) ++ b :: l2 -> far p a b r -> far q a b r ->
  r <= d * d \/ exists w r', In w (m1 ++ p :: m2 ++ q :: m3) /\ far w a b r' /\ r < r'.

Lemma sq_to_segment_is a b p : sq_to_segment p a b (dist_line2_safe (S := RS) a b p).
Proof.
  destruct (dist_line2_safe_R a b p) as [(t & Ht & E) M]. split.
  - exists (lerp a b t). split; [exists t; auto|]. symmetry. exact E.
  - intros q (u & Hu & ->). apply M. exact Hu.
Qed.
Lemma sq_to_line3_is a b p : sq_to_line3 p a b (dist_line3_safe (S := RS) a b p).
Proof.
  destruct (wulps (S := RS) a b) eqn:D.
  - assert (E : dist_line3_safe (S := RS) a b p = sqdist3 p a) by (unfold dist_line3_safe; rewrite D; unfold wdist2, wmag2, wdot, wsub, sqdist3; rsimp; rring).
    apply wulps_R in D. subst b. assert (L : forall t, lerp3 a a t = a) by (intros t; unfold lerp3; apply V3_ext; rsimp; rring).
    split; [exists 0|intros t]; rewrite L; [symmetry; exact E|rewrite E; apply Rle_refl].
  - assert (N : a <> b) by (intros Z; apply wulps_R in Z; congruence).
    destruct (dist_line3_safe_R a b p N) as [(t & E) M]. split; [exists t; symmetry; exact E|exact M].
Qed.
Lemma no_ties_2d pts (d : R) : no_tied_farthest (fun p a b => sq_to_segment p a b) d pts -> one_farthest (dist_line2_safe (S := RS)) (d * d) pts.
Proof.
  intros H l1 a m1 p m2 q m3 b l2 E Eq. destruct (H l1 a m1 p m2 q m3 b l2 (dist_line2_safe (S := RS) a b p) E) as [L|(w & r' & Hw & Fw & Lt)].
  - apply sq_to_segment_is.
  - pose proof (sq_to_segment_is a b q) as X. exact (eq_ind_r (fun z => sq_to_segment q a b z) X Eq).
  - left; exact L.
  - right. exists w. split; [exact Hw|]. destruct (sq_to_segment_is a b w) as [(q' & Hq & Eq') _]. destruct Fw as [_ Fw].
    eapply Rlt_le_trans; [exact Lt|]. specialize (Fw q' Hq). eapply Rle_trans; [exact Fw|]. right. exact Eq'.
Qed.
Lemma no_ties_3d pts (d : R) : no_tied_farthest (fun p a b => sq_to_line3 p a b) d pts -> one_farthest (dist_line3_safe (S := RS)) (d * d) pts.
Proof.
  intros H l1 a m1 p m2 q m3 b l2 E Eq. destruct (H l1 a m1 p m2 q m3 b l2 (dist_line3_safe (S := RS) a b p) E) as [L|(w & r' & Hw & Fw & Lt)].
  - apply sq_to_line3_is.
  - pose proof (sq_to_line3_is a b q) as X. exact (eq_ind_r (fun z => sq_to_line3 q a b z) X Eq).
  - left; exact L.
  - right. exists w. split; [exact Hw|]. destruct (sq_to_line3_is a b w) as [(t & Eq') _]. destruct Fw as [_ Fw].
    eapply Rlt_le_trans; [exact Lt|]. eapply Rle_trans; [exact (Fw t)|]. right. exact Eq'.
Qed.

(* As stated FALSE: with two farthest points the later one is kept, so the direction decides which. *)
Theorem C144_simplified_backwards_refuted :
  simplify_rdp_2d (S := F64_) [P 0 0; P 1 3; P 2 3; P 3 0] (f64 1) = Val [P 0 0; P 2 3; P 3 0] /\
  simplify_rdp_2d (S := F64_) (rev [P 0 0; P 1 3; P 2 3; P 3 0]) (f64 1) = Val (rev [P 0 0; P 1 3; P 3 0]).
Proof. split; fcomp2. Qed.
Print Assumptions C144_simplified_backwards_refuted.
(* without such ties the simplification of the reversed line is the reversed simplification, in exact arithmetic *)
Theorem C144_simplified_backwards_partial : forall d : R,
  (forall pts : list pt, no_tied_farthest (fun p a b => sq_to_segment p a b) d pts ->
     simplify_rdp_2d (rev pts) d = omap (@rev _) (simplify_rdp_2d pts d)) /\
  (forall pts : list pt3, no_tied_farthest (fun p a b => sq_to_line3 p a b) d pts ->
     simplify_rdp_3d (rev pts) d = omap (@rev _) (simplify_rdp_3d pts d)).
Proof.
  intros d. split; intros pts H.
  - exact (rdp_rev _ dist2_sym pts d (no_ties_2d pts d H)).
  - exact (rdp_rev _ dist3_sym pts d (no_ties_3d pts d H)).
Qed.
Print Assumptions C144_simplified_backwards_partial.
Example C144_hypotheses_met : no_tied_farthest (fun p a b => sq_to_segment p a b) 1 [@mkV2 RS 0 0; @mkV2 RS 1 3; @mkV2 RS 2 5; @mkV2 RS 3 0].
Proof.
  intros l1 a m1 p m2 q m3 b l2 r E Fp Fq. exfalso.
  assert (L := f_equal (@length _) E). repeat (rewrite ?app_length in L; cbn [length] in L).
  assert (l1 = [] /\ m1 = [] /\ m2 = [] /\ m3 = [] /\ l2 = []) as (-> & -> & -> & -> & ->) by (destruct l1, m1, m2, m3, l2; cbn [length] in L; try lia; auto).
  cbn [app] in E. injection E as <- <- <- <-. destruct Fp as [_ Fp]. destruct Fq as [(w & (t & Ht & ->) & Fq) _].
  specialize (Fp (@mkV2 RS 1 0)). revert Fp Fq. unfold on_segment, sqdist, lerp. cbn. intros Fp Fq.
  assert (r <= 9) as X. { eapply Rle_trans; [apply Fp|right; ring]. exists (1 / 3). split; [lra|]. apply V2_ext; cbn; lra. }
  pose proof (Rle_0_sqr (2 - (0 + t * (3 - 0)))) as Y. unfold Rsqr in Y. lra.
Qed.
