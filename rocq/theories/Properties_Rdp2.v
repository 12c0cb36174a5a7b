(* Ramer-Douglas-Peucker, continued (C94, C100, C101): the documented unit of the tolerance, growing tolerances,
   moved / rotated / mirrored / scaled input.
   Model: Simplify.v, Geo2.v, Geo3.v. Vocabulary: GeoSpec.v (subseq, on_segment, sqdist, sqdist3). *)
From Coq Require Import Reals Lra Psatz ZArith Floats.SpecFloat.
From Verif Require Import Prelude Scalar RInst Flt Geo2 Geo3 GeoSpec DistR Simplify Rdp1 Rdp2 Rdp3 FltOrd Properties_Rdp.

(* C94: the documentation calls the tolerance a squared distance, but it is a distance: points whose squared
   distance to the result exceeds it are dropped. *)
Theorem C94_squared_tolerance_refuted : exists (pts : list pt) (d : R) (out : list pt) (p : pt),
  (0 < d)%R /\ simplify_rdp_2d pts d = Val out /\ In p pts /\
  (forall a b q, In (a, b) (windows out) -> on_segment q a b -> (sqdist p q > d)%R).
Proof.
  exists [@mkV2 RS 0 0; @mkV2 RS 5 3; @mkV2 RS 10 0]%R, 4%R, [@mkV2 RS 0 0; @mkV2 RS 10 0]%R, (@mkV2 RS 5 3)%R.
  split; [lra|]. split; [|split; [simpl; auto|]].
  - unfold simplify_rdp_2d, simplify_rdp. simpl Nat.leb. cbv iota.
    unfold rdp_rec. cbn [length Nat.leb Nat.sub idx nth_error obind firstn skipn].
    unfold farthest. cbn [length Nat.sub enumerate combine seq skipn firstn map max_by fold_left fst snd].
    replace (sleb (s := RS) (dist_line2_safe (S := RS) (@mkV2 RS 0%R 0%R) (@mkV2 RS 10%R 0%R) (@mkV2 RS 5%R 3%R)) (smul (s := RS) 4%R 4%R)) with true; [reflexivity|].
    symmetry. apply Rleb_true. rsimp.
    destruct (dist_line2_safe_R (@mkV2 RS 0%R 0%R) (@mkV2 RS 10%R 0%R) (@mkV2 RS 5%R 3%R)) as [_ M].
    specialize (M (1 / 2)%R ltac:(lra)). unfold sqdist, lerp in M. cbn [vx vy] in M. eapply Rle_trans; [exact M|]. cbn; lra.
  - intros a b q [E|[]] (t & Ht & ->). injection E as <- <-. unfold sqdist, lerp; cbn [vx vy]. cbn.
    pose proof (Rle_0_sqr (5 - (0 + t * (10 - 0)))) as X. unfold Rsqr in X. lra.
Qed.
Print Assumptions C94_squared_tolerance_refuted.
(* what does hold: for tolerances up to 1 a distance bound is also a squared distance bound *)
Theorem C94_squared_tolerance_partial : forall (pts : list pt) (d : R) (out : list pt),
  (0 <= d <= 1)%R -> (2 <= length pts)%nat -> simplify_rdp_2d pts d = Val out ->
  forall p, In p pts -> exists a b q, In (a, b) (windows out) /\ on_segment q a b /\ (sqdist p q <= d)%R.
Proof.
  intros pts d out Hd H2 E p Hp. destruct (C08_rdp_tolerance pts d out ltac:(lra) H2 E) as [H _].
  destruct (H p Hp) as (a & b & q & Hw & Hq & He). exists a, b, q. split; [auto|split; [auto|]].
  unfold edist in He. assert (0 <= sqdist p q)%R by (apply sqdist_nonneg).
  pose proof (sqrt_sqrt (sqdist p q) ltac:(lra)). pose proof (sqrt_pos (sqdist p q)). nra.
Qed.
Print Assumptions C94_squared_tolerance_partial.
Example C94_example : simplify_rdp_2d (S := F64_) [P 0 0; P 5 3; P 10 0] (f64 4) = Val [P 0 0; P 10 0].
Proof. fcomp2. Qed.

(* C100: a larger tolerance keeps a subset of the points a smaller one keeps. Any scalar type, NaN included,
   whose <= is transitive where it holds. *)
Theorem C100_larger_tolerance_keeps_fewer : forall (S : Scalar),
  (forall a b c : car S, sleb a b = true -> sleb b c = true -> sleb a c = true) ->
  (forall (pts out1 out2 : list (V2 S)) (d1 d2 : car S), sleb (smul d1 d1) (smul d2 d2) = true ->
     simplify_rdp_2d pts d1 = Val out1 -> simplify_rdp_2d pts d2 = Val out2 -> subseq out2 out1) /\
  (forall (pts out1 out2 : list (V3 S)) (d1 d2 : car S), sleb (smul d1 d1) (smul d2 d2) = true ->
     simplify_rdp_3d pts d1 = Val out1 -> simplify_rdp_3d pts d2 = Val out2 -> subseq out2 out1).
Proof.
  intros S Ht. split; intros pts out1 out2 d1 d2 Hd.
  - apply simplify_rdp_nested. intros v Hv. eapply Ht; eauto.
  - apply simplify_rdp_nested. intros v Hv. eapply Ht; eauto.
Qed.
Print Assumptions C100_larger_tolerance_keeps_fewer.
Theorem C100_exact : forall (pts out1 out2 : list pt) (d1 d2 : R), (0 <= d1 <= d2)%R ->
  simplify_rdp_2d pts d1 = Val out1 -> simplify_rdp_2d pts d2 = Val out2 -> subseq out2 out1.
Proof.
  intros pts out1 out2 d1 d2 Hd. apply (proj1 (C100_larger_tolerance_keeps_fewer RS ltac:(intros a b c; rsimp; rewrite !Rleb_true; lra))).
  apply Rleb_true. rsimp. nra.
Qed.
Print Assumptions C100_exact.
(* f32 and f64 *)
Theorem C100_float : forall prec emax eps at2 (pts out1 out2 : list (V2 (FloatS prec emax eps at2))) d1 d2,
  sleb (smul d1 d1) (smul d2 d2) = true ->
  simplify_rdp_2d pts d1 = Val out1 -> simplify_rdp_2d pts d2 = Val out2 -> subseq out2 out1.
Proof.
  intros prec emax eps at2 pts out1 out2 d1 d2. apply (C100_larger_tolerance_keeps_fewer (FloatS prec emax eps at2)).
  intros a b c H1 H2. pose proof (OrdOn_float prec emax eps at2) as HO.
  assert (a <> S754_nan) by (intros ->; discriminate H1). assert (b <> S754_nan) by (intros ->; discriminate H2).
  assert (c <> S754_nan) by (intros ->; destruct b as [[]|[]| |[] ? ?]; discriminate H2).
  rewrite (ord_leb _ _ HO) in * by auto. rewrite Bool.negb_true_iff in *. eapply (ord_neg_trans _ _ HO); [| | |eauto|eauto]; auto.
Qed.
Print Assumptions C100_float.
Example C100_hypotheses_met : sleb (s := F64_) (smul (s := F64_) (f64 0) (f64 0)) (smul (s := F64_) (f64 2) (f64 2)) = true /\
  simplify_rdp_2d (S := F64_) [P 0 0; P 1 1; P 2 0; P 3 9; P 4 0] (f64 0) = Val [P 0 0; P 1 1; P 2 0; P 3 9; P 4 0] /\
  simplify_rdp_2d (S := F64_) [P 0 0; P 1 1; P 2 0; P 3 9; P 4 0] (f64 2) = Val [P 0 0; P 3 9; P 4 0].
Proof. split; [vm_compute; reflexivity|]. split; fcomp2. Qed.

Lemma sqdist3_nonneg a b : (0 <= sqdist3 a b)%R.
Proof. unfold sqdist3. repeat apply Rplus_le_le_0_compat; apply Rle_0_sqr. Qed.
(* C101: simplification commutes with every map that multiplies all distances by c: translations, rotations,
   reflections, uniform scalings and their combinations. *)
Theorem C101_similar : forall c : R, (0 < c)%R ->
  (forall f : pt -> pt, (forall a b, edist (f a) (f b) = c * edist a b)%R -> forall pts d,
     simplify_rdp_2d (map f pts) (c * d)%R = omap (map f) (simplify_rdp_2d pts d)) /\
  (forall f : pt3 -> pt3, (forall a b, edist3 (f a) (f b) = c * edist3 a b)%R -> forall pts d,
     simplify_rdp_3d (map f pts) (c * d)%R = omap (map f) (simplify_rdp_3d pts d)).
Proof.
  intros c Hc. split; intros f Hf pts d.
  - unfold simplify_rdp_2d. apply (simplify_rdp_similar f _ _ c Hc). apply dist_similar2; [nra|].
    intros a b. specialize (Hf a b). unfold edist in Hf.
    assert (Ha : (0 <= sqdist a b)%R) by (apply sqdist_nonneg). assert (Hb : (0 <= sqdist (f a) (f b))%R) by (apply sqdist_nonneg).
    rewrite <- (sqrt_sqrt _ Hb), Hf. rewrite <- (sqrt_sqrt _ Ha) at 3. ring.
  - unfold simplify_rdp_3d. apply (simplify_rdp_similar f _ _ c Hc). apply dist_similar3; [nra|].
    intros a b. specialize (Hf a b). unfold edist3 in Hf.
    assert (Ha : (0 <= sqdist3 a b)%R) by (apply sqdist3_nonneg). assert (Hb : (0 <= sqdist3 (f a) (f b))%R) by (apply sqdist3_nonneg).
    rewrite <- (sqrt_sqrt _ Hb), Hf. rewrite <- (sqrt_sqrt _ Ha) at 3. ring.
Qed.
Print Assumptions C101_similar.
(* the quarter turn about the origin with doubling and a shift is such a map *)
Example C101_hypotheses_met : exists f : pt -> pt, (forall a b, edist (f a) (f b) = 2 * edist a b)%R /\
  f (@mkV2 RS 1%R 0%R) = @mkV2 RS 3%R 6%R.
Proof.
  exists (fun p : pt => @mkV2 RS (3 - 2 * vy p)%R (4 + 2 * vx p)%R). split.
  - intros a b. unfold edist. replace (sqdist _ _) with (2 * 2 * sqdist a b)%R by (unfold sqdist; cbn [vx vy]; ring).
    assert (0 <= sqdist a b)%R by (apply sqdist_nonneg). rewrite sqrt_mult by lra. rewrite sqrt_square by lra. auto.
  - apply V2_ext; cbn; rsimp; lra.
Qed.
