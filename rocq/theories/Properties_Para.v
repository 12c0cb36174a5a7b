(* Sampling of parabolic arcs (C72-C76, C81). Model: Parabola.v. Vocabulary: ParaSpec.v, GeoSpec.v.
   A call is [discretize_2d fuel arc max_dist]: [Val out] is what it returns; NoFuel means the while loop is
   still running after fuel iterations. *)
From Coq Require Import Reals Lra ZArith Sorting.Sorted Floats.SpecFloat.
From Verif Require Import Prelude Scalar RInst Flt Geo2 GeoSpec DistR Parabola ParaSpec ParaProofs.

Lemma nth_error_map_inv {A B} (f : A -> B) l i y : nth_error (map f l) i = Some y -> exists x, nth_error l i = Some x /\ y = f x.
Proof. rewrite nth_error_map. destruct (nth_error l i); intros H; [|discriminate]. injection H as <-. eauto. Qed.

(* ---- C72: first and last sample, any scalar ---- *)
Theorem C72_parabola_ends : forall (S : Scalar) (fuel : nat) (c : Arc S) (d : car S),
  (forall out, discretize_2d fuel c d = Val out -> exists l, out = start_point c :: l ++ [end_point c]) /\
  (forall out, discretize_3d fuel c d = Val out -> exists l z0 z1,
     out = mkV3 (vx (start_point c)) (vy (start_point c)) z0 :: l ++ [mkV3 (vx (end_point c)) (vy (end_point c)) z1]
     /\ z0 = sneg (vdist (start_point c) (cell_point c)) /\ z1 = sneg (vdist (end_point c) (cell_point c))).
Proof.
  intros S fuel c d. split; intros out H.
  - apply (disc_ends (fun p => p)) in H. exact H.
  - apply (disc_ends (with_z c)) in H as (l & ->). exists l. eexists. eexists. split; [reflexivity|]. split; reflexivity.
Qed.
Print Assumptions C72_parabola_ends.

Local Open Scope R_scope.
(* the segment's ends, focus and arc ends of an arc *)
Notation sA c := (lstart (segment c)).
Notation sB c := (lend (segment c)).
Definition proper (c : Arc RS) : Prop := proper_arc (sA c) (sB c) (cell_point c) (start_point c) (end_point c).
Definition on_curve (c : Arc RS) (m : pt) : Prop := equidistant (sA c) (sB c) (cell_point c) m.

Lemma disc2_R fuel (c : Arc RS) (d : R) : (sqr_segment_length c : R) <> 0 ->
  discretize_2d fuel c d = disc (fun p => p) fuel c (d * d * sqr_segment_length c) (X c (start_point c)) (X c (end_point c)).
Proof. intros HL. rewrite <- !(proj_X c HL). reflexivity. Qed.
Lemma disc3_R fuel (c : Arc RS) (d : R) : (sqr_segment_length c : R) <> 0 ->
  discretize_3d fuel c d = disc (with_z c) fuel c (d * d * sqr_segment_length c) (X c (start_point c)) (X c (end_point c)).
Proof. intros HL. rewrite <- !(proj_X c HL), !(Rmult_comm (@point_projection RS _ _ _)). reflexivity. Qed.
Lemma with_z_R (c : Arc RS) (p : pt) : with_z c p = @mkV3 RS (vx p) (vy p) (- edist p (cell_point c)).
Proof. apply V3_ext; auto. Qed.

(* ---- C75: termination for every proper arc and non-zero tolerance ---- *)
Theorem C75_parabola_terminates : forall (c : Arc RS) (d : R), proper c -> d <> 0 ->
  exists n, forall fuel, (n <= fuel)%nat -> (exists out, discretize_2d fuel c d = Val out) /\ (exists out, discretize_3d fuel c d = Val out).
Proof.
  intros c d Hp Hd.
  destruct (disc_result c (fun p => p) Hp d Hd) as (n1 & ys1 & _ & H1 & _).
  destruct (disc_result c (with_z c) Hp d Hd) as (n2 & ys2 & _ & H2 & _).
  exists (n1 + n2)%nat. intros fuel Hf. rewrite disc2_R, disc3_R by (apply (proper_L c Hp)).
  rewrite H1, H2 by lia. split; eauto.
Qed.
Print Assumptions C75_parabola_terminates.

(* ---- C73: the samples are on the curve, and walk along it without turning back ---- *)
Lemma samples_2d (c : Arc RS) d fuel out : proper c -> discretize_2d fuel c d = Val out ->
  exists ys, out = start_point c :: map (sample c (fun p => p)) ys ++ [end_point c] /\
    Sorted (acc c (d * d * sqr_segment_length c) (X c (end_point c) - X c (start_point c))) (X c (start_point c) :: ys ++ [X c (end_point c)]).
Proof.
  intros Hp H. rewrite disc2_R in H by (apply (proper_L c Hp)).
  destruct (Req_dec d 0) as [->|Hd]; [exfalso; eapply disc_zero; eauto|].
  destruct (disc_result c (fun p => p) Hp d Hd) as (n & ys & Hs & _ & H2). exists ys. eauto.
Qed.
Lemma sample_X (c : Arc RS) x : (sqr_segment_length c : R) <> 0 -> X c (sample c (fun p => p) x) = x.
Proof. intros. unfold sample. apply X_un; auto. Qed.
Lemma sample_on_curve (c : Arc RS) x : (sqr_segment_length c : R) <> 0 -> (rot_y c : R) <> 0 -> on_curve c (sample c (fun p => p) x).
Proof. intros HL Hb. apply equi_iff; auto. rewrite sample_X by auto. unfold sample. apply Y_un; auto. Qed.
Lemma curve_sample (c : Arc RS) (m : pt) : (sqr_segment_length c : R) <> 0 -> (rot_y c : R) <> 0 -> on_curve c m -> sample c (fun p => p) (X c m) = m.
Proof. intros HL Hb H. apply equi_iff in H; auto. unfold sample. rewrite <- H. apply un_XY; auto. Qed.

Theorem C73_parabola_on_curve : forall (c : Arc RS) (d : R) (fuel : nat) (out : list pt),
  proper c -> discretize_2d fuel c d = Val out ->
  exists mid, out = start_point c :: mid ++ [end_point c] /\ Forall (on_curve c) mid /\
    (* strictly monotone along the segment, from the start to the end *)
    Sorted (fun p q => 0 < (along (sA c) (sB c) q - along (sA c) (sB c) p) * (along (sA c) (sB c) (end_point c) - along (sA c) (sB c) (start_point c))) out.
Proof.
  intros c d fuel out Hp H. destruct (samples_2d c d fuel out Hp H) as (ys & -> & Hs).
  pose proof (proper_L c Hp) as HL. pose proof (proper_b c Hp) as Hb.
  exists (map (sample c (fun p => p)) ys). split; [auto|]. split.
  - apply Forall_forall. intros p Hin. apply in_map_iff in Hin as (x & <- & _). apply sample_on_curve; auto.
  - assert (Ex : map (X c) (start_point c :: map (sample c (fun p => p)) ys ++ [end_point c]) = X c (start_point c) :: ys ++ [X c (end_point c)]).
    { cbn [map]. rewrite map_app, map_map. cbn [map]. f_equal. f_equal. rewrite <- (map_id ys) at 2. apply map_ext. intros x. apply sample_X; auto. }
    rewrite <- Ex in Hs. clear Ex. revert Hs. generalize (start_point c :: map (sample c (fun p => p)) ys ++ [end_point c]).
    intros l. fold (X c (start_point c)) (X c (end_point c)). generalize (X c (end_point c) - X c (start_point c)) as D. intros D.
    induction l as [|p l IH]; intros Hs; constructor; cbn [map] in Hs; apply Sorted_inv in Hs as [H1 H2]; auto.
    destruct l as [|q l]; constructor. cbn [map] in H2. apply HdRel_inv in H2 as [H2 _]. exact H2.
Qed.
Print Assumptions C73_parabola_on_curve.
(* the 3D variant returns the same points, z being minus the distance to the focus *)
Lemma ploop_map {S : Scalar} {Q} (mk : V2 S -> Q) c mdt fuel : forall k cx cy rv,
  ploop mk c mdt fuel (mkP k cx cy (map mk rv)) =
  match ploop (fun p => p) c mdt fuel (mkP k cx cy rv) with Val l => Val (map mk l) | Panic => Panic | NoFuel => NoFuel | Fail e => Fail e end.
Proof.
  induction fuel as [|f IH]; intros k cx cy rv; cbn [ploop pstack]; destruct k as [|x k]; auto.
  unfold pstep. cbn [pstack ParaProofs.X cur_x cur_y prv]. destruct (sleb _ _).
  - rewrite <- IH. rewrite map_app. auto.
  - apply IH.
Qed.
Lemma disc_map {S : Scalar} {Q} (mk : V2 S -> Q) c mdt fuel u v :
  disc mk fuel c mdt u v = match disc (fun p => p) fuel c mdt u v with Val l => Val (map mk l) | Panic => Panic | NoFuel => NoFuel | Fail e => Fail e end.
Proof.
  unfold disc. change [mk (start_point c)] with (map mk [start_point c]). rewrite ploop_map.
  destruct (ploop _ _ _ _ _) as [l| | |]; auto. unfold set_last. destruct l as [|p l]; auto. cbn [map].
  rewrite map_app. f_equal. f_equal. change (mk p :: map mk l) with (map mk (p :: l)).
  generalize (p :: l). clear. induction l as [|a [|b l] IH]; auto. cbn [map removelast] in *. f_equal. auto.
Qed.
Theorem C73_parabola_3d : forall (c : Arc RS) (d : R) (fuel : nat), sA c <> sB c ->
  discretize_3d fuel c d =
  match discretize_2d fuel c d with
  | Val l => Val (map (fun p => @mkV3 RS (vx p) (vy p) (- edist p (cell_point c))) l)
  | Panic => Panic | NoFuel => NoFuel | Fail e => Fail e
  end.
Proof.
  intros c d fuel Hne.
  assert (HL : (sqr_segment_length c : R) <> 0).
  { intros K. apply Hne. revert K. unfold sqr_segment_length, segm_vec_x, segm_vec_y. rsimp. intros K.
    pose proof (sq_nn (vx (sB c) - vx (sA c))). pose proof (sq_nn (vy (sB c) - vy (sA c))).
    apply V2_ext; [assert (E : (vx (sB c) - vx (sA c)) * (vx (sB c) - vx (sA c)) = 0) by (rsimp; lra)|assert (E : (vy (sB c) - vy (sA c)) * (vy (sB c) - vy (sA c)) = 0) by (rsimp; lra)];
      apply Rmult_integral in E; destruct E; lra. }
  rewrite disc2_R, disc3_R by auto. rewrite disc_map. destruct (disc _ _ _ _ _ _); auto.
Qed.
Print Assumptions C73_parabola_3d.

(* ---- C74: chord error ---- *)
(* REFUTED for the distance to the chord itself: the arc can leave the strip over the chord *)
Definition bad_arc : Arc RS :=
  @mkArc RS (mkL (S := RS) (@mkV2 RS 0 0) (@mkV2 RS 1 0)) (@mkV2 RS 0 (1/20)) (@mkV2 RS (-1) (401/40)) (@mkV2 RS 2 (1601/40)).
Lemma bad_proper : proper bad_arc.
Proof.
  unfold proper, proper_arc, bad_arc, orient, along. cbn. split; [|split]; [|lra|lra].
  intros K. apply (f_equal (@vx RS)) in K. cbn in K. lra.
Qed.
Lemma on_curve_bad x y : y = 10 * (x * x) + 1 / 40 -> on_curve bad_arc (@mkV2 RS x y).
Proof.
  intros ->. exists (@mkV2 RS x 0). split; [split|].
  - exists x. apply V2_ext; cbn; lra.
  - cbn. lra.
  - unfold sqdist. cbn. lra.
Qed.
Lemma bad_result : discretize_2d 1 bad_arc 3 = Val [start_point bad_arc; end_point bad_arc].
Proof.
  pose proof (proper_L _ bad_proper) as HL. pose proof (proper_b _ bad_proper) as Hb.
  rewrite disc2_R by auto. unfold disc. fold (fy bad_arc (X bad_arc (start_point bad_arc))).
  cbn [ploop pstack]. unfold pstep. cbn [pstack cur_x cur_y prv].
  assert (Eu : X bad_arc (start_point bad_arc) = -1) by (unfold X, along, bad_arc; cbn; lra).
  assert (Ev : X bad_arc (end_point bad_arc) = 2) by (unfold X, along, bad_arc; cbn; lra).
  rewrite Eu, Ev. set (T := 3 * 3 * sqr_segment_length bad_arc). fold (fy bad_arc 2).
  assert (E : @sleb RS (@dist_of RS bad_arc (-1) (fy bad_arc (-1)) 2 (fy bad_arc 2) (@mid_of RS bad_arc (-1) (fy bad_arc (-1)) 2 (fy bad_arc 2))
      (@parabola_y RS (@mid_of RS bad_arc (-1) (fy bad_arc (-1)) 2 (fy bad_arc 2)) (rot_x bad_arc) (rot_y bad_arc))) T = true).
  { apply Rleb_true. apply (test_acc bad_arc T Hb (-1) 2); [lra|].
    unfold T, slope, sqr_segment_length, segm_vec_x, segm_vec_y, rot_x, rot_y, segm_vec_x, segm_vec_y, point_vec_x, point_vec_y, bad_arc. cbn. lra. }
  rewrite E. reflexivity.
Qed.
Theorem C74_parabola_error_refuted : exists (c : Arc RS) (d : R) (out : list pt) (m : pt),
  proper c /\ on_curve c (start_point c) /\ on_curve c (end_point c) /\ 0 < d /\
  discretize_2d 1 c d = Val out /\ out = [start_point c; end_point c] /\ on_curve c m /\
  strictly_between (along (sA c) (sB c) (start_point c)) (along (sA c) (sB c) m) (along (sA c) (sB c) (end_point c)) /\
  forall h, on_segment h (start_point c) (end_point c) -> d * d < sqdist m h.
Proof.
  exists bad_arc, 3, [start_point bad_arc; end_point bad_arc], (@mkV2 RS 0 (1 / 40)).
  split; [apply bad_proper|]. split; [apply on_curve_bad; lra|]. split; [apply on_curve_bad; lra|]. split; [lra|].
  split; [apply bad_result|]. split; [auto|]. split; [apply on_curve_bad; lra|]. split.
  - left. unfold along, bad_arc. cbn. lra.
  - intros h (t & Ht & ->). unfold sqdist, lerp, bad_arc. cbn. nra.
Qed.
Print Assumptions C74_parabola_error_refuted.

(* what holds: every arc point between two consecutive samples p, q is within max_dist of the LINE through
   p and q, and of the chord p q itself unless the focus projects strictly between p and q; and every arc
   point is between two consecutive samples *)
Theorem C74_parabola_error_partial : forall (c : Arc RS) (d : R) (fuel : nat) (out : list pt),
  proper c -> on_curve c (start_point c) -> on_curve c (end_point c) -> discretize_2d fuel c d = Val out ->
  let pos := along (sA c) (sB c) in
  (forall i p q m, nth_error out i = Some p -> nth_error out (i + 1) = Some q ->
     on_curve c m -> between (pos p) (pos m) (pos q) ->
     exists t, sqdist m (lerp p q t) <= d * d /\
               (~ strictly_between (pos p) (pos (cell_point c)) (pos q) -> 0 <= t <= 1)) /\
  (forall m, on_curve c m -> between (pos (start_point c)) (pos m) (pos (end_point c)) ->
     exists i p q, nth_error out i = Some p /\ nth_error out (i + 1) = Some q /\ between (pos p) (pos m) (pos q)).
Proof.
  intros c d fuel out Hp Hs He H pos. destruct (samples_2d c d fuel out Hp H) as (ys & -> & Hsort).
  pose proof (proper_L c Hp) as HL. pose proof (proper_b c Hp) as Hb.
  set (u := X c (start_point c)) in *. set (v := X c (end_point c)) in *.
  assert (Eo : start_point c :: map (sample c (fun p => p)) ys ++ [end_point c] = map (sample c (fun p => p)) (u :: ys ++ [v])).
  { cbn [map]. rewrite map_app. cbn [map]. unfold u, v. rewrite !curve_sample by auto. auto. }
  rewrite Eo. clear Eo. set (xs := u :: ys ++ [v]) in *.
  assert (Epos : forall m, pos m = X c m) by reflexivity.
  split.
  - intros i p q m Hi Hj Hm Hbt. change pos with (X c) in *.
    apply nth_error_map_inv in Hi as (x & Hx & ->). apply nth_error_map_inv in Hj as (y & Hy & ->).
    rewrite !sample_X in Hbt by auto. rewrite !sample_X by auto. rewrite <- (rot_X c HL).
    assert (Hacc : acc c (d * d * sqr_segment_length c) (v - u) x y).
    { clear - Hsort Hx Hy. revert i Hx Hy. induction Hsort as [|z l Hl IH Hh]; intros i Hx Hy; [destruct i; discriminate|].
      destruct i as [|i]; cbn in *; [|eapply IH; eauto]. injection Hx as ->. destruct l as [|w l]; [discriminate|]. injection Hy as ->. apply HdRel_inv in Hh. auto. }
    destruct Hacc as [Hd1 Hd2].
    assert (Hne : x <> y) by (intros ->; lra).
    destruct (chord_error c HL Hb x y (X c m) d Hne Hbt Hd2) as (t & Ht1 & Ht2). exists t. split; auto.
    fold (sample c (fun p => p) (X c m)) in Ht1. rewrite curve_sample in Ht1 by auto. exact Ht1.
  - change pos with (X c) in *. intros m _. fold u v. intros Hbt.
    assert (G : forall l x w, between x w v -> exists i p q, nth_error (x :: l ++ [v]) i = Some p /\ nth_error (x :: l ++ [v]) (i + 1) = Some q /\ between p w q).
    { clear. induction l as [|y l IH]; intros x w Hw.
      - exists 0%nat, x, v. auto.
      - assert (D : between x w y \/ between y w v).
        { unfold between in *. destruct (Rle_dec w y), (Rle_dec y w); lra. }
        destruct D as [D|D]; [exists 0%nat, x, y; auto|].
        destruct (IH y w D) as (i & p & q & H1 & H2 & H3). exists (Datatypes.S i), p, q. auto. }
    destruct (G ys u (X c m) Hbt) as (i & p & q & H1 & H2 & H3).
    exists i, (sample c (fun p => p) p), (sample c (fun p => p) q).
    split; [|split].
    + apply map_nth_error. exact H1. + apply map_nth_error. exact H2. + rewrite !sample_X by auto. auto.
Qed.
Print Assumptions C74_parabola_error_partial.

(* ---- C76: arcs of zero projected length ---- *)
(* in f64 an arc whose ends project to the same position makes the loop push NaN for ever *)
Section NaN.
  Variables (prec emax ee : Z) (at2 : spec_float -> spec_float -> spec_float).
  Notation FS := (FloatS prec emax ee at2).
  Lemma nan_step {P} (mk : V2 FS -> P) c mdt (st : PState FS P) rest : pstack st = S754_nan :: rest ->
    pstack (pstep mk c mdt st) = S754_nan :: S754_nan :: rest.
  Proof.
    intros E. unfold pstep. rewrite E.
    assert (Hn : (@parabola_y FS S754_nan (rot_x c) (rot_y c) : spec_float) = S754_nan) by reflexivity.
    rewrite Hn. assert (Hm : (@mid_of FS c (cur_x st) (cur_y st) S754_nan S754_nan : spec_float) = S754_nan) by reflexivity.
    rewrite Hm, Hn. reflexivity.
  Qed.
  Lemma nan_loop {P} (mk : V2 FS -> P) c mdt fuel : forall (st : PState FS P) rest, pstack st = S754_nan :: rest ->
    ploop mk c mdt fuel st = NoFuel.
  Proof.
    induction fuel as [|f IH]; intros st rest E; cbn [ploop]; rewrite E; auto.
    eapply IH. apply nan_step. exact E.
  Qed.
End NaN.
Definition point_arc : Arc F64_ := @mkArc F64_ (mkL (P 0 0) (P 1 0)) (P 0 2) (P 0 1) (P 0 1).
Definition first_state (c : Arc F64_) : PState F64_ (V2 F64_) :=
  let ps := smul (point_projection (vx (start_point c)) (vy (start_point c)) (segment c)) (sqr_segment_length c) in
  let pe := smul (point_projection (vx (end_point c)) (vy (end_point c)) (segment c)) (sqr_segment_length c) in
  mkP [pe] ps (parabola_y ps (rot_x c) (rot_y c)) [start_point c].
Definition top_nan (st : PState F64_ (V2 F64_)) : bool := match pstack st with S754_nan :: _ => true | _ => false end.
Lemma top_nan_eq st : top_nan st = true -> exists r, pstack st = S754_nan :: r.
Proof. unfold top_nan. destruct (pstack st) as [|x r]; [discriminate|]. destruct x; try discriminate. eauto. Qed.
Theorem C76_parabola_point_refuted : exists (c : Arc F64_) (d : car F64_),
  sltb s0 d = true /\ start_point c = end_point c /\ start_point c = P 0 1 /\
  segment c = mkL (P 0 0) (P 1 0) /\ cell_point c = P 0 2 /\
  forall fuel, discretize_2d fuel c d = NoFuel.
Proof.
  exists point_arc, (f64 1). split; [vm_compute; reflexivity|].
  split; [reflexivity|]. split; [reflexivity|]. split; [reflexivity|]. split; [reflexivity|].
  intros fuel. unfold discretize_2d. fold (first_state point_arc).
  assert (G : ploop (fun p => p) point_arc (max_dist_transformed point_arc (f64 1)) fuel (first_state point_arc) = NoFuel); [|rewrite G; reflexivity].
  destruct fuel as [|f]; [reflexivity|].
  change (ploop (fun p => p) point_arc (max_dist_transformed point_arc (f64 1)) (Datatypes.S f) (first_state point_arc))
    with (ploop (fun p => p) point_arc (max_dist_transformed point_arc (f64 1)) f (pstep (fun p => p) point_arc (max_dist_transformed point_arc (f64 1)) (first_state point_arc))).
  assert (E : top_nan (pstep (fun p => p) point_arc (max_dist_transformed point_arc (f64 1)) (first_state point_arc)) = true) by (vm_compute; reflexivity).
  apply top_nan_eq in E as (r & E). eapply (nan_loop 53 1024 (-52) no_atan2). exact E.
Qed.
Print Assumptions C76_parabola_point_refuted.
Theorem C76_parabola_point_partial : forall (c : Arc RS) (d : R), proper c -> d <> 0 ->
  exists n out, forall fuel, (n <= fuel)%nat -> discretize_2d fuel c d = Val out.
Proof.
  intros c d Hp Hd. destruct (disc_result c (fun p => p) Hp d Hd) as (n1 & ys1 & _ & H1 & _).
  eexists. eexists. intros fuel Hf. rewrite disc2_R by (apply (proper_L c Hp)). apply H1. exact Hf.
Qed.
Print Assumptions C76_parabola_point_partial.

(* ---- C81: the straight line version ---- *)
(* z of the first point is minus its distance to the segment, z of the second minus its distance to the focus;
   for an end on the curve whose foot is inside the segment both are the same depth function *)
Theorem C81_parabola_straight : forall (c : Arc RS), exists z0 z1,
  discretize_3d_straight_line c = [@mkV3 RS (vx (start_point c)) (vy (start_point c)) z0; @mkV3 RS (vx (end_point c)) (vy (end_point c)) z1] /\
  z0 <= 0 /\ z1 = - edist (end_point c) (cell_point c) /\
  (exists h, on_segment h (sA c) (sB c) /\ - z0 = edist (start_point c) h) /\
  (forall h, on_segment h (sA c) (sB c) -> - z0 <= edist (start_point c) h) /\
  ((exists h, on_segment h (sA c) (sB c) /\ foot (sA c) (sB c) (start_point c) h /\ sqdist (start_point c) h = sqdist (start_point c) (cell_point c)) ->
     z0 = - edist (start_point c) (cell_point c)).
Proof.
  intros c. eexists. eexists. split; [reflexivity|].
  destruct (dist_line2_safe_R (sA c) (sB c) (start_point c)) as [(t & Ht & E) Hmin].
  set (D := dist_line2_safe (sA c) (sB c) (start_point c)) in *.
  assert (HD : 0 <= D) by (rewrite E; apply sqdist_nonneg).
  cbn [ssqrt sneg RS].
  split. { pose proof (sqrt_pos D). lra. }
  split; [reflexivity|].
  split. { exists (lerp (sA c) (sB c) t). split; [exists t; auto|]. unfold edist. rewrite <- E. rewrite Ropp_involutive. auto. }
  split. { intros h (s & Hs & ->). rewrite Ropp_involutive. unfold edist. apply sqrt_le_1_alt. apply Hmin. auto. }
  intros (h & (s & Hs & ->) & (_ & Hf) & Hq). f_equal. unfold edist. f_equal. rewrite <- Hq.
  apply Rle_antisym; [apply Hmin; auto|]. rewrite E. revert Hf. unfold sqdist, lerp. rsimp. intros Hf.
  pose proof (sq_nn ((t - s) * (vx (sB c) - vx (sA c)))). pose proof (sq_nn ((t - s) * (vy (sB c) - vy (sA c)))). rsimp.
  assert (K : (t - s) * ((vx (start_point c) - (vx (sA c) + s * (vx (sB c) - vx (sA c)))) * (vx (sB c) - vx (sA c)) + (vy (start_point c) - (vy (sA c) + s * (vy (sB c) - vy (sA c)))) * (vy (sB c) - vy (sA c))) = 0) by (rewrite Hf; ring).
  nra.
Qed.
Print Assumptions C81_parabola_straight.

(* non-vacuity: a proper arc with both ends on the curve *)
Example proper_arc_example : exists c : Arc RS, proper c /\ on_curve c (start_point c) /\ on_curve c (end_point c).
Proof. exists bad_arc. split; [apply bad_proper|]. split; apply on_curve_bad; lra. Qed.
