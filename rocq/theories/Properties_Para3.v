(* Sampling of parabolic arcs in floats: termination (C151), and two tolerances (C152).
   Model: Parabola.v; helpers: ParaTree.v. A call is [discretize_2d fuel arc max_dist]: [Val out] is what it returns; NoFuel means
   the while loop is still running after fuel iterations. *)
From Coq Require Import Reals Lra Psatz ZArith Floats.SpecFloat.
From Verif Require Import Prelude Scalar RInst Flt Geo2 GeoSpec DistR Parabola ParaSpec ParaProofs ParaTree Properties_Para.
Local Open Scope R_scope.

(* ---- C151: a positive tolerance and a proper arc, in f64 and f32 ---- *)
Section Witness.
  Context (prec emax epsexp : Z) (at2 : spec_float -> spec_float -> spec_float).
  Notation FS := (FloatS prec emax epsexp at2).
  Definition flt (z : Z) : car FS := fl_of_Z prec emax z.
  Definition fpt (x y : Z) : V2 FS := @mkV2 FS (flt x) (flt y).
  (* the parabola with the x axis as its directrix *)
  Definition float_arc (fx fy sx sy ex ey : Z) : Arc FS := @mkArc FS (mkL (fpt 0 0) (fpt 1 0)) (fpt fx fy) (fpt sx sy) (fpt ex ey).
  Definition tol (k : Z) : car FS := @sdiv FS (flt 1) (flt k).
  Definition cycles (c : Arc FS) (T u v : car FS) (n p : nat) : bool :=
    match descent c T u n v, descent c T u (n + p) v with Some x, Some y => sf_eqb x y | _, _ => false end.
  Lemma cycles_forever {P} (mk : V2 FS -> P) c T u v n p fuel : (0 < p)%nat -> cycles c T u v n p = true -> disc mk fuel c T u v = NoFuel.
  Proof.
    unfold cycles. intros Hp H. destruct (descent c T u n v) as [x|] eqn:E1; [|discriminate]. destruct (descent c T u (n + p) v) as [y|] eqn:E2; [|discriminate].
    apply sf_eqb_eq in H. subst y. eapply disc_forever; [exact Hp|exact E1|exact E2].
  Qed.
  (* the two sampling functions on such an arc *)
  Definition start2 (c : Arc FS) : car FS := @smul FS (point_projection (vx (start_point c)) (vy (start_point c)) (segment c)) (sqr_segment_length c).
  Definition end2 (c : Arc FS) : car FS := @smul FS (point_projection (vx (end_point c)) (vy (end_point c)) (segment c)) (sqr_segment_length c).
  Definition start3 (c : Arc FS) : car FS := @smul FS (sqr_segment_length c) (point_projection (vx (start_point c)) (vy (start_point c)) (segment c)).
  Definition end3 (c : Arc FS) : car FS := @smul FS (sqr_segment_length c) (point_projection (vx (end_point c)) (vy (end_point c)) (segment c)).
  Lemma stuck (c : Arc FS) (d : car FS) n p : (0 < p)%nat ->
    cycles c (max_dist_transformed c d) (start2 c) (end2 c) n p && cycles c (max_dist_transformed c d) (start3 c) (end3 c) n p = true ->
    forall fuel, discretize_2d fuel c d = NoFuel /\ discretize_3d fuel c d = NoFuel.
  Proof.
    intros Hp H fuel. apply andb_prop in H as [H2 H3]. split.
    - exact (cycles_forever (fun p => p) _ _ _ _ _ _ fuel Hp H2).
    - exact (cycles_forever (with_z c) _ _ _ _ _ _ fuel Hp H3).
  Qed.
End Witness.

(* the same arc with exact arithmetic *)
Definition real_arc (fx fy sx sy ex ey : Z) : Arc RS :=
  @mkArc RS (mkL (S := RS) (@mkV2 RS 0 0) (@mkV2 RS 1 0)) (@mkV2 RS (IZR fx) (IZR fy)) (@mkV2 RS (IZR sx) (IZR sy)) (@mkV2 RS (IZR ex) (IZR ey)).
Lemma over_axis (fx fy x y : R) : 2 * fy * y = (x - fx) * (x - fx) + fy * fy ->
  equidistant (@mkV2 RS 0 0) (@mkV2 RS 1 0) (@mkV2 RS fx fy) (@mkV2 RS x y).
Proof.
  intros H. exists (@mkV2 RS x 0). split; [split|].
  - exists x. apply V2_ext; cbn; ring.
  - cbn. ring.
  - unfold sqdist. cbn. lra.
Qed.
Lemma axis_proper (fx fy sx sy ex ey : R) : fy <> 0 -> sx <> ex ->
  proper_arc (@mkV2 RS 0 0) (@mkV2 RS 1 0) (@mkV2 RS fx fy) (@mkV2 RS sx sy) (@mkV2 RS ex ey).
Proof.
  intros Hf Hn. split; [|split].
  - intros K. apply (f_equal (fun p : pt => vx p)) in K. cbn in K. lra.
  - unfold orient. cbn. intros K. apply Hf. lra.
  - unfold along. cbn. intros K. apply Hn. lra.
Qed.
Lemma real_arc_ok fx fy sx sy ex ey : (fy <> 0 -> sx <> ex -> 2 * fy * sy = (sx - fx) * (sx - fx) + fy * fy -> 2 * fy * ey = (ex - fx) * (ex - fx) + fy * fy ->
  let c := real_arc fx fy sx sy ex ey in proper c /\ on_curve c (start_point c) /\ on_curve c (end_point c))%Z.
Proof.
  intros Hf Hn Hs He c. apply (f_equal IZR) in Hs, He. rewrite ?mult_IZR, ?plus_IZR, ?mult_IZR, ?minus_IZR in Hs, He.
  split; [|split].
  - apply axis_proper; [apply not_0_IZR; auto|]. intros K. apply eq_IZR in K. auto.
  - apply over_axis. exact Hs.
  - apply over_axis. exact He.
Qed.

Theorem C151_parabola_f64_refuted :
  exists fx fy sx sy ex ey k : Z, (0 < k)%Z /\
    (* a proper arc whose two ends are on the parabola *)
    (proper (real_arc fx fy sx sy ex ey) /\ on_curve (real_arc fx fy sx sy ex ey) (start_point (real_arc fx fy sx sy ex ey)) /\ on_curve (real_arc fx fy sx sy ex ey) (end_point (real_arc fx fy sx sy ex ey))) /\
    (* sampled with exact arithmetic *)
    (exists n, forall fuel, (n <= fuel)%nat -> exists out, discretize_2d fuel (real_arc fx fy sx sy ex ey) (1 / IZR k) = Val out) /\
    (* but f64 is still looping after any number of iterations *)
    forall at2 fuel, sltb s0 (tol 53 1024 (-52) at2 k) = true /\
      discretize_2d fuel (float_arc 53 1024 (-52) at2 fx fy sx sy ex ey) (tol 53 1024 (-52) at2 k) = NoFuel /\
      discretize_3d fuel (float_arc 53 1024 (-52) at2 fx fy sx sy ex ey) (tol 53 1024 (-52) at2 k) = NoFuel.
Proof.
  exists 4%Z, 2%Z, (-116)%Z, 3601%Z, (-96)%Z, 2501%Z, (2 ^ 49)%Z. split; [lia|].
  assert (H := real_arc_ok 4 2 (-116) 3601 (-96) 2501 ltac:(lia) ltac:(lia) ltac:(lia) ltac:(lia)). cbv zeta in H. split; [exact H|]. split.
  - destruct H as (H & _). destruct (C75_parabola_terminates _ (1 / IZR (2 ^ 49)) H) as (n & Hn).
    + apply Rgt_not_eq. apply Rdiv_lt_0_compat; [lra|]. apply IZR_lt. lia.
    + exists n. intros fuel Hf. exact (proj1 (Hn fuel Hf)).
  - intros at2 fuel. split; [vm_compute; reflexivity|]. apply (stuck 53 1024 (-52) at2 _ _ 60 2); [lia|]. vm_compute. reflexivity.
Qed.
Print Assumptions C151_parabola_f64_refuted.
Theorem C151_parabola_f32_refuted :
  exists fx fy sx sy ex ey k : Z, (0 < k)%Z /\
    (proper (real_arc fx fy sx sy ex ey) /\ on_curve (real_arc fx fy sx sy ex ey) (start_point (real_arc fx fy sx sy ex ey)) /\ on_curve (real_arc fx fy sx sy ex ey) (end_point (real_arc fx fy sx sy ex ey))) /\
    (exists n, forall fuel, (n <= fuel)%nat -> exists out, discretize_2d fuel (real_arc fx fy sx sy ex ey) (1 / IZR k) = Val out) /\
    forall at2 fuel, sltb s0 (tol 24 128 (-23) at2 k) = true /\
      discretize_2d fuel (float_arc 24 128 (-23) at2 fx fy sx sy ex ey) (tol 24 128 (-23) at2 k) = NoFuel /\
      discretize_3d fuel (float_arc 24 128 (-23) at2 fx fy sx sy ex ey) (tol 24 128 (-23) at2 k) = NoFuel.
Proof.
  exists 0%Z, 2%Z, (-16)%Z, 65%Z, 4%Z, 5%Z, (2 ^ 22)%Z. split; [lia|].
  assert (H := real_arc_ok 0 2 (-16) 65 4 5 ltac:(lia) ltac:(lia) ltac:(lia) ltac:(lia)). cbv zeta in H. split; [exact H|]. split.
  - destruct H as (H & _). destruct (C75_parabola_terminates _ (1 / IZR (2 ^ 22)) H) as (n & Hn).
    + apply Rgt_not_eq. apply Rdiv_lt_0_compat; [lra|]. apply IZR_lt. lia.
    + exists n. intros fuel Hf. exact (proj1 (Hn fuel Hf)).
  - intros at2 fuel. split; [vm_compute; reflexivity|]. apply (stuck 24 128 (-23) at2 _ _ 60 2); [lia|]. vm_compute. reflexivity.
Qed.
Print Assumptions C151_parabola_f32_refuted.

(* ---- C152: a larger tolerance ---- *)
Section Larger.
  Context {S : Scalar}.
  Lemma larger (T T' : car S) (c : Arc S) fuel : (forall x, sleb x T = true -> sleb x T' = true) ->
    forall {P} (mk : V2 S -> P) u v out, disc mk fuel c T u v = Val out -> exists out', disc mk fuel c T' u v = Val out' /\ subseq out' out.
  Proof. intros HT P mk u v out. apply disc_larger. exact HT. Qed.
End Larger.
Theorem C152_larger_tolerance_any_scalar : forall (S : Scalar), (forall x y z : car S, sleb x y = true -> sleb y z = true -> sleb x z = true) ->
  forall (c : Arc S) (d d' : car S) fuel, sleb (smul (smul d d) (sqr_segment_length c)) (smul (smul d' d') (sqr_segment_length c)) = true ->
  (forall out, discretize_2d fuel c d = Val out -> exists out', discretize_2d fuel c d' = Val out' /\ subseq out' out) /\
  (forall out, discretize_3d fuel c d = Val out -> exists out', discretize_3d fuel c d' = Val out' /\ subseq out' out).
Proof.
  intros S Ht c d d' fuel H.
  assert (HT : forall x : car S, sleb x (max_dist_transformed c d) = true -> sleb x (max_dist_transformed c d') = true) by (intros x K; exact (Ht _ _ _ K H)).
  split; intros out.
  - exact (larger _ _ c fuel HT (fun p => p) _ _ out).
  - exact (larger _ _ c fuel HT (with_z c) _ _ out).
Qed.
Print Assumptions C152_larger_tolerance_any_scalar.
Theorem C152_larger_tolerance : forall (c : Arc RS) (d d' : R) fuel, Rabs d <= Rabs d' ->
  (forall out, discretize_2d fuel c d = Val out -> exists out', discretize_2d fuel c d' = Val out' /\ subseq out' out) /\
  (forall out, discretize_3d fuel c d = Val out -> exists out', discretize_3d fuel c d' = Val out' /\ subseq out' out).
Proof.
  intros c d d' fuel H. apply C152_larger_tolerance_any_scalar.
  - intros x y z K1 K2. apply Rleb_true in K1, K2. apply Rleb_true. exact (Rle_trans _ _ _ K1 K2).
  - apply Rleb_true. assert (K : (d * d <= d' * d')%R) by (apply Rsqr_le_abs_1 in H; exact H).
    assert (KL : 0 <= sqr_segment_length c) by (unfold sqr_segment_length; rsimp; nra). exact (Rmult_le_compat_r _ _ _ KL K).
Qed.
Print Assumptions C152_larger_tolerance.
(* floats: the squared tolerances are compared after rounding, as in the loop *)
Theorem C152_larger_tolerance_float : forall prec emax epsexp at2, let FS := FloatS prec emax epsexp at2 in
  forall (c : Arc FS) (d d' : car FS) fuel, sleb (smul (smul d d) (sqr_segment_length c)) (smul (smul d' d') (sqr_segment_length c)) = true ->
  (forall out, discretize_2d fuel c d = Val out -> exists out', discretize_2d fuel c d' = Val out' /\ subseq out' out) /\
  (forall out, discretize_3d fuel c d = Val out -> exists out', discretize_3d fuel c d' = Val out' /\ subseq out' out).
Proof. intros prec emax epsexp at2 FS. apply C152_larger_tolerance_any_scalar. exact SFleb_trans. Qed.
Print Assumptions C152_larger_tolerance_float.

(* not vacuous: an arc sampled by two tolerances *)
Example C152_example : exists out out' : list pt, exists fuel,
  discretize_2d fuel (real_arc 0 2 (-4) 5 4 5) (1 / 10) = Val out /\ discretize_2d fuel (real_arc 0 2 (-4) 5 4 5) 1 = Val out' /\ subseq out' out.
Proof.
  assert (H := real_arc_ok 0 2 (-4) 5 4 5 ltac:(lia) ltac:(lia) ltac:(lia) ltac:(lia)). destruct H as (H & _).
  destruct (C75_parabola_terminates _ (1 / 10) H ltac:(lra)) as (n & Hn). destruct (Hn n (le_n n)) as ((out & Ho) & _).
  destruct (proj1 (C152_larger_tolerance _ (1 / 10) 1 n ltac:(rewrite !Rabs_pos_eq by lra; lra)) _ Ho) as (out' & Ho' & Hs). exists out, out', n. auto.
Qed.

(* ---- C151, what holds: exact arithmetic always terminates; in floats termination is kept by every larger tolerance ---- *)
Theorem C151_parabola_termination_partial :
  (forall (c : Arc RS) (d : R), proper c -> d <> 0 -> exists n, forall fuel, (n <= fuel)%nat -> exists out, discretize_2d fuel c d = Val out) /\
  (forall prec emax epsexp at2, let FS := FloatS prec emax epsexp at2 in forall (c : Arc FS) (d d' : car FS) fuel out,
    sleb (smul (smul d d) (sqr_segment_length c)) (smul (smul d' d') (sqr_segment_length c)) = true ->
    discretize_2d fuel c d = Val out -> exists out', discretize_2d fuel c d' = Val out').
Proof.
  split.
  - intros c d Hp Hd. destruct (C75_parabola_terminates c d Hp Hd) as (n & Hn). exists n. intros fuel Hf. exact (proj1 (Hn fuel Hf)).
  - intros prec emax epsexp at2 FS c d d' fuel out H Ho. destruct (proj1 (C152_larger_tolerance_float prec emax epsexp at2 c d d' fuel H) out Ho) as (out' & K & _). eauto.
Qed.
Print Assumptions C151_parabola_termination_partial.
