(* C133: discretizing in f64 and f32. Model: Discretize.v. Vocabulary: DiscSpec.v ([subdivided_near]), DiscProofs.v ([yields next st out]:
   calling next repeatedly from st returns the elements of out and then None), FloatSpec.v ([finite_float], [fvalue]: the real number a
   float stands for, [value64]), GeoSpec.v ([subseq], [lerp], [edist]). *)
From Coq Require Import ZArith NArith Reals Lra Lia Sorting.Sorted Floats.SpecFloat.
From Flocq Require Import Core BinarySingleNaN.
From Verif Require Import Prelude Scalar RInst Flt GeoSpec FloatSpec FloatLink FloatGrid FloatAffine Discretize DiscSpec DiscProofs FloatDisc Properties_Float Properties_Float2 Properties_Disc.
Local Open Scope R_scope.

Theorem C133_discretize_f64_partial : forall at2 (M : R) (d : spec_float) (pts : list (V2 (F64 at2))),
  bpow radix2 (-500) <= M <= bpow radix2 500 -> finite_float 53 1024 d -> bpow radix2 (-500) <= fvalue d <= bpow radix2 500 -> M <= bpow radix2 49 * fvalue d ->
  Forall (fun p : V2 (F64 at2) => (finite_float 53 1024 (vx p) /\ Rabs (fvalue (vx p)) <= M) /\ (finite_float 53 1024 (vy p) /\ Rabs (fvalue (vy p)) <= M)) pts ->
  exists out, yields (dnext2 pts d) dnew2 out /\ (forall out', yields (dnext2 pts d) dnew2 out' -> out' = out) /\
    Forall (fun p : V2 (F64 at2) => finite_float 53 1024 (vx p) /\ finite_float 53 1024 (vy p)) out /\
    subdivided_near lerp edist (fun p q : pt => Rabs (vx p - vx q) <= 12 * bpow radix2 (-53) * M /\ Rabs (vy p - vy q) <= 12 * bpow radix2 (-53) * M) (fvalue d) (16 * bpow radix2 (-53)) (map (@point_value 53 1024 (-52) at2) pts) (map (@point_value 53 1024 (-52) at2) out) /\
    subseq (map (@point_value 53 1024 (-52) at2) pts) (map (@point_value 53 1024 (-52) at2) out) /\ hd_error (map (@point_value 53 1024 (-52) at2) out) = hd_error (map (@point_value 53 1024 (-52) at2) pts) /\
    hd_error (rev (map (@point_value 53 1024 (-52) at2) out)) = hd_error (rev (map (@point_value 53 1024 (-52) at2) pts)) /\
    Sorted (fun p q => edist p q <= (1 + 32 * bpow radix2 (-53)) * fvalue d + 72 * bpow radix2 (-53) * M) (map (@point_value 53 1024 (-52) at2) out).
Proof.
  intros at2 M d pts HM Gd Hd HMd Hp.
  destruct (disc2 53 1024 (-52) at2 P53 M53 500 ltac:(lia) ltac:(lia) ltac:(lia) ltac:(lia) M HM d Gd Hd HMd pts Hp) as (out & Y & R). exists out.
  split; [exact Y|]. split; [intros o Ho; exact (yields_det _ _ _ _ Ho Y)|exact R].
Qed.
Print Assumptions C133_discretize_f64_partial.
Theorem C133_discretize_f32_partial : forall at2 (M : R) (d : spec_float) (pts : list (V2 (F32 at2))),
  bpow radix2 (-50) <= M <= bpow radix2 50 -> finite_float 24 128 d -> bpow radix2 (-50) <= fvalue d <= bpow radix2 50 -> M <= bpow radix2 20 * fvalue d ->
  Forall (fun p : V2 (F32 at2) => (finite_float 24 128 (vx p) /\ Rabs (fvalue (vx p)) <= M) /\ (finite_float 24 128 (vy p) /\ Rabs (fvalue (vy p)) <= M)) pts ->
  exists out, yields (dnext2 pts d) dnew2 out /\ (forall out', yields (dnext2 pts d) dnew2 out' -> out' = out) /\
    Forall (fun p : V2 (F32 at2) => finite_float 24 128 (vx p) /\ finite_float 24 128 (vy p)) out /\
    subdivided_near lerp edist (fun p q : pt => Rabs (vx p - vx q) <= 12 * bpow radix2 (-24) * M /\ Rabs (vy p - vy q) <= 12 * bpow radix2 (-24) * M) (fvalue d) (16 * bpow radix2 (-24)) (map (@point_value 24 128 (-23) at2) pts) (map (@point_value 24 128 (-23) at2) out) /\
    subseq (map (@point_value 24 128 (-23) at2) pts) (map (@point_value 24 128 (-23) at2) out) /\ hd_error (map (@point_value 24 128 (-23) at2) out) = hd_error (map (@point_value 24 128 (-23) at2) pts) /\
    hd_error (rev (map (@point_value 24 128 (-23) at2) out)) = hd_error (rev (map (@point_value 24 128 (-23) at2) pts)) /\
    Sorted (fun p q => edist p q <= (1 + 32 * bpow radix2 (-24)) * fvalue d + 72 * bpow radix2 (-24) * M) (map (@point_value 24 128 (-23) at2) out).
Proof.
  intros at2 M d pts HM Gd Hd HMd Hp.
  destruct (disc2 24 128 (-23) at2 P24 M24 50 ltac:(lia) ltac:(lia) ltac:(lia) ltac:(lia) M HM d Gd Hd HMd pts Hp) as (out & Y & R). exists out.
  split; [exact Y|]. split; [intros o Ho; exact (yields_det _ _ _ _ Ho Y)|exact R].
Qed.
Print Assumptions C133_discretize_f32_partial.
Theorem C133_discretize3_f64_partial : forall at2 (M : R) (d : spec_float) (pts : list (V3 (F64 at2))),
  bpow radix2 (-500) <= M <= bpow radix2 500 -> finite_float 53 1024 d -> bpow radix2 (-500) <= fvalue d <= bpow radix2 500 -> M <= bpow radix2 49 * fvalue d ->
  Forall (fun p : V3 (F64 at2) => (finite_float 53 1024 (wx p) /\ Rabs (fvalue (wx p)) <= M) /\ (finite_float 53 1024 (wy p) /\ Rabs (fvalue (wy p)) <= M) /\ (finite_float 53 1024 (wz p) /\ Rabs (fvalue (wz p)) <= M)) pts ->
  exists out, yields (dnext3 pts d) dnew3 out /\ (forall out', yields (dnext3 pts d) dnew3 out' -> out' = out) /\
    Forall (fun p : V3 (F64 at2) => finite_float 53 1024 (wx p) /\ finite_float 53 1024 (wy p) /\ finite_float 53 1024 (wz p)) out /\
    subdivided_near lerp3 edist3 (fun p q : pt3 => Rabs (wx p - wx q) <= 12 * bpow radix2 (-53) * M /\ Rabs (wy p - wy q) <= 12 * bpow radix2 (-53) * M /\ Rabs (wz p - wz q) <= 12 * bpow radix2 (-53) * M) (fvalue d) (16 * bpow radix2 (-53)) (map (@point_value3 53 1024 (-52) at2) pts) (map (@point_value3 53 1024 (-52) at2) out) /\
    subseq (map (@point_value3 53 1024 (-52) at2) pts) (map (@point_value3 53 1024 (-52) at2) out) /\ hd_error (map (@point_value3 53 1024 (-52) at2) out) = hd_error (map (@point_value3 53 1024 (-52) at2) pts) /\
    hd_error (rev (map (@point_value3 53 1024 (-52) at2) out)) = hd_error (rev (map (@point_value3 53 1024 (-52) at2) pts)) /\
    Sorted (fun p q => edist3 p q <= (1 + 32 * bpow radix2 (-53)) * fvalue d + 72 * bpow radix2 (-53) * M) (map (@point_value3 53 1024 (-52) at2) out).
Proof.
  intros at2 M d pts HM Gd Hd HMd Hp.
  destruct (disc3 53 1024 (-52) at2 P53 M53 500 ltac:(lia) ltac:(lia) ltac:(lia) ltac:(lia) M HM d Gd Hd HMd pts Hp) as (out & Y & R). exists out.
  split; [exact Y|]. split; [intros o Ho; exact (yields_det _ _ _ _ Ho Y)|exact R].
Qed.
Print Assumptions C133_discretize3_f64_partial.
Theorem C133_discretize3_f32_partial : forall at2 (M : R) (d : spec_float) (pts : list (V3 (F32 at2))),
  bpow radix2 (-50) <= M <= bpow radix2 50 -> finite_float 24 128 d -> bpow radix2 (-50) <= fvalue d <= bpow radix2 50 -> M <= bpow radix2 20 * fvalue d ->
  Forall (fun p : V3 (F32 at2) => (finite_float 24 128 (wx p) /\ Rabs (fvalue (wx p)) <= M) /\ (finite_float 24 128 (wy p) /\ Rabs (fvalue (wy p)) <= M) /\ (finite_float 24 128 (wz p) /\ Rabs (fvalue (wz p)) <= M)) pts ->
  exists out, yields (dnext3 pts d) dnew3 out /\ (forall out', yields (dnext3 pts d) dnew3 out' -> out' = out) /\
    Forall (fun p : V3 (F32 at2) => finite_float 24 128 (wx p) /\ finite_float 24 128 (wy p) /\ finite_float 24 128 (wz p)) out /\
    subdivided_near lerp3 edist3 (fun p q : pt3 => Rabs (wx p - wx q) <= 12 * bpow radix2 (-24) * M /\ Rabs (wy p - wy q) <= 12 * bpow radix2 (-24) * M /\ Rabs (wz p - wz q) <= 12 * bpow radix2 (-24) * M) (fvalue d) (16 * bpow radix2 (-24)) (map (@point_value3 24 128 (-23) at2) pts) (map (@point_value3 24 128 (-23) at2) out) /\
    subseq (map (@point_value3 24 128 (-23) at2) pts) (map (@point_value3 24 128 (-23) at2) out) /\ hd_error (map (@point_value3 24 128 (-23) at2) out) = hd_error (map (@point_value3 24 128 (-23) at2) pts) /\
    hd_error (rev (map (@point_value3 24 128 (-23) at2) out)) = hd_error (rev (map (@point_value3 24 128 (-23) at2) pts)) /\
    Sorted (fun p q => edist3 p q <= (1 + 32 * bpow radix2 (-24)) * fvalue d + 72 * bpow radix2 (-24) * M) (map (@point_value3 24 128 (-23) at2) out).
Proof.
  intros at2 M d pts HM Gd Hd HMd Hp.
  destruct (disc3 24 128 (-23) at2 P24 M24 50 ltac:(lia) ltac:(lia) ltac:(lia) ltac:(lia) M HM d Gd Hd HMd pts Hp) as (out & Y & R). exists out.
  split; [exact Y|]. split; [intros o Ho; exact (yields_det _ _ _ _ Ho Y)|exact R].
Qed.
Print Assumptions C133_discretize3_f32_partial.

(* An infinite step: the quotient is zero, so is the number of steps, and all corners but the last are dropped.
   The same with a finite step of 2^1000 and an edge of length 2^-100, where the quotient underflows. *)
Theorem C133_infinite_step_refuted : exists pts : list (V2 F64_), In (P 0 0) pts /\ In (P 1 0) pts /\
  exists out, yields (dnext2 pts (sinf (s := F64_))) dnew2 out /\ out = [P 1 1].
Proof.
  exists [P 0 0; P 1 0; P 1 1]. split; [left; reflexivity|]. split; [right; left; reflexivity|].
  destruct (C39_discretize_terminates F64_ (sinf (s := F64_))) as [Tm _]. destruct (Tm [P 0 0; P 1 0; P 1 1]) as (out & Hy). exists out. split; [exact Hy|].
  assert (E : list_same v2_same (take_out (dnext2 [P 0 0; P 1 0; P 1 1] (sinf (s := F64_))) 2 dnew2) [P 1 1] = true) by (vm_compute; reflexivity).
  apply (list_same_eq v2_same v2_same_eq) in E. exact (take_out_yields _ 2 _ out _ Hy E ltac:(cbn; lia)).
Qed.
Print Assumptions C133_infinite_step_refuted.
Definition tiny : V2 F64_ := @mkV2 F64_ (S754_finite false 4503599627370496 (-152)) (S754_zero false).   (* (2^-100, 0) *)
Definition huge : spec_float := S754_finite false 4503599627370496 948.                                   (* 2^1000 *)
Theorem C133_finite_step_refuted : exists (pts : list (V2 F64_)) (d : spec_float), finite_float 53 1024 d /\ fvalue d = bpow radix2 1000 /\
  Forall (fun p : V2 F64_ => finite_float 53 1024 (vx p) /\ finite_float 53 1024 (vy p)) pts /\ In (P 0 0) pts /\
  exists out, yields (dnext2 (S := F64_) pts d) dnew2 out /\ ~ In (P 0 0) out.
Proof.
  exists [P 0 0; tiny], huge. split; [split; vm_compute; reflexivity|].
  split. { unfold huge, fvalue, SF2R, F2R. cbn [Defs.Fnum Defs.Fexp cond_Zopp]. change 4503599627370496%Z with (Zpower radix2 52). rewrite (IZR_Zpower radix2) by lia. rewrite <- bpow_plus. reflexivity. }
  split. { constructor; [split; split; vm_compute; reflexivity|]. constructor; [split; split; vm_compute; reflexivity|constructor]. }
  split; [left; reflexivity|]. destruct (C39_discretize_terminates F64_ huge) as [Tm _]. destruct (Tm [P 0 0; tiny]) as (out & Hy). exists out. split; [exact Hy|].
  assert (E : list_same v2_same (take_out (dnext2 (S := F64_) [P 0 0; tiny] huge) 2 dnew2) [tiny] = true) by (vm_compute; reflexivity).
  apply (list_same_eq v2_same v2_same_eq) in E. rewrite (take_out_yields _ 2 _ out _ Hy E ltac:(cbn; lia)).
  intros [H|[]]. assert (v2_same tiny (P 0 0) = false) by (vm_compute; reflexivity). rewrite H in H0. assert (v2_same (P 0 0) (P 0 0) = true) by (vm_compute; reflexivity). congruence.
Qed.
Print Assumptions C133_finite_step_refuted.

(* the hypotheses hold for ordinary input: integer points with coordinates up to 8, and a step of 2 *)
Example C133_hypotheses_met at2 : bpow radix2 (-500) <= 8 <= bpow radix2 500 /\ finite_float 53 1024 (f64 2) /\ bpow radix2 (-500) <= fvalue (f64 2) <= bpow radix2 500 /\
  8 <= bpow radix2 49 * fvalue (f64 2) /\
  Forall (fun p : V2 (F64 at2) => (finite_float 53 1024 (vx p) /\ Rabs (fvalue (vx p)) <= 8) /\ (finite_float 53 1024 (vy p) /\ Rabs (fvalue (vy p)) <= 8)) [@I64 at2 0 0; @I64 at2 5 0; @I64 at2 (-3) 8].
Proof.
  assert (K : forall z, (Z.abs z <= 8)%Z -> finite_float 53 1024 (fl_of_Z 53 1024 z) /\ fvalue (fl_of_Z 53 1024 z) = IZR z).
  { intros z Hz. apply (fl_of_Z_good 53 1024 P53 M53 z); [lia|split; cbn; lia]. }
  assert (K2 : forall z, (Z.abs z <= 8)%Z -> finite_float 53 1024 (fl_of_Z 53 1024 z) /\ Rabs (fvalue (fl_of_Z 53 1024 z)) <= 8).
  { intros z Hz. destruct (K z Hz) as [G E]. split; [exact G|]. rewrite E, <- abs_IZR. apply (IZR_le _ 8). exact Hz. }
  assert (Lo : bpow radix2 (-500) <= 1) by (apply (bpow_le radix2 (-500) 0); lia). assert (Hi : 8 <= bpow radix2 500) by (apply Rle_trans with (bpow radix2 3); [cbn; lra|apply bpow_le; lia]).
  assert (H49 : 8 <= bpow radix2 49) by (apply Rle_trans with (bpow radix2 3); [cbn; lra|apply bpow_le; lia]).
  destruct (K 2%Z ltac:(lia)) as [G E]. change (f64 2) with (fl_of_Z 53 1024 2). rewrite E.
  split; [lra|]. split; [exact G|]. split; [lra|]. split; [lra|].
  repeat (apply Forall_cons; [split; apply K2; cbn; lia|]). apply Forall_nil.
Qed.
