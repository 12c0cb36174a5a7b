(* C132: SimpleAffine in f64 and f32. Model: Geo2.v. Vocabulary: FloatSpec.v ([value64]), Properties_Isect2.v ([within d p q]: at most d
   apart in each coordinate). [affine_new (S := RS)] is the same transform in exact arithmetic (C25, C26); A and B bound the
   coordinates of source and destination, sigma is the exact scale. *)
From Coq Require Import ZArith Reals Lra Lia Floats.SpecFloat.
From Flocq Require Import Core BinarySingleNaN.
From Verif Require Import Prelude Scalar RInst Flt FloatSpec FloatLink FloatGrid Geo2 BoxSpec BoxProofs FloatBox FloatAffine Properties_Box Properties_Float Properties_Float2 Properties_Isect2.
Local Open Scope R_scope.

(* finite coordinates of absolute value at most M *)
Definition coords_to64 {at2} (M : R) (p : V2 (F64 at2)) : Prop := (finite_float 53 1024 (vx p) /\ Rabs (fvalue (vx p)) <= M) /\ (finite_float 53 1024 (vy p) /\ Rabs (fvalue (vy p)) <= M).
Definition coords_to32 {at2} (M : R) (p : V2 (F32 at2)) : Prop := (finite_float 24 128 (vx p) /\ Rabs (fvalue (vx p)) <= M) /\ (finite_float 24 128 (vy p) /\ Rabs (fvalue (vy p)) <= M).

Lemma transform_gen prec emax epsexp at2 (Hprec : Prec_gt_0 prec) (Hmax : Prec_lt_emax prec emax) K K3 e1 e2 :
  (1 <= K)%Z -> (5 * K + 12 <= emax - 1)%Z -> (6 <= prec)%Z -> (SpecFloat.emin prec emax + prec - 1 <= - K - 3)%Z -> K3 = (3 * K)%Z -> e1 = (5 - prec)%Z -> e2 = (8 - prec)%Z ->
  let val := @point_value prec emax epsexp at2 in
  let to M (p : V2 (FloatS prec emax epsexp at2)) := (finite_float prec emax (vx p) /\ Rabs (fvalue (vx p)) <= M) /\ (finite_float prec emax (vy p) /\ Rabs (fvalue (vy p)) <= M) in
  forall A B (sl sh dl dh p : V2 (FloatS prec emax epsexp at2)), 1 <= A <= bpow radix2 K -> 1 <= B <= bpow radix2 K -> to A sl -> to A sh -> to B dl -> to B dh -> to A p ->
  exists t exact sigma, affine_new (Some (sl, sh)) (Some (dl, dh)) = Val t /\
    affine_new (S := RS) (Some (val sl, val sh)) (Some (val dl, val dh)) = Val exact /\ scale exact = @mkV2 RS sigma sigma /\ 0 < sigma /\
    (exists q e, transform_ab t p = Val q /\ transform_ab exact (val p) = Val e /\ within (bpow radix2 e1 * (sigma * A + B)) (val q) e /\
       exists r, transform_ba t q = Val r /\ within (bpow radix2 e2 * (A + B / sigma)) (val r) (val p)) /\
    (forall C z, B <= C <= bpow radix2 K3 -> to C z -> exists r e, transform_ba t z = Val r /\ transform_ba exact (val z) = Val e /\
       within (bpow radix2 e1 * (C / sigma + A)) (val r) e).
Proof.
  intros HK HK5 Hp He -> -> -> val to A B sl sh dl dh p HA HB HS1 HS2 HD1 HD2 HP.
  destruct (new_f prec emax epsexp at2 Hprec Hmax K HK Hp He A B HA HB sl sh dl dh) as (t & tR & sg & E1 & E2 & E3 & X & Y).
  { intros x Hx. cbn [In] in Hx. destruct Hx as [<-|[<-|[<-|[<-|[]]]]]; [apply HS1|apply HS1|apply HS2|apply HS2]. }
  { intros x Hx. cbn [In] in Hx. destruct Hx as [<-|[<-|[<-|[<-|[]]]]]; [apply HD1|apply HD1|apply HD2|apply HD2]. }
  assert (Ps : 0 < sg) by apply X.
  exists t, tR, sg. split; [exact E1|]. split; [exact E2|]. split; [exact E3|]. split; [exact Ps|].
  assert (U5 : 32 * bpow radix2 (- prec) = bpow radix2 (5 - prec)) by (replace (5 - prec)%Z with (5 + - prec)%Z by lia; rewrite bpow_plus; change (bpow radix2 5) with 32; ring).
  assert (U8 : forall G, 0 <= G -> 160 * bpow radix2 (- prec) * G <= bpow radix2 (8 - prec) * G).
  { intros G HG. apply Rmult_le_compat_r; auto. replace (8 - prec)%Z with (8 + - prec)%Z by lia. rewrite bpow_plus. change (bpow radix2 8) with 256. pose proof (bpow_gt_0 radix2 (- prec)). lra. }
  assert (Sx : vx (scale tR) = sg) by (rewrite E3; reflexivity). assert (Sy : vy (scale tR) = sg) by (rewrite E3; reflexivity).
  split.
  - destruct HP as [HPx HPy].
    destruct (ab_f prec emax epsexp at2 Hprec Hmax K HK HK5 Hp He A B HA HB _ _ _ (vx p) _ _ _ X HPx) as (Gx & Ex & _).
    destruct (ab_f prec emax epsexp at2 Hprec Hmax K HK HK5 Hp He A B HA HB _ _ _ (vy p) _ _ _ Y HPy) as (Gy & Ey & _).
    destruct (trip_f prec emax epsexp at2 Hprec Hmax K HK HK5 Hp He A B HA HB _ _ _ (vx p) _ _ _ X HPx) as (Rx & Tx).
    destruct (trip_f prec emax epsexp at2 Hprec Hmax K HK HK5 Hp He A B HA HB _ _ _ (vy p) _ _ _ Y HPy) as (Ry & Ty).
    eexists. exists (@mkV2 RS ((fvalue (vx p) + vx (a_offset tR)) * sg + vx (b_offset tR)) ((fvalue (vy p) + vy (a_offset tR)) * sg + vy (b_offset tR))).
    split.
    { unfold transform_ab. rewrite (good_fin _ _ _ Gx : @sfin (FloatS prec emax epsexp at2) _ = true), (good_fin _ _ _ Gy : @sfin (FloatS prec emax epsexp at2) _ = true). reflexivity. }
    split. { unfold transform_ab. rewrite Sx, Sy. reflexivity. }
    split. { rewrite <- U5. split; assumption. }
    eexists. split.
    { unfold transform_ba. cbn [vx vy]. rewrite (good_fin _ _ _ Rx : @sfin (FloatS prec emax epsexp at2) _ = true), (good_fin _ _ _ Ry : @sfin (FloatS prec emax epsexp at2) _ = true). reflexivity. }
    assert (0 <= A + B / sg) by (assert (0 < B / sg) by (apply Rdiv_lt_0_compat; lra); lra).
    split; (eapply Rle_trans; [eassumption|apply U8; auto]).
  - intros C z HC [Hzx Hzy].
    assert (HC2 : B <= C <= bpow radix2 (3 * K + 4)) by (split; [lra|]; eapply Rle_trans; [apply HC|apply bpow_le; lia]).
    destruct (ba_f prec emax epsexp at2 Hprec Hmax K HK HK5 Hp He A B HA HB _ _ _ (vx z) _ _ _ C X HC2 Hzx) as (Gx & Ex).
    destruct (ba_f prec emax epsexp at2 Hprec Hmax K HK HK5 Hp He A B HA HB _ _ _ (vy z) _ _ _ C Y HC2 Hzy) as (Gy & Ey).
    eexists. exists (@mkV2 RS ((fvalue (vx z) - vx (b_offset tR)) / sg - vx (a_offset tR)) ((fvalue (vy z) - vy (b_offset tR)) / sg - vy (a_offset tR))).
    split.
    { unfold transform_ba. rewrite (good_fin _ _ _ Gx : @sfin (FloatS prec emax epsexp at2) _ = true), (good_fin _ _ _ Gy : @sfin (FloatS prec emax epsexp at2) _ = true). reflexivity. }
    split. { unfold transform_ba. rewrite Sx, Sy. reflexivity. }
    rewrite <- U5. split; assumption.
Qed.

Theorem C132_transform_f64 : forall at2 A B (sl sh dl dh p : V2 (F64 at2)), 1 <= A <= bpow radix2 200 -> 1 <= B <= bpow radix2 200 ->
  coords_to64 A sl -> coords_to64 A sh -> coords_to64 B dl -> coords_to64 B dh -> coords_to64 A p ->
  exists t exact sigma, affine_new (Some (sl, sh)) (Some (dl, dh)) = Val t /\
    affine_new (S := RS) (Some (value64 sl, value64 sh)) (Some (value64 dl, value64 dh)) = Val exact /\ scale exact = @mkV2 RS sigma sigma /\ 0 < sigma /\
    (exists q e, transform_ab t p = Val q /\ transform_ab exact (value64 p) = Val e /\ within (bpow radix2 (-48) * (sigma * A + B)) (value64 q) e /\
       exists r, transform_ba t q = Val r /\ within (bpow radix2 (-45) * (A + B / sigma)) (value64 r) (value64 p)) /\
    (forall C z, B <= C <= bpow radix2 600 -> coords_to64 C z -> exists r e, transform_ba t z = Val r /\ transform_ba exact (value64 z) = Val e /\
       within (bpow radix2 (-48) * (C / sigma + A)) (value64 r) e).
Proof.
  intros at2 A B sl sh dl dh p HA HB HS1 HS2 HD1 HD2 HP.
  exact (transform_gen 53 1024 (-52) at2 P53 M53 200 600 (-48) (-45) ltac:(lia) ltac:(lia) ltac:(lia) ltac:(cbn; lia) ltac:(lia) ltac:(lia) ltac:(lia) A B sl sh dl dh p HA HB HS1 HS2 HD1 HD2 HP).
Qed.
Print Assumptions C132_transform_f64.
(* a point of the source box lands in the destination box, up to that error; the destination is at least 1 wide and high, as in C26 *)
Theorem C132_fit_f64 : forall at2 A B (sl sh dl dh p : V2 (F64 at2)), 1 <= A <= bpow radix2 200 -> 1 <= B <= bpow radix2 200 ->
  coords_to64 A sl -> coords_to64 A sh -> coords_to64 B dl -> coords_to64 B dh -> coords_to64 A p ->
  vx (value64 dl) + 1 <= vx (value64 dh) -> vy (value64 dl) + 1 <= vy (value64 dh) ->
  vx (value64 sl) <= vx (value64 p) <= vx (value64 sh) -> vy (value64 sl) <= vy (value64 p) <= vy (value64 sh) ->
  exists t exact sigma q, affine_new (Some (sl, sh)) (Some (dl, dh)) = Val t /\
    affine_new (S := RS) (Some (value64 sl, value64 sh)) (Some (value64 dl, value64 dh)) = Val exact /\ scale exact = @mkV2 RS sigma sigma /\
    transform_ab t p = Val q /\ let d := bpow radix2 (-48) * (sigma * A + B) in
    vx (value64 dl) - d <= vx (value64 q) <= vx (value64 dh) + d /\ vy (value64 dl) - d <= vy (value64 q) <= vy (value64 dh) + d.
Proof.
  intros at2 A B sl sh dl dh p HA HB HS1 HS2 HD1 HD2 HP Wx Wy Ix Iy.
  destruct (C132_transform_f64 at2 A B sl sh dl dh p HA HB HS1 HS2 HD1 HD2 HP) as (t & ex & sg & E1 & E2 & E3 & _ & (q & e & Q1 & Q2 & Q3 & _) & _).
  exists t, ex, sg, q. split; [exact E1|]. split; [exact E2|]. split; [exact E3|]. split; [exact Q1|]. cbv zeta.
  destruct (C26_affine_fit _ _ _ _ _ (Rle_trans _ _ _ (proj1 Ix) (proj2 Ix)) (Rle_trans _ _ _ (proj1 Iy) (proj2 Iy)) Wx Wy E2) as [_ Fit].
  destruct (Fit _ Ix Iy) as (e' & Q2' & Fx & Fy). rewrite Q2 in Q2'. injection Q2' as <-.
  destruct Q3 as [Q3 Q4]. apply Rabs_le_inv in Q3, Q4. lra.
Qed.
Print Assumptions C132_fit_f64.

Theorem C132_transform_f32 : forall at2 A B (sl sh dl dh p : V2 (F32 at2)), 1 <= A <= bpow radix2 20 -> 1 <= B <= bpow radix2 20 ->
  coords_to32 A sl -> coords_to32 A sh -> coords_to32 B dl -> coords_to32 B dh -> coords_to32 A p ->
  exists t exact sigma, affine_new (Some (sl, sh)) (Some (dl, dh)) = Val t /\
    affine_new (S := RS) (Some (value32 sl, value32 sh)) (Some (value32 dl, value32 dh)) = Val exact /\ scale exact = @mkV2 RS sigma sigma /\ 0 < sigma /\
    (exists q e, transform_ab t p = Val q /\ transform_ab exact (value32 p) = Val e /\ within (bpow radix2 (-19) * (sigma * A + B)) (value32 q) e /\
       exists r, transform_ba t q = Val r /\ within (bpow radix2 (-16) * (A + B / sigma)) (value32 r) (value32 p)) /\
    (forall C z, B <= C <= bpow radix2 60 -> coords_to32 C z -> exists r e, transform_ba t z = Val r /\ transform_ba exact (value32 z) = Val e /\
       within (bpow radix2 (-19) * (C / sigma + A)) (value32 r) e).
Proof.
  intros at2 A B sl sh dl dh p HA HB HS1 HS2 HD1 HD2 HP.
  exact (transform_gen 24 128 (-23) at2 P24 M24 20 60 (-19) (-16) ltac:(lia) ltac:(lia) ltac:(lia) ltac:(cbn; lia) ltac:(lia) ltac:(lia) ltac:(lia) A B sl sh dl dh p HA HB HS1 HS2 HD1 HD2 HP).
Qed.
Print Assumptions C132_transform_f32.
(* a point of the source box lands in the destination box, up to that error; the destination is at least 1 wide and high, as in C26 *)
Theorem C132_fit_f32 : forall at2 A B (sl sh dl dh p : V2 (F32 at2)), 1 <= A <= bpow radix2 20 -> 1 <= B <= bpow radix2 20 ->
  coords_to32 A sl -> coords_to32 A sh -> coords_to32 B dl -> coords_to32 B dh -> coords_to32 A p ->
  vx (value32 dl) + 1 <= vx (value32 dh) -> vy (value32 dl) + 1 <= vy (value32 dh) ->
  vx (value32 sl) <= vx (value32 p) <= vx (value32 sh) -> vy (value32 sl) <= vy (value32 p) <= vy (value32 sh) ->
  exists t exact sigma q, affine_new (Some (sl, sh)) (Some (dl, dh)) = Val t /\
    affine_new (S := RS) (Some (value32 sl, value32 sh)) (Some (value32 dl, value32 dh)) = Val exact /\ scale exact = @mkV2 RS sigma sigma /\
    transform_ab t p = Val q /\ let d := bpow radix2 (-19) * (sigma * A + B) in
    vx (value32 dl) - d <= vx (value32 q) <= vx (value32 dh) + d /\ vy (value32 dl) - d <= vy (value32 q) <= vy (value32 dh) + d.
Proof.
  intros at2 A B sl sh dl dh p HA HB HS1 HS2 HD1 HD2 HP Wx Wy Ix Iy.
  destruct (C132_transform_f32 at2 A B sl sh dl dh p HA HB HS1 HS2 HD1 HD2 HP) as (t & ex & sg & E1 & E2 & E3 & _ & (q & e & Q1 & Q2 & Q3 & _) & _).
  exists t, ex, sg, q. split; [exact E1|]. split; [exact E2|]. split; [exact E3|]. split; [exact Q1|]. cbv zeta.
  destruct (C26_affine_fit _ _ _ _ _ (Rle_trans _ _ _ (proj1 Ix) (proj2 Ix)) (Rle_trans _ _ _ (proj1 Iy) (proj2 Iy)) Wx Wy E2) as [_ Fit].
  destruct (Fit _ Ix Iy) as (e' & Q2' & Fx & Fy). rewrite Q2 in Q2'. injection Q2' as <-.
  destruct Q3 as [Q3 Q4]. apply Rabs_le_inv in Q3, Q4. lra.
Qed.
Print Assumptions C132_fit_f32.

(* the unit square to a box of 3 by 5, coordinates at most 4 and 10 *)
Example C132_hypotheses_met at2 : 1 <= 4 <= bpow radix2 200 /\ 1 <= 10 <= bpow radix2 200 /\
  coords_to64 4 (@I64 at2 0 0) /\ coords_to64 4 (@I64 at2 1 1) /\ coords_to64 10 (@I64 at2 (-7) 5) /\ coords_to64 10 (@I64 at2 (-4) 10).
Proof.
  assert (K : forall M z, (Z.abs z <= 10)%Z -> Rabs (IZR z) <= M -> finite_float 53 1024 (fl_of_Z 53 1024 z) /\ Rabs (fvalue (fl_of_Z 53 1024 z)) <= M).
  { intros M z Hz HM. destruct (fl_of_Z_good 53 1024 P53 M53 z) as [G E]; [lia|split; cbn; lia|]. split; [exact G|]. rewrite E. exact HM. }
  assert (L : 16 <= bpow radix2 200) by (change 16 with (bpow radix2 4); apply bpow_le; lia).
  split; [lra|]. split; [lra|]. unfold coords_to64, I64. cbn [vx vy].
  split; [|split; [|split]]; (split; (apply K; [cbn; lia|apply Rabs_le; lra])).
Qed.
