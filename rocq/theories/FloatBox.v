(* Centre and size of a box in floats (src/linestring_2d.rs:1244-1268, src/linestring_3d.rs:217-243): both are correctly
   rounded, and the centre stays in the box. *)
From Coq Require Import ZArith Reals Lra Lia Psatz Floats.SpecFloat.
From Flocq Require Import Core BinarySingleNaN Relative Plus_error.
From Verif Require Import Prelude Scalar RInst Flt FloatSpec FloatLink FloatRound FloatGrid Geo2 Geo3 BoxSpec BoxProofs.
Local Open Scope R_scope.

(* ---- vocabulary ---- *)
(* no finite float is closer to the real number m than f *)
Definition nearest_float (prec emax : Z) (f : spec_float) (m : R) : Prop :=
  finite_float prec emax f /\ forall g, finite_float prec emax g -> Rabs (fvalue f - m) <= Rabs (fvalue g - m).
(* a finite float of absolute value at most 2^e *)
Definition float_to (prec emax e : Z) (x : spec_float) : Prop := finite_float prec emax x /\ Rabs (fvalue x) <= bpow radix2 e.

Section Box.
  Context (prec emax : Z) (Hprec : Prec_gt_0 prec) (Hmax : Prec_lt_emax prec emax).
  Notation fexp := (SpecFloat.fexp prec emax).
  Notation emin := (SpecFloat.emin prec emax).
  Notation rnd := (round radix2 fexp ZnearestE).
  Notation good := (finite_float prec emax).
  Notation rv := fvalue.
  Notation bp := (bpow radix2).

  Lemma good_format x : good x -> generic_format radix2 fexp (rv x).
  Proof. intros H. destruct (good_B _ _ x H) as (b & -> & _ & <-). apply generic_format_B2R. Qed.

  Lemma rnd_nearest x g : good g -> Rabs (rnd x - x) <= Rabs (rv g - x).
  Proof.
    intros Hg. pose proof (round_N_pt radix2 fexp (fun x => negb (Z.even x)) x) as [_ H]. apply H. apply good_format; auto.
  Qed.

  Lemma rnd_double w : bp (emin + prec - 1) <= Rabs w -> rnd (2 * w) = 2 * rnd w.
  Proof.
    intros H. assert (Nw : w <> 0) by (intros ->; rewrite Rabs_R0 in H; pose proof (bpow_gt_0 radix2 (emin + prec - 1)); lra).
    assert (M : mag radix2 (2 * w) = (mag radix2 w + 1)%Z :> Z).
    { replace (2 * w) with (w * bp 1) by (cbn; ring). apply mag_mult_bpow; auto. }
    assert (L : (emin + prec <= mag radix2 w)%Z).
    { apply (mag_ge_bpow radix2) in H. replace (emin + prec - 1 + 1)%Z with (emin + prec)%Z in H by lia. lia. }
    assert (C : cexp radix2 fexp (2 * w) = (cexp radix2 fexp w + 1)%Z).
    { unfold cexp. rewrite M. unfold SpecFloat.fexp. lia. }
    unfold round, F2R, scaled_mantissa. cbn [Defs.Fnum Defs.Fexp]. rewrite C.
    replace (2 * w * bp (- (cexp radix2 fexp w + 1))) with (w * bp (- cexp radix2 fexp w)).
    - rewrite bpow_plus. change (bp 1) with 2. ring.
    - replace (- (cexp radix2 fexp w + 1))%Z with (- cexp radix2 fexp w + -1)%Z by lia. rewrite bpow_plus. change (bp (-1)) with (/ 2). field.
  Qed.

  Lemma rnd_half x y : generic_format radix2 fexp x -> generic_format radix2 fexp y -> rnd (rnd (x + y) / 2) = rnd ((x + y) / 2).
  Proof.
    intros Hx Hy. destruct (Rle_or_lt (Rabs (x + y)) (bp (prec + emin))) as [L|L].
    - rewrite (round_generic radix2 fexp ZnearestE (x + y)); auto. apply (FLT_format_plus_small radix2 emin prec); auto.
    - replace (x + y) with (2 * ((x + y) / 2)) at 1 by field. rewrite rnd_double.
      + replace (2 * rnd ((x + y) / 2) / 2) with (rnd ((x + y) / 2)) by field. apply round_generic; [apply valid_rnd_N|].
        apply generic_format_round; [apply fexp_correct; auto|apply valid_rnd_N].
      + unfold Rdiv. rewrite Rabs_mult, (Rabs_pos_eq (/ 2)) by lra. replace (emin + prec - 1)%Z with (prec + emin + -1)%Z by lia.
        rewrite bpow_plus. change (bp (-1)) with (/ 2). lra.
  Qed.
End Box.

Section Centre.
  Context (prec emax epsexp : Z) (at2 : spec_float -> spec_float -> spec_float) (Hprec : Prec_gt_0 prec) (Hmax : Prec_lt_emax prec emax).
  Context (Hp : (1 <= prec)%Z) (He : (3 <= emax)%Z) (Hbox : BoxOn (FloatS prec emax epsexp at2) (fun x => x <> S754_nan)).
  Notation FS := (FloatS prec emax epsexp at2).
  Notation fexp := (SpecFloat.fexp prec emax).
  Notation emin := (SpecFloat.emin prec emax).
  Notation rnd := (round radix2 fexp ZnearestE).
  Notation good := (finite_float prec emax).
  Notation rv := fvalue.
  Notation bp := (bpow radix2).
  Notation small := (float_to prec emax (emax - 2)).
  Notation near := (nearest_float prec emax).

  Lemma two_R : good (@s2 FS) /\ rv (@s2 FS) = 2.
  Proof.
    apply (fl_of_Z_good prec emax Hprec Hmax 2).
    - cbn [Z.abs]. change 2%Z with (2 ^ 1)%Z at 1. apply Z.pow_le_mono_r; lia.
    - unfold scale_ok, Prec_gt_0, Prec_lt_emax, SpecFloat.emin in *. lia.
  Qed.
  Lemma pair_sum x y : Rabs x <= bp (emax - 2) -> Rabs y <= bp (emax - 2) -> Rabs (x + y) <= bp (emax - 1) /\ Rabs (x - y) <= bp (emax - 1).
  Proof.
    intros Hx Hy. replace (emax - 1)%Z with (emax - 2 + 1)%Z by lia. rewrite bpow_plus. change (bp 1) with 2.
    split; [eapply Rle_trans; [apply Rabs_triang|lra]|]. unfold Rminus. eapply Rle_trans; [apply Rabs_triang|]. rewrite Rabs_Ropp. lra.
  Qed.
  Lemma emin_small : (emin <= emax - 1)%Z.
  Proof. unfold Prec_gt_0, Prec_lt_emax, SpecFloat.emin in *. lia. Qed.

  (* one coordinate of the centre *)
  Lemma centre_coord (lo hi : car FS) : small lo -> small hi -> rv lo <= rv hi ->
    let c := sdiv (sadd lo hi) s2 in near c ((rv lo + rv hi) / 2) /\ rv lo <= rv c <= rv hi.
  Proof.
    intros [Gl Bl] [Gh Bh] L c. pose proof emin_small as Em. destruct (pair_sum _ _ Bl Bh) as [S1 _].
    destruct (add_rnd prec emax Hprec Hmax lo hi Gl Gh) as [Gs Es]; [eapply rnd_finite; [auto..| |exact S1]; lia|].
    destruct two_R as [G2 E2].
    assert (D : Rabs (rv (sadd (s := FS) lo hi) / rv (@s2 FS)) <= bp (emax - 1)).
    { rewrite E2. cbn [sadd FloatS]. rewrite Es. unfold Rdiv. rewrite Rabs_mult, (Rabs_pos_eq (/ 2)) by lra.
      pose proof (rnd_small prec emax Hprec _ (emax - 1) ltac:(lia) S1). pose proof (bpow_gt_0 radix2 (emax - 1)). lra. }
    destruct (div_rnd prec emax Hprec Hmax (sadd (s := FS) lo hi) (@s2 FS) Gs G2) as [Gc Ec]; [lra|eapply rnd_finite; [auto..| |exact D]; lia|].
    assert (E : rv c = rnd ((rv lo + rv hi) / 2)).
    { unfold c. cbn [sdiv FloatS]. rewrite Ec, E2. cbn [sadd FloatS]. rewrite Es. apply rnd_half; auto; apply good_format; auto. }
    split.
    - split; [exact Gc|]. intros g Hg. rewrite E. apply rnd_nearest; auto.
    - rewrite E. rewrite <- (round_generic radix2 fexp ZnearestE (rv lo)) at 1 by (apply good_format; auto).
      rewrite <- (round_generic radix2 fexp ZnearestE (rv hi)) at 3 by (apply good_format; auto).
      split; apply rnd_le; auto; lra.
  Qed.
  (* one coordinate of the size *)
  Lemma size_coord (lo hi : car FS) : small lo -> small hi -> rv lo <= rv hi -> near (ssub hi lo) (rv hi - rv lo) /\ 0 <= rv (ssub hi lo).
  Proof.
    intros [Gl Bl] [Gh Bh] L. pose proof emin_small as Em. destruct (pair_sum _ _ Bh Bl) as [_ S1].
    destruct (sub_rnd prec emax Hprec Hmax hi lo Gh Gl) as [Gs Es]; [eapply rnd_finite; [auto..| |exact S1]; lia|].
    cbn [ssub FloatS]. split; [split; [exact Gs|]|].
    - intros g Hg. rewrite Es. apply rnd_nearest; auto.
    - rewrite Es. apply rnd_nonneg; auto. lra.
  Qed.

  Lemma good_notnan x : good x -> x <> S754_nan.
  Proof. intros [_ H] ->. discriminate. Qed.
  Lemma least_R (vs : list (car FS)) (lo : car FS) : Forall small vs -> least vs lo -> small lo /\ forall v, In v vs -> rv lo <= rv v.
  Proof.
    intros HF [A B]. rewrite Forall_forall in HF. split; [apply HF; auto|]. intros v Hv. specialize (B v Hv).
    cbn [sltb FloatS] in B. rewrite (ltb_R prec emax at2) in B by (apply HF; auto). apply Rltb_false in B. exact B.
  Qed.
  Lemma greatest_R (vs : list (car FS)) (hi : car FS) : Forall small vs -> greatest vs hi -> small hi /\ forall v, In v vs -> rv v <= rv hi.
  Proof.
    intros HF [A B]. rewrite Forall_forall in HF. split; [apply HF; auto|]. intros v Hv. specialize (B v Hv).
    cbn [sltb FloatS] in B. rewrite (ltb_R prec emax at2) in B by (apply HF; auto). apply Rltb_false in B. exact B.
  Qed.
  Lemma le_contains (lo x : car FS) : good lo -> good x -> rv lo <= rv x -> (sltb lo x || sulps lo x = true)%bool /\ (sltb lo x || sulps x lo = true)%bool.
  Proof.
    intros G1 G2 H. destruct (Req_dec (rv lo) (rv x)) as [E|N].
    - split; rewrite (box_ulps _ _ Hbox), Bool.orb_true_r; auto; try (apply good_notnan; assumption); cbn [seqb FloatS]; rewrite (eqb_R prec emax at2) by auto; apply Reqb_true; auto.
    - assert (L : sltb lo x = true) by (cbn [sltb FloatS]; rewrite (ltb_R prec emax at2) by auto; apply Rltb_true; lra). rewrite L. auto.
  Qed.

  Theorem centre2 (a : Aabb2 FS) ps : built2 a ps -> ps <> [] -> Forall (fun p : V2 FS => small (vx p) /\ small (vy p)) ps ->
    exists lo hi d c, bounds2 ps (lo, hi) /\ aabb2_extents a = Some (lo, hi, d) /\ aabb2_center a = Some c /\
      near (vx d) (rv (vx hi) - rv (vx lo)) /\ near (vy d) (rv (vy hi) - rv (vy lo)) /\
      near (vx c) ((rv (vx lo) + rv (vx hi)) / 2) /\ near (vy c) ((rv (vy lo) + rv (vy hi)) / 2) /\
      rv (vx lo) <= rv (vx c) <= rv (vx hi) /\ rv (vy lo) <= rv (vy c) <= rv (vy hi) /\ aabb2_contains_point a c = true.
  Proof.
    intros Ha Hne HF. assert (HN : Forall (fun p : V2 FS => vx p <> S754_nan /\ vy p <> S754_nan) ps).
    { eapply Forall_impl; [|exact HF]. intros p [[A _] [B _]]. split; apply good_notnan; auto. }
    pose proof (built2_ok _ Hbox a ps Ha HN) as H. destruct a as [[lo hi]|]; [|simpl in H; congruence].
    pose proof H as (H1 & H2 & H3 & H4). cbn [fst snd] in *.
    assert (Fx : Forall small (map vx ps)). { apply Forall_forall. intros x Hx. apply in_map_iff in Hx as (p & <- & Hp'). rewrite Forall_forall in HF. apply HF; auto. }
    assert (Fy : Forall small (map vy ps)). { apply Forall_forall. intros x Hx. apply in_map_iff in Hx as (p & <- & Hp'). rewrite Forall_forall in HF. apply HF; auto. }
    destruct (least_R _ _ Fx H1) as [A1 A2]. destruct (least_R _ _ Fy H2) as [B1 B2].
    destruct (greatest_R _ _ Fx H3) as [C1 C2]. destruct (greatest_R _ _ Fy H4) as [D1 D2].
    assert (Lx : rv (vx lo) <= rv (vx hi)) by (apply C2, H1). assert (Ly : rv (vy lo) <= rv (vy hi)) by (apply D2, H2).
    destruct (centre_coord _ _ A1 C1 Lx) as [X1 X2]. destruct (centre_coord _ _ B1 D1 Ly) as [Y1 Y2].
    destruct (size_coord _ _ A1 C1 Lx) as [Sx _]. destruct (size_coord _ _ B1 D1 Ly) as [Sy _].
    exists lo, hi, (mkV2 (ssub (vx hi) (vx lo)) (ssub (vy hi) (vy lo))), (mkV2 (sdiv (sadd (vx lo) (vx hi)) s2) (sdiv (sadd (vy lo) (vy hi)) s2)).
    cbn [vx vy]. split; [exact H|]. split; [reflexivity|]. split; [reflexivity|]. split; [exact Sx|]. split; [exact Sy|]. split; [exact X1|]. split; [exact Y1|].
    split; [exact X2|]. split; [exact Y2|]. cbn [aabb2_contains_point]. unfold aabb2_contains_. cbn [fst snd vx vy].
    rewrite (proj1 (le_contains _ _ (proj1 A1) (proj1 X1) (proj1 X2))), (proj1 (le_contains _ _ (proj1 B1) (proj1 Y1) (proj1 Y2))).
    rewrite (proj2 (le_contains _ _ (proj1 X1) (proj1 C1) (proj2 X2))), (proj2 (le_contains _ _ (proj1 Y1) (proj1 D1) (proj2 Y2))). reflexivity.
  Qed.
  Theorem centre3 (a : Aabb3 FS) ps : built3 a ps -> ps <> [] -> Forall (fun p : V3 FS => small (wx p) /\ small (wy p) /\ small (wz p)) ps ->
    exists lo hi d c, bounds3 ps (lo, hi) /\ aabb3_extents a = Some (lo, hi, d) /\ aabb3_center a = Some c /\
      near (wx d) (rv (wx hi) - rv (wx lo)) /\ near (wy d) (rv (wy hi) - rv (wy lo)) /\ near (wz d) (rv (wz hi) - rv (wz lo)) /\
      near (wx c) ((rv (wx lo) + rv (wx hi)) / 2) /\ near (wy c) ((rv (wy lo) + rv (wy hi)) / 2) /\ near (wz c) ((rv (wz lo) + rv (wz hi)) / 2) /\
      rv (wx lo) <= rv (wx c) <= rv (wx hi) /\ rv (wy lo) <= rv (wy c) <= rv (wy hi) /\ rv (wz lo) <= rv (wz c) <= rv (wz hi) /\
      aabb3_contains_point a c = true.
  Proof.
    intros Ha Hne HF. assert (HN : Forall (fun p : V3 FS => wx p <> S754_nan /\ wy p <> S754_nan /\ wz p <> S754_nan) ps).
    { eapply Forall_impl; [|exact HF]. intros p ([A _] & [B _] & [C _]). split; [|split]; apply good_notnan; auto. }
    pose proof (built3_ok _ Hbox a ps Ha HN) as H. destruct a as [[lo hi]|]; [|simpl in H; congruence].
    pose proof H as (H1 & H2 & H3 & H4 & H5 & H6). cbn [fst snd] in *. rewrite Forall_forall in HF.
    assert (Fx : Forall small (map wx ps)). { apply Forall_forall. intros x Hx. apply in_map_iff in Hx as (p & <- & Hp'). apply HF; auto. }
    assert (Fy : Forall small (map wy ps)). { apply Forall_forall. intros x Hx. apply in_map_iff in Hx as (p & <- & Hp'). apply HF; auto. }
    assert (Fz : Forall small (map wz ps)). { apply Forall_forall. intros x Hx. apply in_map_iff in Hx as (p & <- & Hp'). apply HF; auto. }
    destruct (least_R _ _ Fx H1) as [A1 A2]. destruct (least_R _ _ Fy H2) as [B1 B2]. destruct (least_R _ _ Fz H3) as [Q1 Q2].
    destruct (greatest_R _ _ Fx H4) as [C1 C2]. destruct (greatest_R _ _ Fy H5) as [D1 D2]. destruct (greatest_R _ _ Fz H6) as [R1 R2].
    assert (Lx : rv (wx lo) <= rv (wx hi)) by (apply C2, H1). assert (Ly : rv (wy lo) <= rv (wy hi)) by (apply D2, H2). assert (Lz : rv (wz lo) <= rv (wz hi)) by (apply R2, H3).
    destruct (centre_coord _ _ A1 C1 Lx) as [X1 X2]. destruct (centre_coord _ _ B1 D1 Ly) as [Y1 Y2]. destruct (centre_coord _ _ Q1 R1 Lz) as [Z1 Z2].
    destruct (size_coord _ _ A1 C1 Lx) as [Sx _]. destruct (size_coord _ _ B1 D1 Ly) as [Sy _]. destruct (size_coord _ _ Q1 R1 Lz) as [Sz _].
    exists lo, hi. eexists. exists (mkV3 (sdiv (sadd (wx lo) (wx hi)) s2) (sdiv (sadd (wy lo) (wy hi)) s2) (sdiv (sadd (wz lo) (wz hi)) s2)).
    split; [exact H|]. split; [reflexivity|]. split; [reflexivity|]. cbn [wx wy wz]. split; [exact Sx|]. split; [exact Sy|]. split; [exact Sz|].
    split; [exact X1|]. split; [exact Y1|]. split; [exact Z1|]. split; [exact X2|]. split; [exact Y2|]. split; [exact Z2|].
    cbn [aabb3_contains_point]. unfold aabb3_contains_. cbn [fst snd wx wy wz].
    rewrite (proj1 (le_contains _ _ (proj1 A1) (proj1 X1) (proj1 X2))), (proj1 (le_contains _ _ (proj1 B1) (proj1 Y1) (proj1 Y2))), (proj1 (le_contains _ _ (proj1 Q1) (proj1 Z1) (proj1 Z2))).
    rewrite (proj2 (le_contains _ _ (proj1 X1) (proj1 C1) (proj2 X2))), (proj2 (le_contains _ _ (proj1 Y1) (proj1 D1) (proj2 Y2))), (proj2 (le_contains _ _ (proj1 Z1) (proj1 R1) (proj2 Z2))). reflexivity.
  Qed.
End Centre.
