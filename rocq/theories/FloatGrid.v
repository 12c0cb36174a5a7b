(* Float points whose coordinates are small multiples of one power of two: every float predicate the hull and
   containment code uses has the value it has over the reals. *)
From Coq Require Import ZArith Reals Lra Lia Psatz Floats.SpecFloat.
From Flocq Require Import Core BinarySingleNaN.
From Verif Require Import Prelude Scalar RInst Flt FloatSpec FloatLink Geo2 Hull HullSim HullSim2.
Local Open Scope R_scope.

Section Grid.
  Context (prec emax epsexp : Z) (at2 : spec_float -> spec_float -> spec_float) (Hprec : Prec_gt_0 prec) (Hmax : Prec_lt_emax prec emax).
  Notation FS := (FloatS prec emax epsexp at2).
  Notation emin := (SpecFloat.emin prec emax).
  Notation good := finite_float.
  Notation rv := fvalue.
  Notation ong := (on_grid prec emax).
  Definition scale_ok (s : Z) : Prop := (emin <= s)%Z /\ (prec + s < emax)%Z.

  Lemma ong_sub s n m x y : scale_ok s -> ong s n x -> ong s m y -> (n + m <= 2 ^ prec)%Z ->
    ong s (n + m) (SFsub prec emax x y) /\ rv (SFsub prec emax x y) = rv x - rv y.
  Proof.
    intros [S1 S2] (Gx & k & Hk & Ex) (Gy & l & Hl & Ey) Hb.
    assert (E : rv x - rv y = IZR (k - l) * bpow radix2 s) by (rewrite Ex, Ey, minus_IZR; ring).
    destruct (sub_fits prec emax Hprec Hmax x y) as [G1 G2]; auto.
    { rewrite E. apply grid_fits; auto. lia. }
    split; auto. split; auto. exists (k - l)%Z. split; [lia|]. congruence.
  Qed.
  Lemma ong_add s n m x y : scale_ok s -> ong s n x -> ong s m y -> (n + m <= 2 ^ prec)%Z ->
    ong s (n + m) (SFadd prec emax x y) /\ rv (SFadd prec emax x y) = rv x + rv y.
  Proof.
    intros [S1 S2] (Gx & k & Hk & Ex) (Gy & l & Hl & Ey) Hb.
    assert (E : rv x + rv y = IZR (k + l) * bpow radix2 s) by (rewrite Ex, Ey, plus_IZR; ring).
    destruct (add_fits prec emax Hprec Hmax x y) as [G1 G2]; auto.
    { rewrite E. apply grid_fits; auto. lia. }
    split; auto. split; auto. exists (k + l)%Z. split; [lia|]. congruence.
  Qed.
  Lemma ong_mul s t n m x y : scale_ok (s + t) -> ong s n x -> ong t m y -> (n * m <= 2 ^ prec)%Z ->
    ong (s + t) (n * m) (SFmul prec emax x y) /\ rv (SFmul prec emax x y) = rv x * rv y.
  Proof.
    intros [S1 S2] (Gx & k & Hk & Ex) (Gy & l & Hl & Ey) Hb.
    assert (E : rv x * rv y = IZR (k * l) * bpow radix2 (s + t)) by (rewrite Ex, Ey, mult_IZR, bpow_plus; ring).
    assert (Hkl : (Z.abs (k * l) <= n * m)%Z) by (rewrite Z.abs_mul; apply Z.mul_le_mono_nonneg; lia).
    destruct (mul_fits prec emax Hprec Hmax x y) as [G1 G2]; auto.
    { rewrite E. apply grid_fits; auto. lia. }
    split; auto. split; auto. exists (k * l)%Z. split; [lia|]. congruence.
  Qed.
  Lemma ong_good s n x : ong s n x -> good prec emax x.
  Proof. intros [H _]; auto. Qed.
  Lemma ong_weaken s n m x : ong s n x -> (n <= m)%Z -> ong s m x.
  Proof. intros (G & k & H & E) L. split; auto. exists k. split; auto. lia. Qed.
  Lemma ong_nonneg s n x : ong s n x -> (0 <= n)%Z.
  Proof. intros (_ & k & H & _). lia. Qed.

  (* comparisons *)
  Lemma ltb_R x y : good prec emax x -> good prec emax y -> SFltb x y = Rltb (rv x) (rv y).
  Proof. intros Hx Hy. apply Bool.eq_iff_eq_true. rewrite (ltb_rv prec emax), Rltb_true; auto. tauto. Qed.
  Lemma leb_R x y : good prec emax x -> good prec emax y -> SFleb x y = Rleb (rv x) (rv y).
  Proof. intros Hx Hy. apply Bool.eq_iff_eq_true. rewrite (leb_rv prec emax), Rleb_true; auto. tauto. Qed.
  Lemma eqb_R x y : good prec emax x -> good prec emax y -> SFeqb x y = Reqb (rv x) (rv y).
  Proof. intros Hx Hy. apply Bool.eq_iff_eq_true. rewrite (eqb_rv prec emax), Reqb_true; auto. tauto. Qed.
  Lemma good_zero b : good prec emax (S754_zero b).
  Proof. split; auto. Qed.
  Lemma rv_zero b : rv (S754_zero b) = 0.
  Proof. reflexivity. Qed.
  Lemma ong_zero s b : ong s 0 (S754_zero b).
  Proof. split; [apply good_zero|]. exists 0%Z. split; [lia|]. rewrite rv_zero. ring. Qed.
  Lemma good_abs x : good prec emax x -> good prec emax (SFabs x) /\ rv (SFabs x) = Rabs (rv x).
  Proof.
    intros [H1 H2]. destruct x as [b|b| |b m e]; try discriminate; cbn [SFabs].
    - split; [apply good_zero|]. rewrite !rv_zero, Rabs_R0. auto.
    - split; [split; auto|]. unfold fvalue. cbn [SF2R]. unfold Defs.F2R. cbn. rewrite Rabs_mult, (Rabs_pos_eq (bpow radix2 e)) by apply bpow_ge_0.
      rewrite <- abs_IZR. f_equal. f_equal. destruct b; auto.
  Qed.
  Lemma pow2_good e : scale_ok e -> good prec emax (fl_pow2 prec emax e) /\ rv (fl_pow2 prec emax e) = bpow radix2 e.
  Proof.
    intros [H1 H2]. unfold fl_pow2. rewrite (binary_normalize_eq prec emax Hprec Hmax).
    pose proof (binary_normalize_correct prec emax Hprec Hmax mode_NE 1 e false) as C. cbv zeta in C. change (round_mode mode_NE) with ZnearestE in C.
    assert (F : fits prec emax (Defs.F2R (Float radix2 1 e))).
    { unfold Defs.F2R. cbn [Defs.Fnum Defs.Fexp]. apply grid_fits; auto. cbn. assert (1 <= 2 ^ prec)%Z by (apply (Z.pow_le_mono_r 2 0 prec); unfold Prec_gt_0 in Hprec; lia). lia. }
    rewrite (fits_round prec emax _ F), Rlt_bool_true in C by apply F. destruct C as (C1 & C2 & _). apply B_good in C2. destruct C2 as [C2 C3]. split; auto.
    rewrite C3, C1. unfold Defs.F2R. cbn. ring.
  Qed.
  Lemma fl_of_Z_good z : (Z.abs z <= 2 ^ prec)%Z -> scale_ok 0 -> good prec emax (fl_of_Z prec emax z) /\ rv (fl_of_Z prec emax z) = IZR z.
  Proof.
    intros Hz [H1 H2]. unfold fl_of_Z. rewrite (binary_normalize_eq prec emax Hprec Hmax).
    pose proof (binary_normalize_correct prec emax Hprec Hmax mode_NE z 0 false) as C. cbv zeta in C. change (round_mode mode_NE) with ZnearestE in C.
    assert (F : fits prec emax (Defs.F2R (Float radix2 z 0))) by (unfold Defs.F2R; cbn [Defs.Fnum Defs.Fexp]; apply grid_fits; auto).
    rewrite (fits_round prec emax _ F), Rlt_bool_true in C by apply F. destruct C as (C1 & C2 & _). apply B_good in C2. destruct C2 as [C2 C3]. split; auto.
    rewrite C3, C1. unfold Defs.F2R. cbn. ring.
  Qed.
  Lemma ong_of_Z z n : (Z.abs z <= n)%Z -> (n <= 2 ^ prec)%Z -> scale_ok 0 -> ong 0 n (fl_of_Z prec emax z).
  Proof.
    intros Hz Hn Hs. destruct (fl_of_Z_good z) as [G E]; auto; [lia|]. split; auto. exists z. split; auto. rewrite E. cbn. ring.
  Qed.

  (* ulps_eq against zero is equality with zero on a grid coarser than machine epsilon *)
  Lemma ulps_zero t n c : (4 <= prec)%Z -> scale_ok t -> scale_ok epsexp -> (epsexp < t)%Z -> (emin + 3 <= t)%Z -> (n <= 2 ^ prec)%Z -> ong t n c ->
    fl_ulps_with prec emax (fl_pow2 prec emax epsexp) 4 c (S754_zero false) = Reqb (rv c) 0.
  Proof.
    intros Hp Ht Heps Het Hemin Hn Hc. assert (Gc := ong_good _ _ _ Hc).
    destruct (ong_sub t n 0 c (S754_zero false)) as [[Gd _] Ed]; auto; [apply ong_zero|lia|]. rewrite rv_zero, Rminus_0_r in Ed.
    destruct (good_abs _ Gd) as [Ga Ea]. destruct (pow2_good epsexp Heps) as [Gp Ep].
    unfold fl_ulps_with, fl_absdiff. rewrite leb_R, Ea, Ed, Ep by auto. destruct Hc as (_ & k & Hk & Ec).
    destruct (Reqb_spec (rv c) 0) as [Z0|NZ].
    - rewrite Z0, Rabs_R0. replace (Rleb 0 _) with true; auto. symmetry. apply Rleb_true. apply bpow_ge_0.
    - assert (K0 : (1 <= Z.abs k)%Z) by (destruct (Z.eq_dec k 0) as [->|]; [|lia]; exfalso; apply NZ; rewrite Ec; ring).
      assert (Hbig : bpow radix2 t <= Rabs (rv c)).
      { rewrite Ec, Rabs_mult, (Rabs_pos_eq (bpow radix2 t)) by apply bpow_ge_0. rewrite <- abs_IZR. apply IZR_le in K0.
        pose proof (bpow_gt_0 radix2 t). nra. }
      replace (Rleb _ _) with false by (symmetry; apply Rleb_false; eapply Rlt_le_trans; [apply bpow_lt; exact Het|auto]).
      destruct Gc as [V F]. destruct c as [b|b| |b m e]; try discriminate; [exfalso; apply NZ; reflexivity|].
      cbn [fl_is_nan orb fl_signneg]. destruct b; auto. cbn [Bool.eqb negb]. apply Z.leb_gt. unfold fl_bits. rewrite Z.sub_0_r.
      cbn in V. apply Bool.andb_true_iff in V as [V1 V2]. unfold canonical_mantissa in V1. apply Zeq_bool_eq in V1.
      assert (He : (emin <= e)%Z). { rewrite <- V1 at 1. unfold SpecFloat.fexp. lia. }
      assert (Hpw : (8 <= 2 ^ (prec - 1))%Z) by (apply (Z.pow_le_mono_r 2 3); lia).
      change (Z.of_N 4) with 4%Z. rewrite Z.abs_eq by nia.
      destruct (Z.eq_dec e emin) as [->|]; [|nia]. rewrite Z.sub_diag. 
      assert (Hm : bpow radix2 (emin + 3) <= IZR (Z.pos m) * bpow radix2 emin).
      { apply Rle_trans with (bpow radix2 t); [apply bpow_le; auto|]. rewrite Rabs_pos_eq in Hbig; auto.
        unfold fvalue. cbn [SF2R cond_Zopp]. unfold Defs.F2R. cbn [Defs.Fnum Defs.Fexp]. apply Rmult_le_pos; [apply IZR_le; lia|apply bpow_ge_0]. }
      rewrite Z.add_comm, bpow_plus in Hm. apply Rmult_le_reg_r in Hm; [|apply bpow_gt_0]. change (bpow radix2 3) with (IZR 8) in Hm. apply le_IZR in Hm. lia.
  Qed.

  (* ---- points ---- *)
  Context (s n : Z) (Hn : (8 * (n * n) <= 2 ^ prec)%Z) (Hp4 : (4 <= prec)%Z) (Hs : scale_ok s) (Hss : scale_ok (s + s))
          (Heps : scale_ok epsexp) (Heps2 : (epsexp < s + s)%Z) (Hemin : (emin + 3 <= s + s)%Z).
  Notation rpt := (@point_value prec emax epsexp at2).
  Notation onp := (@grid_point prec emax epsexp at2 s n).
  Lemma x_sub x y : ong s n x -> ong s n y -> ong s (n + n) (SFsub prec emax x y) /\ rv (SFsub prec emax x y) = rv x - rv y.
  Proof. intros Hx Hy. apply ong_sub; auto. assert (H := ong_nonneg _ _ _ Hx). nia. Qed.
  Lemma x_mul x y : ong s (n + n) x -> ong s (n + n) y -> ong (s + s) ((n + n) * (n + n)) (SFmul prec emax x y) /\ rv (SFmul prec emax x y) = rv x * rv y.
  Proof. intros Hx Hy. apply ong_mul; auto. assert (H := ong_nonneg _ _ _ Hx). nia. Qed.
  Lemma cross_exact a b c : onp a -> onp b -> onp c ->
    ong (s + s) (8 * (n * n)) (cross_2d a b c) /\ rv (cross_2d a b c) = cross_2d (rpt a) (rpt b) (rpt c).
  Proof.
    intros [Ax Ay] [Bx By] [Cx Cy]. unfold cross_2d, vperp, vsub. cbn [vx vy sadd ssub smul FloatS RS point_value car].
    destruct (x_sub _ _ Bx Ax) as [G1 E1], (x_sub _ _ By Ay) as [G2 E2], (x_sub _ _ Cx Ax) as [G3 E3], (x_sub _ _ Cy Ay) as [G4 E4].
    destruct (x_mul _ _ G1 G4) as [G5 E5], (x_mul _ _ G2 G3) as [G6 E6].
    destruct (ong_sub (s + s) _ _ _ _ Hss G5 G6) as [G7 E7]; [nia|]. split.
    - replace (8 * (n * n))%Z with ((n + n) * (n + n) + (n + n) * (n + n))%Z by ring. exact G7.
    - rewrite E7, E5, E6, E1, E2, E3, E4. reflexivity.
  Qed.
  Lemma dist_exact a b : onp a -> onp b -> ong (s + s) (8 * (n * n)) (vdist2 a b) /\ rv (vdist2 a b) = vdist2 (rpt a) (rpt b).
  Proof.
    intros [Ax Ay] [Bx By]. unfold vdist2, vmag2, vdot, vsub. cbn [vx vy sadd ssub smul FloatS RS point_value car].
    destruct (x_sub _ _ Ax Bx) as [G1 E1], (x_sub _ _ Ay By) as [G2 E2].
    destruct (x_mul _ _ G1 G1) as [G5 E5], (x_mul _ _ G2 G2) as [G6 E6].
    destruct (ong_add (s + s) _ _ _ _ Hss G5 G6) as [G7 E7]; [nia|]. split.
    - replace (8 * (n * n))%Z with ((n + n) * (n + n) + (n + n) * (n + n))%Z by ring. exact G7.
    - rewrite E7, E5, E6, E1, E2. reflexivity.
  Qed.
  Lemma grid_eqb a b : onp a -> onp b -> veqb (rpt a) (rpt b) = veqb a b.
  Proof. intros [[Ax _] [Ay _]] [[Bx _] [By _]]. unfold veqb. cbn [seqb FloatS RS point_value vx vy]. rewrite !eqb_R; auto. Qed.
  Lemma pcmp_R x y : good prec emax x -> good prec emax y -> @spcmp FS x y = @spcmp RS (rv x) (rv y).
  Proof. intros Hx Hy. unfold spcmp. cbn [sltb seqb FloatS RS]. rewrite !ltb_R, eqb_R; auto. Qed.
  Lemma grid_pcmp a b : onp a -> onp b -> spcmp (vx (rpt a)) (vx (rpt b)) = spcmp (vx a) (vx b).
  Proof. intros [[Ax _] _] [[Bx _] _]. symmetry. apply pcmp_R; auto. Qed.
  Lemma grid_lty a b : onp a -> onp b -> sltb (vy (rpt a)) (vy (rpt b)) = sltb (vy a) (vy b).
  Proof. intros [_ [Ay _]] [_ [By _]]. symmetry. apply ltb_R; auto. Qed.
  Lemma grid_left a b c : onp a -> onp b -> onp c -> is_point_left (rpt a) (rpt b) (rpt c) = is_point_left a b c.
  Proof.
    intros Ha Hb Hc. destruct (cross_exact a b c) as [[G _] E]; auto. unfold is_point_left. rewrite <- E. symmetry. apply (ltb_R _ _ (good_zero false) G).
  Qed.
  Lemma grid_ulps a b c : onp a -> onp b -> onp c -> sulps (cross_2d (rpt a) (rpt b) (rpt c)) s0 = sulps (cross_2d a b c) s0.
  Proof.
    intros Ha Hb Hc. destruct (cross_exact a b c) as [G E]; auto. rewrite <- E. cbn [sulps FloatS RS s0]. symmetry.
    apply (ulps_zero (s + s) (8 * (n * n))); auto.
  Qed.
  Lemma grid_leftc a b c : onp a -> onp b -> onp c -> is_point_left_allow_collinear (rpt a) (rpt b) (rpt c) = is_point_left_allow_collinear a b c.
  Proof.
    intros Ha Hb Hc. unfold is_point_left_allow_collinear. rewrite grid_ulps by auto. f_equal. destruct (cross_exact a b c) as [[G _] E]; auto. rewrite <- E.
    symmetry. apply (leb_R _ _ (good_zero false) G).
  Qed.
  Lemma grid_orient a b c : onp a -> onp b -> onp c -> point_orientation (rpt a) (rpt b) (rpt c) = point_orientation a b c.
  Proof.
    intros Ha Hb Hc. unfold point_orientation. rewrite grid_ulps by auto. destruct (cross_exact a b c) as [[G _] E]; auto. rewrite <- E.
    cbn [seqb sltb s0 RS FloatS]. rewrite (eqb_R _ _ G (good_zero false)), (ltb_R _ _ (good_zero false) G). reflexivity.
  Qed.
  Lemma grid_dist a b c : onp a -> onp b -> onp c -> sltb (vdist2 (rpt a) (rpt b)) (vdist2 (rpt a) (rpt c)) = sltb (vdist2 a b) (vdist2 a c).
  Proof.
    intros Ha Hb Hc. destruct (dist_exact a b) as [[G1 _] E1]; auto. destruct (dist_exact a c) as [[G2 _] E2]; auto. rewrite <- E1, <- E2.
    symmetry. apply (ltb_R _ _ G1 G2).
  Qed.
  Lemma grid_pdist a b c : onp a -> onp b -> onp c -> spcmp (vdist2 (rpt a) (rpt b)) (vdist2 (rpt a) (rpt c)) = spcmp (vdist2 a b) (vdist2 a c).
  Proof.
    intros Ha Hb Hc. destruct (dist_exact a b) as [[G1 _] E1]; auto. destruct (dist_exact a c) as [[G2 _] E2]; auto. rewrite <- E1, <- E2.
    symmetry. apply (pcmp_R _ _ G1 G2).
  Qed.
  Lemma grid_neg a b c : onp a -> onp b -> onp c -> sltb (cross_2d (rpt a) (rpt b) (rpt c)) s0 = sltb (cross_2d a b c) s0.
  Proof.
    intros Ha Hb Hc. destruct (cross_exact a b c) as [[G _] E]; auto. rewrite <- E. symmetry. apply (ltb_R _ _ G (good_zero false)).
  Qed.
  Lemma grid_sign a b c : onp a -> onp b -> onp c -> spcmp s0 (cross_2d (rpt a) (rpt b) (rpt c)) = spcmp s0 (cross_2d a b c).
  Proof.
    intros Ha Hb Hc. destruct (cross_exact a b c) as [[G _] E]; auto. rewrite <- E. symmetry. apply (pcmp_R _ _ (good_zero false) G).
  Qed.
  Lemma grid_gift_wrap fuel pts : Forall onp pts -> gift_wrap fuel (map rpt pts) = omap (map rpt) (gift_wrap fuel pts).
  Proof. exact (sim_gift_wrap rpt onp grid_eqb grid_pcmp grid_lty grid_left grid_orient grid_dist fuel pts). Qed.
  Lemma grid_indexed_gift_wrap fuel vertices indices : Forall onp vertices -> indexed_gift_wrap fuel (map rpt vertices) indices = indexed_gift_wrap fuel vertices indices.
  Proof. exact (sim_indexed_gift_wrap rpt onp grid_pcmp grid_lty grid_left grid_orient grid_dist fuel vertices indices). Qed.
  Lemma grid_graham_scan pts r : Forall onp pts -> (forall i st, find_lowest_x (drop_loop_point pts) = Val (i, st) -> angles_agree rpt st (drop_loop_point pts)) ->
    graham_scan pts r -> graham_scan (map rpt pts) (omap (map rpt) r).
  Proof. exact (sim_graham_scan rpt onp grid_eqb grid_pcmp grid_lty grid_left grid_pdist grid_neg grid_ulps pts r). Qed.
  Lemma grid_wo pts r : Forall onp pts -> graham_scan_wo_atan2 pts r -> graham_scan_wo_atan2 (map rpt pts) (omap (map rpt) r).
  Proof. exact (sim_wo rpt onp grid_eqb grid_pcmp grid_lty grid_left grid_dist grid_neg grid_ulps grid_sign pts r). Qed.
  Lemma grid_indexed_graham vertices indices r : Forall onp vertices ->
    (forall ii st, indexed_find_lowest_x vertices (drop_loop_index indices) = Val (ii, st) ->
       forall ps, mapM (idx vertices) (drop_loop_index indices) = Val ps -> angles_agree rpt st ps) ->
    indexed_graham_scan vertices indices r -> indexed_graham_scan (map rpt vertices) indices r.
  Proof. exact (sim_indexed_graham rpt onp grid_pcmp grid_lty grid_left grid_pdist grid_neg grid_ulps vertices indices r). Qed.
  Lemma grid_inclusive input p : onp p -> Forall onp input -> contains_point_inclusive (map rpt input) (rpt p) = contains_point_inclusive input p.
  Proof. exact (sim_inclusive rpt onp grid_eqb grid_leftc input p). Qed.
  Lemma grid_exclusive input p : onp p -> Forall onp input -> contains_point_exclusive (map rpt input) (rpt p) = contains_point_exclusive input p.
  Proof. exact (sim_exclusive rpt onp grid_eqb grid_left grid_leftc input p). Qed.
  Lemma grid_hull_in_hull a b : Forall onp a -> Forall onp b -> contains_convex_hull (map rpt a) (map rpt b) = contains_convex_hull a b.
  Proof. exact (sim_hull_in_hull rpt onp grid_eqb grid_leftc a b). Qed.
End Grid.
