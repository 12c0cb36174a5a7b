(* Point-to-line distances and Ramer-Douglas-Peucker on float points whose coordinates are small multiples of a power of
   two: the computed squared distance is never much too small. *)
From Coq Require Import ZArith Reals Lra Lia Psatz Floats.SpecFloat.
From Flocq Require Import Core BinarySingleNaN.
From Verif Require Import Prelude Scalar RInst Flt FloatSpec FloatLink FloatGrid FloatRound Geo2 Geo3 GeoSpec DistR Simplify Rdp1 Rdp2 FltOrd.
Local Open Scope R_scope.

Section Grid.
  Context (prec emax epsexp : Z) (at2 : spec_float -> spec_float -> spec_float) (Hprec : Prec_gt_0 prec) (Hmax : Prec_lt_emax prec emax).
  Notation FS := (FloatS prec emax epsexp at2).
  Notation emin := (SpecFloat.emin prec emax).
  Notation good := (finite_float prec emax).
  Notation rv := fvalue.
  Notation ong := (on_grid prec emax).
  Notation rnd := (round radix2 (SpecFloat.fexp prec emax) ZnearestE).
  Notation u := (ulp1 prec).

  Lemma rnd_bpow e : (emin <= e)%Z -> rnd (bpow radix2 e) = bpow radix2 e.
  Proof.
    intros He. apply round_generic; [apply valid_rnd_N|]. apply generic_format_bpow. unfold SpecFloat.fexp, SpecFloat.emin in *. unfold Prec_gt_0, Prec_lt_emax in *. lia.
  Qed.
  (* a quotient that rounds to at most 1 is at most 1 + 2^-prec *)
  Lemma rnd_le_1 x : (emin + prec <= 0)%Z -> rnd x <= 1 -> x <= 1 + u.
  Proof.
    intros He H. apply Rnot_lt_le. intros C. assert (U := ulp1_pos prec).
    destruct (Rle_or_lt 2 x) as [H2|H2].
    - apply (rnd_le prec emax Hprec) in H2. change 2 with (bpow radix2 1) in H2. rewrite rnd_bpow in H2 by (unfold Prec_gt_0 in Hprec; lia). cbn in H2. lra.
    - assert (Hv : Valid_exp (SpecFloat.fexp prec emax)) by (apply fexp_correct; auto).
      pose proof (error_le_half_ulp radix2 (SpecFloat.fexp prec emax) (fun z => negb (Z.even z)) x) as E.
      assert (Hulp : ulp radix2 (SpecFloat.fexp prec emax) x = 2 * u).
      { rewrite ulp_neq_0 by lra. unfold cexp. rewrite (mag_unique_pos radix2 x 1) by (cbn; lra). unfold ulp1, SpecFloat.fexp.
        rewrite Z.max_l by lia. change 2 with (bpow radix2 1). rewrite <- bpow_plus. f_equal. }
      rewrite Hulp in E. apply Rabs_le_inv in E. lra.
  Qed.
  Lemma grid_ge t m x : ong t m x -> 0 < rv x -> bpow radix2 t <= rv x.
  Proof.
    intros (_ & k & _ & E) H. rewrite E in *. assert (B := bpow_gt_0 radix2 t).
    assert (0 < k)%Z. { apply lt_IZR. apply Rmult_lt_reg_r with (bpow radix2 t); auto. lra. }
    assert (1 <= IZR k) by (apply IZR_le; lia). nra.
  Qed.
  Lemma grid_le t m x : ong t m x -> (m <= 2 ^ prec)%Z -> Rabs (rv x) <= bpow radix2 (prec + t).
  Proof.
    intros (_ & k & Hk & E) Hm. rewrite E, Rabs_mult, (Rabs_pos_eq (bpow radix2 t)) by apply bpow_ge_0. rewrite bpow_plus.
    apply Rmult_le_compat_r; [apply bpow_ge_0|]. rewrite <- abs_IZR, <- (IZR_Zpower radix2) by (unfold Prec_gt_0 in Hprec; lia). apply IZR_le. change (Zpower radix2 prec) with (2 ^ prec)%Z. lia.
  Qed.
  Lemma square_near t m c : (m <= 2 ^ prec)%Z -> (emin + prec - 1 <= t + t)%Z -> (prec + prec + (t + t) < emax)%Z -> ong t m c ->
    good (SFmul prec emax c c) /\ (1 - u) * (rv c * rv c) <= rv (SFmul prec emax c c) <= bpow radix2 (prec + prec + (t + t)) /\
    (rv c = 0 \/ bpow radix2 (t + t) <= rv (SFmul prec emax c c)) /\ 0 <= rv (SFmul prec emax c c).
  Proof.
    intros Hm H1 H2 Hc. assert (Hle := grid_le t m c Hc Hm).
    assert (B : Rabs (rv c * rv c) <= bpow radix2 (prec + prec + (t + t))).
    { rewrite Rabs_mult. replace (prec + prec + (t + t))%Z with ((prec + t) + (prec + t))%Z by lia. rewrite bpow_plus. apply Rmult_le_compat; auto using Rabs_pos. }
    destruct (mul_rnd prec emax Hprec Hmax c c) as [G E]; [apply Hc|apply Hc|eapply rnd_finite; [..|exact B]; auto; unfold Prec_gt_0 in Hprec; lia|].
    split; auto. assert (Hb : Rabs (rnd (rv c * rv c)) <= bpow radix2 (prec + prec + (t + t))) by (apply rnd_small; auto; unfold Prec_gt_0 in Hprec; lia).
    assert (N0 : 0 <= rnd (rv c * rv c)) by (apply rnd_nonneg; auto; apply Rle_0_sqr).
    rewrite Rabs_pos_eq in Hb by auto. rewrite E.
    destruct (Req_dec (rv c) 0) as [Z0|NZ].
    - rewrite Z0, Rmult_0_r, rnd_0. pose proof (bpow_ge_0 radix2 (prec + prec + (t + t))). repeat split; auto; lra.
    - assert (L : bpow radix2 (t + t) <= rv c * rv c).
      { destruct Hc as (_ & k & _ & Ek). rewrite Ek in *. assert (k <> 0%Z) by (intros ->; apply NZ; ring). rewrite bpow_plus.
        assert (1 <= IZR (k * k)) by (apply IZR_le; nia). rewrite mult_IZR in H0. pose proof (bpow_gt_0 radix2 t).
        replace (IZR k * bpow radix2 t * (IZR k * bpow radix2 t)) with (IZR k * IZR k * (bpow radix2 t * bpow radix2 t)) by ring. nra. }
      assert (Nm : normal prec emax (rv c * rv c)). { unfold normal. rewrite Rabs_pos_eq by apply Rle_0_sqr. eapply Rle_trans; [apply bpow_le; exact H1|auto]. }
      destruct (rnd_near prec emax Hprec (rv c * rv c)) as [R1 R2]; [apply Rle_0_sqr|auto|].
      split; [split; auto; lra|]. split; auto. right. rewrite <- (rnd_bpow (t + t)) by (unfold Prec_gt_0 in Hprec; lia). apply rnd_le; auto.
  Qed.
  Lemma quot_near (t : Z) (m : Z) (x y : spec_float) (e : Z) : (m <= 2 ^ prec)%Z -> (emin + prec + prec - 1 <= t)%Z -> (e - t < emax)%Z -> (emin <= e - t)%Z ->
    good x -> ong t m y -> 0 < rv y -> rv x = 0 \/ bpow radix2 (t + t) <= rv x -> 0 <= rv x -> rv x <= bpow radix2 e ->
    good (SFdiv prec emax x y) /\ (1 - u) * (rv x / rv y) <= rv (SFdiv prec emax x y).
  Proof.
    intros Hm H1 H2 H3 Gx Hy Py Lx X0 Hx. assert (Ly := grid_ge t m y Hy Py). assert (Uy := grid_le t m y Hy Hm). rewrite Rabs_pos_eq in Uy by lra.
    assert (Bt := bpow_gt_0 radix2 t).
    assert (Q : 0 <= rv x / rv y) by (apply Rmult_le_pos; auto; left; apply Rinv_0_lt_compat; auto).
    assert (QB : rv x / rv y <= bpow radix2 (e - t)).
    { apply Rmult_le_reg_r with (rv y); auto. unfold Rdiv. rewrite Rmult_assoc, Rinv_l, Rmult_1_r by lra. eapply Rle_trans; [exact Hx|].
      replace e with ((e - t) + t)%Z at 1 by lia. rewrite bpow_plus. apply Rmult_le_compat_l; auto. apply bpow_ge_0. }
    destruct (div_rnd prec emax Hprec Hmax x y) as [G E]; auto; [apply Hy|lra|eapply rnd_finite; [auto| |rewrite Rabs_pos_eq by auto; exact QB]; lia|].
    split; auto. rewrite E. apply rnd_near; auto. destruct Lx as [Z0|Lx]; [left; rewrite Z0; unfold Rdiv; ring|right].
    unfold normal. rewrite Rabs_pos_eq by auto. apply Rle_trans with (bpow radix2 (t - prec)); [apply bpow_le; lia|].
    apply Rmult_le_reg_r with (rv y); auto. unfold Rdiv. rewrite Rmult_assoc, Rinv_l, Rmult_1_r by lra.
    apply Rle_trans with (bpow radix2 (t - prec) * bpow radix2 (prec + t)); [apply Rmult_le_compat_l; auto; apply bpow_ge_0|].
    rewrite <- bpow_plus. replace (t - prec + (prec + t))%Z with (t + t)%Z by lia. auto.
  Qed.

  Context (s n : Z).
  Record rdp_ok : Prop := { r_s : scale_ok prec emax s; r_ss : scale_ok prec emax (s + s); r_n : (12 * (n * n) <= 2 ^ prec)%Z; r_n0 : (0 <= n)%Z;
    r_lo : (emin + prec - 1 <= (s + s) + (s + s))%Z; r_hi : (prec + prec + ((s + s) + (s + s)) + 2 < emax)%Z;
    r_q : (emin + prec + prec - 1 <= s + s)%Z; r_q2 : (prec + prec + (s + s) + 2 < emax)%Z; r_1 : (emin + prec <= 0)%Z; r_eps : scale_ok prec emax epsexp;
    r_p2 : (2 <= prec)%Z; r_pe : (prec < emax)%Z }.
  Context (OK : rdp_ok).
  Notation onp := (@grid_point prec emax epsexp at2 s n).
  Notation val := (@point_value prec emax epsexp at2).
  Notation onp3 := (@grid_point3 prec emax epsexp at2 s n).
  Notation val3 := (@point_value3 prec emax epsexp at2).

  Lemma dif x y : ong s n x -> ong s n y -> ong s (2 * n) (SFsub prec emax x y) /\ rv (SFsub prec emax x y) = rv x - rv y.
  Proof. destruct OK. intros Hx Hy. replace (2 * n)%Z with (n + n)%Z by lia. apply ong_sub; auto. nia. Qed.
  Lemma prd x y : ong s (2 * n) x -> ong s (2 * n) y -> ong (s + s) (4 * (n * n)) (SFmul prec emax x y) /\ rv (SFmul prec emax x y) = rv x * rv y.
  Proof. destruct OK. intros Hx Hy. replace (4 * (n * n))%Z with (2 * n * (2 * n))%Z by lia. apply ong_mul; auto. nia. Qed.
  Lemma sm2 x y : ong (s + s) (4 * (n * n)) x -> ong (s + s) (4 * (n * n)) y -> ong (s + s) (8 * (n * n)) (SFadd prec emax x y) /\ rv (SFadd prec emax x y) = rv x + rv y.
  Proof. destruct OK. intros Hx Hy. replace (8 * (n * n))%Z with (4 * (n * n) + 4 * (n * n))%Z by lia. apply ong_add; auto. nia. Qed.
  Lemma df2 x y : ong (s + s) (4 * (n * n)) x -> ong (s + s) (4 * (n * n)) y -> ong (s + s) (8 * (n * n)) (SFsub prec emax x y) /\ rv (SFsub prec emax x y) = rv x - rv y.
  Proof. destruct OK. intros Hx Hy. replace (8 * (n * n))%Z with (4 * (n * n) + 4 * (n * n))%Z by lia. apply ong_sub; auto. nia. Qed.
  Lemma n8 : (8 * (n * n) <= 2 ^ prec)%Z.
  Proof. destruct OK. nia. Qed.

  Lemma sulps_same x y : ong s n x -> ong s n y -> rv x = rv y -> @sulps FS x y = true.
  Proof.
    intros Hx Hy E. destruct (dif x y Hx Hy) as [[G _] Ed]. destruct OK. cbn [sulps FloatS]. unfold fl_ulps_with, fl_absdiff.
    destruct (good_abs _ _ _ G) as [Ga Ea]. destruct (pow2_good prec emax Hprec Hmax epsexp) as [Gp Ep]; auto.
    rewrite (leb_R prec emax at2 _ _ Ga Gp), Ea, Ed, Ep, E, Rminus_diag_eq, Rabs_R0 by auto.
    replace (Rleb 0 _) with true; auto. symmetry. apply Rleb_true. apply bpow_ge_0.
  Qed.

  Lemma u_bounds : 0 < u <= 1 / 4.
  Proof. destruct OK. split; [apply ulp1_pos|]. unfold ulp1. apply Rle_trans with (bpow radix2 (-2)); [apply bpow_le; lia|]. cbn. lra. Qed.

  (* 2D: the computed value is at least (1 - u)^2 times the exact squared distance to the segment *)
  Lemma dist2_near (a b p : V2 FS) : onp a -> onp b -> onp p ->
    good (dist_line2_safe a b p) /\ (1 - u) * (1 - u) * dist_line2_safe (S := RS) (val a) (val b) (val p) <= rv (dist_line2_safe a b p).
  Proof.
    intros [Ax Ay] [Bx By] [Px Py]. assert (OK' := OK). destruct OK'. assert (N8 := n8). assert (U := u_bounds).
    destruct (dist_line2_safe_R (val a) (val b) (val p)) as [_ Emin].
    assert (Enn : 0 <= dist_line2_safe (S := RS) (val a) (val b) (val p)).
    { destruct (dist_line2_safe_R (val a) (val b) (val p)) as [(t & _ & ->) _]. apply sqdist_nonneg. }
    assert (U2 : forall v, dist_line2_safe (S := RS) (val a) (val b) (val p) <= v -> (1 - u) * (1 - u) * dist_line2_safe (S := RS) (val a) (val b) (val p) <= v).
    { intros v Hv. assert ((1 - u) * (1 - u) <= 1) by nra. nra. }
    destruct (dif _ _ Ax Px) as [F1 F1e], (dif _ _ Ay Py) as [F2 F2e].
    destruct (prd _ _ F1 F1) as [S1 S1e], (prd _ _ F2 F2) as [S2 S2e], (sm2 _ _ S1 S2) as [M M_e].
    assert (E0 : rv (vmag2 (S := FS) (vsub a p)) = sqdist (val p) (lerp (val a) (val b) 0)).
    { unfold vmag2, vdot, vsub. cbn [vx vy sadd ssub smul FloatS]. rewrite M_e, S1e, S2e, F1e, F2e. unfold sqdist, lerp, point_value. cbn [vx vy]. ring. }
    unfold dist_line2_safe at 1 3. destruct (vulps a b) eqn:Ev.
    - split; [apply M|]. apply U2. unfold vdist2. rewrite E0. apply Emin. lra.
    - assert (Hne : val a <> val b).
      { intros E. injection E as E1 E2. unfold vulps in Ev. rewrite (sulps_same _ _ Ax Bx E1), (sulps_same _ _ Ay By E2) in Ev. discriminate. }
      destruct (dif _ _ Ax Bx) as [D1 D1e], (dif _ _ Ay By) as [D2 D2e].
      destruct (prd _ _ D1 D1) as [Q1 Q1e], (prd _ _ D2 D2) as [Q2 Q2e], (sm2 _ _ Q1 Q2) as [D De].
      destruct (prd _ _ F1 D1) as [T1 T1e], (prd _ _ F2 D2) as [T2 T2e], (sm2 _ _ T1 T2) as [N Ne].
      destruct (prd _ _ F1 D2) as [W1 W1e], (prd _ _ F2 D1) as [W2 W2e], (df2 _ _ W1 W2) as [C Ce].
      assert (Dpos : 0 < rv (SFadd prec emax (SFmul prec emax (SFsub prec emax (vx a) (vx b)) (SFsub prec emax (vx a) (vx b))) (SFmul prec emax (SFsub prec emax (vy a) (vy b)) (SFsub prec emax (vy a) (vy b))))).
      { rewrite De, Q1e, Q2e, D1e, D2e. pose proof (sq_nn (rv (vx a) - rv (vx b))). pose proof (sq_nn (rv (vy a) - rv (vy b))).
        destruct (Req_dec (rv (vx a) - rv (vx b)) 0) as [Ex|Ex]; [|apply sq_pos in Ex; lra].
        destruct (Req_dec (rv (vy a) - rv (vy b)) 0) as [Ey|Ey]; [|apply sq_pos in Ey; lra].
        exfalso. apply Hne. unfold point_value. f_equal; lra. }
      unfold dist_line2. unfold vmag2, vdot, vsub, vperp. cbn [vx vy sadd ssub smul sdiv sltb s0 s1 FloatS].
      set (Df := SFadd prec emax (SFmul prec emax (SFsub prec emax (vx a) (vx b)) (SFsub prec emax (vx a) (vx b))) (SFmul prec emax (SFsub prec emax (vy a) (vy b)) (SFsub prec emax (vy a) (vy b)))) in *.
      set (Nf := SFadd prec emax (SFmul prec emax (SFsub prec emax (vx a) (vx p)) (SFsub prec emax (vx a) (vx b))) (SFmul prec emax (SFsub prec emax (vy a) (vy p)) (SFsub prec emax (vy a) (vy b)))) in *.
      set (Cf := SFsub prec emax (SFmul prec emax (SFsub prec emax (vx a) (vx p)) (SFsub prec emax (vy a) (vy b))) (SFmul prec emax (SFsub prec emax (vy a) (vy p)) (SFsub prec emax (vx a) (vx b)))) in *.
      assert (DL := grid_ge _ _ _ D Dpos). assert (DU := grid_le _ _ _ D N8). rewrite Rabs_pos_eq in DU by lra. assert (NU := grid_le _ _ _ N N8).
      assert (B2 := bpow_gt_0 radix2 (s + s)).
      assert (QB : Rabs (rv Nf / rv Df) <= bpow radix2 prec).
      { unfold Rdiv. rewrite Rabs_mult, Rabs_inv, (Rabs_pos_eq (rv Df)) by lra. apply Rmult_le_reg_r with (rv Df); auto.
        rewrite Rmult_assoc, Rinv_l, Rmult_1_r by lra. eapply Rle_trans; [exact NU|]. rewrite bpow_plus. apply Rmult_le_compat_l; auto. apply bpow_ge_0. }
      destruct (div_rnd prec emax Hprec Hmax Nf Df) as [Gt Et]; [apply N|apply D|lra|eapply rnd_finite; [auto| |exact QB]; lia|].
      assert (G0 : good (S754_zero false)) by apply good_zero.
      destruct (fl_of_Z_good prec emax Hprec Hmax 1) as [G1 E1]; [rewrite Z.abs_eq by lia; apply (Z.pow_le_mono_r 2 0 prec); lia|unfold scale_ok; lia|].
      rewrite (ltb_R prec emax at2 _ _ Gt G0), (ltb_R prec emax at2 _ _ G1 Gt), E1. change (rv (S754_zero false)) with 0.
      destruct (Rltb_spec (rv (SFdiv prec emax Nf Df)) 0) as [L0|L0]; [split; [apply M|]; apply U2; cbn [vmag2 vdot vsub vx vy sadd ssub smul FloatS] in E0; rewrite E0; apply Emin; lra|].
      destruct (Rltb_spec 1 (rv (SFdiv prec emax Nf Df))) as [L1|L1].
      + destruct (dif _ _ Bx Px) as [H1 H1e], (dif _ _ By Py) as [H2 H2e].
        destruct (prd _ _ H1 H1) as [K1 K1e], (prd _ _ H2 H2) as [K2 K2e], (sm2 _ _ K1 K2) as [K Ke]. split; [apply K|]. apply U2.
        rewrite Ke, K1e, K2e, H1e, H2e. eapply Rle_trans; [apply (Emin 1); lra|]. right. unfold sqdist, lerp, point_value. cbn [vx vy]. ring.
      + apply Rnot_lt_le in L0. apply Rnot_lt_le in L1. rewrite Et in L0, L1.
        assert (N0 : 0 <= rv Nf).
        { apply Rnot_lt_le. intros Ng. assert (NL : bpow radix2 (s + s) <= - rv Nf).
          { destruct N as (_ & k & _ & Ek). rewrite Ek in *. assert (k < 0)%Z. { apply lt_IZR. apply Rmult_lt_reg_r with (bpow radix2 (s + s)); auto. lra. }
            assert (IZR k <= -1) by (apply IZR_le; lia). nra. }
          assert (Q : rv Nf / rv Df <= - bpow radix2 (- prec)).
          { apply Rmult_le_reg_r with (rv Df); auto. unfold Rdiv. rewrite Rmult_assoc, Rinv_l, Rmult_1_r by lra.
            assert (bpow radix2 (- prec) * rv Df <= bpow radix2 (s + s)); [|lra].
            apply Rle_trans with (bpow radix2 (- prec) * bpow radix2 (prec + (s + s))); [apply Rmult_le_compat_l; auto; apply bpow_ge_0|]. rewrite <- bpow_plus. right. f_equal. lia. }
          apply (rnd_le prec emax Hprec) in Q. rewrite rnd_opp, rnd_bpow in Q by (unfold Prec_lt_emax, Prec_gt_0, SpecFloat.emin in *; lia). pose proof (bpow_gt_0 radix2 (- prec)). lra. }
        assert (ND : rv Nf <= rv Df).
        { apply Rnot_lt_le. intros Gt'. apply rnd_le_1 in L1; auto.
          assert (X : rv Df + bpow radix2 (s + s) <= rv Nf).
          { destruct N as (_ & k & _ & Ek), D as (_ & l & _ & El). rewrite Ek, El in *. assert (l < k)%Z. { apply lt_IZR. apply Rmult_lt_reg_r with (bpow radix2 (s + s)); auto. }
            assert (IZR l + 1 <= IZR k) by (rewrite <- plus_IZR; apply IZR_le; lia). nra. }
          assert (Y : rv Nf <= (1 + u) * rv Df).
          { apply Rmult_le_compat_r with (r := rv Df) in L1; [|lra]. unfold Rdiv in L1. rewrite Rmult_assoc, Rinv_l, Rmult_1_r in L1 by lra. exact L1. }
          assert (Z : u * rv Df < bpow radix2 (s + s)); [|lra].
          apply Rlt_le_trans with (u * bpow radix2 (prec + (s + s))).
          - apply Rmult_lt_compat_l; [lra|]. apply Rlt_le_trans with (rv Nf); [lra|]. rewrite Rabs_pos_eq in NU by auto. auto.
          - unfold ulp1. rewrite <- bpow_plus. right. f_equal. lia. }
        destruct (square_near (s + s) (8 * (n * n)) Cf) as (Gc & [Lc Uc] & Nc & Pc); auto; [lia|].
        destruct (quot_near (s + s) (8 * (n * n)) (SFmul prec emax Cf Cf) Df (prec + prec + ((s + s) + (s + s)))) as [Gq Lq]; auto; try lia.
        { destruct Nc as [Z0|Nc]; auto. left. apply Rle_antisym; auto. 
          destruct (mul_rnd prec emax Hprec Hmax Cf Cf) as [_ Em]; [apply C|apply C|rewrite Z0, Rmult_0_r, rnd_0, Rabs_R0; apply bpow_gt_0|]. rewrite Em, Z0, Rmult_0_r, rnd_0. lra. }
        split; auto. eapply Rle_trans; [|exact Lq].
        assert (EE : dist_line2_safe (S := RS) (val a) (val b) (val p) = rv Cf * rv Cf / rv Df).
        { unfold dist_line2_safe. replace (vulps (val a) (val b)) with false by (symmetry; apply Bool.not_true_iff_false; intros K; apply vulps_R in K; auto).
          unfold dist_line2, vmag2, vdot, vsub, vperp, point_value. cbn [vx vy sadd ssub smul sdiv sltb s0 s1 RS].
          rewrite De, Q1e, Q2e, D1e, D2e in Dpos, ND |- *. rewrite Ne, T1e, T2e, F1e, F2e, D1e, D2e in N0, ND. rewrite Ce, W1e, W2e, F1e, F2e, D1e, D2e.
          match goal with |- (if Rltb ?q 0 then _ else _) = _ => assert (Hq : 0 <= q <= 1) end.
          { split; [apply Rmult_le_pos; auto; left; apply Rinv_0_lt_compat; auto|].
            apply Rmult_le_reg_r with (1 := Dpos). unfold Rdiv. rewrite Rmult_assoc, Rinv_l, Rmult_1_r, Rmult_1_l by lra. auto. }
          replace (Rltb _ 0) with false by (symmetry; apply Rltb_false; apply Hq). replace (Rltb 1 _) with false by (symmetry; apply Rltb_false; apply Hq). reflexivity. }
        rewrite EE. rewrite Rmult_assoc. apply Rmult_le_compat_l; [lra|].
        unfold Rdiv. rewrite <- Rmult_assoc. apply Rmult_le_compat_r; [left; apply Rinv_0_lt_compat; auto|]. exact Lc.
  Qed.

  (* ---- 3D ---- *)
  Lemma add_near (x y : spec_float) (t e : Z) : (emin + prec - 1 <= t)%Z -> (e + 1 < emax)%Z -> (emin <= e)%Z -> good x -> good y -> 0 <= rv x -> 0 <= rv y ->
    rv x = 0 \/ bpow radix2 t <= rv x -> rv y = 0 \/ bpow radix2 t <= rv y -> rv x <= bpow radix2 e -> rv y <= bpow radix2 e ->
    good (SFadd prec emax x y) /\ (1 - u) * (rv x + rv y) <= rv (SFadd prec emax x y) <= bpow radix2 (e + 1) /\
    (rv (SFadd prec emax x y) = 0 \/ bpow radix2 t <= rv (SFadd prec emax x y)) /\ 0 <= rv (SFadd prec emax x y).
  Proof.
    intros H1 H2 H3 Gx Gy X0 Y0 Lx Ly Ux Uy. assert (B := bpow_gt_0 radix2 t).
    assert (S : Rabs (rv x + rv y) <= bpow radix2 (e + 1)). { rewrite Rabs_pos_eq by lra. rewrite bpow_plus. cbn. lra. }
    destruct (add_rnd prec emax Hprec Hmax x y) as [G E]; auto; [eapply rnd_finite; [auto| |exact S]; lia|]. split; auto.
    assert (Hb : Rabs (rnd (rv x + rv y)) <= bpow radix2 (e + 1)) by (apply rnd_small; auto; lia).
    assert (N0 : 0 <= rnd (rv x + rv y)) by (apply rnd_nonneg; auto; lra). rewrite Rabs_pos_eq in Hb by auto. rewrite E.
    destruct (Rle_or_lt (bpow radix2 t) (rv x + rv y)) as [L|L].
    - destruct (rnd_near prec emax Hprec (rv x + rv y)) as [R1 _]; [lra| |].
      { right. unfold normal. rewrite Rabs_pos_eq by lra. eapply Rle_trans; [apply bpow_le; exact H1|auto]. }
      split; [auto|]. split; auto. right. rewrite <- (rnd_bpow t) by (unfold Prec_gt_0 in Hprec; lia). apply rnd_le; auto.
    - assert (Z : rv x + rv y = 0) by (destruct Lx, Ly; lra). rewrite Z, rnd_0. pose proof (bpow_ge_0 radix2 (e + 1)). repeat split; auto; lra.
  Qed.
  Lemma square_zero c t m : ong t m c -> rv c = 0 -> rv (SFmul prec emax c c) = 0.
  Proof.
    intros [G _] Z0. destruct (mul_rnd prec emax Hprec Hmax c c) as [_ Em]; auto; [rewrite Z0, Rmult_0_r, rnd_0, Rabs_R0; apply bpow_gt_0|]. rewrite Em, Z0, Rmult_0_r, rnd_0. reflexivity.
  Qed.
  Lemma sm3 x y z : ong (s + s) (4 * (n * n)) x -> ong (s + s) (4 * (n * n)) y -> ong (s + s) (4 * (n * n)) z ->
    ong (s + s) (12 * (n * n)) (SFadd prec emax (SFadd prec emax x y) z) /\ rv (SFadd prec emax (SFadd prec emax x y) z) = rv x + rv y + rv z.
  Proof.
    intros Hx Hy Hz. destruct (sm2 x y Hx Hy) as [G E]. destruct OK. replace (12 * (n * n))%Z with (8 * (n * n) + 4 * (n * n))%Z by lia.
    destruct (ong_add prec emax Hprec Hmax (s + s) _ _ _ _ r_ss0 G Hz) as [G2 E2]; [lia|]. split; auto. rewrite E2, E. reflexivity.
  Qed.
  Lemma dist3_near (a b p : V3 FS) : onp3 a -> onp3 b -> onp3 p ->
    good (dist_line3_safe a b p) /\ (1 - u) * (1 - u) * ((1 - u) * (1 - u)) * dist_line3_safe (S := RS) (val3 a) (val3 b) (val3 p) <= rv (dist_line3_safe a b p).
  Proof.
    intros (Ax & Ay & Az) (Bx & By & Bz) (Px & Py & Pz). assert (OK' := OK). destruct OK'. assert (N8 := n8). assert (U := u_bounds).
    assert (U2 : 0 <= (1 - u) * (1 - u) <= 1) by nra. assert (U4 : 0 <= (1 - u) * (1 - u) * ((1 - u) * (1 - u)) <= 1) by nra.
    destruct (dif _ _ Ax Px) as [F1 F1e], (dif _ _ Ay Py) as [F2 F2e], (dif _ _ Az Pz) as [F3 F3e].
    destruct (dif _ _ Ax Bx) as [D1 D1e], (dif _ _ Ay By) as [D2 D2e], (dif _ _ Az Bz) as [D3 D3e].
    assert (Emin : dist_line3_safe (S := RS) (val3 a) (val3 b) (val3 p) <= sqdist3 (val3 p) (val3 a)).
    { destruct (weqb (S := RS) (val3 a) (val3 b)) eqn:Eab.
      - apply weqb_R in Eab. rewrite <- Eab, dist_line3_safe_point. lra.
      - destruct (dist_line3_safe_R (val3 a) (val3 b) (val3 p)) as [_ H]; [intros E; rewrite E in Eab; assert (weqb (S := RS) (val3 b) (val3 b) = true) by (apply weqb_R; auto); congruence|].
        eapply Rle_trans; [apply (H 0)|]. right. unfold sqdist3, lerp3. cbn [wx wy wz]. ring. }
    unfold dist_line3_safe at 1 3. destruct (wulps a b) eqn:Ev.
    - unfold wdist2, wmag2, wdot, wsub. cbn [wx wy wz sadd ssub smul FloatS].
      destruct (prd _ _ F1 F1) as [S1 S1e], (prd _ _ F2 F2) as [S2 S2e], (prd _ _ F3 F3) as [S3 S3e], (sm3 _ _ _ S1 S2 S3) as [M M_e].
      split; [apply M|]. rewrite M_e, S1e, S2e, S3e, F1e, F2e, F3e.
      assert (Eq : sqdist3 (val3 p) (val3 a) = (rv (wx a) - rv (wx p)) * (rv (wx a) - rv (wx p)) + (rv (wy a) - rv (wy p)) * (rv (wy a) - rv (wy p)) + (rv (wz a) - rv (wz p)) * (rv (wz a) - rv (wz p))).
      { unfold sqdist3, point_value3. cbn [wx wy wz]. ring. }
      rewrite <- Eq. assert (0 <= sqdist3 (val3 p) (val3 a)) by (rewrite Eq; apply Rplus_le_le_0_compat; [apply Rplus_le_le_0_compat|]; apply sq_nn).
      eapply Rle_trans; [apply Rmult_le_compat_l; [apply U4|exact Emin]|]. nra.
    - assert (Hne : val3 a <> val3 b).
      { intros E. injection E as E1 E2 E3. unfold wulps in Ev. rewrite (sulps_same _ _ Ax Bx E1), (sulps_same _ _ Ay By E2), (sulps_same _ _ Az Bz E3) in Ev. discriminate. }
      clear Emin.
      destruct (prd _ _ D1 D1) as [Q1 Q1e], (prd _ _ D2 D2) as [Q2 Q2e], (prd _ _ D3 D3) as [Q3 Q3e], (sm3 _ _ _ Q1 Q2 Q3) as [D De].
      assert (Dpos : 0 < (rv (wx a) - rv (wx b)) * (rv (wx a) - rv (wx b)) + (rv (wy a) - rv (wy b)) * (rv (wy a) - rv (wy b)) + (rv (wz a) - rv (wz b)) * (rv (wz a) - rv (wz b))).
      { pose proof (sq_nn (rv (wx a) - rv (wx b))). pose proof (sq_nn (rv (wy a) - rv (wy b))). pose proof (sq_nn (rv (wz a) - rv (wz b))).
        destruct (Req_dec (rv (wx a) - rv (wx b)) 0) as [Ex|Ex]; [|apply sq_pos in Ex; lra].
        destruct (Req_dec (rv (wy a) - rv (wy b)) 0) as [Ey|Ey]; [|apply sq_pos in Ey; lra].
        destruct (Req_dec (rv (wz a) - rv (wz b)) 0) as [Ez|Ez]; [|apply sq_pos in Ez; lra].
        exfalso. apply Hne. unfold point_value3. f_equal; lra. }
      destruct (prd _ _ F2 D3) as [X1 X1e], (prd _ _ F3 D2) as [X2 X2e], (df2 _ _ X1 X2) as [X Xe].
      destruct (prd _ _ F3 D1) as [Y1 Y1e], (prd _ _ F1 D3) as [Y2 Y2e], (df2 _ _ Y1 Y2) as [Y Ye].
      destruct (prd _ _ F1 D2) as [Z1 Z1e], (prd _ _ F2 D1) as [Z2 Z2e], (df2 _ _ Z1 Z2) as [Z Ze].
      rewrite X1e, X2e, F2e, D3e, F3e, D2e in Xe. rewrite Y1e, Y2e, F3e, D1e, F1e, D3e in Ye. rewrite Z1e, Z2e, F1e, D2e, F2e, D1e in Ze.
      rewrite Q1e, Q2e, Q3e, D1e, D2e, D3e in De.
      unfold cross_abs_squared, wsub. cbn [wx wy wz sadd ssub smul sdiv FloatS].
      match type of X with ong _ _ ?x => set (Xf := x) in * end. match type of Y with ong _ _ ?x => set (Yf := x) in * end. match type of Z with ong _ _ ?x => set (Zf := x) in * end.
      match type of D with ong _ _ ?x => set (Df := x) in * end.
      destruct (square_near (s + s) (8 * (n * n)) Xf) as (GX & [LX UX] & NX & PX); auto; [lia|].
      destruct (square_near (s + s) (8 * (n * n)) Yf) as (GY & [LY UY] & NY & PY); auto; [lia|].
      destruct (square_near (s + s) (8 * (n * n)) Zf) as (GZ & [LZ UZ] & NZ & PZ); auto; [lia|].
      assert (NX' : rv (SFmul prec emax Xf Xf) = 0 \/ bpow radix2 (s + s + (s + s)) <= rv (SFmul prec emax Xf Xf)) by (destruct NX as [K|K]; [left; eapply square_zero; eauto|auto]).
      assert (NY' : rv (SFmul prec emax Yf Yf) = 0 \/ bpow radix2 (s + s + (s + s)) <= rv (SFmul prec emax Yf Yf)) by (destruct NY as [K|K]; [left; eapply square_zero; eauto|auto]).
      assert (NZ' : rv (SFmul prec emax Zf Zf) = 0 \/ bpow radix2 (s + s + (s + s)) <= rv (SFmul prec emax Zf Zf)) by (destruct NZ as [K|K]; [left; eapply square_zero; eauto|auto]).
      destruct (add_near (SFmul prec emax Xf Xf) (SFmul prec emax Yf Yf) (s + s + (s + s)) (prec + prec + (s + s + (s + s)))) as (G1 & [L1 U1] & N1 & P1); auto; try lia.
      destruct (add_near (SFadd prec emax (SFmul prec emax Xf Xf) (SFmul prec emax Yf Yf)) (SFmul prec emax Zf Zf) (s + s + (s + s)) (prec + prec + (s + s + (s + s)) + 1)) as (G2 & [L2 U2'] & N2 & P2); auto; try lia.
      { eapply Rle_trans; [exact UZ|]. apply bpow_le. lia. }
      assert (DP : 0 < rv Df) by (rewrite De; exact Dpos).
      destruct (quot_near (s + s) (12 * (n * n)) (SFadd prec emax (SFadd prec emax (SFmul prec emax Xf Xf) (SFmul prec emax Yf Yf)) (SFmul prec emax Zf Zf)) Df (prec + prec + (s + s + (s + s)) + 1 + 1)) as [Gq Lq]; auto; try lia.
      split; auto. eapply Rle_trans; [|exact Lq].
      assert (ER : dist_line3_safe (S := RS) (val3 a) (val3 b) (val3 p) = (rv Xf * rv Xf + rv Yf * rv Yf + rv Zf * rv Zf) / rv Df).
      { unfold dist_line3_safe. replace (wulps (val3 a) (val3 b)) with false by (symmetry; apply Bool.not_true_iff_false; intros K; apply wulps_R in K; auto).
        rewrite Xe, Ye, Ze, De. reflexivity. }
      rewrite ER. unfold Rdiv. rewrite <- !Rmult_assoc. apply Rmult_le_compat_r; [left; apply Rinv_0_lt_compat; auto|].
      replace ((1 - u) * (1 - u) * (1 - u) * (1 - u) * (rv Xf * rv Xf + rv Yf * rv Yf + rv Zf * rv Zf)) with ((1 - u) * ((1 - u) * ((1 - u) * ((1 - u) * (rv Xf * rv Xf + rv Yf * rv Yf + rv Zf * rv Zf))))) by ring.
      apply Rmult_le_compat_l; [lra|]. eapply Rle_trans; [|exact L2]. apply Rmult_le_compat_l; [lra|].
      pose proof (sq_nn (rv Zf)). 
      assert (K : (1 - u) * ((1 - u) * (rv Xf * rv Xf + rv Yf * rv Yf)) <= rv (SFadd prec emax (SFmul prec emax Xf Xf) (SFmul prec emax Yf Yf))).
      { eapply Rle_trans; [|exact L1]. apply Rmult_le_compat_l; lra. }
      assert (K2 : (1 - u) * ((1 - u) * (rv Zf * rv Zf)) <= rv (SFmul prec emax Zf Zf)).
      { eapply Rle_trans; [|exact LZ]. assert (A0 : 0 <= (1 - u) * (rv Zf * rv Zf)) by (apply Rmult_le_pos; lra).
        assert (A1 : 0 <= u * ((1 - u) * (rv Zf * rv Zf))) by (apply Rmult_le_pos; lra). lra. }
      lra.
  Qed.

  (* ---- the simplification ---- *)
  Definition tolerance_ok (d : spec_float) : Prop := good d /\ 0 <= rv d /\ (rv d = 0 \/ normal prec emax (rv d * rv d)) /\ rv d * rv d <= bpow radix2 (emax - 1).
  Lemma tol_sq d : tolerance_ok d -> good (SFmul prec emax d d) /\ rv (SFmul prec emax d d) <= (1 + u) * (rv d * rv d).
  Proof.
    intros (G & P & N & B). destruct (mul_rnd prec emax Hprec Hmax d d) as [G1 E1]; auto.
    { apply rnd_finite with (emax - 1)%Z; auto; [unfold Prec_gt_0, Prec_lt_emax, SpecFloat.emin in *; lia|]. rewrite Rabs_pos_eq by apply Rle_0_sqr. auto. }
    split; auto. rewrite E1. apply rnd_near; auto; [apply Rle_0_sqr|]. destruct N as [->|N]; auto. left; ring.
  Qed.
  Lemma not_nan x : good x -> x <> S754_nan.
  Proof. intros [_ H] ->. discriminate. Qed.

  Lemma thin_near {A} (dist : A -> A -> A -> car FS) (E : A -> A -> A -> R) (f w : R) (on : A -> Prop) pts d out :
    0 < f -> 0 <= w -> 1 + u <= f * ((1 + w) * (1 + w)) ->
    (forall a b p, on a -> on b -> on p -> good (dist a b p) /\ f * E a b p <= rv (dist a b p)) -> Forall on pts -> tolerance_ok d -> pts <> [] ->
    simplify_rdp (S := FS) dist pts d = Val out -> thinned (fun a b p => E a b p <= rv d * (1 + w) * (rv d * (1 + w))) pts out.
  Proof.
    intros Hf Hw Hfw Hn HL Hd Hne Es. rewrite Forall_forall in HL. destruct (tol_sq d Hd) as [G2 E2]. destruct Hd as (Gd & Pd & _).
    eapply simplify_rdp_thinned; eauto. intros a mid b p Hm Hp Hi Ia Ib Hle.
    destruct (farthest_max (S := FS) dist (fun x => x <> S754_nan) (OrdOn_float prec emax epsexp at2) a mid b Hm) as [HD Hmax'].
    { intros q Hq. apply not_nan. apply Hn; auto. }
    specialize (Hmax' p Hp). destruct (Hn a b p) as [Gp Lp]; auto.
    assert (Hc : sleb (s := FS) (dist a b p) (smul (s := FS) d d) = true).
    { pose proof (OrdOn_float prec emax epsexp at2) as HO. rewrite (ord_leb _ _ HO) by (apply not_nan; auto). apply Bool.negb_true_iff.
      destruct (sltb (s := FS) (smul (s := FS) d d) (dist a b p)) eqn:C; auto. exfalso.
      rewrite (ord_leb _ _ HO) in Hle by (auto; apply not_nan; auto). apply Bool.negb_true_iff in Hle.
      pose proof (ord_neg_trans _ _ HO (smul (s := FS) d d) (fst (farthest dist (a :: mid ++ [b]) a b)) (dist a b p)) as T. cbv beta in T. rewrite T in C; auto; try discriminate; apply not_nan; auto. }
    cbn [sleb smul FloatS] in Hc. rewrite (leb_R prec emax at2 _ _ Gp G2) in Hc. apply Rleb_true in Hc.
    assert (X : f * E a b p <= (1 + u) * (rv d * rv d)) by lra.
    apply Rmult_le_reg_l with f; auto. eapply Rle_trans; [exact X|].
    replace (f * (rv d * (1 + w) * (rv d * (1 + w)))) with (f * ((1 + w) * (1 + w)) * (rv d * rv d)) by ring.
    apply Rmult_le_compat_r; auto. apply Rle_0_sqr.
  Qed.
  Lemma kept_near {A} (dist : A -> A -> A -> car FS) (E : A -> A -> A -> R) (f w : R) (on : A -> Prop) pts d :
    0 < f -> 0 <= w -> 1 + u <= f * ((1 + w) * (1 + w)) ->
    (forall a b p, on a -> on b -> on p -> good (dist a b p) /\ f * E a b p <= rv (dist a b p)) -> Forall on pts -> tolerance_ok d ->
    (forall pre a mid b post, pts = pre ++ a :: mid ++ b :: post -> mid <> [] -> exists p, In p mid /\ rv d * (1 + w) * (rv d * (1 + w)) < E a b p) ->
    simplify_rdp (S := FS) dist pts d = Val pts.
  Proof.
    intros Hf Hw Hfw Hn HL Hd HK. rewrite Forall_forall in HL. destruct (tol_sq d Hd) as [G2 E2]. destruct Hd as (Gd & Pd & _).
    apply simplify_rdp_unchanged. intros pre a mid b post Ep Hm. destruct (HK pre a mid b post Ep Hm) as (p & Hp & Hgt).
    assert (Ia : In a pts) by (rewrite Ep; apply in_app_iff; right; left; auto).
    assert (Ib : In b pts) by (rewrite Ep; apply in_app_iff; right; right; apply in_app_iff; right; left; auto).
    assert (Im : forall q, In q mid -> In q pts) by (intros q Hq; rewrite Ep; apply in_app_iff; right; right; apply in_app_iff; left; auto).
    destruct (farthest_max (S := FS) dist (fun x => x <> S754_nan) (OrdOn_float prec emax epsexp at2) a mid b Hm) as [HD Hmax'].
    { intros q Hq. apply not_nan. apply Hn; auto. }
    specialize (Hmax' p Hp). destruct (Hn a b p) as [Gp Lp]; auto.
    pose proof (OrdOn_float prec emax epsexp at2) as HO.
    rewrite (ord_leb _ _ HO) by (auto; apply not_nan; auto). apply Bool.negb_false_iff.
    destruct (sltb (s := FS) (smul (s := FS) d d) (fst (farthest dist (a :: mid ++ [b]) a b))) eqn:C; auto. exfalso.
    pose proof (ord_neg_trans _ _ HO (smul (s := FS) d d) (fst (farthest dist (a :: mid ++ [b]) a b)) (dist a b p)) as T. cbv beta in T.
    assert (T' : sltb (s := FS) (smul (s := FS) d d) (dist a b p) = false) by (apply T; auto; apply not_nan; auto).
    cbn [sltb smul FloatS] in T'. rewrite (ltb_R prec emax at2 _ _ G2 Gp) in T'. apply Rltb_false in T'.
    assert (X : f * E a b p <= (1 + u) * (rv d * rv d)) by lra.
    assert (Y : (1 + u) * (rv d * rv d) <= f * (rv d * (1 + w) * (rv d * (1 + w)))).
    { replace (f * (rv d * (1 + w) * (rv d * (1 + w)))) with (f * ((1 + w) * (1 + w)) * (rv d * rv d)) by ring. apply Rmult_le_compat_r; auto. apply Rle_0_sqr. }
    nra.
  Qed.

  (* the point is within r of the segment; the point is within r of the line *)
  Definition near_segment (r : R) (a b p : V2 FS) : Prop := exists q, on_segment q (val a) (val b) /\ edist (val p) q <= r.
  Definition near_line3 (r : R) (a b p : V3 FS) : Prop := exists t, edist3 (val3 p) (lerp3 (val3 a) (val3 b) t) <= r.
  Lemma f2_ok : 0 < (1 - u) * (1 - u) /\ 1 + u <= (1 - u) * (1 - u) * ((1 + 2 * u) * (1 + 2 * u)).
  Proof.
    assert (U := u_bounds). split; [nra|]. assert (X : 1 + u / 2 <= (1 - u) * (1 + 2 * u)) by nra.
    replace ((1 - u) * (1 - u) * ((1 + 2 * u) * (1 + 2 * u))) with (((1 - u) * (1 + 2 * u)) * ((1 - u) * (1 + 2 * u))) by ring. nra.
  Qed.
  Lemma f4_ok : u <= / 8 -> 0 < (1 - u) * (1 - u) * ((1 - u) * (1 - u)) /\ 1 + u <= (1 - u) * (1 - u) * ((1 - u) * (1 - u)) * ((1 + 4 * u) * (1 + 4 * u)).
  Proof.
    assert (U := u_bounds). intros U8. split; [assert (0 < (1 - u) * (1 - u)) by nra; nra|]. assert (X : 1 + u / 2 <= (1 - u) * (1 - u) * (1 + 4 * u)) by nra.
    replace ((1 - u) * (1 - u) * ((1 - u) * (1 - u)) * ((1 + 4 * u) * (1 + 4 * u))) with (((1 - u) * (1 - u) * (1 + 4 * u)) * ((1 - u) * (1 - u) * (1 + 4 * u))) by ring. nra.
  Qed.
  Lemma rdp2_near pts d out : Forall onp pts -> tolerance_ok d -> pts <> [] -> simplify_rdp_2d (S := FS) pts d = Val out -> thinned (near_segment (rv d * (1 + 2 * u))) pts out.
  Proof.
    intros HL Hd Hne Es. destruct f2_ok as [F1 F2]. assert (U := u_bounds).
    eapply thinned_impl; [|apply (thin_near dist_line2_safe (fun a b p => dist_line2_safe (S := RS) (val a) (val b) (val p)) ((1 - u) * (1 - u)) (2 * u) onp pts d out); auto; try lra; apply dist2_near].
    intros a b p H. cbv beta in H. destruct (dist_line2_safe_R (val a) (val b) (val p)) as [(t & Ht & Et) _]. rewrite Et in H. exists (lerp (val a) (val b) t).
    split; [exists t; auto|]. apply edist_le_sq; auto. destruct Hd as (_ & Pd & _). apply Rmult_le_pos; lra.
  Qed.
  Lemma rdp2_kept pts d : Forall onp pts -> tolerance_ok d ->
    (forall pre a mid b post, pts = pre ++ a :: mid ++ b :: post -> mid <> [] -> exists p, In p mid /\ ~ near_segment (rv d * (1 + 2 * u)) a b p) ->
    simplify_rdp_2d (S := FS) pts d = Val pts.
  Proof.
    intros HL Hd HK. destruct f2_ok as [F1 F2]. assert (U := u_bounds).
    apply (kept_near dist_line2_safe (fun a b p => dist_line2_safe (S := RS) (val a) (val b) (val p)) ((1 - u) * (1 - u)) (2 * u) onp); auto; try lra; [apply dist2_near|].
    intros pre a mid b post Ep Hm. destruct (HK pre a mid b post Ep Hm) as (p & Hp & Hf). exists p. split; auto. apply Rnot_le_lt. intros C. apply Hf.
    destruct (dist_line2_safe_R (val a) (val b) (val p)) as [(t & Ht & Et) _]. rewrite Et in C. exists (lerp (val a) (val b) t).
    split; [exists t; auto|]. apply edist_le_sq; auto. destruct Hd as (_ & Pd & _). apply Rmult_le_pos; lra.
  Qed.
  Lemma dist3_line_R (a b p : pt3) : exists t, dist_line3_safe a b p = sqdist3 p (lerp3 a b t).
  Proof.
    destruct (weqb a b) eqn:Eab.
    - apply weqb_R in Eab. subst b. exists 0. rewrite dist_line3_safe_point. unfold sqdist3, lerp3; simpl; ring.
    - apply dist_line3_safe_R. intros ->. assert (weqb b b = true) by (apply weqb_R; auto). congruence.
  Qed.
  Lemma edist3_le_sq p q d : 0 <= d -> sqdist3 p q <= d * d -> edist3 p q <= d.
  Proof.
    intros Hd H. unfold edist3. rewrite <- (sqrt_square d) by auto. apply sqrt_le_1; auto; [|nra].
    unfold sqdist3. apply Rplus_le_le_0_compat; [apply Rplus_le_le_0_compat|]; apply Rle_0_sqr.
  Qed.
  Lemma rdp3_near pts d out : u <= / 8 -> Forall onp3 pts -> tolerance_ok d -> pts <> [] -> simplify_rdp_3d (S := FS) pts d = Val out -> thinned (near_line3 (rv d * (1 + 4 * u))) pts out.
  Proof.
    intros U8 HL Hd Hne Es. destruct (f4_ok U8) as [F1 F2]. assert (U := u_bounds).
    eapply thinned_impl; [|apply (thin_near dist_line3_safe (fun a b p => dist_line3_safe (S := RS) (val3 a) (val3 b) (val3 p)) ((1 - u) * (1 - u) * ((1 - u) * (1 - u))) (4 * u) onp3 pts d out); auto; try lra; apply dist3_near].
    intros a b p H. cbv beta in H. destruct (dist3_line_R (val3 a) (val3 b) (val3 p)) as (t & Et). rewrite Et in H. exists t.
    apply edist3_le_sq; auto. destruct Hd as (_ & Pd & _). apply Rmult_le_pos; lra.
  Qed.
End Grid.
