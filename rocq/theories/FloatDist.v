(* Point-to-line distances of float points whose coordinates are small multiples of a power of two: the computed squared
   distance is within a few roundings of the exact one, from both sides. *)
From Coq Require Import ZArith Reals Lra Lia Psatz Floats.SpecFloat.
From Flocq Require Import Core BinarySingleNaN.
From Verif Require Import Prelude Scalar RInst Flt FloatSpec FloatLink FloatGrid FloatRound Geo2 Geo3 GeoSpec DistR Simplify Rdp1 Rdp2 FltOrd FloatIsect FloatRdp.
Local Open Scope R_scope.

(* a line all of whose interior points are within the tolerance keeps its ends only *)
Lemma rdp_ends {S : Scalar} {A} (dist : A -> A -> A -> car S) a mid b d :
  (forall p, In p mid -> sleb (dist a b p) (smul d d) = true) -> simplify_rdp dist (a :: mid ++ [b]) d = Val [a; b].
Proof.
  intros H. destruct mid as [|m mid]; [reflexivity|]. assert (Hm : m :: mid <> []) by discriminate. remember (m :: mid) as l eqn:El.
  unfold simplify_rdp. replace (Nat.leb (length (a :: l ++ [b])) 2) with false.
  2:{ symmetry. apply Nat.leb_gt. rewrite El. cbn [length app]. rewrite app_length. cbn [length]. lia. }
  change (idx (a :: l ++ [b]) 0) with (Val a). cbn [obind].
  change (length (a :: l ++ [b])) with (Datatypes.S (length (l ++ [b]))). rewrite (rdp_rec_step dist) by auto.
  destruct (farthest dist (a :: l ++ [b]) a b) as [v i] eqn:E. destruct (farthest_split dist a l b v i Hm E) as (m1 & p & m2 & E1 & -> & _).
  rewrite (H p) by (rewrite E1; apply in_app_iff; right; left; auto). reflexivity.
Qed.

Section Grid.
  Context (prec emax epsexp : Z) (at2 : spec_float -> spec_float -> spec_float) (Hprec : Prec_gt_0 prec) (Hmax : Prec_lt_emax prec emax).
  Notation FS := (FloatS prec emax epsexp at2).
  Notation emin := (SpecFloat.emin prec emax).
  Notation good := (finite_float prec emax).
  Notation rv := fvalue.
  Notation ong := (on_grid prec emax).
  Notation rnd := (round radix2 (SpecFloat.fexp prec emax) ZnearestE).
  Notation u := (ulp1 prec).

  Lemma mag_sqdist (q p : pt) : vmag2 (S := RS) (vsub q p) = sqdist p q.
  Proof. destruct q as [a b], p as [c d]. unfold sqdist, vmag2, vdot, vsub. rsimp. rring. Qed.

  Lemma dist_line2_safe_point (a p : pt) : dist_line2_safe (S := RS) a a p = sqdist p a.
  Proof.
    unfold dist_line2_safe. replace (vulps a a) with true by (symmetry; apply vulps_R; auto). apply mag_sqdist.
  Qed.

  Lemma square_up t m c : (m <= 2 ^ prec)%Z -> (emin + prec - 1 <= t + t)%Z -> (prec + prec + (t + t) < emax)%Z -> ong t m c ->
    rv (SFmul prec emax c c) <= (1 + u) * (rv c * rv c).
  Proof.
    intros Hm H1 H2 Hc. assert (Hle := grid_le prec emax Hprec t m c Hc Hm).
    assert (B : Rabs (rv c * rv c) <= bpow radix2 (prec + prec + (t + t))).
    { rewrite Rabs_mult. replace (prec + prec + (t + t))%Z with ((prec + t) + (prec + t))%Z by lia. rewrite bpow_plus. apply Rmult_le_compat; auto using Rabs_pos. }
    destruct (mul_rnd prec emax Hprec Hmax c c) as [G E]; [apply Hc|apply Hc|eapply rnd_finite; [..|exact B]; auto; unfold Prec_gt_0 in Hprec; lia|].
    rewrite E. destruct (Req_dec (rv c) 0) as [Z0|NZ].
    - rewrite Z0, Rmult_0_r, rnd_0. lra.
    - assert (L : bpow radix2 (t + t) <= rv c * rv c).
      { destruct Hc as (_ & k & _ & Ek). rewrite Ek in *. assert (k <> 0%Z) by (intros ->; apply NZ; ring). rewrite bpow_plus.
        assert (1 <= IZR (k * k)) by (apply IZR_le; nia). rewrite mult_IZR in H0. pose proof (bpow_gt_0 radix2 t).
        replace (IZR k * bpow radix2 t * (IZR k * bpow radix2 t)) with (IZR k * IZR k * (bpow radix2 t * bpow radix2 t)) by ring. nra. }
      apply rnd_near; auto; [apply Rle_0_sqr|]. right. unfold normal. rewrite Rabs_pos_eq by apply Rle_0_sqr. eapply Rle_trans; [apply bpow_le; exact H1|auto].
  Qed.
  Lemma quot_up (t : Z) (m : Z) (x y : spec_float) (e : Z) : (m <= 2 ^ prec)%Z -> (emin + prec + prec - 1 <= t)%Z -> (e - t < emax)%Z -> (emin <= e - t)%Z ->
    good x -> ong t m y -> 0 < rv y -> rv x = 0 \/ bpow radix2 (t + t) <= rv x -> 0 <= rv x -> rv x <= bpow radix2 e ->
    rv (SFdiv prec emax x y) <= (1 + u) * (rv x / rv y).
  Proof.
    intros Hm H1 H2 H3 Gx Hy Py Lx X0 Hx. assert (Ly := grid_ge prec emax t m y Hy Py). assert (Uy := grid_le prec emax Hprec t m y Hy Hm). rewrite Rabs_pos_eq in Uy by lra.
    assert (Bt := bpow_gt_0 radix2 t).
    assert (Q : 0 <= rv x / rv y) by (apply Rmult_le_pos; auto; left; apply Rinv_0_lt_compat; auto).
    assert (QB : rv x / rv y <= bpow radix2 (e - t)).
    { apply Rmult_le_reg_r with (rv y); auto. unfold Rdiv. rewrite Rmult_assoc, Rinv_l, Rmult_1_r by lra. eapply Rle_trans; [exact Hx|].
      replace e with ((e - t) + t)%Z at 1 by lia. rewrite bpow_plus. apply Rmult_le_compat_l; auto. apply bpow_ge_0. }
    destruct (div_rnd prec emax Hprec Hmax x y) as [G E]; auto; [apply Hy|lra|eapply rnd_finite; [auto| |rewrite Rabs_pos_eq by auto; exact QB]; lia|].
    rewrite E. apply rnd_near; auto. destruct Lx as [Z0|Lx]; [left; rewrite Z0; unfold Rdiv; ring|right].
    unfold normal. rewrite Rabs_pos_eq by auto. apply Rle_trans with (bpow radix2 (t - prec)); [apply bpow_le; lia|].
    apply Rmult_le_reg_r with (rv y); auto. unfold Rdiv. rewrite Rmult_assoc, Rinv_l, Rmult_1_r by lra.
    apply Rle_trans with (bpow radix2 (t - prec) * bpow radix2 (prec + t)); [apply Rmult_le_compat_l; auto; apply bpow_ge_0|].
    rewrite <- bpow_plus. replace (t - prec + (prec + t))%Z with (t + t)%Z by lia. auto.
  Qed.
  Lemma add_up (x y : spec_float) (t e : Z) : (emin + prec - 1 <= t)%Z -> (e + 1 < emax)%Z -> (emin <= e)%Z -> good x -> good y -> 0 <= rv x -> 0 <= rv y ->
    rv x = 0 \/ bpow radix2 t <= rv x -> rv y = 0 \/ bpow radix2 t <= rv y -> rv x <= bpow radix2 e -> rv y <= bpow radix2 e ->
    rv (SFadd prec emax x y) <= (1 + u) * (rv x + rv y).
  Proof.
    intros H1 H2 H3 Gx Gy X0 Y0 Lx Ly Ux Uy. assert (B := bpow_gt_0 radix2 t).
    assert (S : Rabs (rv x + rv y) <= bpow radix2 (e + 1)). { rewrite Rabs_pos_eq by lra. rewrite bpow_plus. cbn. lra. }
    destruct (add_rnd prec emax Hprec Hmax x y) as [G E]; auto; [eapply rnd_finite; [auto| |exact S]; lia|].
    rewrite E. destruct (Rle_or_lt (bpow radix2 t) (rv x + rv y)) as [L|L].
    - apply rnd_near; auto; [lra|]. right. unfold normal. rewrite Rabs_pos_eq by lra. eapply Rle_trans; [apply bpow_le; exact H1|auto].
    - assert (Z : rv x + rv y = 0) by (destruct Lx, Ly; lra). rewrite Z, rnd_0. lra.
  Qed.

  Context (s n : Z) (OK : rdp_ok prec emax epsexp s n).
  Notation onp := (@grid_point prec emax epsexp at2 s n).
  Notation val := (@point_value prec emax epsexp at2).
  Notation onp3 := (@grid_point3 prec emax epsexp at2 s n).
  Notation val3 := (@point_value3 prec emax epsexp at2).
  Notation dif := (dif prec emax epsexp Hprec Hmax s n OK).
  Notation prd := (prd prec emax epsexp Hprec Hmax s n OK).
  Notation sm2 := (sm2 prec emax epsexp Hprec Hmax s n OK).
  Notation df2 := (df2 prec emax epsexp Hprec Hmax s n OK).
  Notation sm3 := (sm3 prec emax epsexp Hprec Hmax s n OK).
  Notation n8 := (n8 prec emax epsexp s n OK).
  Notation u_bounds := (u_bounds prec emax epsexp s n OK).

  Notation grid_le := (grid_le prec emax Hprec).
  Notation grid_ge := (grid_ge prec emax).
  Notation rnd_bpow := (rnd_bpow prec emax Hprec).
  Notation rnd_le_1 := (rnd_le_1 prec emax Hprec).

  Lemma dist2_both (a b p : V2 FS) : onp a -> onp b -> onp p -> val a <> val b ->
    good (dist_line2 a b p) /\
    (1 - u) * (1 - u) * dist_line2_safe (S := RS) (val a) (val b) (val p) <= rv (dist_line2 a b p) <= (1 + u) * (1 + u) * dist_line2_safe (S := RS) (val a) (val b) (val p).
  Proof.
    intros [Ax Ay] [Bx By] [Px Py] Hne. assert (OK' := OK). destruct OK'. assert (N8 := n8). assert (U := u_bounds).
    assert (Enn : 0 <= dist_line2_safe (S := RS) (val a) (val b) (val p)).
    { destruct (dist_line2_safe_R (val a) (val b) (val p)) as [(t & _ & ->) _]. apply sqdist_nonneg. }
    assert (U2 : forall v, v = dist_line2_safe (S := RS) (val a) (val b) (val p) ->
      (1 - u) * (1 - u) * dist_line2_safe (S := RS) (val a) (val b) (val p) <= v <= (1 + u) * (1 + u) * dist_line2_safe (S := RS) (val a) (val b) (val p)).
    { intros v ->. assert ((1 - u) * (1 - u) <= 1) by nra. assert (1 <= (1 + u) * (1 + u)) by nra. split; nra. }
    destruct (dif _ _ Ax Px) as [F1 F1e], (dif _ _ Ay Py) as [F2 F2e].
    destruct (prd _ _ F1 F1) as [S1 S1e], (prd _ _ F2 F2) as [S2 S2e], (sm2 _ _ S1 S2) as [M M_e].
      destruct (dif _ _ Ax Bx) as [D1 D1e], (dif _ _ Ay By) as [D2 D2e].
      destruct (prd _ _ D1 D1) as [Q1 Q1e], (prd _ _ D2 D2) as [Q2 Q2e], (sm2 _ _ Q1 Q2) as [D De].
      destruct (prd _ _ F1 D1) as [T1 T1e], (prd _ _ F2 D2) as [T2 T2e], (sm2 _ _ T1 T2) as [N Ne].
      destruct (prd _ _ F1 D2) as [W1 W1e], (prd _ _ F2 D1) as [W2 W2e], (df2 _ _ W1 W2) as [C Ce].
      assert (Dpos : 0 < rv (SFadd prec emax (SFmul prec emax (SFsub prec emax (vx a) (vx b)) (SFsub prec emax (vx a) (vx b))) (SFmul prec emax (SFsub prec emax (vy a) (vy b)) (SFsub prec emax (vy a) (vy b))))).
      { rewrite De, Q1e, Q2e, D1e, D2e. pose proof (sq_nn (rv (vx a) - rv (vx b))). pose proof (sq_nn (rv (vy a) - rv (vy b))).
        destruct (Req_dec (rv (vx a) - rv (vx b)) 0) as [Ex|Ex]; [|apply sq_pos in Ex; lra].
        destruct (Req_dec (rv (vy a) - rv (vy b)) 0) as [Ey|Ey]; [|apply sq_pos in Ey; lra].
        exfalso. apply Hne. unfold point_value. f_equal; lra. }
      assert (ED : dist_line2_safe (S := RS) (val a) (val b) (val p) = dist_line2 (S := RS) (val a) (val b) (val p)).
      { symmetry. apply dist_line2_eq. auto. }
      unfold dist_line2. unfold vmag2, vdot, vsub, vperp. cbn [vx vy sadd ssub smul sdiv sltb s0 s1 FloatS].
      set (Df := SFadd prec emax (SFmul prec emax (SFsub prec emax (vx a) (vx b)) (SFsub prec emax (vx a) (vx b))) (SFmul prec emax (SFsub prec emax (vy a) (vy b)) (SFsub prec emax (vy a) (vy b)))) in *.
      set (Nf := SFadd prec emax (SFmul prec emax (SFsub prec emax (vx a) (vx p)) (SFsub prec emax (vx a) (vx b))) (SFmul prec emax (SFsub prec emax (vy a) (vy p)) (SFsub prec emax (vy a) (vy b)))) in *.
      set (Cf := SFsub prec emax (SFmul prec emax (SFsub prec emax (vx a) (vx p)) (SFsub prec emax (vy a) (vy b))) (SFmul prec emax (SFsub prec emax (vy a) (vy p)) (SFsub prec emax (vx a) (vx b)))) in *.
      assert (DL := grid_ge _ _ _ D Dpos). assert (DU := grid_le _ _ _ D N8). rewrite Rabs_pos_eq in DU by lra. assert (NU := grid_le _ _ _ N N8).
      assert (B2 := bpow_gt_0 radix2 (s + s)).
      assert (QB : Rabs (rv Nf / rv Df) <= bpow radix2 prec).
      { unfold Rdiv. rewrite Rabs_mult, Rabs_inv, (Rabs_pos_eq (rv Df)) by lra. apply Rmult_le_reg_r with (rv Df); auto.
        rewrite Rmult_assoc, Rinv_l, Rmult_1_r by lra. eapply Rle_trans; [exact NU|]. rewrite bpow_plus. apply Rmult_le_compat_l; auto. apply bpow_ge_0. }
      destruct (div_rnd prec emax Hprec Hmax Nf Df) as [Gt Et]; [apply N|apply D|lra|eapply rnd_finite; [auto| |exact QB]; lia|].
      assert (G0 : good (S754_zero false)) by apply good_zero.
      destruct (fl_of_Z_good prec emax Hprec Hmax 1) as [G1 E1]; [rewrite Z.abs_eq by lia; apply (Z.pow_le_mono_r 2 0 prec); lia|unfold scale_ok; lia|].
      rewrite (ltb_R prec emax at2 _ _ Gt G0), (ltb_R prec emax at2 _ _ G1 Gt), E1. change (rv (S754_zero false)) with 0.
      assert (DR : rv Df = vmag2 (S := RS) (vsub (val a) (val b))).
      { rewrite De, Q1e, Q2e, D1e, D2e. reflexivity. }
      assert (NR : rv Nf = vdot (S := RS) (vsub (val a) (val p)) (vsub (val a) (val b))).
      { rewrite Ne, T1e, T2e, F1e, F2e, D1e, D2e. reflexivity. }
      assert (CR : rv Cf = vperp (S := RS) (vsub (val a) (val p)) (vsub (val a) (val b))).
      { rewrite Ce, W1e, W2e, F1e, F2e, D1e, D2e. reflexivity. }
      assert (ED2 : dist_line2 (S := RS) (val a) (val b) (val p) = if Rltb (rv Nf / rv Df) 0 then sqdist (val p) (val a) else if Rltb 1 (rv Nf / rv Df) then sqdist (val p) (val b) else rv Cf * rv Cf / rv Df).
      { rewrite DR, NR, CR. unfold dist_line2. cbv zeta. cbn [sltb s0 s1 RS sdiv smul].
        replace (vmag2 (S := RS) (vsub (val a) (val p))) with (sqdist (val p) (val a)) by (symmetry; apply mag_sqdist).
        replace (vmag2 (S := RS) (vsub (val b) (val p))) with (sqdist (val p) (val b)) by (symmetry; apply mag_sqdist).
        reflexivity. }
      clear DR NR CR. rewrite ED in *. rewrite ED2 in *. clear ED ED2.
      destruct (Rltb_spec (rv (SFdiv prec emax Nf Df)) 0) as [L0|L0].
      { split; [apply M|]. apply U2. rewrite M_e, S1e, S2e, F1e, F2e.
        assert (Ng : rv Nf / rv Df < 0).
        { apply Rnot_le_lt. intros C0. rewrite Et in L0. pose proof (rnd_nonneg prec emax Hprec _ C0). lra. }
        replace (Rltb (rv Nf / rv Df) 0) with true by (symmetry; apply Rltb_true; auto). unfold sqdist, point_value. cbn [vx vy]. rring. }
      apply Rnot_lt_le in L0. rewrite Et in L0.
      assert (N0 : 0 <= rv Nf).
      { apply Rnot_lt_le. intros Ng. assert (NL : bpow radix2 (s + s) <= - rv Nf).
          { destruct N as (_ & k & _ & Ek). rewrite Ek in *. assert (k < 0)%Z. { apply lt_IZR. apply Rmult_lt_reg_r with (bpow radix2 (s + s)); auto. lra. }
            assert (IZR k <= -1) by (apply IZR_le; lia). nra. }
          assert (Q : rv Nf / rv Df <= - bpow radix2 (- prec)).
          { apply Rmult_le_reg_r with (rv Df); auto. unfold Rdiv. rewrite Rmult_assoc, Rinv_l, Rmult_1_r by lra.
            assert (bpow radix2 (- prec) * rv Df <= bpow radix2 (s + s)); [|lra].
            apply Rle_trans with (bpow radix2 (- prec) * bpow radix2 (prec + (s + s))); [apply Rmult_le_compat_l; auto; apply bpow_ge_0|]. rewrite <- bpow_plus. right. f_equal. lia. }
          apply (rnd_le prec emax Hprec) in Q. rewrite rnd_opp, rnd_bpow in Q by (unfold Prec_lt_emax, Prec_gt_0, SpecFloat.emin in *; lia). pose proof (bpow_gt_0 radix2 (- prec)). lra. }
      assert (Q0 : 0 <= rv Nf / rv Df) by (apply Rmult_le_pos; auto; left; apply Rinv_0_lt_compat; auto).
      replace (Rltb (rv Nf / rv Df) 0) with false in * by (symmetry; apply Rltb_false; auto).
      destruct (Rltb_spec 1 (rv (SFdiv prec emax Nf Df))) as [L1|L1].
      + destruct (dif _ _ Bx Px) as [H1 H1e], (dif _ _ By Py) as [H2 H2e].
        destruct (prd _ _ H1 H1) as [K1 K1e], (prd _ _ H2 H2) as [K2 K2e], (sm2 _ _ K1 K2) as [K Ke]. split; [apply K|]. apply U2.
        rewrite Ke, K1e, K2e, H1e, H2e.
        assert (Ng : 1 < rv Nf / rv Df).
        { apply Rnot_le_lt. intros C0. rewrite Et in L1. apply (rnd_le prec emax Hprec) in C0. assert (R1 : rnd 1 = 1) by (change 1 with (bpow radix2 0); apply rnd_bpow; unfold Prec_gt_0 in Hprec; lia). rewrite R1 in C0. lra. }
        replace (Rltb 1 (rv Nf / rv Df)) with true by (symmetry; apply Rltb_true; auto). unfold sqdist, point_value. cbn [vx vy]. rring.
      + apply Rnot_lt_le in L1. rewrite Et in L1.
        assert (ND : rv Nf <= rv Df).
        { apply Rnot_lt_le. intros Gt'. apply rnd_le_1 in L1; auto.
          assert (X : rv Df + bpow radix2 (s + s) <= rv Nf).
          { destruct N as (_ & k & _ & Ek), D as (_ & l & _ & El). rewrite Ek, El in *. assert (l < k)%Z. { apply lt_IZR. apply Rmult_lt_reg_r with (bpow radix2 (s + s)); auto. }
            assert (IZR l + 1 <= IZR k) by (rewrite <- plus_IZR; apply IZR_le; lia). nra. }
          assert (Y : rv Nf <= (1 + u) * rv Df).
          { apply Rmult_le_compat_r with (r := rv Df) in L1; [|lra]. unfold Rdiv in L1. rewrite Rmult_assoc, Rinv_l, Rmult_1_r in L1 by lra. exact L1. }
          assert (Z : u * rv Df < bpow radix2 (s + s)); [|lra].
          apply Rlt_le_trans with (u * bpow radix2 (prec + (s + s))).
          - apply Rmult_lt_compat_l; [lra|]. apply Rlt_le_trans with (rv Nf); [lra|]. rewrite Rabs_pos_eq in NU by auto. auto.
          - unfold ulp1. rewrite <- bpow_plus. right. f_equal. lia. }
        destruct (square_near prec emax Hprec Hmax (s + s) (8 * (n * n)) Cf) as (Gc & [Lc Uc] & Nc & Pc); auto; [lia|].
        assert (Uc2 : rv (SFmul prec emax Cf Cf) <= (1 + u) * (rv Cf * rv Cf)) by (apply (square_up (s + s) (8 * (n * n))); auto; lia).
        assert (Nc' : rv (SFmul prec emax Cf Cf) = 0 \/ bpow radix2 (s + s + (s + s)) <= rv (SFmul prec emax Cf Cf)) by (destruct Nc as [K|K]; [left; eapply square_zero; eauto|auto]).
        destruct (quot_near prec emax Hprec Hmax (s + s) (8 * (n * n)) (SFmul prec emax Cf Cf) Df (prec + prec + ((s + s) + (s + s)))) as [Gq Lq]; auto; try lia.
        assert (Uq : rv (SFdiv prec emax (SFmul prec emax Cf Cf) Df) <= (1 + u) * (rv (SFmul prec emax Cf Cf) / rv Df)) by (apply (quot_up (s + s) (8 * (n * n)) _ _ (prec + prec + ((s + s) + (s + s)))); auto; lia).
        split; [exact Gq|].
        assert (Q1' : rv Nf / rv Df <= 1).
        { apply Rmult_le_reg_r with (1 := Dpos). unfold Rdiv. rewrite Rmult_assoc, Rinv_l, Rmult_1_r, Rmult_1_l by lra. auto. }
        replace (Rltb 1 (rv Nf / rv Df)) with false by (symmetry; apply Rltb_false; auto).
        assert (I0 : 0 <= / rv Df) by (left; apply Rinv_0_lt_compat; auto). split.
        * eapply Rle_trans; [|exact Lq]. rewrite Rmult_assoc. apply Rmult_le_compat_l; [lra|].
          unfold Rdiv. rewrite <- Rmult_assoc. apply Rmult_le_compat_r; [exact I0|]. exact Lc.
        * eapply Rle_trans; [exact Uq|]. rewrite Rmult_assoc. apply Rmult_le_compat_l; [lra|].
          unfold Rdiv. rewrite <- Rmult_assoc. apply Rmult_le_compat_r; [exact I0|]. exact Uc2.
  Qed.

  Lemma dist3_both (a b p : V3 FS) : onp3 a -> onp3 b -> onp3 p -> val3 a <> val3 b ->
    good (dist_line3 a b p) /\
    (1 - u) * (1 - u) * ((1 - u) * (1 - u)) * dist_line3_safe (S := RS) (val3 a) (val3 b) (val3 p) <= rv (dist_line3 a b p)
      <= (1 + u) * (1 + u) * ((1 + u) * (1 + u)) * dist_line3_safe (S := RS) (val3 a) (val3 b) (val3 p).
  Proof.
    intros (Ax & Ay & Az) (Bx & By & Bz) (Px & Py & Pz) Hne. assert (OK' := OK). destruct OK'. assert (N8 := n8). assert (U := u_bounds).
    destruct (dif _ _ Ax Px) as [F1 F1e], (dif _ _ Ay Py) as [F2 F2e], (dif _ _ Az Pz) as [F3 F3e].
    destruct (dif _ _ Ax Bx) as [D1 D1e], (dif _ _ Ay By) as [D2 D2e], (dif _ _ Az Bz) as [D3 D3e].
      destruct (prd _ _ D1 D1) as [Q1 Q1e], (prd _ _ D2 D2) as [Q2 Q2e], (prd _ _ D3 D3) as [Q3 Q3e], (sm3 _ _ _ Q1 Q2 Q3) as [D De].
      assert (Dpos : 0 < (rv (wx a) - rv (wx b)) * (rv (wx a) - rv (wx b)) + (rv (wy a) - rv (wy b)) * (rv (wy a) - rv (wy b)) + (rv (wz a) - rv (wz b)) * (rv (wz a) - rv (wz b))).
      { pose proof (sq_nn (rv (wx a) - rv (wx b))). pose proof (sq_nn (rv (wy a) - rv (wy b))). pose proof (sq_nn (rv (wz a) - rv (wz b))).
        destruct (Req_dec (rv (wx a) - rv (wx b)) 0) as [Ex|Ex]; [|apply sq_pos in Ex; lra].
        destruct (Req_dec (rv (wy a) - rv (wy b)) 0) as [Ey|Ey]; [|apply sq_pos in Ey; lra].
        destruct (Req_dec (rv (wz a) - rv (wz b)) 0) as [Ez|Ez]; [|apply sq_pos in Ez; lra].
        exfalso. apply Hne. unfold point_value3. f_equal; lra. }
      destruct (prd _ _ F2 D3) as [X1 X1e], (prd _ _ F3 D2) as [X2 X2e], (df2 _ _ X1 X2) as [X Xe].
      destruct (prd _ _ F3 D1) as [Y1 Y1e], (prd _ _ F1 D3) as [Y2 Y2e], (df2 _ _ Y1 Y2) as [Y Ye].
      destruct (prd _ _ F1 D2) as [Z1 Z1e], (prd _ _ F2 D1) as [Z2 Z2e], (df2 _ _ Z1 Z2) as [Z Ze].
      rewrite X1e, X2e, F2e, D3e, F3e, D2e in Xe. rewrite Y1e, Y2e, F3e, D1e, F1e, D3e in Ye. rewrite Z1e, Z2e, F1e, D2e, F2e, D1e in Ze.
      rewrite Q1e, Q2e, Q3e, D1e, D2e, D3e in De.
      unfold dist_line3, cross_abs_squared, wsub. cbn [wx wy wz sadd ssub smul sdiv FloatS].
      match type of X with ong _ _ ?x => set (Xf := x) in * end. match type of Y with ong _ _ ?x => set (Yf := x) in * end. match type of Z with ong _ _ ?x => set (Zf := x) in * end.
      match type of D with ong _ _ ?x => set (Df := x) in * end.
      destruct (square_near prec emax Hprec Hmax (s + s) (8 * (n * n)) Xf) as (GX & [LX UX] & NX & PX); auto; [lia|].
      destruct (square_near prec emax Hprec Hmax (s + s) (8 * (n * n)) Yf) as (GY & [LY UY] & NY & PY); auto; [lia|].
      destruct (square_near prec emax Hprec Hmax (s + s) (8 * (n * n)) Zf) as (GZ & [LZ UZ] & NZ & PZ); auto; [lia|].
      assert (NX' : rv (SFmul prec emax Xf Xf) = 0 \/ bpow radix2 (s + s + (s + s)) <= rv (SFmul prec emax Xf Xf)) by (destruct NX as [K|K]; [left; eapply square_zero; eauto|auto]).
      assert (NY' : rv (SFmul prec emax Yf Yf) = 0 \/ bpow radix2 (s + s + (s + s)) <= rv (SFmul prec emax Yf Yf)) by (destruct NY as [K|K]; [left; eapply square_zero; eauto|auto]).
      assert (NZ' : rv (SFmul prec emax Zf Zf) = 0 \/ bpow radix2 (s + s + (s + s)) <= rv (SFmul prec emax Zf Zf)) by (destruct NZ as [K|K]; [left; eapply square_zero; eauto|auto]).
      destruct (add_near prec emax Hprec Hmax (SFmul prec emax Xf Xf) (SFmul prec emax Yf Yf) (s + s + (s + s)) (prec + prec + (s + s + (s + s)))) as (G1 & [L1 U1] & N1 & P1); auto; try lia.
      destruct (add_near prec emax Hprec Hmax (SFadd prec emax (SFmul prec emax Xf Xf) (SFmul prec emax Yf Yf)) (SFmul prec emax Zf Zf) (s + s + (s + s)) (prec + prec + (s + s + (s + s)) + 1)) as (G2 & [L2 U2'] & N2 & P2); auto; try lia.
      { eapply Rle_trans; [exact UZ|]. apply bpow_le. lia. }
      assert (DP : 0 < rv Df) by (rewrite De; exact Dpos).
      destruct (quot_near prec emax Hprec Hmax (s + s) (12 * (n * n)) (SFadd prec emax (SFadd prec emax (SFmul prec emax Xf Xf) (SFmul prec emax Yf Yf)) (SFmul prec emax Zf Zf)) Df (prec + prec + (s + s + (s + s)) + 1 + 1)) as [Gq Lq]; auto; try lia.

      assert (VX : rv (SFmul prec emax Xf Xf) <= (1 + u) * (rv Xf * rv Xf)) by (apply (square_up (s + s) (8 * (n * n))); auto; lia).
      assert (VY : rv (SFmul prec emax Yf Yf) <= (1 + u) * (rv Yf * rv Yf)) by (apply (square_up (s + s) (8 * (n * n))); auto; lia).
      assert (VZ : rv (SFmul prec emax Zf Zf) <= (1 + u) * (rv Zf * rv Zf)) by (apply (square_up (s + s) (8 * (n * n))); auto; lia).
      assert (V1 := add_up (SFmul prec emax Xf Xf) (SFmul prec emax Yf Yf) (s + s + (s + s)) (prec + prec + (s + s + (s + s))) ltac:(lia) ltac:(lia) ltac:(lia) GX GY PX PY NX' NY' UX UY).
      assert (V2 : rv (SFadd prec emax (SFadd prec emax (SFmul prec emax Xf Xf) (SFmul prec emax Yf Yf)) (SFmul prec emax Zf Zf)) <= (1 + u) * (rv (SFadd prec emax (SFmul prec emax Xf Xf) (SFmul prec emax Yf Yf)) + rv (SFmul prec emax Zf Zf))).
      { apply (add_up _ _ (s + s + (s + s)) (prec + prec + (s + s + (s + s)) + 1)); auto; try lia. eapply Rle_trans; [exact UZ|]. apply bpow_le. lia. }
      assert (Vq : rv (SFdiv prec emax (SFadd prec emax (SFadd prec emax (SFmul prec emax Xf Xf) (SFmul prec emax Yf Yf)) (SFmul prec emax Zf Zf)) Df) <=
        (1 + u) * (rv (SFadd prec emax (SFadd prec emax (SFmul prec emax Xf Xf) (SFmul prec emax Yf Yf)) (SFmul prec emax Zf Zf)) / rv Df)).
      { apply (quot_up (s + s) (12 * (n * n)) _ _ (prec + prec + (s + s + (s + s)) + 1 + 1)); auto; lia. }
      split; [exact Gq|].
      assert (ER : dist_line3_safe (S := RS) (val3 a) (val3 b) (val3 p) = (rv Xf * rv Xf + rv Yf * rv Yf + rv Zf * rv Zf) / rv Df).
      { rewrite <- dist_line3_eq by auto. unfold dist_line3. rewrite Xe, Ye, Ze, De. reflexivity. }
      rewrite ER. assert (I0 : 0 <= / rv Df) by (left; apply Rinv_0_lt_compat; auto).
      pose proof (sq_nn (rv Xf)) as KX. pose proof (sq_nn (rv Yf)) as KY. pose proof (sq_nn (rv Zf)) as KZ. split.
      - eapply Rle_trans; [|exact Lq]. unfold Rdiv. rewrite <- !Rmult_assoc. apply Rmult_le_compat_r; [exact I0|].
        replace ((1 - u) * (1 - u) * (1 - u) * (1 - u) * (rv Xf * rv Xf + rv Yf * rv Yf + rv Zf * rv Zf)) with ((1 - u) * ((1 - u) * ((1 - u) * ((1 - u) * (rv Xf * rv Xf + rv Yf * rv Yf + rv Zf * rv Zf))))) by ring.
        apply Rmult_le_compat_l; [lra|]. eapply Rle_trans; [|exact L2]. apply Rmult_le_compat_l; [lra|].
        assert (K : (1 - u) * ((1 - u) * (rv Xf * rv Xf + rv Yf * rv Yf)) <= rv (SFadd prec emax (SFmul prec emax Xf Xf) (SFmul prec emax Yf Yf))).
        { eapply Rle_trans; [|exact L1]. apply Rmult_le_compat_l; lra. }
        assert (K2 : (1 - u) * ((1 - u) * (rv Zf * rv Zf)) <= rv (SFmul prec emax Zf Zf)).
        { eapply Rle_trans; [|exact LZ]. assert (A0 : 0 <= (1 - u) * (rv Zf * rv Zf)) by (apply Rmult_le_pos; lra).
          assert (A1 : 0 <= u * ((1 - u) * (rv Zf * rv Zf))) by (apply Rmult_le_pos; lra). lra. }
        lra.
      - eapply Rle_trans; [exact Vq|]. unfold Rdiv. rewrite <- !Rmult_assoc. apply Rmult_le_compat_r; [exact I0|].
        replace ((1 + u) * (1 + u) * (1 + u) * (1 + u) * (rv Xf * rv Xf + rv Yf * rv Yf + rv Zf * rv Zf)) with ((1 + u) * ((1 + u) * ((1 + u) * ((1 + u) * (rv Xf * rv Xf + rv Yf * rv Yf + rv Zf * rv Zf))))) by ring.
        apply Rmult_le_compat_l; [lra|]. eapply Rle_trans; [exact V2|]. apply Rmult_le_compat_l; [lra|].
        assert (K : rv (SFadd prec emax (SFmul prec emax Xf Xf) (SFmul prec emax Yf Yf)) <= (1 + u) * ((1 + u) * (rv Xf * rv Xf + rv Yf * rv Yf))).
        { eapply Rle_trans; [exact V1|]. apply Rmult_le_compat_l; lra. }
        assert (K2 : rv (SFmul prec emax Zf Zf) <= (1 + u) * ((1 + u) * (rv Zf * rv Zf))).
        { eapply Rle_trans; [exact VZ|]. assert (A0 : 0 <= (1 + u) * (rv Zf * rv Zf)) by (apply Rmult_le_pos; lra).
          assert (A1 : 0 <= u * ((1 + u) * (rv Zf * rv Zf))) by (apply Rmult_le_pos; lra). lra. }
        lra.
  Qed.

  (* the _safe variants: the same, once different grid values are never taken for equal *)
  Context (P4 : (4 <= prec)%Z) (Es : (epsexp < s)%Z) (Em : (emin + 3 <= s)%Z) (Hn : (0 < n <= 2 ^ (prec - 4))%Z).
  Lemma ulps_ex x y : ong s n x -> ong s n y -> @sulps FS x y = Reqb (rv x) (rv y).
  Proof. intros Hx Hy. cbn [sulps FloatS]. assert (OK' := OK). destruct OK'. apply (ulps_grid prec emax epsexp at2 Hprec Hmax s n); auto. Qed.
  Lemma vulps_ex (a b : V2 FS) : onp a -> onp b -> vulps a b = true -> val a = val b.
  Proof.
    intros [A1 A2] [B1 B2] H. unfold vulps in H. rewrite (ulps_ex _ _ A1 B1), (ulps_ex _ _ A2 B2) in H.
    apply Bool.andb_true_iff in H. destruct H as [H1 H2]. apply Reqb_true in H1. apply Reqb_true in H2. unfold point_value. f_equal; auto.
  Qed.
  Lemma wulps_ex (a b : V3 FS) : onp3 a -> onp3 b -> wulps a b = true -> val3 a = val3 b.
  Proof.
    intros (A1 & A2 & A3) (B1 & B2 & B3) H. unfold wulps in H. rewrite (ulps_ex _ _ A1 B1), (ulps_ex _ _ A2 B2), (ulps_ex _ _ A3 B3) in H.
    apply Bool.andb_true_iff in H. destruct H as [H H3]. apply Bool.andb_true_iff in H. destruct H as [H1 H2].
    apply Reqb_true in H1. apply Reqb_true in H2. apply Reqb_true in H3. unfold point_value3. f_equal; auto.
  Qed.
  Lemma dist2_safe_both (a b p : V2 FS) : onp a -> onp b -> onp p ->
    good (dist_line2_safe a b p) /\
    (1 - u) * (1 - u) * dist_line2_safe (S := RS) (val a) (val b) (val p) <= rv (dist_line2_safe a b p) <= (1 + u) * (1 + u) * dist_line2_safe (S := RS) (val a) (val b) (val p).
  Proof.
    intros Ha Hb Hp. unfold dist_line2_safe at 1 3 4. destruct (vulps a b) eqn:E.
    - apply vulps_ex in E; auto. rewrite E. destruct Ha as [Ax Ay], Hp as [Px Py]. assert (U := u_bounds).
      destruct (dif _ _ Ax Px) as [F1 F1e], (dif _ _ Ay Py) as [F2 F2e].
      destruct (prd _ _ F1 F1) as [S1 S1e], (prd _ _ F2 F2) as [S2 S2e], (sm2 _ _ S1 S2) as [M M_e].
      split; [apply M|]. rewrite (dist_line2_safe_point (val b) (val p)). rewrite <- E. change (vdist2 (S := FS) a p) with (SFadd prec emax (SFmul prec emax (SFsub prec emax (vx a) (vx p)) (SFsub prec emax (vx a) (vx p))) (SFmul prec emax (SFsub prec emax (vy a) (vy p)) (SFsub prec emax (vy a) (vy p)))).
      rewrite M_e, S1e, S2e, F1e, F2e.
      assert (Q : (rv (vx a) - rv (vx p)) * (rv (vx a) - rv (vx p)) + (rv (vy a) - rv (vy p)) * (rv (vy a) - rv (vy p)) = sqdist (val p) (val a)) by (unfold sqdist, point_value; cbn [vx vy]; rring).
      rewrite Q. pose proof (sqdist_nonneg (val p) (val a)) as Z. assert ((1 - u) * (1 - u) <= 1) by nra. assert (1 <= (1 + u) * (1 + u)) by nra. split; nra.
    - apply dist2_both; auto. intros C. destruct Ha as [Ax Ay], Hb as [Bx By]. unfold vulps in E. injection C as C1 C2.
      rewrite (sulps_same prec emax epsexp at2 Hprec Hmax s n OK _ _ Ax Bx C1), (sulps_same prec emax epsexp at2 Hprec Hmax s n OK _ _ Ay By C2) in E. discriminate.
  Qed.
  Lemma dist3_safe_both (a b p : V3 FS) : onp3 a -> onp3 b -> onp3 p ->
    good (dist_line3_safe a b p) /\
    (1 - u) * (1 - u) * ((1 - u) * (1 - u)) * dist_line3_safe (S := RS) (val3 a) (val3 b) (val3 p) <= rv (dist_line3_safe a b p)
      <= (1 + u) * (1 + u) * ((1 + u) * (1 + u)) * dist_line3_safe (S := RS) (val3 a) (val3 b) (val3 p).
  Proof.
    intros Ha Hb Hp. unfold dist_line3_safe at 1 3 4. destruct (wulps a b) eqn:E.
    - apply wulps_ex in E; auto. rewrite E, dist_line3_safe_point, <- E. destruct Ha as (Ax & Ay & Az), Hp as (Px & Py & Pz). assert (U := u_bounds).
      destruct (dif _ _ Ax Px) as [F1 F1e], (dif _ _ Ay Py) as [F2 F2e], (dif _ _ Az Pz) as [F3 F3e].
      destruct (prd _ _ F1 F1) as [S1 S1e], (prd _ _ F2 F2) as [S2 S2e], (prd _ _ F3 F3) as [S3 S3e], (sm3 _ _ _ S1 S2 S3) as [M M_e].
      unfold wdist2, wmag2, wdot, wsub. cbn [wx wy wz sadd ssub smul FloatS].
      split; [apply M|]. rewrite M_e, S1e, S2e, S3e, F1e, F2e, F3e.
      assert (Q : (rv (wx a) - rv (wx p)) * (rv (wx a) - rv (wx p)) + (rv (wy a) - rv (wy p)) * (rv (wy a) - rv (wy p)) + (rv (wz a) - rv (wz p)) * (rv (wz a) - rv (wz p)) = sqdist3 (val3 p) (val3 a)).
      { unfold sqdist3, point_value3. cbn [wx wy wz]. rring. }
      assert (Z : 0 <= sqdist3 (val3 p) (val3 a)) by (rewrite <- Q; apply Rplus_le_le_0_compat; [apply Rplus_le_le_0_compat|]; apply sq_nn).
      rewrite Q. assert (0 <= (1 - u) * (1 - u) <= 1) by nra. assert (1 <= (1 + u) * (1 + u)) by nra.
      assert ((1 - u) * (1 - u) * ((1 - u) * (1 - u)) <= 1) by nra. assert (1 <= (1 + u) * (1 + u) * ((1 + u) * (1 + u))) by nra. split; nra.
    - apply dist3_both; auto. intros C. destruct Ha as (Ax & Ay & Az), Hb as (Bx & By & Bz). unfold wulps in E. injection C as C1 C2 C3.
      rewrite (sulps_same prec emax epsexp at2 Hprec Hmax s n OK _ _ Ax Bx C1), (sulps_same prec emax epsexp at2 Hprec Hmax s n OK _ _ Ay By C2), (sulps_same prec emax epsexp at2 Hprec Hmax s n OK _ _ Az Bz C3) in E. discriminate.
  Qed.

  Lemma tol_sq_low d : tolerance_ok prec emax d -> good (SFmul prec emax d d) /\ (1 - u) * (rv d * rv d) <= rv (SFmul prec emax d d).
  Proof.
    intros (G & P & N & B). destruct (mul_rnd prec emax Hprec Hmax d d) as [G1 E1]; auto.
    { apply rnd_finite with (emax - 1)%Z; auto; [unfold Prec_gt_0, Prec_lt_emax, SpecFloat.emin in *; lia|]. rewrite Rabs_pos_eq by apply Rle_0_sqr. auto. }
    split; auto. rewrite E1. apply rnd_near; auto; [apply Rle_0_sqr|]. destruct N as [->|N]; auto. left; ring.
  Qed.
  Lemma sq_le x y : 0 <= x -> x <= y -> x * x <= y * y.
  Proof. intros. apply Rmult_le_compat; auto. Qed.
  Lemma ends2_float a mid b d : Forall onp (a :: mid ++ [b]) -> tolerance_ok prec emax d ->
    (forall p, In p mid -> exists q, on_segment q (val a) (val b) /\ edist (val p) q <= rv d * (1 - 2 * u)) ->
    simplify_rdp_2d (S := FS) (a :: mid ++ [b]) d = Val [a; b].
  Proof.
    intros HL Hd H. apply rdp_ends. intros p Hp. destruct (H p Hp) as (q & (t & Ht & ->) & Hq). rewrite Forall_forall in HL.
    assert (I : forall q, q = a \/ q = b \/ In q mid -> onp q). { intros x Hx. apply HL. cbn. rewrite in_app_iff. cbn. destruct Hx as [->|[->|Hx]]; auto. }
    destruct (dist2_safe_both a b p) as [G [_ Up]]; auto.
    destruct (tol_sq_low d Hd) as [G2 Lo]. cbn [sleb smul FloatS]. rewrite (leb_R prec emax at2 _ _ G G2). apply Rleb_true.
    eapply Rle_trans; [exact Up|]. eapply Rle_trans; [|exact Lo]. assert (U := u_bounds).
    destruct (dist_line2_safe_R (val a) (val b) (val p)) as [_ Emin]. specialize (Emin t Ht).
    pose proof (sqdist_nonneg (val p) (lerp (val a) (val b) t)) as Z.
    assert (Q : sqdist (val p) (lerp (val a) (val b) t) <= rv d * (1 - 2 * u) * (rv d * (1 - 2 * u))).
    { unfold edist in Hq. rewrite <- (sqrt_sqrt _ Z). apply sq_le; auto. apply sqrt_pos. }
    generalize dependent (sqdist (val p) (lerp (val a) (val b) t)). generalize (dist_line2_safe (S := RS) (val a) (val b) (val p)). intros x y Hxy _ Hy. cbn [car RS] in *.
    assert (F : (1 + u) * (1 + u) * ((1 - 2 * u) * (1 - 2 * u)) <= 1 - u).
    { replace ((1 + u) * (1 + u) * ((1 - 2 * u) * (1 - 2 * u))) with (((1 + u) * (1 - 2 * u)) * ((1 + u) * (1 - 2 * u))) by ring.
      assert (0 <= (1 + u) * (1 - 2 * u) <= 1 - u) by nra. nra. }
    apply Rle_trans with ((1 + u) * (1 + u) * (rv d * (1 - 2 * u) * (rv d * (1 - 2 * u)))).
    - apply Rmult_le_compat_l; [nra|]. lra.
    - replace ((1 + u) * (1 + u) * (rv d * (1 - 2 * u) * (rv d * (1 - 2 * u)))) with ((1 + u) * (1 + u) * ((1 - 2 * u) * (1 - 2 * u)) * (rv d * rv d)) by ring.
      apply Rmult_le_compat_r; auto. apply Rle_0_sqr.
  Qed.
  Lemma ends3_float a mid b d : Forall onp3 (a :: mid ++ [b]) -> tolerance_ok prec emax d ->
    (forall p, In p mid -> exists t, edist3 (val3 p) (lerp3 (val3 a) (val3 b) t) <= rv d * (1 - 4 * u)) ->
    simplify_rdp_3d (S := FS) (a :: mid ++ [b]) d = Val [a; b].
  Proof.
    intros HL Hd H. apply rdp_ends. intros p Hp. destruct (H p Hp) as (t & Hq). rewrite Forall_forall in HL.
    assert (I : forall q, q = a \/ q = b \/ In q mid -> onp3 q). { intros x Hx. apply HL. cbn. rewrite in_app_iff. cbn. destruct Hx as [->|[->|Hx]]; auto. }
    destruct (dist3_safe_both a b p) as [G [_ Up]]; auto.
    destruct (tol_sq_low d Hd) as [G2 Lo]. cbn [sleb smul FloatS]. rewrite (leb_R prec emax at2 _ _ G G2). apply Rleb_true.
    eapply Rle_trans; [exact Up|]. eapply Rle_trans; [|exact Lo]. assert (U := u_bounds).
    assert (Emin : dist_line3_safe (S := RS) (val3 a) (val3 b) (val3 p) <= sqdist3 (val3 p) (lerp3 (val3 a) (val3 b) t)).
    { destruct (weqb (S := RS) (val3 a) (val3 b)) eqn:Eab.
      - apply weqb_R in Eab. rewrite <- Eab, dist_line3_safe_point. right. unfold sqdist3, lerp3. cbn [wx wy wz]. rring.
      - apply dist_line3_safe_R. intros E. rewrite E in Eab. assert (weqb (S := RS) (val3 b) (val3 b) = true) by (apply weqb_R; auto). congruence. }
    assert (Z : 0 <= sqdist3 (val3 p) (lerp3 (val3 a) (val3 b) t)) by (unfold sqdist3; apply Rplus_le_le_0_compat; [apply Rplus_le_le_0_compat|]; apply Rle_0_sqr).
    assert (Q : sqdist3 (val3 p) (lerp3 (val3 a) (val3 b) t) <= rv d * (1 - 4 * u) * (rv d * (1 - 4 * u))).
    { unfold edist3 in Hq. rewrite <- (sqrt_sqrt _ Z). apply sq_le; auto. apply sqrt_pos. }
    generalize dependent (sqdist3 (val3 p) (lerp3 (val3 a) (val3 b) t)). generalize (dist_line3_safe (S := RS) (val3 a) (val3 b) (val3 p)). intros x y Hxy _ Hy. cbn [car RS] in *.
    assert (F : (1 + u) * (1 + u) * ((1 + u) * (1 + u)) * ((1 - 4 * u) * (1 - 4 * u)) <= 1 - u).
    { replace ((1 + u) * (1 + u) * ((1 + u) * (1 + u)) * ((1 - 4 * u) * (1 - 4 * u))) with (((1 + u) * (1 + u) * (1 - 4 * u)) * ((1 + u) * (1 + u) * (1 - 4 * u))) by ring.
      assert (0 <= (1 + u) * (1 + u) * (1 - 4 * u)) by nra. assert ((1 + u) * (1 + u) * (1 - 4 * u) <= 1 - u) by nra. nra. }
    assert (P : 0 <= (1 + u) * (1 + u) * ((1 + u) * (1 + u))) by nra.
    apply Rle_trans with ((1 + u) * (1 + u) * ((1 + u) * (1 + u)) * (rv d * (1 - 4 * u) * (rv d * (1 - 4 * u)))).
    - apply Rmult_le_compat_l; [exact P|]. lra.
    - replace ((1 + u) * (1 + u) * ((1 + u) * (1 + u)) * (rv d * (1 - 4 * u) * (rv d * (1 - 4 * u)))) with ((1 + u) * (1 + u) * ((1 + u) * (1 + u)) * ((1 - 4 * u) * (1 - 4 * u)) * (rv d * rv d)) by ring.
      apply Rmult_le_compat_r; auto. apply Rle_0_sqr.
  Qed.
End Grid.
