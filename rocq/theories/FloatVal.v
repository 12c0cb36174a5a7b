(* The value of the computed distances of float points whose coordinates are small multiples of a power of two: it does not depend
   on the direction of the segment and scales with powers of two. *)
From Coq Require Import ZArith Reals Lra Lia Psatz Floats.SpecFloat.
From Flocq Require Import Core BinarySingleNaN.
From Verif Require Import Prelude Scalar RInst Flt FloatSpec FloatLink FloatGrid FloatRound Geo2 Geo3 GeoSpec DistR Simplify Rdp1 Rdp2 FltOrd FloatIsect FloatRdp FloatDist.
Local Open Scope R_scope.

Section Grid.
  Context (prec emax epsexp : Z) (at2 : spec_float -> spec_float -> spec_float) (Hprec : Prec_gt_0 prec) (Hmax : Prec_lt_emax prec emax).
  Notation FS := (FloatS prec emax epsexp at2).
  Notation emin := (SpecFloat.emin prec emax).
  Notation good := (finite_float prec emax).
  Notation rv := fvalue.
  Notation ong := (on_grid prec emax).
  Notation rnd := (round radix2 (SpecFloat.fexp prec emax) ZnearestE).
  Notation u := (ulp1 prec).

  Lemma square_val t m c : (m <= 2 ^ prec)%Z -> (emin + prec - 1 <= t + t)%Z -> (prec + prec + (t + t) < emax)%Z -> ong t m c ->
    rv (SFmul prec emax c c) = rnd (rv c * rv c) /\ (rv c * rv c = 0 \/ normal prec emax (rv c * rv c)).
  Proof.
    intros Hm H1 H2 Hc. assert (Hle := grid_le prec emax Hprec t m c Hc Hm).
    assert (B : Rabs (rv c * rv c) <= bpow radix2 (prec + prec + (t + t))).
    { rewrite Rabs_mult. replace (prec + prec + (t + t))%Z with ((prec + t) + (prec + t))%Z by lia. rewrite bpow_plus. apply Rmult_le_compat; auto using Rabs_pos. }
    destruct (mul_rnd prec emax Hprec Hmax c c) as [G E]; [apply Hc|apply Hc|eapply rnd_finite; [..|exact B]; auto; unfold Prec_gt_0 in Hprec; lia|].
    split; [exact E|]. destruct (Req_dec (rv c) 0) as [Z0|NZ].
    - left. rewrite Z0. ring.
    - right. assert (L : bpow radix2 (t + t) <= rv c * rv c).
      { destruct Hc as (_ & k & _ & Ek). rewrite Ek in *. assert (k <> 0%Z) by (intros ->; apply NZ; ring). rewrite bpow_plus.
        assert (1 <= IZR (k * k)) by (apply IZR_le; nia). rewrite mult_IZR in H0. pose proof (bpow_gt_0 radix2 t).
        replace (IZR k * bpow radix2 t * (IZR k * bpow radix2 t)) with (IZR k * IZR k * (bpow radix2 t * bpow radix2 t)) by ring. nra. }
      unfold normal. rewrite Rabs_pos_eq by apply Rle_0_sqr. eapply Rle_trans; [apply bpow_le; exact H1|auto].
  Qed.
  Lemma quot_val (t : Z) (m : Z) (x y : spec_float) (e : Z) : (m <= 2 ^ prec)%Z -> (emin + prec + prec - 1 <= t)%Z -> (e - t < emax)%Z -> (emin <= e - t)%Z ->
    good x -> ong t m y -> 0 < rv y -> rv x = 0 \/ bpow radix2 (t + t) <= rv x -> 0 <= rv x -> rv x <= bpow radix2 e ->
    rv (SFdiv prec emax x y) = rnd (rv x / rv y) /\ (rv x / rv y = 0 \/ normal prec emax (rv x / rv y)).
  Proof.
    intros Hm H1 H2 H3 Gx Hy Py Lx X0 Hx. assert (Ly := grid_ge prec emax t m y Hy Py). assert (Uy := grid_le prec emax Hprec t m y Hy Hm). rewrite Rabs_pos_eq in Uy by lra.
    assert (Bt := bpow_gt_0 radix2 t).
    assert (Q : 0 <= rv x / rv y) by (apply Rmult_le_pos; auto; left; apply Rinv_0_lt_compat; auto).
    assert (QB : rv x / rv y <= bpow radix2 (e - t)).
    { apply Rmult_le_reg_r with (rv y); auto. unfold Rdiv. rewrite Rmult_assoc, Rinv_l, Rmult_1_r by lra. eapply Rle_trans; [exact Hx|].
      replace e with ((e - t) + t)%Z at 1 by lia. rewrite bpow_plus. apply Rmult_le_compat_l; auto. apply bpow_ge_0. }
    destruct (div_rnd prec emax Hprec Hmax x y) as [G E]; auto; [apply Hy|lra|eapply rnd_finite; [auto| |rewrite Rabs_pos_eq by auto; exact QB]; lia|].
    split; [exact E|]. destruct Lx as [Z0|Lx]; [left; rewrite Z0; unfold Rdiv; ring|right].
    unfold normal. rewrite Rabs_pos_eq by auto. apply Rle_trans with (bpow radix2 (t - prec)); [apply bpow_le; lia|].
    apply Rmult_le_reg_r with (rv y); auto. unfold Rdiv. rewrite Rmult_assoc, Rinv_l, Rmult_1_r by lra.
    apply Rle_trans with (bpow radix2 (t - prec) * bpow radix2 (prec + t)); [apply Rmult_le_compat_l; auto; apply bpow_ge_0|].
    rewrite <- bpow_plus. replace (t - prec + (prec + t))%Z with (t + t)%Z by lia. auto.
  Qed.
  Lemma add_val (x y : spec_float) (t e : Z) : (emin + prec - 1 <= t)%Z -> (e + 1 < emax)%Z -> (emin <= e)%Z -> good x -> good y -> 0 <= rv x -> 0 <= rv y ->
    rv x = 0 \/ bpow radix2 t <= rv x -> rv y = 0 \/ bpow radix2 t <= rv y -> rv x <= bpow radix2 e -> rv y <= bpow radix2 e ->
    rv (SFadd prec emax x y) = rnd (rv x + rv y) /\ (rv x + rv y = 0 \/ normal prec emax (rv x + rv y)).
  Proof.
    intros H1 H2 H3 Gx Gy X0 Y0 Lx Ly Ux Uy. assert (B := bpow_gt_0 radix2 t).
    assert (S : Rabs (rv x + rv y) <= bpow radix2 (e + 1)). { rewrite Rabs_pos_eq by lra. rewrite bpow_plus. cbn. lra. }
    destruct (add_rnd prec emax Hprec Hmax x y) as [G E]; auto; [eapply rnd_finite; [auto| |exact S]; lia|].
    split; [exact E|]. destruct (Rle_or_lt (bpow radix2 t) (rv x + rv y)) as [L|L].
    - right. unfold normal. rewrite Rabs_pos_eq by lra. eapply Rle_trans; [apply bpow_le; exact H1|auto].
    - assert (Z : rv x + rv y = 0) by (destruct Lx, Ly; lra). left. exact Z.
  Qed.

  (* the value computed for a proper segment A B, and what keeps its roundings relative *)
  Definition dval2 (A B P : pt) : R :=
    let D := vmag2 (S := RS) (vsub A B) in let q := vdot (S := RS) (vsub A P) (vsub A B) / D in let C := vperp (S := RS) (vsub A P) (vsub A B) in
    if Rltb q 0 then sqdist P A else if Rltb 1 q then sqdist P B else rnd (rnd (C * C) / D).
  Definition small2 (A B P : pt) : Prop :=
    let D := vmag2 (S := RS) (vsub A B) in let C := vperp (S := RS) (vsub A P) (vsub A B) in
    (C * C = 0 \/ normal prec emax (C * C)) /\ (rnd (C * C) / D = 0 \/ normal prec emax (rnd (C * C) / D)).
  Definition dX (A B P : pt3) : R := (wy A - wy P) * (wz A - wz B) - (wz A - wz P) * (wy A - wy B).
  Definition dY (A B P : pt3) : R := (wz A - wz P) * (wx A - wx B) - (wx A - wx P) * (wz A - wz B).
  Definition dZ (A B P : pt3) : R := (wx A - wx P) * (wy A - wy B) - (wy A - wy P) * (wx A - wx B).
  Definition dD (A B : pt3) : R := (wx A - wx B) * (wx A - wx B) + (wy A - wy B) * (wy A - wy B) + (wz A - wz B) * (wz A - wz B).
  Definition dval3 (A B P : pt3) : R :=
    let X := dX A B P in let Y := dY A B P in let Z := dZ A B P in rnd (rnd (rnd (rnd (X * X) + rnd (Y * Y)) + rnd (Z * Z)) / dD A B).
  Definition nz (x : R) : Prop := x = 0 \/ normal prec emax x.
  Definition small3 (A B P : pt3) : Prop :=
    let X := dX A B P in let Y := dY A B P in let Z := dZ A B P in
    nz (X * X) /\ nz (Y * Y) /\ nz (Z * Z) /\ nz (rnd (X * X) + rnd (Y * Y)) /\ nz (rnd (rnd (X * X) + rnd (Y * Y)) + rnd (Z * Z)) /\
    nz (rnd (rnd (rnd (X * X) + rnd (Y * Y)) + rnd (Z * Z)) / dD A B).
  Context (s n : Z) (OK : rdp_ok prec emax epsexp s n).
  Notation onp := (@grid_point prec emax epsexp at2 s n).
  Notation val := (@point_value prec emax epsexp at2).
  Notation onp3 := (@grid_point3 prec emax epsexp at2 s n).
  Notation val3 := (@point_value3 prec emax epsexp at2).
  Notation dif := (dif prec emax epsexp Hprec Hmax s n OK).
  Notation prd := (prd prec emax epsexp Hprec Hmax s n OK).
  Notation sm2 := (sm2 prec emax epsexp Hprec Hmax s n OK).
  Notation df2 := (df2 prec emax epsexp Hprec Hmax s n OK).
  Notation sm3 := (sm3 prec emax epsexp Hprec Hmax s n OK).
  Notation n8 := (n8 prec emax epsexp s n OK).
  Notation u_bounds := (u_bounds prec emax epsexp s n OK).

  Notation grid_le := (grid_le prec emax Hprec).
  Notation grid_ge := (grid_ge prec emax).
  Notation rnd_bpow := (rnd_bpow prec emax Hprec).
  Notation rnd_le_1 := (rnd_le_1 prec emax Hprec).

  Lemma dist2_value (a b p : V2 FS) : onp a -> onp b -> onp p -> val a <> val b ->
    good (dist_line2 a b p) /\ rv (dist_line2 a b p) = dval2 (val a) (val b) (val p) /\ small2 (val a) (val b) (val p).
  Proof.
    intros [Ax Ay] [Bx By] [Px Py] Hne. assert (OK' := OK). destruct OK'. assert (N8 := n8). assert (U := u_bounds).
    destruct (dif _ _ Ax Px) as [F1 F1e], (dif _ _ Ay Py) as [F2 F2e].
    destruct (prd _ _ F1 F1) as [S1 S1e], (prd _ _ F2 F2) as [S2 S2e], (sm2 _ _ S1 S2) as [M M_e].
      destruct (dif _ _ Ax Bx) as [D1 D1e], (dif _ _ Ay By) as [D2 D2e].
      destruct (prd _ _ D1 D1) as [Q1 Q1e], (prd _ _ D2 D2) as [Q2 Q2e], (sm2 _ _ Q1 Q2) as [D De].
      destruct (prd _ _ F1 D1) as [T1 T1e], (prd _ _ F2 D2) as [T2 T2e], (sm2 _ _ T1 T2) as [N Ne].
      destruct (prd _ _ F1 D2) as [W1 W1e], (prd _ _ F2 D1) as [W2 W2e], (df2 _ _ W1 W2) as [C Ce].
      assert (Dpos : 0 < rv (SFadd prec emax (SFmul prec emax (SFsub prec emax (vx a) (vx b)) (SFsub prec emax (vx a) (vx b))) (SFmul prec emax (SFsub prec emax (vy a) (vy b)) (SFsub prec emax (vy a) (vy b))))).
      { rewrite De, Q1e, Q2e, D1e, D2e. pose proof (sq_nn (rv (vx a) - rv (vx b))). pose proof (sq_nn (rv (vy a) - rv (vy b))).
        destruct (Req_dec (rv (vx a) - rv (vx b)) 0) as [Ex|Ex]; [|apply sq_pos in Ex; lra].
        destruct (Req_dec (rv (vy a) - rv (vy b)) 0) as [Ey|Ey]; [|apply sq_pos in Ey; lra].
        exfalso. apply Hne. unfold point_value. f_equal; lra. }
      unfold dist_line2. unfold vmag2, vdot, vsub, vperp. cbn [vx vy sadd ssub smul sdiv sltb s0 s1 FloatS].
      set (Df := SFadd prec emax (SFmul prec emax (SFsub prec emax (vx a) (vx b)) (SFsub prec emax (vx a) (vx b))) (SFmul prec emax (SFsub prec emax (vy a) (vy b)) (SFsub prec emax (vy a) (vy b)))) in *.
      set (Nf := SFadd prec emax (SFmul prec emax (SFsub prec emax (vx a) (vx p)) (SFsub prec emax (vx a) (vx b))) (SFmul prec emax (SFsub prec emax (vy a) (vy p)) (SFsub prec emax (vy a) (vy b)))) in *.
      set (Cf := SFsub prec emax (SFmul prec emax (SFsub prec emax (vx a) (vx p)) (SFsub prec emax (vy a) (vy b))) (SFmul prec emax (SFsub prec emax (vy a) (vy p)) (SFsub prec emax (vx a) (vx b)))) in *.
      assert (DL := grid_ge _ _ _ D Dpos). assert (DU := grid_le _ _ _ D N8). rewrite Rabs_pos_eq in DU by lra. assert (NU := grid_le _ _ _ N N8).
      assert (B2 := bpow_gt_0 radix2 (s + s)).
      assert (QB : Rabs (rv Nf / rv Df) <= bpow radix2 prec).
      { unfold Rdiv. rewrite Rabs_mult, Rabs_inv, (Rabs_pos_eq (rv Df)) by lra. apply Rmult_le_reg_r with (rv Df); auto.
        rewrite Rmult_assoc, Rinv_l, Rmult_1_r by lra. eapply Rle_trans; [exact NU|]. rewrite bpow_plus. apply Rmult_le_compat_l; auto. apply bpow_ge_0. }
      destruct (div_rnd prec emax Hprec Hmax Nf Df) as [Gt Et]; [apply N|apply D|lra|eapply rnd_finite; [auto| |exact QB]; lia|].
      assert (G0 : good (S754_zero false)) by apply good_zero.
      destruct (fl_of_Z_good prec emax Hprec Hmax 1) as [G1 E1]; [rewrite Z.abs_eq by lia; apply (Z.pow_le_mono_r 2 0 prec); lia|unfold scale_ok; lia|].
      rewrite (ltb_R prec emax at2 _ _ Gt G0), (ltb_R prec emax at2 _ _ G1 Gt), E1. change (rv (S754_zero false)) with 0.
      assert (DR : rv Df = vmag2 (S := RS) (vsub (val a) (val b))).
      { rewrite De, Q1e, Q2e, D1e, D2e. reflexivity. }
      assert (NR : rv Nf = vdot (S := RS) (vsub (val a) (val p)) (vsub (val a) (val b))).
      { rewrite Ne, T1e, T2e, F1e, F2e, D1e, D2e. reflexivity. }
      assert (CR : rv Cf = vperp (S := RS) (vsub (val a) (val p)) (vsub (val a) (val b))).
      { rewrite Ce, W1e, W2e, F1e, F2e, D1e, D2e. reflexivity. }
      unfold small2, dval2. cbv zeta. rewrite <- DR, <- NR, <- CR. clear DR NR CR.
      destruct (square_near prec emax Hprec Hmax (s + s) (8 * (n * n)) Cf) as (Gc & [Lc Uc] & Nc & Pc); auto; [lia|].
      destruct (square_val (s + s) (8 * (n * n)) Cf) as [Vc Sc]; auto; [lia|].
      assert (Nc' : rv (SFmul prec emax Cf Cf) = 0 \/ bpow radix2 (s + s + (s + s)) <= rv (SFmul prec emax Cf Cf)) by (destruct Nc as [K|K]; [left; eapply square_zero; eauto|auto]).
      destruct (quot_near prec emax Hprec Hmax (s + s) (8 * (n * n)) (SFmul prec emax Cf Cf) Df (prec + prec + ((s + s) + (s + s)))) as [Gq Lq]; auto; try lia.
      destruct (quot_val (s + s) (8 * (n * n)) (SFmul prec emax Cf Cf) Df (prec + prec + ((s + s) + (s + s)))) as [Vq Sq]; auto; try lia.
      rewrite Vc in Vq, Sq.
      destruct (Rltb_spec (rv (SFdiv prec emax Nf Df)) 0) as [L0|L0].
      { split; [apply M|]. split; [|split; auto]. rewrite M_e, S1e, S2e, F1e, F2e.
        assert (Ng : rv Nf / rv Df < 0).
        { apply Rnot_le_lt. intros C0. rewrite Et in L0. pose proof (rnd_nonneg prec emax Hprec _ C0). lra. }
        replace (Rltb (rv Nf / rv Df) 0) with true by (symmetry; apply Rltb_true; auto). unfold sqdist, point_value. cbn [vx vy]. rring. }
      apply Rnot_lt_le in L0. rewrite Et in L0.
      assert (N0 : 0 <= rv Nf).
      { apply Rnot_lt_le. intros Ng. assert (NL : bpow radix2 (s + s) <= - rv Nf).
          { destruct N as (_ & k & _ & Ek). rewrite Ek in *. assert (k < 0)%Z. { apply lt_IZR. apply Rmult_lt_reg_r with (bpow radix2 (s + s)); auto. lra. }
            assert (IZR k <= -1) by (apply IZR_le; lia). nra. }
          assert (Q : rv Nf / rv Df <= - bpow radix2 (- prec)).
          { apply Rmult_le_reg_r with (rv Df); auto. unfold Rdiv. rewrite Rmult_assoc, Rinv_l, Rmult_1_r by lra.
            assert (bpow radix2 (- prec) * rv Df <= bpow radix2 (s + s)); [|lra].
            apply Rle_trans with (bpow radix2 (- prec) * bpow radix2 (prec + (s + s))); [apply Rmult_le_compat_l; auto; apply bpow_ge_0|]. rewrite <- bpow_plus. right. f_equal. lia. }
          apply (rnd_le prec emax Hprec) in Q. rewrite rnd_opp, rnd_bpow in Q by (unfold Prec_lt_emax, Prec_gt_0, SpecFloat.emin in *; lia). pose proof (bpow_gt_0 radix2 (- prec)). lra. }
      assert (Q0 : 0 <= rv Nf / rv Df) by (apply Rmult_le_pos; auto; left; apply Rinv_0_lt_compat; auto).
      replace (Rltb (rv Nf / rv Df) 0) with false in * by (symmetry; apply Rltb_false; auto).
      destruct (Rltb_spec 1 (rv (SFdiv prec emax Nf Df))) as [L1|L1].
      + destruct (dif _ _ Bx Px) as [H1 H1e], (dif _ _ By Py) as [H2 H2e].
        destruct (prd _ _ H1 H1) as [K1 K1e], (prd _ _ H2 H2) as [K2 K2e], (sm2 _ _ K1 K2) as [K Ke]. split; [apply K|]. split; [|split; auto].
        rewrite Ke, K1e, K2e, H1e, H2e.
        assert (Ng : 1 < rv Nf / rv Df).
        { apply Rnot_le_lt. intros C0. rewrite Et in L1. apply (rnd_le prec emax Hprec) in C0. assert (R1 : rnd 1 = 1) by (change 1 with (bpow radix2 0); apply rnd_bpow; unfold Prec_gt_0 in Hprec; lia). rewrite R1 in C0. lra. }
        replace (Rltb 1 (rv Nf / rv Df)) with true by (symmetry; apply Rltb_true; auto). unfold sqdist, point_value. cbn [vx vy]. rring.
      + apply Rnot_lt_le in L1. rewrite Et in L1.
        assert (ND : rv Nf <= rv Df).
        { apply Rnot_lt_le. intros Gt'. apply rnd_le_1 in L1; auto.
          assert (X : rv Df + bpow radix2 (s + s) <= rv Nf).
          { destruct N as (_ & k & _ & Ek), D as (_ & l & _ & El). rewrite Ek, El in *. assert (l < k)%Z. { apply lt_IZR. apply Rmult_lt_reg_r with (bpow radix2 (s + s)); auto. }
            assert (IZR l + 1 <= IZR k) by (rewrite <- plus_IZR; apply IZR_le; lia). nra. }
          assert (Y : rv Nf <= (1 + u) * rv Df).
          { apply Rmult_le_compat_r with (r := rv Df) in L1; [|lra]. unfold Rdiv in L1. rewrite Rmult_assoc, Rinv_l, Rmult_1_r in L1 by lra. exact L1. }
          assert (Z : u * rv Df < bpow radix2 (s + s)); [|lra].
          apply Rlt_le_trans with (u * bpow radix2 (prec + (s + s))).
          - apply Rmult_lt_compat_l; [lra|]. apply Rlt_le_trans with (rv Nf); [lra|]. rewrite Rabs_pos_eq in NU by auto. auto.
          - unfold ulp1. rewrite <- bpow_plus. right. f_equal. lia. }
        split; [exact Gq|]. split; [|split; auto].
        assert (Q1' : rv Nf / rv Df <= 1).
        { apply Rmult_le_reg_r with (1 := Dpos). unfold Rdiv. rewrite Rmult_assoc, Rinv_l, Rmult_1_r, Rmult_1_l by lra. auto. }
        replace (Rltb 1 (rv Nf / rv Df)) with false by (symmetry; apply Rltb_false; auto). exact Vq.
  Qed.
  Lemma dist3_value (a b p : V3 FS) : onp3 a -> onp3 b -> onp3 p -> val3 a <> val3 b ->
    good (dist_line3 a b p) /\ rv (dist_line3 a b p) = dval3 (val3 a) (val3 b) (val3 p) /\ small3 (val3 a) (val3 b) (val3 p).
  Proof.
    intros (Ax & Ay & Az) (Bx & By & Bz) (Px & Py & Pz) Hne. assert (OK' := OK). destruct OK'. assert (N8 := n8). assert (U := u_bounds).
    destruct (dif _ _ Ax Px) as [F1 F1e], (dif _ _ Ay Py) as [F2 F2e], (dif _ _ Az Pz) as [F3 F3e].
    destruct (dif _ _ Ax Bx) as [D1 D1e], (dif _ _ Ay By) as [D2 D2e], (dif _ _ Az Bz) as [D3 D3e].
      destruct (prd _ _ D1 D1) as [Q1 Q1e], (prd _ _ D2 D2) as [Q2 Q2e], (prd _ _ D3 D3) as [Q3 Q3e], (sm3 _ _ _ Q1 Q2 Q3) as [D De].
      assert (Dpos : 0 < (rv (wx a) - rv (wx b)) * (rv (wx a) - rv (wx b)) + (rv (wy a) - rv (wy b)) * (rv (wy a) - rv (wy b)) + (rv (wz a) - rv (wz b)) * (rv (wz a) - rv (wz b))).
      { pose proof (sq_nn (rv (wx a) - rv (wx b))). pose proof (sq_nn (rv (wy a) - rv (wy b))). pose proof (sq_nn (rv (wz a) - rv (wz b))).
        destruct (Req_dec (rv (wx a) - rv (wx b)) 0) as [Ex|Ex]; [|apply sq_pos in Ex; lra].
        destruct (Req_dec (rv (wy a) - rv (wy b)) 0) as [Ey|Ey]; [|apply sq_pos in Ey; lra].
        destruct (Req_dec (rv (wz a) - rv (wz b)) 0) as [Ez|Ez]; [|apply sq_pos in Ez; lra].
        exfalso. apply Hne. unfold point_value3. f_equal; lra. }
      destruct (prd _ _ F2 D3) as [X1 X1e], (prd _ _ F3 D2) as [X2 X2e], (df2 _ _ X1 X2) as [X Xe].
      destruct (prd _ _ F3 D1) as [Y1 Y1e], (prd _ _ F1 D3) as [Y2 Y2e], (df2 _ _ Y1 Y2) as [Y Ye].
      destruct (prd _ _ F1 D2) as [Z1 Z1e], (prd _ _ F2 D1) as [Z2 Z2e], (df2 _ _ Z1 Z2) as [Z Ze].
      rewrite X1e, X2e, F2e, D3e, F3e, D2e in Xe. rewrite Y1e, Y2e, F3e, D1e, F1e, D3e in Ye. rewrite Z1e, Z2e, F1e, D2e, F2e, D1e in Ze.
      rewrite Q1e, Q2e, Q3e, D1e, D2e, D3e in De.
      unfold dist_line3, cross_abs_squared, wsub. cbn [wx wy wz sadd ssub smul sdiv FloatS].
      match type of X with ong _ _ ?x => set (Xf := x) in * end. match type of Y with ong _ _ ?x => set (Yf := x) in * end. match type of Z with ong _ _ ?x => set (Zf := x) in * end.
      match type of D with ong _ _ ?x => set (Df := x) in * end.
      destruct (square_near prec emax Hprec Hmax (s + s) (8 * (n * n)) Xf) as (GX & [LX UX] & NX & PX); auto; [lia|].
      destruct (square_near prec emax Hprec Hmax (s + s) (8 * (n * n)) Yf) as (GY & [LY UY] & NY & PY); auto; [lia|].
      destruct (square_near prec emax Hprec Hmax (s + s) (8 * (n * n)) Zf) as (GZ & [LZ UZ] & NZ & PZ); auto; [lia|].
      assert (NX' : rv (SFmul prec emax Xf Xf) = 0 \/ bpow radix2 (s + s + (s + s)) <= rv (SFmul prec emax Xf Xf)) by (destruct NX as [K|K]; [left; eapply square_zero; eauto|auto]).
      assert (NY' : rv (SFmul prec emax Yf Yf) = 0 \/ bpow radix2 (s + s + (s + s)) <= rv (SFmul prec emax Yf Yf)) by (destruct NY as [K|K]; [left; eapply square_zero; eauto|auto]).
      assert (NZ' : rv (SFmul prec emax Zf Zf) = 0 \/ bpow radix2 (s + s + (s + s)) <= rv (SFmul prec emax Zf Zf)) by (destruct NZ as [K|K]; [left; eapply square_zero; eauto|auto]).
      destruct (add_near prec emax Hprec Hmax (SFmul prec emax Xf Xf) (SFmul prec emax Yf Yf) (s + s + (s + s)) (prec + prec + (s + s + (s + s)))) as (G1 & [L1 U1] & N1 & P1); auto; try lia.
      destruct (add_near prec emax Hprec Hmax (SFadd prec emax (SFmul prec emax Xf Xf) (SFmul prec emax Yf Yf)) (SFmul prec emax Zf Zf) (s + s + (s + s)) (prec + prec + (s + s + (s + s)) + 1)) as (G2 & [L2 U2'] & N2 & P2); auto; try lia.
      { eapply Rle_trans; [exact UZ|]. apply bpow_le. lia. }
      assert (DP : 0 < rv Df) by (rewrite De; exact Dpos).
      destruct (quot_near prec emax Hprec Hmax (s + s) (12 * (n * n)) (SFadd prec emax (SFadd prec emax (SFmul prec emax Xf Xf) (SFmul prec emax Yf Yf)) (SFmul prec emax Zf Zf)) Df (prec + prec + (s + s + (s + s)) + 1 + 1)) as [Gq Lq]; auto; try lia.


      destruct (square_val (s + s) (8 * (n * n)) Xf) as [VX TX]; auto; [lia|]. destruct (square_val (s + s) (8 * (n * n)) Yf) as [VY TY]; auto; [lia|]. destruct (square_val (s + s) (8 * (n * n)) Zf) as [VZ TZ]; auto; [lia|].
      destruct (add_val (SFmul prec emax Xf Xf) (SFmul prec emax Yf Yf) (s + s + (s + s)) (prec + prec + (s + s + (s + s)))) as [V1 T1]; auto; try lia.
      destruct (add_val (SFadd prec emax (SFmul prec emax Xf Xf) (SFmul prec emax Yf Yf)) (SFmul prec emax Zf Zf) (s + s + (s + s)) (prec + prec + (s + s + (s + s)) + 1)) as [V2 T2]; auto; try lia.
      { eapply Rle_trans; [exact UZ|]. apply bpow_le. lia. }
      destruct (quot_val (s + s) (12 * (n * n)) (SFadd prec emax (SFadd prec emax (SFmul prec emax Xf Xf) (SFmul prec emax Yf Yf)) (SFmul prec emax Zf Zf)) Df (prec + prec + (s + s + (s + s)) + 1 + 1)) as [Vq Tq]; auto; try lia.
      split; [exact Gq|].
      rewrite V2, V1, VX, VY, VZ in *. unfold dval3, small3, dX, dY, dZ, dD. unfold point_value3. cbn [wx wy wz]. rewrite <- Xe, <- Ye, <- Ze, <- De.
      split; [exact Vq|]. repeat split; auto.
  Qed.
End Grid.
