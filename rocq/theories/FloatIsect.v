(* Segment intersection on float points whose coordinates are small multiples of a power of two: the kind of result is
   the exact one and its coordinates are within a few rounding errors. *)
From Coq Require Import ZArith Reals Lra Lia Psatz Floats.SpecFloat.
From Flocq Require Import Core BinarySingleNaN.
From Verif Require Import Prelude Scalar RInst Flt FloatSpec FloatLink FloatGrid FloatRound Geo2 GeoSpec DistR IsectProofs FloatRdp.
Local Open Scope R_scope.

Section Isect.
  Context (prec emax epsexp : Z) (at2 : spec_float -> spec_float -> spec_float) (Hprec : Prec_gt_0 prec) (Hmax : Prec_lt_emax prec emax).
  Notation FS := (FloatS prec emax epsexp at2).
  Notation emin := (SpecFloat.emin prec emax).
  Notation good := (finite_float prec emax).
  Notation rv := fvalue.
  Notation ong := (on_grid prec emax).
  Notation rnd := (round radix2 (SpecFloat.fexp prec emax) ZnearestE).
  Notation u := (ulp1 prec).

  (* absolute rounding error *)
  Lemma half_err x e : (emin + prec <= e)%Z -> Rabs x <= bpow radix2 e -> Rabs (rnd x - x) <= bpow radix2 (e - prec).
  Proof.
    intros He Hx. assert (Hv : Valid_exp (SpecFloat.fexp prec emax)) by (apply fexp_correct; auto).
    assert (Hm : Monotone_exp (SpecFloat.fexp prec emax)) by (intros a b Hab; unfold SpecFloat.fexp; lia).
    eapply Rle_trans; [apply error_le_half_ulp; auto|].
    assert (L : ulp radix2 (SpecFloat.fexp prec emax) x <= bpow radix2 (e + 1 - prec)).
    { eapply Rle_trans; [apply ulp_le with (y := bpow radix2 e); auto; rewrite (Rabs_pos_eq (bpow radix2 e)) by apply bpow_ge_0; auto|].
      rewrite ulp_bpow. apply bpow_le. unfold SpecFloat.fexp. lia. }
    replace (e + 1 - prec)%Z with ((e - prec) + 1)%Z in L by lia. rewrite bpow_plus in L.
    change (bpow radix2 1) with 2 in L. lra.
  Qed.

  (* two floats that differ by at most 4 in their bit patterns are close *)
  Lemma bits_close (m1 m2 : positive) (e1 e2 : Z) : (4 <= prec)%Z ->
    valid_binary prec emax (S754_finite false m1 e1) = true -> valid_binary prec emax (S754_finite false m2 e2) = true ->
    (e1 <= e2)%Z -> (Z.abs (((e1 - emin) * 2 ^ (prec - 1) + Zpos m1) - ((e2 - emin) * 2 ^ (prec - 1) + Zpos m2)) <= 4)%Z ->
    Rabs (IZR (Zpos m1) * bpow radix2 e1 - IZR (Zpos m2) * bpow radix2 e2) <= 4 * bpow radix2 e2 /\
    (e2 = emin \/ bpow radix2 (prec - 1) <= IZR (Zpos m2)).
  Proof.
    intros Hp V1 V2 He Hb.
    assert (VV : forall m e, valid_binary prec emax (S754_finite false m e) = true -> (emin <= e)%Z /\ (Zpos m < 2 ^ prec)%Z /\ (e = emin \/ 2 ^ (prec - 1) <= Zpos m)%Z).
    { intros m e V. cbn in V. apply Bool.andb_true_iff in V as [V _]. unfold canonical_mantissa in V. apply Zeq_bool_eq in V.
      assert (Hd := Digits.Zdigits_correct radix2 (Zpos m)). rewrite Zpos_digits2_pos in V. unfold SpecFloat.fexp in V.
      cbn [Z.abs] in Hd. change (Zpower radix2) with (Z.pow 2) in Hd. set (d := Digits.Zdigits radix2 (Zpos m)) in *.
      assert (d <= prec)%Z by lia. split; [lia|]. split.
      - apply Z.lt_le_trans with (2 ^ d)%Z; [apply Hd|]. apply Z.pow_le_mono_r; lia.
      - destruct (Z.eq_dec e emin); auto. right. assert (d = prec) by lia. rewrite <- H0. apply Hd. }
    apply VV in V1, V2. destruct V1 as (V1a & V1b & V1c), V2 as (V2a & V2b & V2c).
    assert (P2 : (2 ^ prec = 2 * 2 ^ (prec - 1))%Z) by (rewrite <- (Z.pow_succ_r 2 (prec - 1)) by lia; f_equal; lia).
    assert (P8 : (8 <= 2 ^ (prec - 1))%Z) by (apply (Z.pow_le_mono_r 2 3); lia).
    split.
    - assert (C : (e1 = e2 \/ e2 = e1 + 1)%Z).
      { assert (~ (e1 + 2 <= e2)%Z); [|lia]. intros C. destruct V2c as [V2c|V2c]; [lia|].
        assert ((e2 - e1 - 2) * 2 ^ (prec - 1) >= 0)%Z by nia. nia. }
      destruct C as [<-| ->].
      + replace (IZR (Z.pos m1) * bpow radix2 e1 - IZR (Z.pos m2) * bpow radix2 e1) with (IZR (Zpos m1 - Zpos m2) * bpow radix2 e1) by (rewrite minus_IZR; ring).
        rewrite Rabs_mult, (Rabs_pos_eq (bpow radix2 e1)) by apply bpow_ge_0. apply Rmult_le_compat_r; [apply bpow_ge_0|]. rewrite <- abs_IZR. apply IZR_le. lia.
      + destruct V2c as [V2c|V2c]; [lia|].
        replace (bpow radix2 (e1 + 1)) with (2 * bpow radix2 e1) by (rewrite bpow_plus; change (bpow radix2 1) with 2; ring).
        replace (IZR (Z.pos m1) * bpow radix2 e1 - IZR (Z.pos m2) * (2 * bpow radix2 e1)) with (IZR (Zpos m1 - 2 * Zpos m2) * bpow radix2 e1) by (rewrite minus_IZR, mult_IZR; ring).
        rewrite Rabs_mult, (Rabs_pos_eq (bpow radix2 e1)) by apply bpow_ge_0. rewrite <- Rmult_assoc. apply Rmult_le_compat_r; [apply bpow_ge_0|]. rewrite <- abs_IZR, <- mult_IZR. apply IZR_le. nia.
    - destruct V2c as [V2c|V2c]; auto. right. rewrite <- (IZR_Zpower radix2) by lia. apply IZR_le. auto.
  Qed.

  (* different grid values are never ulps-equal *)
  Lemma ulps_grid t m x y : (4 <= prec)%Z -> scale_ok prec emax t -> scale_ok prec emax epsexp -> (epsexp < t)%Z -> (emin + 3 <= t)%Z -> (0 < m <= 2 ^ (prec - 4))%Z ->
    ong t m x -> ong t m y -> fl_ulps_with prec emax (fl_pow2 prec emax epsexp) 4 x y = Reqb (rv x) (rv y).
  Proof.
    intros Hp Ht Heps Het Hemin Hm Hx Hy. assert (Gx := ong_good _ _ _ _ _ Hx). assert (Gy := ong_good _ _ _ _ _ Hy).
    assert (P2 : (2 ^ prec = 16 * 2 ^ (prec - 4))%Z) by (change 16%Z with (2 ^ 4)%Z; rewrite <- Z.pow_add_r by lia; f_equal; lia).
    destruct (ong_sub prec emax Hprec Hmax t m m x y) as [[Gd _] Ed]; auto; [lia|].
    destruct (good_abs _ _ _ Gd) as [Ga Ea]. destruct (pow2_good prec emax Hprec Hmax epsexp Heps) as [Gp Ep].
    unfold fl_ulps_with, fl_absdiff. rewrite (leb_R prec emax at2 _ _ Ga Gp), Ea, Ed, Ep. destruct Hx as (_ & k & Hk & Ex), Hy as (_ & l & Hl & Ey).
    destruct (Reqb_spec (rv x) (rv y)) as [Z0|NZ].
    - rewrite Z0, Rminus_diag_eq, Rabs_R0 by auto. replace (Rleb 0 _) with true; auto. symmetry. apply Rleb_true. apply bpow_ge_0.
    - assert (Bt := bpow_gt_0 radix2 t).
      assert (Hbig : bpow radix2 t <= Rabs (rv x - rv y)).
      { rewrite Ex, Ey. replace (IZR k * bpow radix2 t - IZR l * bpow radix2 t) with (IZR (k - l) * bpow radix2 t) by (rewrite minus_IZR; ring).
        rewrite Rabs_mult, (Rabs_pos_eq (bpow radix2 t)) by lra. rewrite <- abs_IZR.
        assert (1 <= Z.abs (k - l))%Z by (destruct (Z.eq_dec k l) as [->|]; [|lia]; exfalso; apply NZ; rewrite Ex, Ey; auto).
        apply IZR_le in H. nra. }
      replace (Rleb _ _) with false by (symmetry; apply Rleb_false; eapply Rlt_le_trans; [apply bpow_lt; exact Het|auto]).
      assert (Sml : forall z w, ong t m z -> w = rv z -> Rabs w <= bpow radix2 (prec - 4) * bpow radix2 t).
      { intros z w (_ & j & Hj & Ez) ->. rewrite Ez, Rabs_mult, (Rabs_pos_eq (bpow radix2 t)) by lra. apply Rmult_le_compat_r; [lra|].
        rewrite <- abs_IZR, <- (IZR_Zpower radix2) by lia. apply IZR_le. change (Zpower radix2 (prec - 4)) with (2 ^ (prec - 4))%Z. lia. }
      assert (Core : forall m1 m2 e1 e2, valid_binary prec emax (S754_finite false m1 e1) = true -> valid_binary prec emax (S754_finite false m2 e2) = true ->
         Rabs (IZR (Zpos m1) * bpow radix2 e1) <= bpow radix2 (prec - 4) * bpow radix2 t -> Rabs (IZR (Zpos m2) * bpow radix2 e2) <= bpow radix2 (prec - 4) * bpow radix2 t ->
         bpow radix2 t <= Rabs (IZR (Zpos m1) * bpow radix2 e1 - IZR (Zpos m2) * bpow radix2 e2) -> (e1 <= e2)%Z ->
         (Z.abs (((e1 - emin) * 2 ^ (prec - 1) + Zpos m1) - ((e2 - emin) * 2 ^ (prec - 1) + Zpos m2)) <= 4)%Z -> False).
      { intros m1 m2 e1 e2 V1 V2 B1 B2 Hd He Hb. destruct (bits_close m1 m2 e1 e2 Hp V1 V2 He Hb) as [Hc [ ->|Hn]].
        - assert (8 * bpow radix2 emin <= bpow radix2 t).
          { change 8 with (bpow radix2 3). rewrite <- bpow_plus. apply bpow_le. lia. }
          pose proof (bpow_gt_0 radix2 emin). lra.
        - rewrite Rabs_pos_eq in B2 by (apply Rmult_le_pos; [apply IZR_le; lia|apply bpow_ge_0]).
          assert (bpow radix2 (prec - 1) * bpow radix2 e2 <= bpow radix2 (prec - 4) * bpow radix2 t).
          { eapply Rle_trans; [|exact B2]. apply Rmult_le_compat_r; auto. apply bpow_ge_0. }
          assert (E8 : bpow radix2 (prec - 1) = bpow radix2 (prec - 4) * 8) by (change 8 with (bpow radix2 3); rewrite <- bpow_plus; f_equal; lia).
          rewrite E8, Rmult_assoc in H. apply Rmult_le_reg_l in H; [|apply bpow_gt_0]. pose proof (bpow_gt_0 radix2 e2). lra. }
      assert (Zr : forall mm e, valid_binary prec emax (S754_finite false mm e) = true -> bpow radix2 t <= IZR (Zpos mm) * bpow radix2 e -> ~ ((e - emin) * 2 ^ (prec - 1) + Zpos mm <= 4)%Z).
      { intros mm e V Hb Hc. cbn in V. apply Bool.andb_true_iff in V as [V _]. unfold canonical_mantissa in V. apply Zeq_bool_eq in V.
        assert (He : (emin <= e)%Z) by (rewrite <- V; unfold SpecFloat.fexp; lia).
        assert (P8 : (8 <= 2 ^ (prec - 1))%Z) by (apply (Z.pow_le_mono_r 2 3); lia).
        assert (e = emin) by nia. subst e. 
        assert (8 * bpow radix2 emin <= bpow radix2 t).
        { change 8 with (bpow radix2 3). rewrite <- bpow_plus. apply bpow_le. lia. }
        assert (IZR (Z.pos mm) <= 4) by (apply IZR_le; nia). pose proof (bpow_gt_0 radix2 emin). nra. }
      assert (Sx := Sml x _ (conj Gx (ex_intro _ k (conj Hk Ex))) eq_refl). assert (Sy := Sml y _ (conj Gy (ex_intro _ l (conj Hl Ey))) eq_refl). clear Sml Ga Ea Ed Gd.
      clear Ex Ey. destruct Gx as [Vx Fx], Gy as [Vy Fy].
      destruct x as [bx|bx| |bx mx ex]; try discriminate; destruct y as [by_|by_| |by_ my ey]; try discriminate; cbn [fl_is_nan orb fl_signneg];
        [exfalso; apply NZ; reflexivity|..].
      + destruct (Bool.eqb bx by_) eqn:Eb; auto. cbn [negb]. apply Bool.not_true_iff_false. intros C. apply Z.leb_le in C. unfold fl_bits in C. change (Z.of_N 4) with 4%Z in C.
        apply (Zr my ey); [exact Vy| |].
        * unfold fvalue, SF2R, Defs.F2R in Hbig. cbn [Defs.Fnum Defs.Fexp] in Hbig. rewrite Rminus_0_l, Rabs_Ropp, Rabs_mult, (Rabs_pos_eq (bpow radix2 ey)) in Hbig by apply bpow_ge_0.
          rewrite <- abs_IZR in Hbig. destruct by_; cbn [cond_Zopp Z.opp Z.abs] in Hbig; exact Hbig.
        * cbn in Vy. lia.
      + destruct (Bool.eqb bx by_) eqn:Eb; auto. cbn [negb]. apply Bool.not_true_iff_false. intros C. apply Z.leb_le in C. unfold fl_bits in C. change (Z.of_N 4) with 4%Z in C.
        apply (Zr mx ex); [exact Vx| |].
        * unfold fvalue, SF2R, Defs.F2R in Hbig. cbn [Defs.Fnum Defs.Fexp] in Hbig. rewrite Rminus_0_r, Rabs_mult, (Rabs_pos_eq (bpow radix2 ex)) in Hbig by apply bpow_ge_0.
          rewrite <- abs_IZR in Hbig. destruct bx; cbn [cond_Zopp Z.opp Z.abs] in Hbig; exact Hbig.
        * lia.
      + destruct (Bool.eqb bx by_) eqn:Eb; auto. apply Bool.eqb_prop in Eb. subst by_. cbn [negb]. apply Bool.not_true_iff_false. intros C. apply Z.leb_le in C. unfold fl_bits in C. change (Z.of_N 4) with 4%Z in C.
        assert (Ev : forall mm e, rv (S754_finite bx mm e) = (if bx then -1 else 1) * (IZR (Zpos mm) * bpow radix2 e)).
        { intros mm e. unfold fvalue, SF2R, Defs.F2R. cbn [Defs.Fnum Defs.Fexp]. destruct bx; cbn [cond_Zopp]; [rewrite opp_IZR|]; ring. }
        assert (Es : Rabs (if bx then -1 else 1) = 1) by (destruct bx; [rewrite Rabs_left; lra|apply Rabs_R1]).
        rewrite Ev, Rabs_mult, Es, Rmult_1_l in Sx, Sy. rewrite !Ev, <- Rmult_minus_distr_l, Rabs_mult, Es, Rmult_1_l in Hbig.
        destruct (Z.le_ge_cases ex ey) as [L|L].
        * apply (Core mx my ex ey); auto.
        * rewrite Rabs_minus_sym in Hbig. apply (Core my mx ey ex); auto. lia.
  Qed.

  (* quotients of grid values *)
  Lemma rnd_1 : (emin <= 0)%Z -> rnd 1 = 1.
  Proof. intros H. exact (rnd_bpow prec emax Hprec 0 H). Qed.
  Lemma frac_pos (k l : Z) : (0 < l)%Z -> (Z.abs k <= 2 ^ prec)%Z -> (l <= 2 ^ prec)%Z -> (emin + prec + prec <= 0)%Z ->
    let x := IZR k / IZR l in
    Rabs (rnd x - x) <= u * Rabs x /\ Rabs x <= bpow radix2 prec /\ (0 <= rnd x <-> 0 <= x) /\ (rnd x <= 1 <-> x <= 1).
  Proof.
    intros Hl Hk Hl2 He x. assert (Pp : (0 < prec)%Z) by (unfold Prec_gt_0 in Hprec; auto). assert (Ll : 1 <= IZR l) by (apply IZR_le; lia).
    assert (Lu : IZR l <= bpow radix2 prec) by (rewrite <- (IZR_Zpower radix2) by lia; apply IZR_le; exact Hl2).
    assert (Ku : Rabs (IZR k) <= bpow radix2 prec) by (rewrite <- abs_IZR, <- (IZR_Zpower radix2) by lia; apply IZR_le; exact Hk).
    assert (Ex : x * IZR l = IZR k) by (unfold x; field; lra). assert (B := bpow_gt_0 radix2 prec).
    assert (Ax : Rabs x * IZR l = Rabs (IZR k)) by (rewrite <- Ex, Rabs_mult, (Rabs_pos_eq (IZR l)) by lra; auto).
    assert (A0 := Rabs_pos x).
    assert (Ui : u * bpow radix2 prec = 1) by (unfold ulp1; rewrite <- bpow_plus; replace (- prec + prec)%Z with 0%Z by lia; reflexivity).
    assert (U0 := ulp1_pos prec).
    assert (Small : k <> 0%Z -> u <= Rabs x).
    { intros Hn. assert (1 <= Rabs (IZR k)) by (rewrite <- abs_IZR; apply IZR_le; lia). nra. }
    split; [|split; [|split]].
    - apply rnd_rel; auto. destruct (Z.eq_dec k 0) as [->|Hn]; [left; unfold x; field; lra|right]. unfold normal.
      eapply Rle_trans; [|apply Small; auto]. unfold ulp1. apply bpow_le. lia.
    - nra.
    - split; [|apply rnd_nonneg; auto]. intros H. apply Rnot_lt_le. intros C. assert (k <> 0%Z) by (intros ->; unfold x in C; unfold Rdiv in C; lra).
      apply Small in H0. rewrite Rabs_left in H0 by auto. assert (Q : x <= - u) by lra. apply (rnd_le prec emax Hprec) in Q.
      unfold ulp1 in Q. rewrite rnd_opp, rnd_bpow in Q by (auto; lia). pose proof (bpow_gt_0 radix2 (- prec)). lra.
    - split; [|intros H; apply (rnd_le prec emax Hprec) in H; rewrite rnd_1 in H by lia; auto]. intros H. apply Rnot_lt_le. intros C.
      apply rnd_le_1 in H; auto; [|lia]. assert (K1 : IZR l < IZR k) by nra. apply lt_IZR in K1.
      assert (K2 : IZR l + 1 <= IZR k) by (rewrite <- plus_IZR; apply IZR_le; lia).
      assert (K3 : IZR k <= bpow radix2 prec) by (rewrite Rabs_pos_eq in Ku by lra; auto).
      assert (u * IZR l < 1); [|nra]. apply Rlt_le_trans with (u * bpow radix2 prec); [apply Rmult_lt_compat_l; lra|lra].
  Qed.
  Lemma quot t m x y : (m <= 2 ^ prec)%Z -> (emin + prec + prec <= 0)%Z -> (prec < emax - 1)%Z -> ong t m x -> ong t m y -> rv y <> 0 ->
    let q := rv x / rv y in let f := SFdiv prec emax x y in
    good f /\ rv f = rnd q /\ Rabs (rv f - q) <= u * Rabs q /\ Rabs q <= bpow radix2 prec /\ (0 <= rv f <-> 0 <= q) /\ (rv f <= 1 <-> q <= 1).
  Proof.
    intros Hm He Hx (Gx & k & Hk & Ex) (Gy & l & Hl & Ey) Ny q f. assert (B := bpow_gt_0 radix2 t).
    assert (Nl : l <> 0%Z) by (intros ->; apply Ny; rewrite Ey; ring).
    assert (F : Rabs (rnd q - q) <= u * Rabs q /\ Rabs q <= bpow radix2 prec /\ (0 <= rnd q <-> 0 <= q) /\ (rnd q <= 1 <-> q <= 1)).
    { destruct (Z_lt_le_dec l 0) as [L|L].
      - replace q with (IZR (- k) / IZR (- l)); [apply frac_pos; lia|]. unfold q. rewrite Ex, Ey, !opp_IZR. field. split; [lra|]. apply IZR_neq in Nl. auto.
      - replace q with (IZR k / IZR l); [apply frac_pos; lia|]. unfold q. rewrite Ex, Ey. field. split; [lra|]. apply IZR_neq in Nl. auto. }
    destruct F as (F1 & F2 & F3).
    destruct (div_rnd prec emax Hprec Hmax x y) as [G E]; auto.
    { eapply (rnd_finite prec emax Hprec _ prec); auto. unfold Prec_gt_0 in Hprec. lia. }
    fold q f in G, E. rewrite E. auto.
  Qed.

  Context (s K : Z).
  Record isect_ok : Prop := { i_s : scale_ok prec emax s; i_ss : scale_ok prec emax (s + s); i_K : (0 <= K)%Z; i_n : (K + K + 4 <= prec)%Z; i_n2 : (K + 6 <= prec)%Z;
    i_eps : scale_ok prec emax epsexp; i_e1 : (epsexp < s)%Z; i_e2 : (epsexp < s + s)%Z; i_m1 : (emin + 3 <= s)%Z; i_m2 : (emin + 3 <= s + s)%Z;
    i_q : (emin + prec + prec <= 0)%Z; i_px : (prec < emax - 3)%Z; i_lo : (emin + prec <= K + s)%Z; i_hi : (K + s + 4 < emax)%Z }.
  Context (OK : isect_ok).
  Notation n := (2 ^ K)%Z.
  Notation onp := (@grid_point prec emax epsexp at2 s n).
  Notation val := (@point_value prec emax epsexp at2).
  (* vectors: differences of grid points *)
  Definition onv (v : V2 FS) : Prop := ong s (2 * n) (vx v) /\ ong s (2 * n) (vy v).

  Lemma n_pos : (1 <= n)%Z.
  Proof. destruct OK. apply (Z.pow_le_mono_r 2 0); lia. Qed.
  Lemma nn16 : (16 * (n * n) <= 2 ^ prec)%Z.
  Proof. destruct OK. replace (16 * (n * n))%Z with (2 ^ (4 + (K + K)))%Z by (rewrite !Z.pow_add_r by lia; lia). apply Z.pow_le_mono_r; lia. Qed.
  Lemma p4 : (4 <= prec)%Z.
  Proof. destruct OK. lia. Qed.
  Lemma vsub_ex a b : onp a -> onp b -> onv (vsub a b) /\ val (vsub a b) = vsub (val a) (val b).
  Proof.
    intros [Ax Ay] [Bx By]. pose proof nn16. pose proof n_pos. destruct OK.
    destruct (ong_sub prec emax Hprec Hmax s n n _ _ i_s0 Ax Bx) as [G1 E1]; [nia|]. destruct (ong_sub prec emax Hprec Hmax s n n _ _ i_s0 Ay By) as [G2 E2]; [nia|].
    replace (n + n)%Z with (2 * n)%Z in * by lia. split; [split; auto|]. unfold point_value, vsub. cbn [vx vy ssub FloatS RS]. rewrite E1, E2. auto.
  Qed.
  Lemma opp_ex t m x : ong t m x -> ong t m (SFopp x) /\ rv (SFopp x) = - rv x.
  Proof.
    intros ([V F] & k & Hk & E).
    assert (G : rv (SFopp x) = - rv x).
    { destruct x as [b|b| |b mm e]; try discriminate; unfold fvalue; cbn [SFopp SF2R]; [lra|]. unfold Defs.F2R. cbn [Defs.Fnum Defs.Fexp].
      destruct b; cbn [cond_Zopp negb]; rewrite ?opp_IZR; ring. }
    split; auto. split.
    - destruct x as [b|b| |b mm e]; try discriminate; split; auto.
    - exists (- k)%Z. split; [lia|]. rewrite G, E, opp_IZR. ring.
  Qed.
  Lemma vneg_ex a : onv a -> onv (vneg a) /\ val (vneg a) = vneg (val a).
  Proof.
    intros [Ax Ay]. destruct (opp_ex _ _ _ Ax) as [G1 E1], (opp_ex _ _ _ Ay) as [G2 E2]. split; [split; auto|].
    unfold point_value, vneg. cbn [vx vy sneg FloatS RS]. rewrite E1, E2. auto.
  Qed.
  Lemma vprods a b : onv a -> onv b ->
    (ong (s + s) (8 * (n * n)) (vperp a b) /\ rv (vperp a b) = vperp (val a) (val b)) /\
    (ong (s + s) (8 * (n * n)) (vdot a b) /\ rv (vdot a b) = vdot (val a) (val b)).
  Proof.
    intros [Ax Ay] [Bx By]. pose proof nn16. pose proof n_pos. destruct OK.
    assert (M : forall x y, ong s (2 * n) x -> ong s (2 * n) y -> ong (s + s) (4 * (n * n)) (SFmul prec emax x y) /\ rv (SFmul prec emax x y) = rv x * rv y).
    { intros x y Hx Hy. replace (4 * (n * n))%Z with (2 * n * (2 * n))%Z by lia. apply ong_mul; auto. nia. }
    destruct (M _ _ Ax By) as [G1 E1], (M _ _ Ay Bx) as [G2 E2], (M _ _ Ax Bx) as [G3 E3], (M _ _ Ay By) as [G4 E4].
    destruct (ong_sub prec emax Hprec Hmax (s + s) _ _ _ _ i_ss0 G1 G2) as [G5 E5]; [nia|].
    destruct (ong_add prec emax Hprec Hmax (s + s) _ _ _ _ i_ss0 G3 G4) as [G6 E6]; [nia|].
    replace (4 * (n * n) + 4 * (n * n))%Z with (8 * (n * n))%Z in * by lia.
    unfold vperp, vdot, point_value. cbn [vx vy smul sadd ssub FloatS RS].
    split; split; auto; [rewrite E5, E1, E2|rewrite E6, E3, E4]; auto.
  Qed.
  Lemma perp_zero a b : onv a -> onv b -> sulps (vperp a b) s0 = Reqb (vperp (val a) (val b)) 0.
  Proof.
    intros Ha Hb. destruct (vprods a b Ha Hb) as [[G E] _]. rewrite <- E. cbn [sulps s0 FloatS]. pose proof nn16. pose proof n_pos. pose proof p4. destruct OK.
    apply (ulps_zero prec emax epsexp at2 Hprec Hmax (s + s) (8 * (n * n))); auto. nia.
  Qed.
  Lemma sulps_ex x y : ong s n x -> ong s n y -> @sulps FS x y = Reqb (rv x) (rv y).
  Proof.
    intros Hx Hy. cbn [sulps FloatS]. pose proof p4. destruct OK. apply (ulps_grid s n); auto. split; [apply Z.pow_pos_nonneg; lia|]. apply Z.pow_le_mono_r; lia.
  Qed.
  Lemma vulps_ex a b : onp a -> onp b -> vulps a b = vulps (val a) (val b).
  Proof. intros [Ax Ay] [Bx By]. unfold vulps. rewrite !sulps_ex by auto. reflexivity. Qed.
  Lemma ltb_ex x y : good x -> good y -> @sltb FS x y = Rltb (rv x) (rv y).
  Proof. intros Hx Hy. apply (ltb_R prec emax at2); auto. Qed.
  Lemma precedes_ex a b : onp a -> onp b -> precedes a b = precedes (val a) (val b).
  Proof.
    intros [Ax Ay] [Bx By]. unfold precedes. rewrite sulps_ex by auto. rewrite !ltb_ex by first [apply Ax|apply Ay|apply Bx|apply By]. reflexivity.
  Qed.
  Lemma min_ex x y : good x -> good y -> good (@smin FS x y) /\ rv (@smin FS x y) = Rmin (rv x) (rv y).
  Proof.
    intros Hx Hy. cbn [smin FloatS]. unfold fl_min. replace (fl_is_nan x) with false by (destruct Hx as [_ Hx], x; auto; discriminate).
    replace (fl_is_nan y) with false by (destruct Hy as [_ Hy], y; auto; discriminate). rewrite (ltb_R prec emax at2 _ _ Hy Hx).
    destruct (Rltb_spec (rv y) (rv x)) as [L|L]; [rewrite Rmin_right by lra|rewrite Rmin_left by lra]; auto.
  Qed.
  Lemma max_ex x y : good x -> good y -> good (@smax FS x y) /\ rv (@smax FS x y) = Rmax (rv x) (rv y).
  Proof.
    intros Hx Hy. cbn [smax FloatS]. unfold fl_max. replace (fl_is_nan x) with false by (destruct Hx as [_ Hx], x; auto; discriminate).
    replace (fl_is_nan y) with false by (destruct Hy as [_ Hy], y; auto; discriminate). rewrite (ltb_R prec emax at2 _ _ Hx Hy).
    destruct (Rltb_spec (rv x) (rv y)) as [L|L]; [rewrite Rmax_right by lra|rewrite Rmax_left by lra]; auto.
  Qed.
  Lemma G0 : good (S754_zero false).
  Proof. apply good_zero. Qed.
  Lemma G1 : good (@s1 FS) /\ rv (@s1 FS) = 1.
  Proof. pose proof p4. destruct OK. apply (fl_of_Z_good prec emax Hprec Hmax 1); [cbn [Z.abs]; apply (Z.pow_le_mono_r 2 0); lia|split; unfold SpecFloat.emin in *; lia]. Qed.

  (* p + r * x *)
  Lemma along p r x : ong s n p -> ong s (2 * n) r -> good x -> Rabs (rv x) <= 1 ->
    let f := SFadd prec emax p (SFmul prec emax r x) in
    good f /\ rv f = rnd (rv p + rnd (rv r * rv x)) /\ Rabs (rv f - (rv p + rv r * rv x)) <= 6 * bpow radix2 (K + s - prec).
  Proof.
    intros Hp Hr Hx X1 f. assert (OK' := OK). destruct OK'.
    assert (Bs := bpow_gt_0 radix2 s). assert (Bk := bpow_gt_0 radix2 (K + s)).
    assert (Cn : IZR n = bpow radix2 K) by (rewrite <- (IZR_Zpower radix2) by lia; auto).
    assert (Lp : Rabs (rv p) <= bpow radix2 (K + s)).
    { destruct Hp as (_ & k & Hk & ->). rewrite Rabs_mult, (Rabs_pos_eq (bpow radix2 s)), bpow_plus, <- Cn by lra. apply Rmult_le_compat_r; [lra|]. rewrite <- abs_IZR. apply IZR_le; auto. }
    assert (Lr : Rabs (rv r) <= 2 * bpow radix2 (K + s)).
    { destruct Hr as (_ & k & Hk & ->). rewrite Rabs_mult, (Rabs_pos_eq (bpow radix2 s)), bpow_plus, <- Cn, <- Rmult_assoc by lra. apply Rmult_le_compat_r; [lra|]. rewrite <- abs_IZR, <- mult_IZR. apply IZR_le; auto. }
    assert (E1 : bpow radix2 (K + s + 1) = 2 * bpow radix2 (K + s)) by (rewrite bpow_plus; change (bpow radix2 1) with 2; ring).
    assert (E2 : bpow radix2 (K + s + 2) = 4 * bpow radix2 (K + s)) by (rewrite bpow_plus; change (bpow radix2 2) with 4; ring).
    assert (Lm : Rabs (rv r * rv x) <= bpow radix2 (K + s + 1)).
    { rewrite Rabs_mult, E1. rewrite <- (Rmult_1_r (2 * _)). apply Rmult_le_compat; auto using Rabs_pos. }
    destruct (mul_rnd prec emax Hprec Hmax r x) as [Gm Em]; auto; [apply Hr|eapply rnd_finite; [auto..| |exact Lm]; unfold SpecFloat.emin in *; lia|].
    assert (Lm' : Rabs (rv (SFmul prec emax r x)) <= bpow radix2 (K + s + 1)) by (rewrite Em; apply rnd_small; auto; unfold SpecFloat.emin in *; lia).
    assert (Ls : Rabs (rv p + rv (SFmul prec emax r x)) <= bpow radix2 (K + s + 2)).
    { eapply Rle_trans; [apply Rabs_triang|]. lra. }
    destruct (add_rnd prec emax Hprec Hmax p (SFmul prec emax r x)) as [Ga Ea]; auto; [apply Hp|eapply rnd_finite; [auto..| |exact Ls]; unfold SpecFloat.emin in *; lia|].
    fold f in Ga, Ea. split; auto. split; [rewrite Ea, Em; auto|].
    assert (H1 := half_err _ (K + s + 1) ltac:(lia) Lm). assert (H2 := half_err _ (K + s + 2) ltac:(lia) Ls). rewrite <- Em in H1. rewrite <- Ea in H2.
    replace (K + s + 1 - prec)%Z with (K + s - prec + 1)%Z in H1 by lia. replace (K + s + 2 - prec)%Z with (K + s - prec + 2)%Z in H2 by lia.
    rewrite bpow_plus in H1, H2. change (bpow radix2 1) with 2 in H1. change (bpow radix2 2) with 4 in H2.
    replace (rv f - (rv p + rv r * rv x)) with ((rv f - (rv p + rv (SFmul prec emax r x))) + (rv (SFmul prec emax r x) - rv r * rv x)) by ring.
    eapply Rle_trans; [apply Rabs_triang|]. lra.
  Qed.
  Lemma near_along p r x t c : ong s n p -> ong s (2 * n) r -> good x -> Rabs (rv x) <= 1 -> Rabs (rv r * (rv x - t)) <= c * bpow radix2 (K + s - prec) ->
    Rabs (rv (SFadd prec emax p (SFmul prec emax r x)) - (rv p + rv r * t)) <= (6 + c) * bpow radix2 (K + s - prec).
  Proof.
    intros Hp Hr Hx X1 H. destruct (along p r x Hp Hr Hx X1) as (_ & _ & A).
    replace (rv (SFadd prec emax p (SFmul prec emax r x)) - (rv p + rv r * t)) with ((rv (SFadd prec emax p (SFmul prec emax r x)) - (rv p + rv r * rv x)) + rv r * (rv x - t)) by ring.
    eapply Rle_trans; [apply Rabs_triang|]. lra.
  Qed.
  Lemma onv_le v : onv v -> Rabs (rv (vx v)) <= 2 * bpow radix2 (K + s) /\ Rabs (rv (vy v)) <= 2 * bpow radix2 (K + s).
  Proof.
    destruct OK. assert (Cn : IZR n = bpow radix2 K) by (rewrite <- (IZR_Zpower radix2) by lia; auto). assert (Bs := bpow_gt_0 radix2 s).
    assert (L : forall x, ong s (2 * n) x -> Rabs (rv x) <= 2 * bpow radix2 (K + s)).
    { intros x (_ & k & Hk & ->). rewrite Rabs_mult, (Rabs_pos_eq (bpow radix2 s)), bpow_plus, <- Cn, <- Rmult_assoc by lra. apply Rmult_le_compat_r; [lra|]. rewrite <- abs_IZR, <- mult_IZR. apply IZR_le; auto. }
    intros [H1 H2]. split; auto.
  Qed.
  Lemma u_step : u * bpow radix2 (K + s) = bpow radix2 (K + s - prec).
  Proof. unfold ulp1. rewrite <- bpow_plus. f_equal. lia. Qed.

  Definition close (c : R) (p : V2 FS) (q : pt) : Prop :=
    Rabs (rv (vx p) - vx q) <= c * bpow radix2 (K + s - prec) /\ Rabs (rv (vy p) - vy q) <= c * bpow radix2 (K + s - prec).
  (* no error at an end of the first segment *)
  Definition sharp (a : Line2 FS) (p : V2 FS) (q : pt) : Prop := good (vx p) /\ good (vy p) /\ (q = val (lstart a) \/ q = val (lend a) -> val p = q).
  (* the computed result has the kind of the exact one, and close coordinates *)
  Definition like (a : Line2 FS) (f : option (Intersection FS)) (e : option (Intersection RS)) : Prop :=
    match f, e with
    | None, None => True
    | Some (IPoint p), Some (IPoint q) => close 8 p q /\ sharp a p q
    | Some (IOverlap l), Some (IOverlap m) => close 8 (lstart l) (lstart m) /\ close 12 (lend l) (lend m) /\ sharp a (lstart l) (lstart m)
    | _, _ => False
    end.
  Lemma rnd_good x : good x -> rnd (rv x) = rv x.
  Proof.
    intros G. destruct (good_B _ _ x G) as (b & -> & _ & E). rewrite <- E. apply round_generic; [apply valid_rnd_N|]. apply generic_format_B2R.
  Qed.
  Lemma sharp_along p r e x t : onp p -> onv r -> onp e -> val e = vadd (val p) (val r) -> rv (vx r) <> 0 \/ rv (vy r) <> 0 -> good x -> Rabs (rv x) <= 1 -> (t = 0 -> rv x = 0) -> (t = 1 -> rv x = 1) ->
    let q := @mkV2 RS (rv (vx p) + rv (vx r) * t) (rv (vy p) + rv (vy r) * t) in q = val p \/ q = val e ->
    val (@mkV2 FS (SFadd prec emax (vx p) (SFmul prec emax (vx r) x)) (SFadd prec emax (vy p) (SFmul prec emax (vy r) x))) = q.
  Proof.
    intros [Px Py] [Rx Ry] [Ex Ey] Ee Nr Gx X1 T0 T1 q Hq. destruct (along _ _ x Px Rx Gx X1) as (_ & Fx & _). destruct (along _ _ x Py Ry Gx X1) as (_ & Fy & _).
    injection Ee as Ee1 Ee2. cbn [vx vy point_value sadd RS] in Ee1, Ee2.
    unfold q in *. unfold point_value in *. cbn [vx vy] in *. rewrite Fx, Fy. destruct Hq as [Hq|Hq]; injection Hq as H1 H2.
    - assert (t = 0). { destruct Nr as [N|N]; [apply Rmult_eq_reg_l with (rv (vx r)); auto; lra|apply Rmult_eq_reg_l with (rv (vy r)); auto; lra]. }
      rewrite (T0 H), H, !Rmult_0_r, rnd_0, !Rplus_0_r, !rnd_good by first [apply Px|apply Py]. reflexivity.
    - assert (t = 1). { destruct Nr as [N|N]; [apply Rmult_eq_reg_l with (rv (vx r)); auto; lra|apply Rmult_eq_reg_l with (rv (vy r)); auto; lra]. }
      rewrite (T1 H), H, !Rmult_1_r, (rnd_good (vx r)), (rnd_good (vy r)) by first [apply Rx|apply Ry]. rewrite <- Ee1, <- Ee2, !rnd_good by first [apply Ex|apply Ey]. reflexivity.
  Qed.
  Definition lval (l : Line2 FS) : Line2 RS := @mkL RS (val (lstart l)) (val (lend l)).

  Lemma cross_like a b : onp (lstart a) -> onp (lend a) -> onp (lstart b) -> onp (lend b) ->
    vperp (vsub (lend (lval a)) (lstart (lval a))) (vsub (lend (lval b)) (lstart (lval b))) <> 0 ->
    like a (intersection_cross a b) (intersection_cross (lval a) (lval b)).
  Proof.
    intros A0 A1 B0 B1 Hn. destruct a as [a0 a1], b as [b0 b1]. unfold lval in *. cbn [lstart lend] in *. unfold intersection_cross. cbn [lstart lend].
    destruct (vsub_ex _ _ A1 A0) as [R Re], (vsub_ex _ _ B1 B0) as [S Se], (vsub_ex _ _ B0 A0) as [Q Qe].
    rewrite <- Re, <- Se in *. rewrite <- Qe. set (r := vsub a1 a0) in *. set (sv := vsub b1 b0) in *. set (qp := vsub b0 a0) in *.
    destruct (vprods _ _ R S) as [[GD ED] _], (vprods _ _ Q S) as [[GT ET] _], (vprods _ _ Q R) as [[GU EU] _].
    rewrite <- ED in *. rewrite <- ET, <- EU. pose proof nn16. pose proof n_pos. assert (OK' := OK). destruct OK'.
    assert (N8 : (8 * (n * n) <= 2 ^ prec)%Z) by nia.
    destruct (quot _ _ _ _ N8 i_q0 ltac:(lia) GT GD Hn) as (Gt & Et & Dt & Bt & Zt & It).
    destruct (quot _ _ _ _ N8 i_q0 ltac:(lia) GU GD Hn) as (Gu & Eu & Du & Bu & Zu & Iu).
    destruct G1 as [G1' E1].
    assert (IR : forall f q, good f -> (0 <= rv f <-> 0 <= q) -> (rv f <= 1 <-> q <= 1) -> in_range (S := FS) s0 s1 f = in_range (S := RS) 0 1 q).
    { intros f q Gf I0 I1. unfold in_range. cbn [sleb s0 FloatS RS]. rewrite (leb_R prec emax at2 _ _ G0 Gf), (leb_R prec emax at2 _ _ Gf G1'), E1. change (rv (S754_zero false)) with 0.
      f_equal; apply Bool.eq_iff_eq_true; rewrite !Rleb_true; tauto. }
    change (@sdiv FS) with (SFdiv prec emax). change (@sdiv RS) with Rdiv. change (@s0 RS) with 0. change (@s1 RS) with 1.
    rewrite (IR _ _ Gt Zt It), (IR _ _ Gu Zu Iu). destruct (in_range (S := RS) 0 1 (rv (vperp qp sv) / rv (vperp r sv)) && in_range (S := RS) 0 1 (rv (vperp qp r) / rv (vperp r sv)))%bool eqn:E; cbn [like]; auto.
    apply andb_prop in E as [E _]. unfold in_range in E. cbn [sleb RS] in E. apply andb_prop in E as [E2 E3]. apply Rleb_true in E2, E3.
    assert (F0 := proj2 Zt E2). assert (F1 := proj2 It E3). set (t := rv (vperp qp sv) / rv (vperp r sv)) in *. set (f := SFdiv prec emax (vperp qp sv) (vperp r sv)) in *.
    assert (Df : Rabs (rv f - t) <= u). { rewrite (Rabs_pos_eq t) in Dt by auto. pose proof (ulp1_pos prec). nra. }
    assert (Af : Rabs (rv f) <= 1) by (rewrite Rabs_pos_eq; auto).
    destruct (onv_le _ R) as [Lx Ly]. pose proof u_step as U.
    assert (M : forall x, Rabs x <= 2 * bpow radix2 (K + s) -> Rabs (x * (rv f - t)) <= 2 * bpow radix2 (K + s - prec)).
    { intros x L. rewrite Rabs_mult, <- U. apply Rle_trans with (2 * bpow radix2 (K + s) * u); [|lra].
      apply Rmult_le_compat; auto using Rabs_pos. }
    split.
    - unfold close, vadd, vscale, point_value. cbn [vx vy sadd smul FloatS RS]. split.
      + replace 8 with (6 + 2) by ring. apply near_along; auto; [apply A0|apply R].
      + replace 8 with (6 + 2) by ring. apply near_along; auto; [apply A0|apply R].
    - destruct (along _ _ f (proj1 A0) (proj1 R) Gt Af) as (Gx1 & _). destruct (along _ _ f (proj2 A0) (proj2 R) Gt Af) as (Gy1 & _).
      split; [exact Gx1|]. split; [exact Gy1|]. apply (sharp_along a0 r a1 f t); auto.
      + rewrite Re. unfold vadd, vsub, point_value. apply V2_ext; rring.
      + destruct (Req_dec (rv (vx r)) 0) as [Zx|]; auto. destruct (Req_dec (rv (vy r)) 0) as [Zy|]; auto. exfalso. apply Hn. rewrite ED. unfold vperp, point_value. cbn [vx vy smul ssub RS]. rewrite Zx, Zy. rring.
      + intros E0. rewrite Et, E0. apply rnd_0.
      + intros E0. rewrite Et, E0. apply rnd_1. lia.
  Qed.

  Lemma norm_ex a b : onp a -> onp b -> exists p r e,
    (if precedes a b then (b, vneg (vsub b a)) else (a, vsub b a)) = (p, r) /\ onp p /\ onv r /\
    (if precedes (val a) (val b) then (val b, vneg (vsub (val b) (val a))) else (val a, vsub (val b) (val a))) = (val p, val r) /\
    onp e /\ val e = vadd (val p) (val r) /\ (forall q, q = val a \/ q = val b -> q = val p \/ q = val e).
  Proof.
    intros A B. rewrite <- precedes_ex by auto. destruct (vsub_ex _ _ B A) as [R Re], (vneg_ex _ R) as [N Ne].
    destruct (precedes a b); [exists b, (vneg (vsub b a)), a|exists a, (vsub b a), b]; (split; [reflexivity|]); (split; [auto|]); (split; [auto|]); (split; [rewrite <- Re, <- ?Ne; auto|]); (split; [auto|]);
      rewrite ?Ne, Re; (split; [unfold vadd, vneg, vsub, point_value; apply V2_ext; rring|tauto]).
  Qed.
  Lemma val_int t m x : ong t m x -> exists k, rv x = IZR k * bpow radix2 t.
  Proof. intros (_ & k & _ & E). eauto. Qed.

  Lemma parallel_like a b : onp (lstart a) -> onp (lend a) -> onp (lstart b) -> onp (lend b) ->
    lstart (lval a) <> lend (lval a) -> lstart (lval b) <> lend (lval b) ->
    vperp (vsub (lend (lval a)) (lstart (lval a))) (vsub (lend (lval b)) (lstart (lval b))) = 0 ->
    (Rmin (vx (lstart (lval b))) (vx (lend (lval b))) <= Rmax (vx (lstart (lval a))) (vx (lend (lval a))) /\
     Rmin (vx (lstart (lval a))) (vx (lend (lval a))) <= Rmax (vx (lstart (lval b))) (vx (lend (lval b))) /\
     Rmin (vy (lstart (lval b))) (vy (lend (lval b))) <= Rmax (vy (lstart (lval a))) (vy (lend (lval a))) /\
     Rmin (vy (lstart (lval a))) (vy (lend (lval a))) <= Rmax (vy (lstart (lval b))) (vy (lend (lval b)))) ->
    like a (intersection_parallel a b) (intersection_parallel (lval a) (lval b)).
  Proof.
    intros A0 A1 B0 B1 Na Nb Hp HB. destruct a as [a0 a1], b as [b0 b1]. unfold lval in *. cbn [lstart lend] in *. unfold intersection_parallel. cbn [lstart lend].
    destruct (norm_ex a0 a1 A0 A1) as (p & r & e & -> & Op & Or & Er & Oe & Ee & He). destruct (norm_ex b0 b1 B0 B1) as (q & sv & e' & -> & Oq & Os & Es & _). rewrite Er, Es.
    destruct (normalise _ _ Na) as (p' & rx & ry & Er' & Lr & Da & _ & Na1 & Na2 & Na3). rewrite Er in Er'. injection Er' as Ep' Erx Ery.
    destruct (normalise _ _ Nb) as (q' & sx & sy & Es' & Ls & Db & _ & Nb1 & Nb2 & Nb3). rewrite Es in Es'. injection Es' as Eq' Esx Esy.
    assert (Hx : sx * ry - sy * rx = 0).
    { unfold vperp, vsub in Hp. rsimp. destruct Da as [[Da1 Da2]|[Da1 Da2]], Db as [[Db1 Db2]|[Db1 Db2]]; rewrite Da1, Da2, Db1, Db2 in Hp; lra. }
    clear Hp Da Db Er Es. rewrite Na1, Na2, Nb1, Nb2 in HB. subst p' q'. cbn [point_value vx vy] in *.
    destruct (vsub_ex _ _ Oq Op) as [Q Qe]. set (qp := vsub q p) in *.
    destruct (vprods _ _ Or Or) as [_ [GD ED]], (vprods _ _ Q Or) as [_ [GT ET]], (vprods _ _ Os Or) as [_ [GW EW]].
    rewrite perp_zero by auto. change (@sulps RS) with Reqb. change (@s0 RS) with 0. rewrite <- Qe.
    destruct (Reqb_spec (vperp (val qp) (val r)) 0) as [E|E]; [|cbn [like]; auto].
    assert (E' : rv (vx qp) * ry - rv (vy qp) * rx = 0) by (rewrite <- Erx, <- Ery; exact E). clear E.
    assert (Qx : rv (vx qp) = rv (vx q) - rv (vx p)) by (injection Qe; auto). assert (Qy : rv (vy qp) = rv (vy q) - rv (vy p)) by (injection Qe; auto).
    pose proof (lexpos_nz _ _ Lr) as Nr. pose proof (sq_nn rx) as Sx0. pose proof (sq_nn ry) as Sy0.
    destruct (parallel_multiple rx ry sx sy Nr Hx) as [Ks1 Ks2]. destruct (parallel_multiple rx ry _ _ Nr E') as [Kq1 Kq2].
    assert (ED' : rv (vdot r r) = rx * rx + ry * ry) by (rewrite ED, <- Erx, <- Ery; reflexivity).
    assert (ET' : rv (vdot qp r) = rv (vx qp) * rx + rv (vy qp) * ry) by (rewrite ET, <- Erx, <- Ery; reflexivity).
    assert (EW' : rv (vdot sv r) = sx * rx + sy * ry) by (rewrite EW, <- Erx, <- Ery, <- Esx, <- Esy; reflexivity).
    rewrite <- ED, <- ET, <- EW. change (@sdiv RS) with Rdiv. change (@sadd RS) with Rplus. change (@smax RS) with Rmax. change (@smin RS) with Rmin. change (@s1 RS) with 1.
    rewrite <- ED', <- EW' in Ks1, Ks2. rewrite <- ED', <- ET' in Kq1, Kq2.
    assert (ND : rv (vdot r r) <> 0) by (rewrite ED'; auto).
    pose proof nn16 as N16. pose proof n_pos. assert (OK' := OK). destruct OK'. assert (N8 : (8 * (n * n) <= 2 ^ prec)%Z) by nia.
    destruct (quot _ _ _ _ N8 i_q0 ltac:(lia) GT GD ND) as (Gt & Et & Dt & _ & Zt & It).
    destruct (quot _ _ _ _ N8 i_q0 ltac:(lia) GW GD ND) as (Gw & Ew & Dw & _ & Zw & _).
    set (t0 := rv (vdot qp r) / rv (vdot r r)) in *. set (k := rv (vdot sv r) / rv (vdot r r)) in *.
    set (ft := SFdiv prec emax (vdot qp r) (vdot r r)) in *. set (fw := SFdiv prec emax (vdot sv r) (vdot r r)) in *.
    assert (Kp : 0 < k) by (apply (lexpos_multiple rx ry); auto; rewrite <- Ks1, <- Ks2; auto).
    assert (Ht : t0 <= 1 /\ 0 <= t0 + k).
    { destruct Lr as [Lr|[Lr0 Lr]].
      - split; apply Rmult_le_reg_r with rx; auto; lra.
      - destruct (Na3 Lr0) as [Na4 Na5]. rewrite Lr0, Rmult_0_r in Ks1. destruct (Nb3 Ks1) as [Nb4 Nb5].
        rewrite Na4, Na5, Nb4, Nb5 in HB. split; apply Rmult_le_reg_r with ry; auto; lra. }
    destruct Ht as [Ht0 Ht1]. assert (U0 := ulp1_pos prec). assert (Bs := bpow_gt_0 radix2 s). assert (BK := bpow_gt_0 radix2 K).
    (* the parameters are not large *)
    destruct (onv_le _ Os) as [Lsx Lsy], (onv_le _ Q) as [Lqx Lqy], (onv_le _ Or) as [Lrx Lry]. rewrite Erx, Ery in *. rewrite Esx in Lsx. rewrite Esy in Lsy.
    assert (Rc : exists c, (c = rx \/ c = ry) /\ bpow radix2 s <= Rabs c).
    { assert (C : forall x c, ong s (2 * n) x -> rv x = c -> c <> 0 -> bpow radix2 s <= Rabs c).
      { intros x c (_ & j & _ & Ej) Ec Nc. rewrite <- Ec, Ej in *. rewrite Rabs_mult, (Rabs_pos_eq (bpow radix2 s)), <- abs_IZR by lra.
        assert (1 <= Z.abs j)%Z by (destruct (Z.eq_dec j 0) as [->|]; [exfalso; apply Nc; ring|lia]). apply IZR_le in H0. nra. }
      destruct (Req_dec rx 0) as [Zx|Zx]; [exists ry|exists rx]; split; auto; eapply C; eauto; [apply Or| |apply Or]. intros Zy. apply Nr. rewrite Zx, Zy. ring. }
    destruct Rc as (c & Hc & Lc). rewrite bpow_plus in Lsx, Lsy, Lqx, Lqy.
    assert (Tb : Rabs t0 <= 2 * bpow radix2 K).
    { apply Rmult_le_reg_r with (bpow radix2 s); auto. apply Rle_trans with (Rabs t0 * Rabs c); [apply Rmult_le_compat_l; auto using Rabs_pos|].
      rewrite <- Rabs_mult. destruct Hc as [->| ->]; [rewrite <- Kq1|rewrite <- Kq2]; lra. }
    assert (Kb : k <= 2 * bpow radix2 K).
    { rewrite <- (Rabs_pos_eq k) by lra. apply Rmult_le_reg_r with (bpow radix2 s); auto. apply Rle_trans with (Rabs k * Rabs c); [apply Rmult_le_compat_l; auto using Rabs_pos|].
      rewrite <- Rabs_mult. destruct Hc as [->| ->]; [rewrite <- Ks1|rewrite <- Ks2]; lra. }
    assert (UK : u * bpow radix2 K <= / 16).
    { unfold ulp1. rewrite <- bpow_plus. apply Rle_trans with (bpow radix2 (-4)); [apply bpow_le; lia|]. cbn. lra. }
    rewrite (Rabs_pos_eq k) in Dw by lra.
    assert (Dt2 : Rabs (rv ft - t0) <= / 8) by (eapply Rle_trans; [exact Dt|]; apply Rle_trans with (u * (2 * bpow radix2 K)); [apply Rmult_le_compat_l|]; lra).
    assert (Dw2 : Rabs (rv fw - k) <= / 8) by (eapply Rle_trans; [exact Dw|]; apply Rle_trans with (u * (2 * bpow radix2 K)); [apply Rmult_le_compat_l|]; lra).
    (* the second parameter *)
    assert (BK1 : 1 <= bpow radix2 K) by (apply (bpow_le radix2 0); lia).
    assert (Vb : Rabs (rv ft + rv fw) <= bpow radix2 (K + 3)).
    { rewrite bpow_plus. change (bpow radix2 3) with 8. apply Rabs_le_inv in Dt2, Dw2, Tb. apply Rabs_le. lra. }
    destruct (add_rnd prec emax Hprec Hmax ft fw Gt Gw) as [Gv Ev]; [eapply rnd_finite; [auto..| |exact Vb]; unfold SpecFloat.emin in *; lia|].
    set (fv := SFadd prec emax ft fw) in *. set (v := rv ft + rv fw) in *.
    destruct G1 as [G1' E1]. destruct (max_ex _ _ Gt G0) as [Gx0 Ex0]. destruct (min_ex _ _ Gv G1') as [Gx1 Ex1]. rewrite E1 in Ex1. change (rv (S754_zero false)) with 0 in Ex0.
    change (@sdiv FS) with (SFdiv prec emax). change (@sadd FS) with (SFadd prec emax). fold ft fw fv. change (@s0 FS) with (S754_zero false).
    set (x0 := @smax FS ft (S754_zero false)) in *. set (x1 := @smin FS fv s1) in *.
    assert (X0 : 0 <= rv x0 <= 1).
    { rewrite Ex0. split; [apply Rmax_r|]. apply Rmax_lub; [apply It; auto|lra]. }
    assert (D0 : Rabs (rv x0 - Rmax t0 0) <= u).
    { rewrite Ex0. destruct (Rle_or_lt 0 t0) as [P0|P0].
      - rewrite (Rmax_left (rv ft) 0), (Rmax_left t0 0) by first [exact P0|apply Zt; exact P0]. rewrite (Rabs_pos_eq t0) in Dt by auto. eapply Rle_trans; [exact Dt|]. rewrite <- (Rmult_1_r u) at 2. apply Rmult_le_compat_l; lra.
      - assert (~ 0 <= rv ft) by (intros F; apply Zt in F; lra). rewrite (Rmax_right (rv ft) 0), (Rmax_right t0 0) by lra. rewrite Rminus_0_r, Rabs_R0. lra. }
    assert (Vt : Rabs (v - (t0 + k)) <= u * (Rabs t0 + k)).
    { unfold v. replace (rv ft + rv fw - (t0 + k)) with ((rv ft - t0) + (rv fw - k)) by ring. eapply Rle_trans; [apply Rabs_triang|]. lra. }
    assert (Vl : -1 <= v) by (apply Rabs_le_inv in Dt2; apply Rabs_le_inv in Dw2; unfold v; lra).
    assert (Rm1 : rnd (-1) = -1) by (replace (-1) with (Ropp 1) by lra; rewrite rnd_opp, rnd_1 by (auto; lia); auto).
    assert (X1 : Rabs (rv x1) <= 1 /\ Rabs (rv x1 - Rmin v 1) <= u).
    { rewrite Ex1, Ev. destruct (Rle_or_lt 1 v) as [L|L].
      - assert (1 <= rnd v) by (rewrite <- rnd_1 by lia; apply rnd_le; auto). rewrite (Rmin_right (rnd v) 1), (Rmin_right v 1) by auto. rewrite Rminus_diag_eq, Rabs_R0, Rabs_R1 by auto. lra.
      - assert (rnd v <= 1) by (rewrite <- rnd_1 by lia; apply rnd_le; auto; lra). assert (-1 <= rnd v) by (rewrite <- Rm1; apply rnd_le; auto).
        rewrite (Rmin_left (rnd v) 1), (Rmin_left v 1) by lra. split; [apply Rabs_le; lra|]. assert (A1' : Rabs v <= bpow radix2 0) by (apply Rabs_le; change (bpow radix2 0) with 1; lra).
        apply half_err in A1'; [|lia]. unfold ulp1. replace (- prec)%Z with (0 - prec)%Z by lia. auto. }
    destruct X1 as [X1 D1].
    assert (D1' : Rabs (rv x1 - Rmin (t0 + k) 1) <= u * (Rabs t0 + k) + u).
    { replace (rv x1 - Rmin (t0 + k) 1) with ((rv x1 - Rmin v 1) + (Rmin v 1 - Rmin (t0 + k) 1)) by ring. eapply Rle_trans; [apply Rabs_triang|].
      assert (Rabs (Rmin v 1 - Rmin (t0 + k) 1) <= Rabs (v - (t0 + k))); [|lra]. unfold Rmin. destruct (Rle_dec v 1), (Rle_dec (t0 + k) 1); unfold Rabs; repeat destruct (Rcase_abs _); lra. }
    pose proof u_step as U. rewrite bpow_plus in U.
    assert (Start : forall pc rc, ong s n pc -> ong s (2 * n) rc -> Rabs (rv rc) <= 2 * bpow radix2 (K + s) -> Rabs (rv (SFadd prec emax pc (SFmul prec emax rc x0)) - (rv pc + rv rc * Rmax t0 0)) <= 8 * bpow radix2 (K + s - prec)).
    { intros pc rc Hpc Hrc L. replace 8 with (6 + 2) by ring. apply near_along; auto; [apply Rabs_le; lra|]. rewrite Rabs_mult, <- U. rewrite bpow_plus in L.
      apply Rle_trans with (2 * (bpow radix2 K * bpow radix2 s) * u); [apply Rmult_le_compat; auto using Rabs_pos|lra]. }
    assert (End_ : forall pc rc, ong s n pc -> ong s (2 * n) rc -> Rabs (rv rc) <= 2 * bpow radix2 (K + s) -> Rabs (t0 * rv rc) <= 2 * (bpow radix2 K * bpow radix2 s) -> Rabs (k * rv rc) <= 2 * (bpow radix2 K * bpow radix2 s) ->
       Rabs (rv (SFadd prec emax pc (SFmul prec emax rc x1)) - (rv pc + rv rc * Rmin (t0 + k) 1)) <= 12 * bpow radix2 (K + s - prec)).
    { intros pc rc Hpc Hrc L Lt Lk. replace 12 with (6 + 6) by ring. apply near_along; auto. rewrite Rabs_mult, <- U. rewrite bpow_plus in L.
      apply Rle_trans with (Rabs (rv rc) * (u * (Rabs t0 + k) + u)); [apply Rmult_le_compat_l; auto using Rabs_pos|].
      rewrite Rabs_mult in Lt, Lk. rewrite (Rabs_pos_eq k) in Lk by lra.
      replace (Rabs (rv rc) * (u * (Rabs t0 + k) + u)) with (u * (Rabs t0 * Rabs (rv rc) + k * Rabs (rv rc) + Rabs (rv rc))) by ring.
      replace (6 * (u * (bpow radix2 K * bpow radix2 s))) with (u * (6 * (bpow radix2 K * bpow radix2 s))) by ring. apply Rmult_le_compat_l; lra. }
    rewrite <- Erx in Kq1, Ks1. rewrite <- Ery in Kq2, Ks2.
    assert (SX := Start _ _ (proj1 Op) (proj1 Or) ltac:(rewrite Erx; auto)). assert (SY := Start _ _ (proj2 Op) (proj2 Or) ltac:(rewrite Ery; auto)).
    assert (EX := End_ _ _ (proj1 Op) (proj1 Or) ltac:(rewrite Erx; auto) ltac:(rewrite <- Kq1; auto) ltac:(rewrite <- Ks1; auto)).
    assert (EY := End_ _ _ (proj2 Op) (proj2 Or) ltac:(rewrite Ery; auto) ltac:(rewrite <- Kq2; auto) ltac:(rewrite <- Ks2; auto)).
    clear Start End_.
    destruct (along _ _ x0 (proj1 Op) (proj1 Or) Gx0 ltac:(apply Rabs_le; lra)) as (GSX & VSX & _).
    destruct (along _ _ x0 (proj2 Op) (proj2 Or) Gx0 ltac:(apply Rabs_le; lra)) as (GSY & VSY & _).
    destruct (along _ _ x1 (proj1 Op) (proj1 Or) Gx1 X1) as (GEX & VEX & _).
    destruct (along _ _ x1 (proj2 Op) (proj2 Or) Gx1 X1) as (GEY & VEY & _).
    unfold vadd, vscale. cbn [vx vy point_value]. change (@sadd FS) with (SFadd prec emax). change (@smul FS) with (SFmul prec emax). change (@sadd RS) with Rplus. change (@smul RS) with Rmult.
    set (fsx := SFadd prec emax (vx p) (SFmul prec emax (vx r) x0)) in *. set (fsy := SFadd prec emax (vy p) (SFmul prec emax (vy r) x0)) in *.
    set (fex := SFadd prec emax (vx p) (SFmul prec emax (vx r) x1)) in *. set (fey := SFadd prec emax (vy p) (SFmul prec emax (vy r) x1)) in *.
    assert (Same : veqb (@mkV2 FS fsx fsy) (@mkV2 FS fex fey) =
       veqb (@mkV2 RS (rv (vx p) + rv (vx r) * Rmax t0 0) (rv (vy p) + rv (vy r) * Rmax t0 0)) (@mkV2 RS (rv (vx p) + rv (vx r) * Rmin (t0 + k) 1) (rv (vy p) + rv (vy r) * Rmin (t0 + k) 1))).
    { unfold veqb. cbn [vx vy seqb FloatS RS]. rewrite (eqb_R prec emax at2 _ _ GSX GEX), (eqb_R prec emax at2 _ _ GSY GEY).
      apply Bool.eq_iff_eq_true. rewrite !andb_true_iff, !Reqb_true. split.
      - (* computed equal: the exact ends are grid points closer than the grid step *)
        intros [Fx Fy].
        assert (Cl : forall pc rc qc, (exists j, rv pc = IZR j * bpow radix2 s) -> (exists j, rv rc = IZR j * bpow radix2 s) -> (exists j, rv qc = IZR j * bpow radix2 s) -> (exists j, k * rv rc = IZR j * bpow radix2 s) -> rv qc - rv pc = t0 * rv rc ->
            Rabs (rv pc + rv rc * Rmax t0 0 - (rv pc + rv rc * Rmin (t0 + k) 1)) <= 20 * bpow radix2 (K + s - prec) -> rv pc + rv rc * Rmax t0 0 = rv pc + rv rc * Rmin (t0 + k) 1).
        { intros pc rc qc (j1 & J1) (j2 & J2) (j3 & J3) (j4 & J4) Eq L.
          assert (I1 : exists j, rv pc + rv rc * Rmax t0 0 = IZR j * bpow radix2 s).
          { unfold Rmax. destruct (Rle_dec t0 0); [exists j1; lra|exists j3; lra]. }
          assert (I2 : exists j, rv pc + rv rc * Rmin (t0 + k) 1 = IZR j * bpow radix2 s).
          { unfold Rmin. destruct (Rle_dec (t0 + k) 1); [exists (j3 + j4)%Z; rewrite plus_IZR; lra|exists (j1 + j2)%Z; rewrite plus_IZR; lra]. }
          destruct I1 as (i1 & I1), I2 as (i2 & I2). rewrite I1, I2 in *. f_equal. f_equal. destruct (Z.eq_dec i1 i2); auto. exfalso.
          replace (IZR i1 * bpow radix2 s - IZR i2 * bpow radix2 s) with (IZR (i1 - i2) * bpow radix2 s) in L by (rewrite minus_IZR; ring).
          rewrite Rabs_mult, (Rabs_pos_eq (bpow radix2 s)), <- abs_IZR in L by lra. assert (1 <= IZR (Z.abs (i1 - i2))) by (apply IZR_le; lia).
          assert (1 * bpow radix2 s <= IZR (Z.abs (i1 - i2)) * bpow radix2 s) by (apply Rmult_le_compat_r; lra).
          assert (bpow radix2 (K + s - prec) <= / 64 * bpow radix2 s); [|lra].
          replace (K + s - prec)%Z with ((K - prec) + s)%Z by lia. rewrite bpow_plus. apply Rmult_le_compat_r; [lra|].
          apply Rle_trans with (bpow radix2 (-6)); [apply bpow_le; lia|]. cbn. lra. }
        split; [apply (Cl (vx p) (vx r) (vx q))|apply (Cl (vy p) (vy r) (vy q))].
        1, 7: eapply val_int; apply Op. 1, 6: eapply val_int; apply Or. 1, 5: eapply val_int; apply Oq.
        1, 4: [>rewrite <- Ks1, <- Esx|rewrite <- Ks2, <- Esy]; eapply val_int; apply Os.
        + lra.
        + rewrite Fx in SX. apply Rabs_le_inv in SX. apply Rabs_le_inv in EX. apply Rabs_le. lra.
        + lra.
        + rewrite Fy in SY. apply Rabs_le_inv in SY. apply Rabs_le_inv in EY. apply Rabs_le. lra.
      - (* exactly equal: the parameters are 1 and 1 or 0 and 0, without rounding *)
        intros [Fx Fy]. assert (Epar : Rmax t0 0 = Rmin (t0 + k) 1).
        { rewrite Erx in Fx. rewrite Ery in Fy. apply (line_param_inj (rv (vx p)) (rv (vy p)) rx ry); auto; lra. }
        assert (Exx : rv x0 = rv x1).
        { assert (C : t0 = 1 \/ (t0 < 0 /\ t0 = - k)) by (revert Epar; unfold Rmax, Rmin; destruct (Rle_dec t0 0), (Rle_dec (t0 + k) 1); lra).
          rewrite Ex0, Ex1, Ev. destruct C as [C|[C1 C2]].
          - assert (Ef : rv ft = 1) by (rewrite Et, C, rnd_1 by lia; auto). rewrite Ef, Rmax_left by lra.
            assert (0 <= rv fw) by (apply Zw; lra). assert (1 <= rnd v) by (rewrite <- rnd_1 by lia; apply rnd_le; auto; unfold v; lra). rewrite Rmin_right; auto.
          - assert (Ef : rv ft = - rv fw) by (rewrite Et, Ew, C2, rnd_opp; auto). assert (~ 0 <= rv ft) by (intros F; apply Zt in F; lra).
            assert (Zv : v = 0) by (unfold v; lra). rewrite Zv, rnd_0, Rmax_right, Rmin_left by lra. auto. }
        rewrite VSX, VEX, VSY, VEY, Exx. auto. }
    assert (Sh : sharp (mkL a0 a1) (@mkV2 FS fsx fsy) (@mkV2 RS (rv (vx p) + rv (vx r) * Rmax t0 0) (rv (vy p) + rv (vy r) * Rmax t0 0))).
    { split; [exact GSX|]. split; [exact GSY|]. intros Hq. cbn [lstart lend] in Hq. apply He in Hq. apply (sharp_along p r e x0 (Rmax t0 0)); auto.
      - destruct (Req_dec rx 0) as [Zx|]; [|left; rewrite Erx; auto]. destruct (Req_dec ry 0) as [Zy|]; [|right; rewrite Ery; auto]. exfalso. apply Nr. rewrite Zx, Zy. ring.
      - apply Rabs_le. lra.
      - intros E0. rewrite Ex0. destruct (Rle_or_lt 0 t0) as [P0|P0].
        + rewrite Rmax_left in E0 by auto. rewrite Et, E0, rnd_0. apply Rmax_left. lra.
        + apply Rmax_right. assert (~ 0 <= rv ft) by (intros F; apply Zt in F; lra). lra.
      - intros E0. rewrite Ex0. assert (t0 = 1) by (revert E0; unfold Rmax; destruct (Rle_dec t0 0); lra). rewrite Et, H0, rnd_1 by lia. apply Rmax_left. lra. }
    rewrite Same. destruct (veqb (@mkV2 RS _ _) _); cbn [like lstart lend]; unfold close; cbn [vx vy]; auto.
  Qed.

  Theorem intersection_like a b : onp (lstart a) -> onp (lend a) -> onp (lstart b) -> onp (lend b) ->
    lstart (lval a) <> lend (lval a) -> lstart (lval b) <> lend (lval b) ->
    like a (intersection_point a b) (intersection_point (lval a) (lval b)).
  Proof.
    intros A0 A1 B0 B1 Na Nb. unfold intersection_point. rewrite (vulps_ex _ _ A0 A1), (vulps_ex _ _ B0 B1). unfold lval in *. cbn [lstart lend] in *.
    replace (vulps (val (lstart a)) (val (lend a))) with false by (symmetry; apply Bool.not_true_iff_false; intros E; apply vulps_R in E; auto).
    replace (vulps (val (lstart b)) (val (lend b))) with false by (symmetry; apply Bool.not_true_iff_false; intros E; apply vulps_R in E; auto).
    cbv zeta. destruct (A0) as [[A0x _] [A0y _]], (A1) as [[A1x _] [A1y _]], (B0) as [[B0x _] [B0y _]], (B1) as [[B1x _] [B1y _]].
    destruct (min_ex _ _ A0x A1x) as [M1 N1], (max_ex _ _ A0x A1x) as [M2 N2], (min_ex _ _ A0y A1y) as [M3 N3], (max_ex _ _ A0y A1y) as [M4 N4].
    destruct (min_ex _ _ B0x B1x) as [M5 N5], (max_ex _ _ B0x B1x) as [M6 N6], (min_ex _ _ B0y B1y) as [M7 N7], (max_ex _ _ B0y B1y) as [M8 N8].
    rewrite !ltb_ex by auto. rewrite N1, N2, N3, N4, N5, N6, N7, N8. cbn [sltb smin smax RS point_value vx vy].
    match goal with |- like a (if ?c then _ else _) _ => destruct c eqn:B end; [cbn [like]; auto|].
    destruct (vsub_ex _ _ A1 A0) as [R Re], (vsub_ex _ _ B1 B0) as [Sv Se]. rewrite perp_zero by auto. rewrite Re, Se. cbn [sulps s0 RS].
    rewrite !orb_false_iff, !Rltb_false in B.
    match goal with |- like a (if Reqb ?c 0 then _ else _) _ => destruct (Reqb_spec c 0) as [E|E] end.
    - apply (parallel_like a b); auto. unfold lval. cbn [lstart lend point_value vx vy]. tauto.
    - apply (cross_like a b); auto.
  Qed.
End Isect.
