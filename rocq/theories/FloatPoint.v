(* Point-on-segment test on float points whose coordinates are small multiples of a power of two. *)
From Coq Require Import ZArith Reals Lra Lia Psatz Floats.SpecFloat.
From Flocq Require Import Core BinarySingleNaN.
From Verif Require Import Prelude Scalar RInst Flt FloatSpec FloatLink FloatGrid FloatRound Geo2 GeoSpec DistR IsectProofs DiscProofs FloatRdp FloatIsect.
Local Open Scope R_scope.

(* a point whose distances to the ends add up to little more than the length is close to the segment *)
Lemma sqdist_edist p q : edist p q * edist p q = sqdist p q.
Proof. apply sqrt_sqrt, sqdist_nonneg. Qed.
Lemma le_sq x y : 0 <= y -> x * x <= y * y -> x <= y.
Proof. intros Hy H. apply Rnot_lt_le. intros C. nra. Qed.
Lemma near_ends (p a b : pt) : exists q, on_segment q a b /\ 4 * sqdist p q <= (edist a p + edist p b) * (edist a p + edist p b) - sqdist a b.
Proof.
  assert (PA := edist_nonneg a p). assert (PB := edist_nonneg p b). assert (QA := sqdist_edist a p). assert (QB := sqdist_edist p b).
  set (x := edist a p) in *. set (y := edist p b) in *. clearbody x y.
  set (D := sqdist a b). set (N := (vx p - vx a) * (vx b - vx a) + (vy p - vy a) * (vy b - vy a)).
  assert (D0 : 0 <= D) by apply sqdist_nonneg.
  assert (EB : y * y = x * x - 2 * N + D) by (rewrite QA, QB; unfold N, D, sqdist; ring).
  destruct (Rle_or_lt N 0) as [N0|N0].
  - exists a. split; [apply on_segment_start|]. replace (sqdist p a) with (x * x) by (rewrite QA; unfold sqdist; ring).
    assert (x <= y) by (apply le_sq; auto; lra). assert (x * x <= x * y) by (apply Rmult_le_compat_l; auto). lra.
  - destruct (Rle_or_lt D N) as [N1|N1].
    + exists b. split; [apply on_segment_end|]. replace (sqdist p b) with (y * y) by auto.
      assert (y <= x) by (apply le_sq; auto; lra). assert (y * y <= x * y) by (apply Rmult_le_compat_r; auto). lra.
    + assert (DP : 0 < D) by lra. set (t := N / D). assert (Et : t * D = N) by (unfold t; field; lra).
      assert (T : 0 <= t <= 1). { split; [apply Rmult_le_pos; [lra|left; apply Rinv_0_lt_compat; auto]|]. apply Rmult_le_reg_r with D; auto. lra. }
      exists (lerp a b t). split; [exists t; auto|]. set (h := sqdist p (lerp a b t)).
      assert (h0 : 0 <= h) by apply sqdist_nonneg.
      assert (EA : x * x = h + t * t * D).
      { rewrite QA. replace (t * t * D) with (2 * t * N - t * t * D) by (rewrite <- Et; ring). unfold h, N, D, sqdist, lerp. cbn [vx vy]. ring. }
      assert (EB' : y * y = h + (1 - t) * (1 - t) * D) by (rewrite EB, EA, <- Et; ring).
      assert (C : h + t * (1 - t) * D <= x * y).
      { apply le_sq; [apply Rmult_le_pos; auto|]. replace (x * y * (x * y)) with ((x * x) * (y * y)) by ring. rewrite EA, EB'.
        assert (0 <= h * D * ((2 * t - 1) * (2 * t - 1))) by (apply Rmult_le_pos; [apply Rmult_le_pos; auto|apply Rle_0_sqr]). lra. }
      lra.
Qed.

(* on a small grid a point close to a segment is on it *)
Lemma sq_int_ge (k : Z) : k <> 0%Z -> 1 <= IZR k * IZR k.
Proof. intros H. rewrite <- mult_IZR. apply (IZR_le 1). nia. Qed.
Lemma near_on g n c (a1 a2 b1 b2 p1 p2 : Z) (q : pt) : let a := @mkV2 RS (IZR a1 * g) (IZR a2 * g) in let b := @mkV2 RS (IZR b1 * g) (IZR b2 * g) in let p := @mkV2 RS (IZR p1 * g) (IZR p2 * g) in
  0 < g -> 0 <= c -> c * (64 * (n * n * (n * n))) < 1 -> 1 <= n -> Rabs (IZR a1) <= n -> Rabs (IZR a2) <= n -> Rabs (IZR b1) <= n -> Rabs (IZR b2) <= n ->
  on_segment q a b -> sqdist p q <= c * sqdist a b -> on_segment p a b.
Proof.
  intros a b p Hg Hc Hcn Hn A1 A2 B1 B2 (t & Ht & Eq) H.
  apply Rabs_le_inv in A1. apply Rabs_le_inv in A2. apply Rabs_le_inv in B1. apply Rabs_le_inv in B2.
  set (Di := (IZR b1 - IZR a1) * (IZR b1 - IZR a1) + (IZR b2 - IZR a2) * (IZR b2 - IZR a2)).
  assert (ED : sqdist a b = g * g * Di) by (unfold sqdist, a, b, Di; cbn [vx vy]; ring).
  assert (G2 : 0 < g * g) by (apply Rmult_lt_0_compat; auto).
  assert (D0 : 0 <= Di) by (unfold Di; pose proof (Rle_0_sqr (IZR b1 - IZR a1)); pose proof (Rle_0_sqr (IZR b2 - IZR a2)); unfold Rsqr in *; lra).
  assert (Dm : Di <= 8 * (n * n)).
  { assert (S1 : forall x y, - n <= x <= n -> - n <= y <= n -> (y - x) * (y - x) <= 4 * (n * n)).
    { intros x y Hx Hy. assert (R0 : 0 <= (2 * n - (y - x)) * (2 * n + (y - x))) by (apply Rmult_le_pos; lra). lra. }
    unfold Di. pose proof (S1 _ _ A1 B1). pose proof (S1 _ _ A2 B2). lra. }
  assert (N2 : 1 <= n * n) by (assert (1 * 1 <= n * n) by (apply Rmult_le_compat; lra); lra).
  set (C := ((p1 - a1) * (b2 - a2) - (p2 - a2) * (b1 - a1))%Z).
  assert (EC : (vx p - vx q) * (vy b - vy a) - (vy p - vy q) * (vx b - vx a) = g * g * IZR C).
  { unfold C. rewrite minus_IZR, !mult_IZR, !minus_IZR. rewrite Eq. unfold lerp, a, b, p. cbn [vx vy]. ring. }
  assert (Cs : (g * g * IZR C) * (g * g * IZR C) <= sqdist p q * sqdist a b).
  { rewrite <- EC. unfold sqdist. pose proof (Rle_0_sqr ((vx p - vx q) * (vx b - vx a) + (vy p - vy q) * (vy b - vy a))) as R0. unfold Rsqr in R0. lra. }
  destruct (Z.eq_dec C 0) as [Z0|NZ].
  - (* on the supporting line *)
    destruct (Req_dec Di 0) as [Dz|Dz].
    + assert (sqdist p q = 0) by (pose proof (sqdist_nonneg p q); rewrite ED, Dz in H; lra).
      exists t. split; auto. rewrite <- Eq. apply edist_zero. unfold edist. rewrite H0. apply sqrt_0.
    + set (N := (vx p - vx a) * (vx b - vx a) + (vy p - vy a) * (vy b - vy a)). set (D := sqdist a b) in *. assert (DP : 0 < D) by (rewrite ED; apply Rmult_lt_0_compat; lra).
      set (l := N / D). assert (El : l * D = N) by (unfold l; field; lra).
      assert (Cz : (vx p - vx a) * (vy b - vy a) - (vy p - vy a) * (vx b - vx a) = 0).
      { rewrite Z0 in EC. rewrite Rmult_0_r in EC. rewrite <- EC, Eq. unfold lerp, a, b. cbn [vx vy]. ring. }
      assert (Ep : p = lerp a b l).
      { assert (X : (vx p - vx a) * D = N * (vx b - vx a)).
        { apply Rminus_diag_uniq. transitivity ((vy b - vy a) * ((vx p - vx a) * (vy b - vy a) - (vy p - vy a) * (vx b - vx a))); [unfold D, N, sqdist; ring|rewrite Cz; ring]. }
        assert (Y : (vy p - vy a) * D = N * (vy b - vy a)).
        { apply Rminus_diag_uniq. transitivity (- (vx b - vx a) * ((vx p - vx a) * (vy b - vy a) - (vy p - vy a) * (vx b - vx a))); [unfold D, N, sqdist; ring|rewrite Cz; ring]. }
        rewrite <- El in X, Y. unfold lerp. apply V2_ext; cbn [vx vy].
        - apply Rmult_eq_reg_r with D; [|lra]. change (vx p * D = (vx a + l * (vx b - vx a)) * D). lra.
        - apply Rmult_eq_reg_r with D; [|lra]. change (vy p * D = (vy a + l * (vy b - vy a)) * D). lra. }
      assert (Small : c * (8 * (n * n)) < 1).
      { eapply Rle_lt_trans; [|exact Hcn]. apply Rmult_le_compat_l; auto. assert (1 * (n * n) <= n * n * (n * n)) by (apply Rmult_le_compat_r; lra). lra. }
      assert (Far : forall e f : Z, Rabs (IZR p1 - IZR e) > 0 \/ Rabs (IZR p2 - IZR f) > 0 -> g * g <= sqdist p (@mkV2 RS (IZR e * g) (IZR f * g))).
      { intros e f He. unfold sqdist, p. cbn [vx vy].
        replace ((IZR p1 * g - IZR e * g) * (IZR p1 * g - IZR e * g) + (IZR p2 * g - IZR f * g) * (IZR p2 * g - IZR f * g)) with (g * g * (IZR (p1 - e) * IZR (p1 - e) + IZR (p2 - f) * IZR (p2 - f))) by (rewrite !minus_IZR; ring).
        rewrite <- (Rmult_1_r (g * g)) at 1. apply Rmult_le_compat_l; [lra|]. pose proof (Rle_0_sqr (IZR (p1 - e))) as Q1. pose proof (Rle_0_sqr (IZR (p2 - f))) as Q2. unfold Rsqr in Q1, Q2.
        destruct He as [He|He].
        - assert (p1 - e <> 0)%Z by (intros E; rewrite <- minus_IZR, E, Rabs_R0 in He; lra). apply sq_int_ge in H0. lra.
        - assert (p2 - f <> 0)%Z by (intros E; rewrite <- minus_IZR, E, Rabs_R0 in He; lra). apply sq_int_ge in H0. lra. }
      assert (Lim : forall e f : Z, p <> @mkV2 RS (IZR e * g) (IZR f * g) -> g * g <= sqdist p (@mkV2 RS (IZR e * g) (IZR f * g))).
      { intros e f Ne. apply Far. destruct (Req_dec (IZR p1) (IZR e)) as [E1|N1].
        - right. apply Rabs_pos_lt. intros E2. apply Ne. unfold p. rewrite E1. replace (IZR p2) with (IZR f) by lra. reflexivity.
        - left. apply Rabs_pos_lt. lra. }
      assert (Up : sqdist p q < g * g).
      { eapply Rle_lt_trans; [exact H|]. rewrite ED. apply Rle_lt_trans with (g * g * (c * (8 * (n * n)))).
        - rewrite (Rmult_comm c), Rmult_assoc. apply Rmult_le_compat_l; [lra|]. rewrite (Rmult_comm Di). apply Rmult_le_compat_l; auto.
        - rewrite <- (Rmult_1_r (g * g)) at 2. apply Rmult_lt_compat_l; auto. }
      assert (Dpq : sqdist p q = (l - t) * (l - t) * D) by (rewrite Ep, Eq; unfold sqdist, lerp, D, sqdist; cbn [vx vy]; ring).
      destruct (Rlt_or_le l 0) as [L0|L0].
      { exfalso. assert (Na : p <> a). { intros E. assert (N = 0) by (unfold N; rewrite E; ring). unfold l in L0. rewrite H0 in L0. unfold Rdiv in L0. lra. }
        apply (Lim a1 a2) in Na. fold a in Na. assert (Dpa : sqdist p a = l * l * D) by (rewrite Ep; unfold sqdist, lerp, D, sqdist; cbn [vx vy]; ring).
        assert (l * l * D <= (l - t) * (l - t) * D); [|lra]. apply Rmult_le_compat_r; [lra|]. assert (0 <= - l * t) by (apply Rmult_le_pos; lra). assert (0 <= t * t) by (apply Rmult_le_pos; lra). lra. }
      destruct (Rlt_or_le 1 l) as [L1|L1].
      { exfalso. assert (Nb : p <> b). { intros E. assert (N = D) by (unfold N, D, sqdist; rewrite E; ring). unfold l in L1. rewrite H0 in L1. unfold Rdiv in L1. rewrite Rinv_r in L1; lra. }
        apply (Lim b1 b2) in Nb. fold b in Nb. assert (Dpb : sqdist p b = (l - 1) * (l - 1) * D) by (rewrite Ep; unfold sqdist, lerp, D, sqdist; cbn [vx vy]; ring).
        assert ((l - 1) * (l - 1) * D <= (l - t) * (l - t) * D); [|lra]. apply Rmult_le_compat_r; [lra|].
        assert (0 <= (l - 1) * (1 - t)) by (apply Rmult_le_pos; lra). assert (0 <= (1 - t) * (1 - t)) by (apply Rmult_le_pos; lra). lra. }
      exists l. split; auto.
  - (* off the supporting line *)
    exfalso. apply sq_int_ge in NZ. assert (G4 : 0 < (g * g) * (g * g)) by (apply Rmult_lt_0_compat; auto).
    assert (L1 : (g * g) * (g * g) <= (g * g * IZR C) * (g * g * IZR C)).
    { replace ((g * g * IZR C) * (g * g * IZR C)) with ((g * g) * (g * g) * (IZR C * IZR C)) by ring. rewrite <- (Rmult_1_r (g * g * (g * g))) at 1. apply Rmult_le_compat_l; lra. }
    assert (L2 : sqdist p q * sqdist a b <= c * sqdist a b * sqdist a b) by (apply Rmult_le_compat_r; [apply sqdist_nonneg|auto]).
    rewrite ED in *. assert (DD : Di * Di <= 64 * (n * n * (n * n))) by (replace (64 * (n * n * (n * n))) with ((8 * (n * n)) * (8 * (n * n))) by ring; apply Rmult_le_compat; auto).
    assert (L3 : c * (Di * Di) < 1) by (eapply Rle_lt_trans; [|exact Hcn]; apply Rmult_le_compat_l; auto).
    assert (L4 : (g * g * (g * g)) * (c * (Di * Di)) < (g * g * (g * g)) * 1) by (apply Rmult_lt_compat_l; auto). lra.
Qed.

Section Pt.
  Context (prec emax epsexp : Z) (at2 : spec_float -> spec_float -> spec_float) (Hprec : Prec_gt_0 prec) (Hmax : Prec_lt_emax prec emax).
  Notation B := (binary_float prec emax).
  Notation FS := (FloatS prec emax epsexp at2).
  Notation emin := (SpecFloat.emin prec emax).
  Notation good := (finite_float prec emax).
  Notation rv := fvalue.
  Notation ong := (on_grid prec emax).
  Notation rnd := (round radix2 (SpecFloat.fexp prec emax) ZnearestE).
  Notation u := (ulp1 prec).

  Lemma SFsqrt_B (x : B) : SFsqrt prec emax (B2SF x) = B2SF (Bsqrt mode_NE x).
  Proof.
    destruct x as [sx|sx| |sx mx ex Bx]; try reflexivity; [destruct sx; reflexivity|].
    destruct sx; [reflexivity|]. cbn [B2SF Bsqrt SFsqrt]. rewrite B2SF_SF2B. destruct (SFsqrt_core_binary prec emax (Z.pos mx) ex) as [[mz ez] lz]. apply binary_round_aux_eq.
  Qed.
  Lemma sqrt_rnd x : good x -> 0 <= rv x -> good (SFsqrt prec emax x) /\ rv (SFsqrt prec emax x) = rnd (sqrt (rv x)).
  Proof.
    intros Hx P. destruct (good_B _ _ x Hx) as (bx & -> & Fx & Ex). rewrite SFsqrt_B. rewrite <- Ex.
    pose proof (Bsqrt_correct prec emax Hprec Hmax mode_NE bx) as C. change (round_mode mode_NE) with ZnearestE in C. destruct C as (C1 & C2 & _).
    assert (F : is_finite (Bsqrt mode_NE bx) = true).
    { rewrite C2. destruct bx as [b|b| |b m e Hb]; auto; try discriminate. destruct b; auto. exfalso. rewrite <- Ex in P. cbn in P. unfold Defs.F2R in P. cbn in P.
      pose proof (bpow_gt_0 radix2 e). pose proof (IZR_lt (Z.neg m) 0 ltac:(lia)). nra. }
    destruct (B_good _ _ _ F) as [G1 G2]. split; auto. congruence.
  Qed.

  Lemma valid_facts m e : (1 <= prec)%Z -> valid_binary prec emax (S754_finite false m e) = true -> (emin <= e)%Z /\ (Zpos m < 2 ^ prec)%Z /\ (e = emin \/ 2 ^ (prec - 1) <= Zpos m)%Z.
  Proof.
    intros Hp V. cbn in V. apply Bool.andb_true_iff in V as [V _]. unfold canonical_mantissa in V. apply Zeq_bool_eq in V.
    assert (Hd := Digits.Zdigits_correct radix2 (Zpos m)). rewrite Zpos_digits2_pos in V. unfold SpecFloat.fexp in V.
    cbn [Z.abs] in Hd. change (Zpower radix2) with (Z.pow 2) in Hd. set (d := Digits.Zdigits radix2 (Zpos m)) in *.
    assert (d <= prec)%Z by lia. split; [lia|]. split.
    - apply Z.lt_le_trans with (2 ^ d)%Z; [apply Hd|]. apply Z.pow_le_mono_r; lia.
    - destruct (Z.eq_dec e emin); auto. right. assert (d = prec) by lia. rewrite <- H0. apply Hd.
  Qed.
  Lemma pow2_ge j : (0 <= j)%Z -> (j + 1 <= 2 ^ j)%Z.
  Proof. intros H. pattern j. apply natlike_ind; auto; [cbn; lia|]. intros k Hk IH. rewrite Z.pow_succ_r by lia. lia. Qed.
  (* consecutive floats are at least the spacing of the smaller one apart *)
  Lemma bits_spread m1 e1 m2 e2 : (1 <= prec)%Z -> valid_binary prec emax (S754_finite false m1 e1) = true -> valid_binary prec emax (S754_finite false m2 e2) = true ->
    (e1 <= e2)%Z -> IZR (((e2 - emin) * 2 ^ (prec - 1) + Zpos m2) - ((e1 - emin) * 2 ^ (prec - 1) + Zpos m1)) * bpow radix2 e1 <= IZR (Zpos m2) * bpow radix2 e2 - IZR (Zpos m1) * bpow radix2 e1.
  Proof.
    intros Hp V1 V2 He. apply valid_facts in V1 as (A1 & A2 & A3); auto. apply valid_facts in V2 as (B1 & B2 & B3); auto.
    set (j := (e2 - e1)%Z). assert (Hj : (0 <= j)%Z) by (unfold j; lia).
    replace (bpow radix2 e2) with (IZR (2 ^ j) * bpow radix2 e1).
    2: { change (2 ^ j)%Z with (Zpower radix2 j). rewrite IZR_Zpower by auto. rewrite <- bpow_plus. f_equal. unfold j. lia. }
    rewrite <- Rmult_assoc, <- mult_IZR, <- Rmult_minus_distr_r, <- minus_IZR. apply Rmult_le_compat_r; [apply bpow_ge_0|]. apply IZR_le.
    replace (((e2 - emin) * 2 ^ (prec - 1) + Z.pos m2) - ((e1 - emin) * 2 ^ (prec - 1) + Z.pos m1))%Z with (j * 2 ^ (prec - 1) + Z.pos m2 - Z.pos m1)%Z by (unfold j; ring).
    pose proof (pow2_ge j Hj). destruct (Z.eq_dec j 0) as [Zj|Nj]; [rewrite Zj, Z.pow_0_r; lia|].
    assert (2 ^ (prec - 1) <= Z.pos m2)%Z by (destruct B3 as [B3|B3]; auto; unfold j in *; lia).
    assert (0 < 2 ^ (prec - 1))%Z by (apply Z.pow_pos_nonneg; lia). nia.
  Qed.
  (* relatively close positive floats are ulps-equal *)
  Lemma ulps_true x y : (1 <= prec)%Z -> good x -> good y -> 0 < rv x -> 0 < rv y -> Rabs (rv x - rv y) <= 4 * u * Rmin (rv x) (rv y) ->
    fl_ulps_with prec emax (fl_pow2 prec emax epsexp) 4 x y = true.
  Proof.
    intros Hp Hx Hy Px Py H. unfold fl_ulps_with. destruct (fl_absdiff _ _ _ _ _); auto.
    assert (Fin : forall z, good z -> 0 < rv z -> exists m e, z = S754_finite false m e /\ valid_binary prec emax (S754_finite false m e) = true /\ rv z = IZR (Zpos m) * bpow radix2 e).
    { intros z [V F] P. destruct z as [b|b| |b m e]; try discriminate; [unfold fvalue in P; cbn in P; lra|].
      destruct b; [exfalso; unfold fvalue, SF2R, Defs.F2R in P; cbn [Defs.Fnum Defs.Fexp cond_Zopp] in P; pose proof (bpow_gt_0 radix2 e); pose proof (IZR_lt (- Z.pos m) 0 ltac:(lia)); nra|].
      exists m, e. repeat split; auto. }
    destruct (Fin x Hx Px) as (m1 & e1 & -> & V1 & E1). destruct (Fin y Hy Py) as (m2 & e2 & -> & V2 & E2). clear Fin.
    clear Hx Hy. revert m1 e1 m2 e2 Px Py H V1 V2 E1 E2.
    assert (Core : forall m1 e1 m2 e2, valid_binary prec emax (S754_finite false m1 e1) = true -> valid_binary prec emax (S754_finite false m2 e2) = true -> (e1 <= e2)%Z ->
       IZR (Zpos m2) * bpow radix2 e2 - IZR (Zpos m1) * bpow radix2 e1 <= 4 * u * (IZR (Zpos m1) * bpow radix2 e1) ->
       (((e2 - emin) * 2 ^ (prec - 1) + Zpos m2) - ((e1 - emin) * 2 ^ (prec - 1) + Zpos m1) <= 4)%Z).
    { intros m1 e1 m2 e2 V1 V2 He H. pose proof (bits_spread m1 e1 m2 e2 Hp V1 V2 He) as Sp. apply valid_facts in V1 as (_ & A2 & _); auto.
      assert (B1 := bpow_gt_0 radix2 e1). assert (U0 := ulp1_pos prec).
      assert (M : u * IZR (Zpos m1) <= 1).
      { apply Rle_trans with (u * bpow radix2 prec); [|unfold ulp1; rewrite <- bpow_plus; replace (- prec + prec)%Z with 0%Z by lia; cbn; lra].
        apply Rmult_le_compat_l; [lra|]. rewrite <- (IZR_Zpower radix2) by lia. apply IZR_le. change (Zpower radix2 prec) with (2 ^ prec)%Z. lia. }
      apply le_IZR. apply Rmult_le_reg_r with (bpow radix2 e1); auto. eapply Rle_trans; [exact Sp|]. eapply Rle_trans; [exact H|].
      replace (4 * u * (IZR (Z.pos m1) * bpow radix2 e1)) with (4 * (u * IZR (Z.pos m1)) * bpow radix2 e1) by ring. apply Rmult_le_compat_r; lra. }
    assert (Abs : forall m1 e1 m2 e2, valid_binary prec emax (S754_finite false m1 e1) = true -> valid_binary prec emax (S754_finite false m2 e2) = true -> (e1 <= e2)%Z ->
       Rabs (IZR (Zpos m2) * bpow radix2 e2 - IZR (Zpos m1) * bpow radix2 e1) <= 4 * u * Rmin (IZR (Zpos m1) * bpow radix2 e1) (IZR (Zpos m2) * bpow radix2 e2) ->
       (Z.abs (((e2 - emin) * 2 ^ (prec - 1) + Zpos m2) - ((e1 - emin) * 2 ^ (prec - 1) + Zpos m1)) <= 4)%Z).
    { intros m1 e1 m2 e2 V1 V2 He H. assert (U0 := ulp1_pos prec). apply Rabs_le_inv in H.
      assert (H1 : 4 * u * Rmin (IZR (Z.pos m1) * bpow radix2 e1) (IZR (Z.pos m2) * bpow radix2 e2) <= 4 * u * (IZR (Z.pos m1) * bpow radix2 e1)) by (apply Rmult_le_compat_l; [lra|apply Rmin_l]).
      assert (H2 : 4 * u * Rmin (IZR (Z.pos m1) * bpow radix2 e1) (IZR (Z.pos m2) * bpow radix2 e2) <= 4 * u * (IZR (Z.pos m2) * bpow radix2 e2)) by (apply Rmult_le_compat_l; [lra|apply Rmin_r]).
      pose proof (Core m1 e1 m2 e2 V1 V2 He ltac:(lra)) as C1. apply Z.abs_le. split; auto.
      destruct (Z.eq_dec e1 e2) as [->|Ne].
      - pose proof (Core m2 e2 m1 e2 V2 V1 (Z.le_refl _) ltac:(lra)) as C2. lia.
      - apply valid_facts in V1 as (A1 & A2 & A3); auto. apply valid_facts in V2 as (B1 & B2 & B3); auto. destruct B3 as [B3|B3]; [lia|].
        assert (P2 : (2 ^ prec = 2 * 2 ^ (prec - 1))%Z) by (rewrite <- (Z.pow_succ_r 2 (prec - 1)) by lia; f_equal; lia).
        assert ((e2 - e1 - 1) * 2 ^ (prec - 1) >= 0)%Z by (assert (0 <= 2 ^ (prec - 1))%Z by (apply Z.pow_nonneg; lia); nia). nia. }
    intros m1 e1 m2 e2 Px Py H V1 V2 E1 E2. cbn [fl_is_nan orb fl_signneg Bool.eqb negb]. apply Z.leb_le. unfold fl_bits. change (Z.of_N 4) with 4%Z. rewrite E1, E2 in *.
    destruct (Z.le_ge_cases e1 e2) as [L|L].
    - rewrite <- Z.abs_opp. replace (- _)%Z with (((e2 - emin) * 2 ^ (prec - 1) + Zpos m2) - ((e1 - emin) * 2 ^ (prec - 1) + Zpos m1))%Z by ring. apply Abs; auto. rewrite Rabs_minus_sym. auto.
    - apply Abs; auto. rewrite Rmin_comm. auto.
  Qed.

  Lemma absdiff_near x y e : scale_ok prec emax epsexp -> (emin < epsexp)%Z -> (emin <= e <= emax - 2)%Z -> good x -> good y -> 0 <= rv x -> 0 <= rv y -> rv x <= bpow radix2 e -> rv y <= bpow radix2 e ->
    fl_absdiff prec emax (fl_pow2 prec emax epsexp) x y = true -> Rabs (rv x - rv y) <= 2 * bpow radix2 epsexp.
  Proof.
    intros Heps Hee He Hx Hy Px Py Ux Uy Ea. unfold fl_absdiff in Ea.
    assert (Bd : Rabs (rv x - rv y) <= bpow radix2 e) by (apply Rabs_le; lra).
    destruct (sub_rnd prec emax Hprec Hmax x y Hx Hy) as [G E]; [eapply rnd_finite; [auto..| |exact Bd]; lia|].
    destruct (good_abs _ _ _ G) as [Ga Ea']. destruct (pow2_good prec emax Hprec Hmax epsexp Heps) as [Gp Ep].
    rewrite (leb_R prec emax at2 _ _ Ga Gp), Rleb_true, Ea', E, Ep in Ea. apply Rnot_lt_le. intros C.
    rewrite rnd_abs in Ea by auto. assert (L : bpow radix2 (epsexp + 1) <= Rabs (rv x - rv y)) by (rewrite bpow_plus; change (bpow radix2 1) with 2; lra).
    apply (rnd_le prec emax Hprec) in L. rewrite rnd_bpow in L by (auto; lia). rewrite bpow_plus in L. change (bpow radix2 1) with 2 in L. pose proof (bpow_gt_0 radix2 epsexp). lra.
  Qed.
  (* only the tiniest floats are ulps-equal to zero *)
  Lemma ulps_zero x y e : (4 <= prec)%Z -> scale_ok prec emax epsexp -> (emin < epsexp)%Z -> (emin <= e <= emax - 2)%Z -> good x -> good y -> rv x = 0 -> 0 < rv y -> rv y <= bpow radix2 e ->
    fl_ulps_with prec emax (fl_pow2 prec emax epsexp) 4 x y = true -> rv y <= 2 * bpow radix2 epsexp.
  Proof.
    intros Hp Heps Hee He Hx Hy Px Py Uy H. unfold fl_ulps_with in H. destruct (fl_absdiff _ _ _ _ _) eqn:Ea.
    - apply (absdiff_near x y e) in Ea; auto; [|lra..|rewrite Px; apply bpow_ge_0]. rewrite Px, Rabs_minus_sym, Rabs_pos_eq in Ea by lra. lra.
    - clear Ea. destruct Hx as [Vx Fx]. destruct Hy as [Vy Fy]. assert (exists b, x = S754_zero b) as [b ->].
      { destruct x as [b|b| |b m e']; try discriminate; [exists b; auto|]. exfalso. unfold fvalue, SF2R, Defs.F2R in Px. cbn [Defs.Fnum Defs.Fexp cond_Zopp] in Px. apply Rmult_integral in Px as [Px|Px].
        - apply eq_IZR in Px. destruct b; cbn in Px; lia.
        - pose proof (bpow_gt_0 radix2 e'). lra. }
      destruct y as [c|c| |c m e']; try discriminate; [unfold fvalue in Py; cbn in Py; lra|].
      destruct c; [exfalso; unfold fvalue, SF2R, Defs.F2R in Py; cbn [Defs.Fnum Defs.Fexp cond_Zopp] in Py; pose proof (bpow_gt_0 radix2 e'); pose proof (IZR_lt (- Z.pos m) 0 ltac:(lia)); nra|].
      cbn [fl_is_nan orb fl_signneg] in H. destruct (negb _); [discriminate|]. apply Z.leb_le in H. unfold fl_bits in H. change (Z.of_N 4) with 4%Z in H.
      destruct (valid_facts m e' ltac:(lia) Vy) as (A1 & A2 & A3). assert (2 ^ 3 <= 2 ^ (prec - 1))%Z by (apply Z.pow_le_mono_r; lia). change (2 ^ 3)%Z with 8%Z in H0.
      assert (e' = emin) by nia. subst e'. assert (Zpos m <= 4)%Z by nia. unfold fvalue, SF2R, Defs.F2R. cbn [Defs.Fnum Defs.Fexp cond_Zopp].
      apply Rle_trans with (4 * bpow radix2 emin); [apply Rmult_le_compat_r; [apply bpow_ge_0|apply (IZR_le _ 4); auto]|].
      assert (bpow radix2 (emin + 1) <= bpow radix2 epsexp) by (apply bpow_le; lia). rewrite bpow_plus in H2. change (bpow radix2 1) with 2 in H2. lra.
  Qed.
  (* ulps-equal positive floats are close *)
  Lemma ulps_near x y e : (4 <= prec)%Z -> scale_ok prec emax epsexp -> (emin < epsexp)%Z -> (emin <= e <= emax - 2)%Z -> good x -> good y -> 0 < rv x -> 0 < rv y -> rv x <= bpow radix2 e -> rv y <= bpow radix2 e ->
    fl_ulps_with prec emax (fl_pow2 prec emax epsexp) 4 x y = true -> Rabs (rv x - rv y) <= Rmax (2 * bpow radix2 epsexp) (8 * u * Rmax (rv x) (rv y)).
  Proof.
    intros Hp Heps Hee He Hx Hy Px Py Ux Uy H. unfold fl_ulps_with in H. destruct (fl_absdiff _ _ _ _ _) eqn:Ea.
    - eapply Rle_trans; [|apply Rmax_l]. apply absdiff_near with e; auto; lra.
    - assert (Fin : forall z, good z -> 0 < rv z -> exists m e, z = S754_finite false m e /\ valid_binary prec emax (S754_finite false m e) = true /\ rv z = IZR (Zpos m) * bpow radix2 e).
      { intros z [V F] P. destruct z as [b|b| |b m e']; try discriminate; [unfold fvalue in P; cbn in P; lra|].
        destruct b; [exfalso; unfold fvalue, SF2R, Defs.F2R in P; cbn [Defs.Fnum Defs.Fexp cond_Zopp] in P; pose proof (bpow_gt_0 radix2 e'); pose proof (IZR_lt (- Z.pos m) 0 ltac:(lia)); nra|].
        exists m, e'. repeat split; auto. }
      destruct (Fin x Hx Px) as (m1 & e1 & -> & V1 & E1). destruct (Fin y Hy Py) as (m2 & e2 & -> & V2 & E2). clear Fin Ea.
      cbn [fl_is_nan orb fl_signneg Bool.eqb negb] in H. apply Z.leb_le in H. unfold fl_bits in H. change (Z.of_N 4) with 4%Z in H. rewrite E1, E2 in *.
      assert (Core : forall m1 e1 m2 e2, valid_binary prec emax (S754_finite false m1 e1) = true -> valid_binary prec emax (S754_finite false m2 e2) = true -> (e1 <= e2)%Z ->
         (Z.abs (((e1 - emin) * 2 ^ (prec - 1) + Zpos m1) - ((e2 - emin) * 2 ^ (prec - 1) + Zpos m2)) <= 4)%Z ->
         Rabs (IZR (Zpos m1) * bpow radix2 e1 - IZR (Zpos m2) * bpow radix2 e2) <= Rmax (2 * bpow radix2 epsexp) (8 * u * (IZR (Zpos m2) * bpow radix2 e2))).
      { clear - Hp Hee. intros m1 e1 m2 e2 V1 V2 L Hb. destruct (bits_close prec emax m1 m2 e1 e2 Hp V1 V2 L Hb) as [C [Ee|N]].
        - eapply Rle_trans; [exact C|]. eapply Rle_trans; [|apply Rmax_l]. assert (bpow radix2 (emin + 1) <= bpow radix2 epsexp) by (apply bpow_le; lia).
          rewrite bpow_plus in H. change (bpow radix2 1) with 2 in H. rewrite Ee. lra.
        - eapply Rle_trans; [exact C|]. eapply Rle_trans; [|apply Rmax_r]. assert (B := bpow_gt_0 radix2 e2). rewrite <- Rmult_assoc. apply Rmult_le_compat_r; [lra|].
          assert (E : u * bpow radix2 (prec - 1) = / 2) by (unfold ulp1; rewrite <- bpow_plus; replace (- prec + (prec - 1))%Z with (-1)%Z by lia; cbn; lra).
          apply Rmult_le_compat_l with (r := 8 * u) in N; [lra|]. pose proof (ulp1_pos prec). lra. }
      assert (U0 := ulp1_pos prec).
      assert (Mx : forall m e, Rmax (2 * bpow radix2 epsexp) (8 * u * (IZR (Zpos m) * bpow radix2 e)) <= Rmax (2 * bpow radix2 epsexp) (8 * u * Rmax (IZR (Zpos m1) * bpow radix2 e1) (IZR (Zpos m2) * bpow radix2 e2)) \/ ~ ((m = m1 /\ e = e1) \/ (m = m2 /\ e = e2))).
      { intros m e'. destruct (Pos.eq_dec m m1) as [->|]; [destruct (Z.eq_dec e' e1) as [->|]|]; [left|..].
        - apply Rmax_lub; [apply Rmax_l|]. eapply Rle_trans; [|apply Rmax_r]. apply Rmult_le_compat_l; [lra|apply Rmax_l].
        - destruct (Pos.eq_dec m1 m2) as [E|]; [destruct (Z.eq_dec e' e2) as [->|]|]; [left|right; intuition congruence..]. rewrite E.
          apply Rmax_lub; [apply Rmax_l|]. eapply Rle_trans; [|apply Rmax_r]. apply Rmult_le_compat_l; [lra|apply Rmax_r].
        - destruct (Pos.eq_dec m m2) as [->|]; [destruct (Z.eq_dec e' e2) as [->|]|]; [left|right; intuition congruence..].
          apply Rmax_lub; [apply Rmax_l|]. eapply Rle_trans; [|apply Rmax_r]. apply Rmult_le_compat_l; [lra|apply Rmax_r]. }
      destruct (Z.le_ge_cases e1 e2) as [L|L].
      + eapply Rle_trans; [apply Core; auto|]. destruct (Mx m2 e2) as [M|M]; auto. tauto.
      + rewrite Rabs_minus_sym. eapply Rle_trans; [apply Core; auto; lia|]. destruct (Mx m1 e1) as [M|M]; auto. tauto.
  Qed.

  Context (s K : Z) (OK : isect_ok prec emax epsexp s K) (Hlo : (emin + prec <= s)%Z) (Hhi : (K + s + 8 < emax)%Z).
  Notation onp := (@grid_point prec emax epsexp at2 s (2 ^ K)).
  Notation val := (@point_value prec emax epsexp at2).
  (* |b - a| as the code computes it *)
  Definition flen (a b : V2 FS) : spec_float :=
    SFsqrt prec emax (SFadd prec emax (SFmul prec emax (SFsub prec emax (vx b) (vx a)) (SFsub prec emax (vx b) (vx a))) (SFmul prec emax (SFsub prec emax (vy b) (vy a)) (SFsub prec emax (vy b) (vy a)))).
  Lemma flen_near a b : onp a -> onp b -> let d := edist (val a) (val b) in
    good (flen a b) /\ (1 - u) * d <= rv (flen a b) <= (1 + u) * d /\ (d = 0 \/ bpow radix2 s <= d) /\ d <= bpow radix2 (K + s + 2).
  Proof.
    intros Ha Hb d. destruct (vsub_ex _ _ _ at2 Hprec Hmax s K OK b a Hb Ha) as [V Ve]. destruct (vprods _ _ _ at2 Hprec Hmax s K OK _ _ V V) as [_ [G E]].
    change (flen a b) with (SFsqrt prec emax (vdot (vsub b a) (vsub b a) : car FS)).
    assert (E' : rv (vdot (vsub b a) (vsub b a) : car FS) = sqdist (val a) (val b)) by (rewrite E, Ve; unfold vdot, vsub, sqdist, point_value; cbn [vx vy smul sadd ssub RS]; ring).
    assert (N0 := sqdist_nonneg (val a) (val b)).
    destruct (sqrt_rnd _ (proj1 G)) as [Gs Es]; [rewrite E'; auto|]. rewrite E' in Es. fold (edist (val a) (val b)) in Es. fold d in Es.
    assert (D0 : 0 <= d) by apply edist_nonneg. assert (Bs := bpow_gt_0 radix2 s). pose proof (n_pos prec emax epsexp s K OK) as NP. assert (OK' := OK). destruct OK'.
    assert (L : d = 0 \/ bpow radix2 s <= d).
    { destruct (Req_dec (sqdist (val a) (val b)) 0) as [Z0|NZ]; [left; unfold d, edist; rewrite Z0; apply sqrt_0|right].
      assert (P : bpow radix2 (s + s) <= sqdist (val a) (val b)) by (rewrite <- E'; eapply grid_ge; [exact G|rewrite E'; lra]).
      rewrite bpow_plus in P. apply le_sq; auto. unfold d. rewrite sqdist_edist. auto. }
    assert (Up : d <= bpow radix2 (K + s + 2)).
    { apply le_sq; [apply bpow_ge_0|]. unfold d. rewrite sqdist_edist, <- E'. destruct G as (_ & k & Hk & ->). rewrite <- bpow_plus.
      replace (K + s + 2 + (K + s + 2))%Z with ((K + K + 4) + (s + s))%Z by lia. rewrite (bpow_plus radix2 (K + K + 4)). apply Rmult_le_compat_r; [apply bpow_ge_0|].
      rewrite <- (IZR_Zpower radix2) by lia. apply IZR_le. change (Zpower radix2 (K + K + 4)) with (2 ^ (K + K + 4))%Z. rewrite !Z.pow_add_r by lia. change (2 ^ 4)%Z with 16%Z. nia. }
    split; auto. split; [rewrite Es; apply rnd_near; auto|auto]. destruct L as [L|L]; auto. right. unfold normal. rewrite Rabs_pos_eq by auto. eapply Rle_trans; [|exact L]. apply bpow_le. lia.
  Qed.
  Lemma fsum_near a p b : onp a -> onp p -> onp b -> let w := edist (val a) (val p) + edist (val p) (val b) in let f := SFadd prec emax (flen a p) (flen p b) in
    good f /\ (1 - u) * (1 - u) * w <= rv f <= (1 + u) * (1 + u) * w /\ rv f <= bpow radix2 (K + s + 6).
  Proof.
    intros Ha Hp Hb w f. destruct (flen_near a p Ha Hp) as (G1 & [L1 U1] & C1 & M1), (flen_near p b Hp Hb) as (G2 & [L2 U2] & C2 & M2).
    assert (D1 := edist_nonneg (val a) (val p)). assert (D2 := edist_nonneg (val p) (val b)). set (d1 := edist (val a) (val p)) in *. set (d2 := edist (val p) (val b)) in *.
    assert (U0 := ulp1_pos prec). assert (Uh := ulp1_small prec Hprec). assert (OK' := OK). destruct OK'.
    assert (Q1 : 0 <= rv (flen a p)) by (eapply Rle_trans; [|exact L1]; apply Rmult_le_pos; lra). assert (Q2 : 0 <= rv (flen p b)) by (eapply Rle_trans; [|exact L2]; apply Rmult_le_pos; lra).
    assert (B := bpow_gt_0 radix2 (K + s + 2)).
    assert (T1 : rv (flen a p) <= 2 * bpow radix2 (K + s + 2)). { eapply Rle_trans; [exact U1|]. apply Rmult_le_compat; lra. }
    assert (T2 : rv (flen p b) <= 2 * bpow radix2 (K + s + 2)). { eapply Rle_trans; [exact U2|]. apply Rmult_le_compat; lra. }
    assert (E4 : bpow radix2 (K + s + 4) = 4 * bpow radix2 (K + s + 2)) by (replace (K + s + 4)%Z with ((K + s + 2) + 2)%Z by lia; rewrite bpow_plus; change (bpow radix2 2) with 4; ring).
    assert (Bd : Rabs (rv (flen a p) + rv (flen p b)) <= bpow radix2 (K + s + 4)) by (rewrite Rabs_pos_eq by lra; lra).
    destruct (add_rnd prec emax Hprec Hmax _ _ G1 G2) as [G E]; [eapply rnd_finite; [auto..| |exact Bd]; lia|]. fold f in G, E. split; auto.
    assert (Nm : rv (flen a p) + rv (flen p b) = 0 \/ normal prec emax (rv (flen a p) + rv (flen p b))).
    { assert (NN : forall d x, d = 0 \/ bpow radix2 s <= d -> (1 - u) * d <= x <= (1 + u) * d -> x = 0 \/ bpow radix2 (s - 1) <= x).
      { intros d x [->|L] [H1 H2]; [left; lra|right]. assert (Eh : bpow radix2 s = 2 * bpow radix2 (s - 1)) by (replace s with (s - 1 + 1)%Z at 1 by lia; rewrite bpow_plus; change (bpow radix2 1) with 2; ring).
        apply Rle_trans with (1 / 2 * d); [lra|]. eapply Rle_trans; [|exact H1]. pose proof (bpow_gt_0 radix2 s). apply Rmult_le_compat_r; lra. }
      destruct (NN _ _ C1 (conj L1 U1)) as [Z1|Z1], (NN _ _ C2 (conj L2 U2)) as [Z2|Z2]; [left; lra|right..]; unfold normal; rewrite Rabs_pos_eq by lra;
        (apply Rle_trans with (bpow radix2 (s - 1)); [apply bpow_le; lia|lra]). }
    destruct (rnd_near prec emax Hprec (rv (flen a p) + rv (flen p b)) ltac:(lra) Nm) as [R1 R2]. rewrite <- E in R1, R2. split; [split|].
    - eapply Rle_trans; [|exact R1]. rewrite Rmult_assoc. apply Rmult_le_compat_l; [lra|]. unfold w. lra.
    - eapply Rle_trans; [exact R2|]. rewrite Rmult_assoc. apply Rmult_le_compat_l; [lra|]. unfold w. lra.
    - eapply Rle_trans; [exact R2|]. rewrite Rabs_pos_eq in Bd by lra.
      assert (E6 : bpow radix2 (K + s + 6) = 4 * bpow radix2 (K + s + 4)) by (replace (K + s + 6)%Z with ((K + s + 4) + 2)%Z by lia; rewrite bpow_plus; change (bpow radix2 2) with 4; ring).
      rewrite E6. apply Rmult_le_compat; lra.
  Qed.

  Lemma point_unfold a b p : onp a -> onp b -> onp p -> val a <> val p -> val b <> val p ->
    intersect_line_point (S := FS) (mkL a b) p = if fl_ulps_with prec emax (fl_pow2 prec emax epsexp) 4 (flen a b) (SFadd prec emax (flen a p) (flen p b)) then Some (IPoint p) else None.
  Proof.
    intros Ha Hb Hp Na Nb. unfold intersect_line_point. cbn [lstart lend].
    change (sulps (vx a) (vx p) && sulps (vy a) (vy p))%bool with (vulps a p). change (sulps (vx b) (vx p) && sulps (vy b) (vy p))%bool with (vulps b p).
    rewrite !(vulps_ex prec emax epsexp at2 Hprec Hmax s K OK) by auto.
    replace (vulps (val a) (val p)) with false by (symmetry; apply Bool.not_true_iff_false; intros E; apply vulps_R in E; auto).
    replace (vulps (val b) (val p)) with false by (symmetry; apply Bool.not_true_iff_false; intros E; apply vulps_R in E; auto). reflexivity.
  Qed.
  Lemma point_ends a b p : onp a -> onp b -> onp p -> val a = val p \/ val b = val p -> intersect_line_point (S := FS) (mkL a b) p = Some (IPoint p).
  Proof.
    intros Ha Hb Hp H. unfold intersect_line_point. cbn [lstart lend].
    change (sulps (vx a) (vx p) && sulps (vy a) (vy p))%bool with (vulps a p). change (sulps (vx b) (vx p) && sulps (vy b) (vy p))%bool with (vulps b p).
    rewrite !(vulps_ex prec emax epsexp at2 Hprec Hmax s K OK) by auto.
    destruct H as [H|H]; rewrite H.
    - replace (vulps (val p) (val p)) with true by (symmetry; apply vulps_R; auto). auto.
    - replace (vulps (val p) (val p)) with true by (symmetry; apply vulps_R; auto). destruct (vulps _ _); auto.
  Qed.
  Lemma pt_eq_dec (a b : pt) : {a = b} + {a <> b}.
  Proof. destruct (vulps a b) eqn:E; [left; apply vulps_R; auto|right; intros H; apply vulps_R in H; congruence]. Qed.

  (* no false negatives *)
  Lemma point_found a b p : onp a -> onp b -> onp p -> on_segment (val p) (val a) (val b) -> intersect_line_point (S := FS) (mkL a b) p = Some (IPoint p).
  Proof.
    intros Ha Hb Hp Hs. destruct (pt_eq_dec (val a) (val p)) as [E1|N1]; [apply point_ends; auto|]. destruct (pt_eq_dec (val b) (val p)) as [E2|N2]; [apply point_ends; auto|].
    rewrite point_unfold by auto. destruct (flen_near a b Ha Hb) as (G1 & [L1 U1] & C1 & M1). destruct (fsum_near a p b Ha Hp Hb) as (G2 & [L2 U2] & M2).
    destruct Hs as (t & Ht & Et).
    assert (Ed : edist (val a) (val p) + edist (val p) (val b) = edist (val a) (val b)).
    { assert (EA := edist_along (val a) (val b) 0 t ltac:(lra)). assert (EB := edist_along (val a) (val b) t 1 ltac:(lra)).
      rewrite <- Et in EA, EB. replace (lerp (val a) (val b) 0) with (val a) in EA by (unfold lerp, point_value; apply V2_ext; rsimp; ring).
      replace (lerp (val a) (val b) 1) with (val b) in EB by (unfold lerp, point_value; apply V2_ext; rsimp; ring). rewrite EA, EB. ring. }
    rewrite Ed in L2, U2. set (d := edist (val a) (val b)) in *.
    assert (Dp : 0 < d).
    { assert (0 <= d) by apply edist_nonneg. destruct (Req_dec d 0) as [Z0|]; [|lra]. exfalso. apply edist_zero in Z0. apply N1. rewrite Et, Z0. unfold lerp, point_value. apply V2_ext; rsimp; ring. }
    assert (U0 := ulp1_pos prec). assert (P4 := p4 prec emax epsexp s K OK).
    assert (U16 : u <= / 16) by (unfold ulp1; apply Rle_trans with (bpow radix2 (-4)); [apply bpow_le; lia|cbn; lra]).
    set (x := rv (flen a b)) in *. set (y := rv (SFadd prec emax (flen a p) (flen p b))) in *.
    assert (Lx : (1 - u) * (1 - u) * d <= x) by (eapply Rle_trans; [|exact L1]; apply Rmult_le_compat_r; nra).
    assert (Lq : 0 < (1 - u) * (1 - u) * d) by (apply Rmult_lt_0_compat; nra).
    rewrite (ulps_true (flen a b) (SFadd prec emax (flen a p) (flen p b))); [reflexivity|lia|auto|auto|fold x; lra|fold y; lra|]. fold x y.
    assert (Mn : (1 - u) * (1 - u) * d <= Rmin x y) by (apply Rmin_glb; auto).
    apply Rle_trans with (4 * u * ((1 - u) * (1 - u) * d)); [|apply Rmult_le_compat_l; lra].
    assert (Q : (3 + u) * (u * d) <= 4 * ((1 - u) * (1 - u)) * (u * d)) by (apply Rmult_le_compat_r; [apply Rmult_le_pos; lra|nra]).
    apply Rabs_le. assert (u * u * d <= u * d * / 16) by (replace (u * u * d) with ((u * d) * u) by ring; apply Rmult_le_compat_l; [apply Rmult_le_pos; lra|auto]).
    assert (0 <= u * u * d) by (apply Rmult_le_pos; [apply Rmult_le_pos|]; lra). split; lra.
  Qed.

  (* a reported point is close to the segment *)
  Lemma point_close a b p : (0 <= s)%Z -> (epsexp <= 1 - prec)%Z -> (emin < epsexp)%Z -> (10 <= prec)%Z -> onp a -> onp b -> onp p -> intersect_line_point (S := FS) (mkL a b) p <> None ->
    exists q, on_segment q (val a) (val b) /\ sqdist (val p) q <= 8 * u * sqdist (val a) (val b).
  Proof.
    intros Hs He Hee Hp10 Ha Hb Hp H. assert (U0 := ulp1_pos prec).
    destruct (pt_eq_dec (val a) (val p)) as [E1|N1].
    { exists (val a). split; [apply on_segment_start|]. rewrite <- E1. replace (sqdist (val a) (val a)) with 0 by (unfold sqdist; ring). apply Rmult_le_pos; [lra|apply sqdist_nonneg]. }
    destruct (pt_eq_dec (val b) (val p)) as [E2|N2].
    { exists (val b). split; [apply on_segment_end|]. rewrite <- E2. replace (sqdist (val b) (val b)) with 0 by (unfold sqdist; ring). apply Rmult_le_pos; [lra|apply sqdist_nonneg]. }
    rewrite point_unfold in H by auto. destruct (fl_ulps_with _ _ _ _ _ _) eqn:Eu; [|congruence]. clear H.
    destruct (flen_near a b Ha Hb) as (G1 & [L1 U1] & C1 & M1). destruct (fsum_near a p b Ha Hp Hb) as (G2 & [L2 U2] & M2).
    destruct (flen_near a p Ha Hp) as (_ & _ & C3 & _).
    destruct (near_ends (val p) (val a) (val b)) as (q & Hq & Dq). exists q. split; auto.
    set (d := edist (val a) (val b)) in *. set (w := edist (val a) (val p) + edist (val p) (val b)) in *.
    assert (D0 : 0 <= d) by apply edist_nonneg.
    assert (U10 : u <= / 1024) by (unfold ulp1; apply Rle_trans with (bpow radix2 (-10)); [apply bpow_le; lia|cbn; lra]).
    assert (Wp : bpow radix2 s <= w).
    { destruct C3 as [C3|C3]; [exfalso; apply N1; apply edist_zero; auto|]. unfold w. pose proof (edist_nonneg (val p) (val b)). lra. }
    assert (Bs : 1 <= bpow radix2 s) by (apply (bpow_le radix2 0); auto).
    set (x := rv (flen a b)) in *. set (y := rv (SFadd prec emax (flen a p) (flen p b))) in *.
    assert (Xp : 0 <= x) by (eapply Rle_trans; [|exact L1]; apply Rmult_le_pos; lra).
    assert (Yl : (1 - 2 * u) * w <= y). { eapply Rle_trans; [|exact L2]. apply Rmult_le_compat_r; [lra|]. pose proof (Rle_0_sqr u). unfold Rsqr in H. lra. }
    assert (Yp : / 2 * w <= y) by (eapply Rle_trans; [|exact Yl]; apply Rmult_le_compat_r; lra).
    assert (Eps : 2 * bpow radix2 epsexp <= 4 * u).
    { assert (bpow radix2 epsexp <= bpow radix2 (1 - prec)) by (apply bpow_le; auto). replace (1 - prec)%Z with (1 + - prec)%Z in H by lia. rewrite bpow_plus in H. change (bpow radix2 1) with 2 in H. unfold ulp1. lra. }
    assert (P4 := p4 prec emax epsexp s K OK). assert (OK' := OK). destruct OK'.
    assert (Xu : x <= bpow radix2 (K + s + 6)).
    { replace (K + s + 6)%Z with ((K + s + 2) + 4)%Z by lia. rewrite bpow_plus. change (bpow radix2 4) with 16. pose proof (bpow_gt_0 radix2 (K + s + 2)).
      eapply Rle_trans; [exact U1|]. apply Rle_trans with (2 * d); [apply Rmult_le_compat_r; lra|lra]. }
    assert (He6 : (emin <= K + s + 6 <= emax - 2)%Z) by (split; lia).
    destruct (Req_dec x 0) as [X0|X0].
    { exfalso. assert (Eu' : y <= 2 * bpow radix2 epsexp) by (apply (ulps_zero (flen a b) _ (K + s + 6)); auto; fold y; lra). lra. }
    assert (Eu' : Rabs (x - y) <= Rmax (2 * bpow radix2 epsexp) (8 * u * Rmax x y)) by (apply (ulps_near _ _ (K + s + 6)); auto; fold x y; lra). clear Eu. rename Eu' into Eu.
    assert (W : w * (1 - 11 * u) <= d * (1 + u)).
    { unfold Rmax at 1 in Eu. destruct (Rle_dec _ _) as [C|C].
      - apply Rabs_le_inv in Eu. unfold Rmax in Eu. destruct (Rle_dec x y) as [C'|C'].
        + assert (Q : (1 - 8 * u) * y <= (1 + u) * d) by lra. assert (Q2 : (1 - 8 * u) * ((1 - 2 * u) * w) <= (1 - 8 * u) * y) by (apply Rmult_le_compat_l; lra).
          assert (0 <= u * u * w) by (apply Rmult_le_pos; [apply Rmult_le_pos|]; lra). assert (0 <= u * w) by (apply Rmult_le_pos; lra). lra.
        + assert (0 <= u * w) by (apply Rmult_le_pos; lra). lra.
      - apply Rabs_le_inv in Eu. assert (u * 1 <= u * w) by (apply Rmult_le_compat_l; lra). lra. }
    assert (W2 : w <= (1 + 13 * u) * d).
    { apply Rmult_le_reg_r with (1 - 11 * u); [lra|]. eapply Rle_trans; [exact W|]. replace ((1 + 13 * u) * d * (1 - 11 * u)) with (d * (1 + 2 * u - 143 * (u * u))) by ring.
      apply Rmult_le_compat_l; auto. assert (u * u <= u * / 1024) by (apply Rmult_le_compat_l; lra). lra. }
    assert (Hd : sqdist (val a) (val b) = d * d) by (symmetry; apply sqdist_edist). rewrite Hd in *. fold w in Dq.
    assert (W3 : w * w <= ((1 + 13 * u) * d) * ((1 + 13 * u) * d)) by (apply Rmult_le_compat; lra).
    assert (U2' : u * u * (d * d) <= u * / 1024 * (d * d)) by (apply Rmult_le_compat_r; [apply Rmult_le_pos; auto|apply Rmult_le_compat_l; lra]).
    assert (0 <= u * (d * d)) by (apply Rmult_le_pos; [lra|apply Rmult_le_pos; auto]). lra.
  Qed.
  (* on a small grid the answer is exact *)
  Lemma point_exact a b p : (0 <= s)%Z -> (epsexp <= 1 - prec)%Z -> (emin < epsexp)%Z -> (10 <= prec)%Z -> (4 * K + 9 < prec)%Z -> onp a -> onp b -> onp p ->
    intersect_line_point (S := FS) (mkL a b) p <> None -> on_segment (val p) (val a) (val b).
  Proof.
    intros Hs He Hee Hp10 HK Ha Hb Hp H. destruct (point_close a b p Hs He Hee Hp10 Ha Hb Hp H) as (q & Hq & Dq).
    assert (OK' := OK). destruct OK'.
    destruct Ha as [(_ & a1 & A1 & EA1) (_ & a2 & A2 & EA2)], Hb as [(_ & b1 & B1 & EB1) (_ & b2 & B2 & EB2)], Hp as [(_ & p1 & P1 & EP1) (_ & p2 & P2 & EP2)].
    unfold point_value in *. rewrite EA1, EA2, EB1, EB2, EP1, EP2 in *.
    assert (Ab : forall k, (Z.abs k <= 2 ^ K)%Z -> Rabs (IZR k) <= bpow radix2 K).
    { intros k Hk. rewrite <- abs_IZR, <- (IZR_Zpower radix2) by auto. apply IZR_le. exact Hk. }
    apply (near_on (bpow radix2 s) (bpow radix2 K) (8 * u) a1 a2 b1 b2 p1 p2 q); auto; try (apply Ab; auto).
    - apply bpow_gt_0.
    - pose proof (ulp1_pos prec). lra.
    - unfold ulp1. change 8 with (bpow radix2 3). change 64 with (bpow radix2 6). rewrite <- !bpow_plus. apply (bpow_lt radix2 _ 0). lia.
    - apply (bpow_le radix2 0). auto.
  Qed.
End Pt.
