(* Two different directions with integer coordinates are a minimal angle apart; an accurate float atan2 orders them. *)
From Coq Require Import ZArith Reals Lra Lia Psatz Floats.SpecFloat.
From Flocq Require Import Core BinarySingleNaN.
From Verif Require Import Prelude Scalar RInst Flt FloatSpec FloatLink FloatGrid FloatHull FloatBox FloatAffine FloatDisc Geo2 GeoSpec Hull HullSpec GrahamProofs3 AtanSpec.
Local Open Scope R_scope.

Definition norm (x y : R) : R := sqrt (x * x + y * y).
Lemma norm_pos x y : right_half x y -> 0 < norm x y.
Proof.
  intros H. apply sqrt_lt_R0. assert (0 <= x * x) by apply Rle_0_sqr. assert (0 <= y * y) by apply Rle_0_sqr.
  destruct H as [H|[-> H]]; [assert (0 < x * x) by (apply Rmult_lt_0_compat; auto)|assert (0 < y * y) by (apply Rmult_lt_0_compat; auto)]; lra.
Qed.
Lemma atan2_polar x y : right_half x y -> x = norm x y * cos (Ratan2 y x) /\ y = norm x y * sin (Ratan2 y x).
Proof.
  intros H. destruct (atan2_right _ _ H) as [[P E]|(P & Q & E)]; rewrite E.
  - rewrite cos_atan, sin_atan. unfold Rsqr. assert (N : norm x y = x * sqrt (1 + y / x * (y / x))).
    { unfold norm. replace (x * x + y * y) with ((x * x) * (1 + y / x * (y / x))) by (field; lra). rewrite sqrt_mult_alt by (apply Rle_0_sqr). rewrite sqrt_square by lra. auto. }
    assert (0 < sqrt (1 + y / x * (y / x))) by (apply sqrt_lt_R0; assert (0 <= y / x * (y / x)) by apply Rle_0_sqr; lra).
    rewrite N. split; field; lra.
  - subst x. rewrite cos_PI2, sin_PI2. unfold norm. replace (0 * 0 + y * y) with (y * y) by ring. rewrite sqrt_square by lra. lra.
Qed.
Lemma norm_le x y M : Rabs x <= M -> Rabs y <= M -> norm x y * norm x y <= 2 * (M * M).
Proof.
  intros Hx Hy. unfold norm. assert (0 <= x * x) by apply Rle_0_sqr. assert (0 <= y * y) by apply Rle_0_sqr. rewrite sqrt_sqrt by lra.
  assert (K : forall z, Rabs z <= M -> z * z <= M * M).
  { intros z Hz. replace (z * z) with (Rabs z * Rabs z) by (rewrite <- Rabs_mult; apply Rabs_pos_eq; apply Rle_0_sqr).
    pose proof (Rabs_pos z). apply Rmult_le_compat; auto. }
  pose proof (K x Hx). pose proof (K y Hy). lra.
Qed.
(* a positive cross product needs a proportional angle *)
Lemma angle_sep x1 y1 x2 y2 M : right_half x1 y1 -> right_half x2 y2 -> Rabs x1 <= M -> Rabs y1 <= M -> Rabs x2 <= M -> Rabs y2 <= M ->
  Ratan2 y1 x1 < Ratan2 y2 x2 -> x1 * y2 - y1 * x2 < (Ratan2 y2 x2 - Ratan2 y1 x1) * (2 * (M * M)).
Proof.
  intros H1 H2 A1 B1 A2 B2 H. destruct (atan2_polar x1 y1 H1) as [E1 F1]. destruct (atan2_polar x2 y2 H2) as [E2 F2].
  set (t1 := Ratan2 y1 x1) in *. set (t2 := Ratan2 y2 x2) in *. set (r1 := norm x1 y1) in *. set (r2 := norm x2 y2) in *.
  assert (P1 : 0 < r1) by (apply norm_pos; auto). assert (P2 : 0 < r2) by (apply norm_pos; auto).
  assert (X : x1 * y2 - y1 * x2 = r1 * r2 * sin (t2 - t1)).
  { rewrite sin_minus. transitivity ((r1 * cos t1) * (r2 * sin t2) - (r1 * sin t1) * (r2 * cos t2)); [rewrite <- E1, <- E2, <- F1, <- F2; ring|ring]. }
  rewrite X. assert (Hs := sin_lt_x (t2 - t1)). assert (Hd : 0 < t2 - t1) by lra. specialize (Hs Hd).
  assert (R1 : r1 * r1 <= 2 * (M * M)) by (apply norm_le; auto). assert (R2 : r2 * r2 <= 2 * (M * M)) by (apply norm_le; auto).
  assert (R12 : r1 * r2 <= 2 * (M * M)). { assert (0 <= (r1 - r2) * (r1 - r2)) by apply Rle_0_sqr. lra. }
  assert (P12 : 0 < r1 * r2) by (apply Rmult_lt_0_compat; auto).
  apply Rlt_le_trans with (r1 * r2 * (t2 - t1)); [apply Rmult_lt_compat_l; auto|].
  rewrite Rmult_comm. apply Rmult_le_compat_l; lra.
Qed.

(* the direction of a grid point seen from a lexicographically smaller one; the zero vector has the angle of (1, 0) *)
Definition seen (g : R) (k l : Z) : Prop := (0 < k)%Z \/ (k = 0%Z /\ 0 <= l)%Z.
Lemma seen_angle g N k l : 0 < g -> (1 <= N)%Z -> seen g k l -> (Z.abs k <= N)%Z -> (Z.abs l <= N)%Z ->
  exists k' l', right_half (IZR k' * g) (IZR l' * g) /\ Ratan2 (IZR l' * g) (IZR k' * g) = Ratan2 (IZR l * g) (IZR k * g) /\ (Z.abs k' <= N)%Z /\ (Z.abs l' <= N)%Z.
Proof.
  intros Hg HN [H|[-> H]] Hk Hl.
  - exists k, l. split; [left; apply Rmult_lt_0_compat; auto; apply IZR_lt; auto|auto].
  - destruct (Z.eq_dec l 0) as [->|Hl0].
    + exists 1%Z, 0%Z. split; [left; lra|]. split; [|lia]. unfold Ratan2. replace (0 * g) with 0 by ring. replace (1 * g) with g by ring.
      destruct (Rlt_dec 0 g); [|lra]. destruct (Rlt_dec 0 0); [lra|]. replace (0 / g) with 0 by (field; lra). apply atan_0.
    + exists 0%Z, l. split; [right; split; [ring|apply Rmult_lt_0_compat; auto; apply IZR_lt; lia]|auto].
Qed.
Lemma grid_sep g N k1 l1 k2 l2 : 0 < g -> (1 <= N)%Z -> seen g k1 l1 -> seen g k2 l2 -> (Z.abs k1 <= N)%Z -> (Z.abs l1 <= N)%Z -> (Z.abs k2 <= N)%Z -> (Z.abs l2 <= N)%Z ->
  Ratan2 (IZR l1 * g) (IZR k1 * g) < Ratan2 (IZR l2 * g) (IZR k2 * g) ->
  1 < (Ratan2 (IZR l2 * g) (IZR k2 * g) - Ratan2 (IZR l1 * g) (IZR k1 * g)) * (2 * (IZR N * IZR N)).
Proof.
  intros Hg HN S1 S2 A1 B1 A2 B2 H.
  destruct (seen_angle g N k1 l1 Hg HN S1 A1 B1) as (a1 & b1 & R1 & E1 & C1 & D1). destruct (seen_angle g N k2 l2 Hg HN S2 A2 B2) as (a2 & b2 & R2 & E2 & C2 & D2).
  rewrite <- E1, <- E2 in *. clear E1 E2 S1 S2.
  assert (K : forall z, (Z.abs z <= N)%Z -> Rabs (IZR z * g) <= IZR N * g).
  { intros z Hz. rewrite Rabs_mult, (Rabs_pos_eq g) by lra. apply Rmult_le_compat_r; [lra|]. rewrite <- abs_IZR. apply IZR_le; auto. }
  assert (X := atan2_lt _ _ _ _ R1 R2 H).
  assert (Y := angle_sep _ _ _ _ (IZR N * g) R1 R2 (K a1 C1) (K b1 D1) (K a2 C2) (K b2 D2) H).
  set (d := Ratan2 (IZR b2 * g) (IZR a2 * g) - Ratan2 (IZR b1 * g) (IZR a1 * g)) in *.
  assert (Z1 : IZR a1 * g * (IZR b2 * g) - IZR b1 * g * (IZR a2 * g) = IZR (a1 * b2 - b1 * a2) * (g * g)) by (rewrite minus_IZR, !mult_IZR; ring).
  rewrite Z1 in X, Y. assert (Pg : 0 < g * g) by (apply Rmult_lt_0_compat; auto).
  assert (Zp : (1 <= a1 * b2 - b1 * a2)%Z).
  { assert (0 < a1 * b2 - b1 * a2)%Z; [|lia]. apply lt_IZR. apply Rmult_lt_reg_r with (g * g); auto. lra. }
  apply IZR_le in Zp. apply Rmult_lt_reg_r with (g * g); auto.
  assert (1 * (g * g) <= IZR (a1 * b2 - b1 * a2) * (g * g)) by (apply Rmult_le_compat_r; lra).
  replace (d * (2 * (IZR N * IZR N)) * (g * g)) with (d * (2 * (IZR N * g * (IZR N * g)))) by ring. lra.
Qed.

Section G.
  Context (prec emax epsexp s n : Z) (OK : format_ok prec emax epsexp s n) (at2 : spec_float -> spec_float -> spec_float).
  Notation FS := (FloatS prec emax epsexp at2).
  Notation val := (@point_value prec emax epsexp at2).
  Notation onp := (@grid_point prec emax epsexp at2 s n).

  Lemma sub_no_neg_zero x y : finite_float prec emax x -> finite_float prec emax y -> x <> S754_zero true -> fvalue (SFsub prec emax x y) = fvalue x - fvalue y ->
    SFsub prec emax x y <> S754_zero true.
  Proof.
    intros Gx Gy Hx E Z. destruct OK as [O1 O2 _ _ _ _ _ _ _].
    destruct (good_B _ _ x Gx) as (bx & Ex & Fx & Vx), (good_B _ _ y Gy) as (b_y & Ey & Fy & Vy).
    rewrite Z in E. change (fvalue (S754_zero true)) with 0 in E.
    pose proof (Bminus_correct prec emax O1 O2 mode_NE bx b_y Fx Fy) as C. cbv zeta in C.
    rewrite Vx, Vy in C. rewrite <- E in C. rewrite round_0 in C by (apply valid_rnd_N). rewrite Rabs_R0 in C.
    rewrite (proj2 (Rlt_bool_true_iff _ _)) in C || rewrite Rlt_bool_true in C by apply bpow_gt_0.
    destruct C as (_ & _ & C). rewrite Rcompare_Eq in C by auto.
    rewrite Ex, Ey in Z. rewrite SFsub_B with (Hprec := O1) (Hmax := O2) in Z.
    assert (Sg : Bsign (Bminus mode_NE bx b_y) = true). { destruct (Bminus mode_NE bx b_y) as [q|q| |q m e Hq]; cbn in Z; try discriminate. injection Z as ->. auto. }
    rewrite Sg in C. symmetry in C. apply andb_prop in C as [C1 C2]. apply negb_true_iff in C2.
    assert (Eq : B2R bx = B2R b_y) by lra.
    destruct bx as [q|q| |q m e Hq]; cbn in C1, Fx; try discriminate; subst q.
    - apply Hx. rewrite Ex. reflexivity.
    - assert (B2R (B754_finite true m e Hq) < 0) by (cbn; apply F2R_lt_0; cbn; lia).
      assert (0 <= B2R b_y). { destruct b_y as [q'|q'| |q' m' e' Hq']; cbn in C2, Fy |- *; try discriminate; try lra. subst q'. apply F2R_ge_0. cbn. lia. }
      lra.
  Qed.
  Lemma accurate_order eps st p q : accurate_atan2 prec emax eps at2 -> (1 <= n)%Z -> 16 * (IZR n * IZR n) * eps < 1 ->
    onp st -> onp p -> onp q -> no_neg_zero p -> no_neg_zero q -> lex_le (val st) (val p) -> lex_le (val st) (val q) ->
    same_angle_order st p q.
  Proof.
    intros Ha Hn He [[Gs1 (ks & Ks & Es)] [Gs2 (ls & Ls & Fs)]] Hp Hq Np Nq Lp Lq. destruct OK as [O1 O2 O3 O4 O5 O6 O7 O8 O9] eqn:EOK.
    assert (Os1 : on_grid prec emax s n (vx st)) by (split; eauto). assert (Os2 : on_grid prec emax s n (vy st)) by (split; eauto).
    set (g := bpow radix2 s) in *. assert (Pg : 0 < g) by apply bpow_gt_0.
    assert (W : forall r : V2 FS, onp r -> no_neg_zero r -> lex_le (val st) (val r) ->
      exists k l, seen g k l /\ (Z.abs k <= 2 * n)%Z /\ (Z.abs l <= 2 * n)%Z /\ fvalue (vx r) - fvalue (vx st) = IZR k * g /\ fvalue (vy r) - fvalue (vy st) = IZR l * g /\
        at2_arg prec emax (SFsub prec emax (vy r) (vy st)) (SFsub prec emax (vx r) (vx st)) /\
        fvalue (SFsub prec emax (vy r) (vy st)) = IZR l * g /\ fvalue (SFsub prec emax (vx r) (vx st)) = IZR k * g).
    { intros r [Hr1 Hr2] Nr Lr. assert (Hr1' := Hr1). assert (Hr2' := Hr2). destruct Hr1' as [Gr1 (kr & Kr & Er)], Hr2' as [Gr2 (lr & Lr_ & Fr)].
      destruct (x_sub prec emax O1 O2 s n O3 O4 O5 _ _ Hr1 Os1) as [[Gx _] Ex]. destruct (x_sub prec emax O1 O2 s n O3 O4 O5 _ _ Hr2 Os2) as [[Gy _] Ey].
      exists (kr - ks)%Z, (lr - ls)%Z. assert (Dx : fvalue (vx r) - fvalue (vx st) = IZR (kr - ks) * g) by (rewrite Er, Es, minus_IZR; fold g; ring).
      assert (Dy : fvalue (vy r) - fvalue (vy st) = IZR (lr - ls) * g) by (rewrite Fr, Fs, minus_IZR; fold g; ring).
      assert (Sn : seen g (kr - ks) (lr - ls)).
      { destruct Lr as [L|[L1 L2]]; cbn [point_value vx vy] in *.
        - left. apply lt_IZR. apply Rmult_lt_reg_r with g; auto. lra.
        - right. split.
          + apply eq_IZR. apply Rmult_eq_reg_r with g; lra.
          + apply le_IZR. apply Rmult_le_reg_r with g; auto. lra. }
      split; auto. split; [lia|]. split; [lia|]. split; auto. split; auto. split; [|split; congruence].
      split; auto. split; auto. split.
      - rewrite Ex, Dx. assert (0 <= kr - ks)%Z by (destruct Sn; lia). apply Rmult_le_pos; [apply IZR_le; auto|lra].
      - apply sub_no_neg_zero; auto. }
    destruct (W p Hp Np Lp) as (k1 & l1 & S1 & A1 & B1 & X1 & Y1 & Q1 & V1 & U1). destruct (W q Hq Nq Lq) as (k2 & l2 & S2 & A2 & B2 & X2 & Y2 & Q2 & V2 & U2).
    unfold same_angle_order. cbv zeta. rewrite X1, Y1, X2, Y2.
    destruct (Ha _ _ Q1) as (F1 & D1 & _). destruct (Ha _ _ Q2) as (F2 & D2 & _). rewrite V1, U1 in D1. rewrite V2, U2 in D2.
    assert (Eq12 := proj2 (proj2 (Ha _ _ Q1)) _ _ Q2). rewrite V1, U1, V2, U2 in Eq12.
    set (a1 := at2 (SFsub prec emax (vy p) (vy st)) (SFsub prec emax (vx p) (vx st))) in *. set (a2 := at2 (SFsub prec emax (vy q) (vy st)) (SFsub prec emax (vx q) (vx st))) in *.
    assert (Sep := grid_sep g (2 * n) k1 l1 k2 l2 Pg ltac:(lia) S1 S2 A1 B1 A2 B2). assert (Sep' := grid_sep g (2 * n) k2 l2 k1 l1 Pg ltac:(lia) S2 S1 A2 B2 A1 B1).
    set (t1 := Ratan2 (IZR l1 * g) (IZR k1 * g)) in *. set (t2 := Ratan2 (IZR l2 * g) (IZR k2 * g)) in *.
    rewrite mult_IZR in Sep, Sep'. assert (N1 : 1 <= IZR n) by (apply IZR_le; auto). assert (N2 : 1 <= IZR n * IZR n) by (replace 1 with (1 * 1) by ring; apply Rmult_le_compat; lra).
    set (m := IZR n * IZR n) in *. replace (2 * (2 * IZR n * (2 * IZR n))) with (8 * m) in Sep, Sep' by (unfold m; ring).
    assert (G12 : t1 < t2 -> 2 * eps < t2 - t1). { intros H. specialize (Sep H). apply Rmult_lt_reg_r with (8 * m); [lra|]. lra. }
    assert (G21 : t2 < t1 -> 2 * eps < t1 - t2). { intros H. specialize (Sep' H). apply Rmult_lt_reg_r with (8 * m); [lra|]. lra. }
    assert (I1 := Raux.Rabs_le_inv _ _ D1). assert (I2 := Raux.Rabs_le_inv _ _ D2).
    rewrite (ltb_R prec emax at2), (eqb_R prec emax at2) by auto.
    destruct (Rltb_spec (fvalue a1) (fvalue a2)) as [L|L], (Reqb_spec (fvalue a1) (fvalue a2)) as [E|E], (Rtotal_order t1 t2) as [T|[T|T]];
      try (specialize (G12 T)); try (specialize (G21 T)); try (specialize (Eq12 T)); split; split; intros; try discriminate; auto; try lra.
  Qed.
End G.

(* the correctly rounded atan2 is accurate to one unit in the last place of 1 *)
Section Rounded.
  Context (prec emax : Z) (Hprec : Prec_gt_0 prec) (Hmax : Prec_lt_emax prec emax).
  Notation fexp := (SpecFloat.fexp prec emax).
  Notation rnd := (round radix2 fexp ZnearestE).
  Definition round_float (t : R) : spec_float := SpecFloat.binary_normalize prec emax (ZnearestE (scaled_mantissa radix2 fexp t)) (cexp radix2 fexp t) false.
  Definition rounded_atan2 (y x : spec_float) : spec_float := round_float (Ratan2 (fvalue y) (fvalue x)).
  Lemma round_float_ok t : Rabs (rnd t) < bpow radix2 emax -> finite_float prec emax (round_float t) /\ fvalue (round_float t) = rnd t.
  Proof.
    intros H. unfold round_float. rewrite (binary_normalize_eq prec emax Hprec Hmax).
    pose proof (binary_normalize_correct prec emax Hprec Hmax mode_NE (ZnearestE (scaled_mantissa radix2 fexp t)) (cexp radix2 fexp t) false) as C. cbv zeta in C.
    change (F2R {| Fnum := ZnearestE (scaled_mantissa radix2 fexp t); Fexp := cexp radix2 fexp t |}) with (rnd t) in C.
    change (round_mode mode_NE) with ZnearestE in C.
    assert (I : rnd (rnd t) = rnd t) by (apply round_generic; [apply valid_rnd_N|]; apply generic_format_round; [apply fexp_correct; auto|apply valid_rnd_N]).
    rewrite I in C. rewrite Rlt_bool_true in C by auto. destruct C as (E & F & _). destruct (B_good prec emax _ F) as [G1 G2]. split; auto. congruence.
  Qed.
  Lemma rounded_bounds y x : (2 <= emax)%Z -> at2_arg prec emax y x ->
    let t := Ratan2 (fvalue y) (fvalue x) in Rabs (rnd t - t) <= bpow radix2 (1 - prec) /\ Rabs (rnd t) < bpow radix2 emax.
  Proof.
    intros He (_ & _ & Hx & _). assert (Hpm : (prec < emax)%Z) by exact Hmax. cbv zeta. assert (B : Rabs (Ratan2 (fvalue y) (fvalue x)) <= 2).
      { unfold Ratan2. assert (PI / 2 <= 2) by (pose proof PI_4; lra).
        destruct (Rlt_dec 0 (fvalue x)); [pose proof (atan_bound (fvalue y / fvalue x)); apply Rabs_le; lra|].
        destruct (Rlt_dec (fvalue x) 0); [lra|]. pose proof PI_RGT_0. repeat (destruct (Rlt_dec _ _)); apply Rabs_le; lra. }
      set (t := Ratan2 (fvalue y) (fvalue x)) in *. clearbody t.
      assert (E : Rabs (rnd t - t) <= bpow radix2 (- prec) * 2).
      { apply (round_err prec emax Hprec); auto. replace 2 with (bpow radix2 1) by reflexivity. apply bpow_le. unfold SpecFloat.emin. lia. }
      split.
      - replace (1 - prec)%Z with (- prec + 1)%Z by lia. rewrite bpow_plus. exact E.
      - apply Rle_lt_trans with 3.
        + assert (bpow radix2 (- prec) <= / 2) by (replace (/ 2) with (bpow radix2 (-1)) by reflexivity; apply bpow_le; unfold Prec_gt_0 in Hprec; lia).
          replace (rnd t) with (t + (rnd t - t)) by ring. eapply Rle_trans; [apply Rabs_triang|]. lra.
        + apply Rlt_le_trans with (bpow radix2 2); [cbn; lra|]. apply bpow_le; lia.
  Qed.
  Lemma rounded_nearest : (2 <= emax)%Z -> forall y x, at2_arg prec emax y x -> forall g, finite_float prec emax g ->
    Rabs (fvalue (rounded_atan2 y x) - Ratan2 (fvalue y) (fvalue x)) <= Rabs (fvalue g - Ratan2 (fvalue y) (fvalue x)).
  Proof.
    intros He y x A g Hg. destruct (rounded_bounds y x He A) as [_ K]. unfold rounded_atan2. destruct (round_float_ok _ K) as [_ E]. rewrite E. apply rnd_nearest; auto.
  Qed.
  Lemma rounded_accurate : (2 <= emax)%Z -> accurate_atan2 prec emax (bpow radix2 (1 - prec)) rounded_atan2.
  Proof.
    intros He. assert (Hpm : (prec < emax)%Z) by exact Hmax.
    assert (K : forall y x, at2_arg prec emax y x -> let t := Ratan2 (fvalue y) (fvalue x) in Rabs (rnd t - t) <= bpow radix2 (1 - prec) /\ Rabs (rnd t) < bpow radix2 emax).
    { intros y x. apply rounded_bounds; auto. }
    intros y x A. destruct (K y x A) as [K1 K2]. destruct (round_float_ok _ K2) as [G E]. split; auto. split; [unfold rounded_atan2; rewrite E; auto|].
    intros y' x' A' Eq. unfold rounded_atan2. rewrite Eq. auto.
  Qed.
End Rounded.
