(* Segments with coordinates of moderate size: the computed intersection point is finite. *)
From Coq Require Import ZArith Reals Lra Lia Psatz Bool Floats.SpecFloat.
From Flocq Require Import Core BinarySingleNaN.
From Verif Require Import Prelude Scalar RInst Flt FloatSpec FloatLink FloatGrid FloatRound Geo2 FloatIsect Sweep SweepFin SweepFlt.
Local Open Scope R_scope.

Section Bound.
  Context (prec emax epsexp : Z) (at2 : spec_float -> spec_float -> spec_float) (Hprec : Prec_gt_0 prec) (Hmax : Prec_lt_emax prec emax).
  Notation FS := (FloatS prec emax epsexp at2).
  Notation fexp := (SpecFloat.fexp prec emax).
  Notation emin := (SpecFloat.emin prec emax).
  Notation rnd := (round radix2 fexp ZnearestE).
  Notation good := (finite_float prec emax).
  Notation rv := fvalue.
  Notation bp := (bpow radix2).

  Definition bd (e : Z) (x : spec_float) : Prop := good x /\ Rabs (rv x) <= bp e.
  Definition bdv (e : Z) (v : V2 FS) : Prop := bd e (vx v) /\ bd e (vy v).
  Definition bdl (e : Z) (l : Line2 FS) : Prop := bdv e (lstart l) /\ bdv e (lend l).

  Lemma bp_double e : bp (e + 1) = 2 * bp e.
  Proof. rewrite bpow_plus. change (bp 1) with 2. ring. Qed.
  Lemma bd_add e x y : (emin <= e + 1 <= emax - 1)%Z -> bd e x -> bd e y -> bd (e + 1) (SFadd prec emax x y).
  Proof.
    intros He [Gx Bx] [Gy By]. assert (A : Rabs (rv x + rv y) <= bp (e + 1)) by (rewrite bp_double; eapply Rle_trans; [apply Rabs_triang|lra]).
    destruct (add_rnd prec emax Hprec Hmax x y Gx Gy) as [G E]; [eapply rnd_finite; eauto|]. split; auto. rewrite E. apply rnd_small; auto.
  Qed.
  Lemma bd_sub e x y : (emin <= e + 1 <= emax - 1)%Z -> bd e x -> bd e y -> bd (e + 1) (SFsub prec emax x y) /\ rv (SFsub prec emax x y) = rnd (rv x - rv y).
  Proof.
    intros He [Gx Bx] [Gy By]. assert (A : Rabs (rv x - rv y) <= bp (e + 1)) by (rewrite bp_double; eapply Rle_trans; [apply Rabs_triang|rewrite Rabs_Ropp; lra]).
    destruct (sub_rnd prec emax Hprec Hmax x y Gx Gy) as [G E]; [eapply rnd_finite; eauto|]. split; auto. split; auto. rewrite E. apply rnd_small; auto.
  Qed.
  Lemma bd_mul e f x y : (emin <= e + f <= emax - 1)%Z -> bd e x -> bd f y -> bd (e + f) (SFmul prec emax x y) /\ rv (SFmul prec emax x y) = rnd (rv x * rv y).
  Proof.
    intros He [Gx Bx] [Gy By]. assert (A : Rabs (rv x * rv y) <= bp (e + f)).
    { rewrite Rabs_mult, bpow_plus. apply Rmult_le_compat; auto using Rabs_pos. }
    destruct (mul_rnd prec emax Hprec Hmax x y Gx Gy) as [G E]; [eapply rnd_finite; eauto|]. split; auto. split; auto. rewrite E. apply rnd_small; auto.
  Qed.
  Lemma bd_weak e f x : (e <= f)%Z -> bd e x -> bd f x.
  Proof. intros H [G B]. split; auto. eapply Rle_trans; [exact B|apply bpow_le; auto]. Qed.
  Lemma opp_good x : good x -> good (SFopp x) /\ rv (SFopp x) = - rv x.
  Proof.
    intros [V F]. assert (G : rv (SFopp x) = - rv x).
    { destruct x as [b|b| |b mm e]; try discriminate; unfold fvalue; cbn [SFopp SF2R]; [lra|]. unfold Defs.F2R. cbn [Defs.Fnum Defs.Fexp].
      destruct b; cbn [cond_Zopp negb]; rewrite ?opp_IZR; ring. }
    split; auto. destruct x as [b|b| |b mm e]; try discriminate; split; auto.
  Qed.
  Lemma bd_opp e x : bd e x -> bd e (SFopp x).
  Proof. intros [G B]. destruct (opp_good x G) as [G' E]. split; auto. rewrite E, Rabs_Ropp. auto. Qed.
  Lemma div_valid x y : good x -> good y -> valid_binary prec emax (SFdiv prec emax x y) = true.
  Proof.
    intros Hx Hy. destruct (good_B _ _ x Hx) as (bx & -> & _), (good_B _ _ y Hy) as (by_ & -> & _). rewrite (SFdiv_B prec emax Hprec Hmax). apply valid_binary_B2SF.
  Qed.
  Lemma between_good lo hi x : good lo -> good hi -> valid_binary prec emax x = true -> SFleb lo x = true -> SFleb x hi = true -> good x.
  Proof.
    intros [_ F1] [_ F2] V H1 H2. split; auto. destruct x as [b|[]| |b m e]; auto.
    - destruct lo as [|[]| |[]]; cbn in *; discriminate.
    - destruct hi as [|[]| |[]]; cbn in *; discriminate.
  Qed.
  Lemma good_fin x : good x -> fl_fin x = true.
  Proof. intros [_ F]. destruct x; auto; discriminate. Qed.

  Context (B : Z) (HB : (2 <= B)%Z) (HBB : (2 * B + 6 <= emax - 1)%Z) (HBe : (B + 6 - epsexp <= emax - 1)%Z) (Hem : (emin + prec <= epsexp + epsexp)%Z) (He0 : (epsexp <= 0)%Z) (Hes : scale_ok prec emax epsexp)
    (H11 : scale_ok prec emax 0).

  Lemma vsub_bd a b : bdv B a -> bdv B b -> bdv (B + 1) (vsub a b).
  Proof. intros [Ax Ay] [Bx By]. unfold Prec_gt_0, scale_ok in *. split; cbn [vsub vx vy ssub FloatS]; apply bd_sub; auto; lia. Qed.
  Lemma vneg_bd e a : bdv e a -> bdv e (vneg a).
  Proof. intros [Ax Ay]. split; apply bd_opp; auto. Qed.
  Lemma perp_bd a b : bdv (B + 1) a -> bdv (B + 1) b -> bd (2 * B + 3) (vperp a b).
  Proof.
    intros [Ax Ay] [Bx By]. unfold Prec_gt_0, scale_ok in *. cbn [vperp vx vy ssub smul FloatS]. replace (2 * B + 3)%Z with (B + 1 + (B + 1) + 1)%Z by lia.
    apply bd_sub; [lia|apply bd_mul; auto; lia|apply bd_mul; auto; lia].
  Qed.

  Lemma cross_fin l r it : bdl B l -> bdl B r -> intersection_cross l r = Some it -> fin_pt (isingle it).
  Proof.
    intros [Ls Le] [Rs Re] E. unfold intersection_cross in E.
    pose proof (vsub_bd _ _ Le Ls) as Hr. pose proof (vsub_bd _ _ Re Rs) as Hs. pose proof (vsub_bd _ _ Rs Ls) as Hq.
    destruct (in_range _ _ _ && in_range _ _ _)%bool eqn:T in E; [|discriminate]. injection E as <-.
    apply andb_true_iff in T as [T _]. unfold in_range in T. apply andb_true_iff in T as [T1 T2].
    set (t := sdiv _ _) in *. cbn [isingle].
    assert (G1 : good (@s1 FS) /\ rv (@s1 FS) = 1).
    { apply (fl_of_Z_good prec emax Hprec Hmax 1); auto. cbn [Z.abs]. apply (Z.pow_le_mono_r 2 0); unfold Prec_gt_0 in *; lia. }
    assert (G0 : good (@s0 FS)) by apply good_zero.
    assert (Gt : good t).
    { apply (between_good (@s0 FS) (@s1 FS)); auto; [apply G1|]. apply div_valid; apply perp_bd; auto. }
    assert (Bt : bd 0 t).
    { split; auto. change (bp 0) with 1. change (SFleb (@s0 FS) t = true) in T1. change (SFleb t (@s1 FS) = true) in T2.
      rewrite (leb_R prec emax at2) in T1 by auto. rewrite (leb_R prec emax at2) in T2 by (auto; apply G1).
      apply Rleb_true in T1. apply Rleb_true in T2. rewrite (proj2 G1) in T2. change (rv (@s0 FS)) with 0 in T1. rewrite Rabs_pos_eq; auto. }
    assert (W : forall p r, bd B p -> bd (B + 1) r -> fl_fin (SFadd prec emax p (SFmul prec emax r t)) = true).
    { intros p r' Hp Hr'. unfold Prec_gt_0, scale_ok in *. apply good_fin. apply (bd_add (B + 1)); [lia|apply (bd_weak B); auto; lia|].
      replace (B + 1)%Z with (B + 1 + 0)%Z by lia. apply bd_mul; auto. lia. }
    destruct Ls, Hr. split; apply W; auto.
  Qed.

  (* the length of a segment that is not treated as a point *)
  Lemma not_ulps_sub x y : bd B x -> bd B y -> @sulps FS x y = false -> bp epsexp <= Rabs (rv (SFsub prec emax x y)).
  Proof.
    intros Hx Hy E. unfold Prec_gt_0, scale_ok in *. cbn [sulps FloatS] in E. unfold fl_ulps_with in E. destruct (fl_absdiff _ _ _ _ _) eqn:D in E; [discriminate|]. clear E.
    unfold fl_absdiff in D. destruct (pow2_good prec emax Hprec Hmax epsexp Hes) as [Gp Ep].
    destruct (bd_sub B x y) as [[Gs _] _]; auto; [lia|]. destruct (good_abs prec emax _ Gs) as [Ga Ea].
    rewrite (leb_R prec emax at2) in D by auto. rewrite Ep, Ea in D. apply Rleb_false in D. lra.
  Qed.
  Lemma max_t0 x : (@smax FS x (@s0 FS) = x /\ SFleb (S754_zero false) x = true) \/ rv (@smax FS x (@s0 FS)) = 0 /\ good (@smax FS x (@s0 FS)).
  Proof.
    cbn [smax FloatS s0]. unfold fl_max. destruct (fl_is_nan x) eqn:N; [right; split; [reflexivity|apply good_zero]|].
    cbn [fl_is_nan]. destruct (SFltb x (S754_zero false)) eqn:L; [right; split; [reflexivity|apply good_zero]|].
    left. split; auto. destruct x as [|[]| |[]]; auto; discriminate.
  Qed.
  Lemma rnd_up x y : Rabs x <= y -> bp (emin + prec - 1) <= y -> Rabs (rnd x) <= 2 * y.
  Proof.
    intros Hx Hy. pose proof (bpow_gt_0 radix2 (emin + prec - 1)). rewrite rnd_abs by auto. eapply Rle_trans; [apply rnd_le; [auto|exact Hx]|].
    pose proof (rnd_near prec emax Hprec y) as N. pose proof (ulp1_small prec Hprec). pose proof (ulp1_pos prec).
    destruct N as [_ N]; [lra|right; unfold normal; rewrite Rabs_pos_eq; lra|]. nra.
  Qed.
  Lemma dot_le (q r : V2 FS) R : bdv (B + 1) q -> bdv (B + 1) r -> bp epsexp <= R -> Rabs (rv (vx r)) <= R -> Rabs (rv (vy r)) <= R ->
    bd (2 * B + 3) (vdot q r) /\ Rabs (rv (vdot q r)) <= 16 * (bp B * R).
  Proof.
    intros [Qx Qy] [Rx Ry] HR H1 H2. unfold Prec_gt_0, scale_ok in *. cbn [vdot vx vy sadd smul FloatS].
    assert (Lo : bp (emin + prec - 1) <= bp epsexp) by (apply bpow_le; lia). pose proof (bpow_gt_0 radix2 epsexp) as Pe.
    assert (B1 : 1 <= bp B) by (change 1 with (bp 0); apply bpow_le; lia).
    destruct (bd_mul (B + 1) (B + 1) _ _ ltac:(lia) Qx Rx) as [M1 E1]. destruct (bd_mul (B + 1) (B + 1) _ _ ltac:(lia) Qy Ry) as [M2 E2].
    assert (K : forall a b, Rabs a <= bp (B + 1) -> Rabs b <= R -> Rabs (rnd (a * b)) <= 4 * (bp B * R)).
    { intros a b Ha Hb. replace (4 * (bp B * R)) with (2 * (bp (B + 1) * R)) by (rewrite bp_double; ring). apply rnd_up.
      - rewrite Rabs_mult. apply Rmult_le_compat; auto using Rabs_pos.
      - rewrite bp_double. nra. }
    pose proof (K _ _ (proj2 Qx) H1) as K1. pose proof (K _ _ (proj2 Qy) H2) as K2. rewrite <- E1 in K1. rewrite <- E2 in K2.
    set (a := SFmul _ _ _ _) in *. set (b := SFmul _ _ (vy q) _) in *.
    replace (2 * B + 3)%Z with (B + 1 + (B + 1) + 1)%Z by lia. split; [apply bd_add; auto; lia|].
    assert (F : Rabs (rv a + rv b) <= bp (B + 1 + (B + 1) + 1)).
    { rewrite bp_double. destruct M1 as [_ M1], M2 as [_ M2]. eapply Rle_trans; [apply Rabs_triang|lra]. }
    destruct (add_rnd prec emax Hprec Hmax a b (proj1 M1) (proj1 M2)) as [G E]; [eapply rnd_finite; [auto| |exact F]; lia|].
    rewrite E. replace (16 * (bp B * R)) with (2 * (8 * (bp B * R))) by ring. apply rnd_up; [eapply Rle_trans; [apply Rabs_triang|lra]|nra].
  Qed.
  Lemma rdr_ge (r : V2 FS) R : bdv (B + 1) r -> bp epsexp <= R -> R = Rabs (rv (vx r)) \/ R = Rabs (rv (vy r)) ->
    R * R / 4 <= rv (vdot r r).
  Proof.
    intros [Rx Ry] HR HE. unfold Prec_gt_0, scale_ok in *. cbn [vdot vx vy sadd smul FloatS]. pose proof (bpow_gt_0 radix2 epsexp) as Pe.
    destruct (bd_mul (B + 1) (B + 1) _ _ ltac:(lia) Rx Rx) as [M1 E1]. destruct (bd_mul (B + 1) (B + 1) _ _ ltac:(lia) Ry Ry) as [M2 E2].
    set (a := SFmul _ _ (vx r) _) in *. set (b := SFmul _ _ (vy r) _) in *.
    assert (F : Rabs (rv a + rv b) <= bp (B + 1 + (B + 1) + 1)).
    { rewrite bp_double. destruct M1 as [_ M1], M2 as [_ M2]. eapply Rle_trans; [apply Rabs_triang|lra]. }
    destruct (add_rnd prec emax Hprec Hmax a b (proj1 M1) (proj1 M2)) as [G E]; [eapply rnd_finite; [auto| |exact F]; lia|]. rewrite E.
    assert (Sq : bp (emin + prec - 1) <= R * R / 2).
    { apply Rle_trans with (bp (epsexp + epsexp) / 2).
      - replace (bp (epsexp + epsexp) / 2) with (bp (epsexp + epsexp - 1)) by (rewrite <- (Z.sub_add 1 (epsexp + epsexp)) at 2; rewrite bp_double; field). apply bpow_le. lia.
      - rewrite bpow_plus. nra. }
    pose proof (ulp1_small prec Hprec) as U1. pose proof (ulp1_pos prec) as U0.
    assert (Half : forall x, bp (emin + prec - 1) <= x -> x / 2 <= rnd x).
    { intros x Hx. pose proof (bpow_gt_0 radix2 (emin + prec - 1)). destruct (rnd_near prec emax Hprec x) as [N _]; [lra|right; unfold normal; rewrite Rabs_pos_eq; lra|]. nra. }
    assert (P : forall x, 0 <= rnd (x * x)) by (intros x; apply rnd_nonneg; auto; apply Rle_0_sqr).
    assert (Q : R * R / 2 <= rv a + rv b).
    { assert (SqR : bp (emin + prec - 1) <= R * R) by (pose proof (bpow_gt_0 radix2 (emin + prec - 1)); lra).
      pose proof (Half _ SqR) as H2. rewrite E1, E2. pose proof (P (rv (vx r))) as P1. pose proof (P (rv (vy r))) as P2.
      assert (Sqa : forall x, Rabs x * Rabs x = x * x) by (intros x; apply (eq_sym (Rsqr_abs x))).
      destruct HE as [->| ->]; rewrite Sqa in H2 |- *; lra. }
    replace (R * R / 4) with ((R * R / 2) / 2) by field. eapply Rle_trans; [apply Half; exact Sq|]. apply rnd_le; auto.
  Qed.

  Lemma parallel_fin l r it : bdl B l -> bdl B r -> vulps (lstart l) (lend l) = false -> intersection_parallel l r = Some it -> fin_pt (isingle it).
  Proof.
    intros [Ls Le] [Rs Re] HU E.
    assert (PR : exists p r0, (if precedes (lstart l) (lend l) then (lend l, vneg (vsub (lend l) (lstart l))) else (lstart l, vsub (lend l) (lstart l))) = (p, r0) /\
       bdv B p /\ bdv (B + 1) r0 /\ exists R, bp epsexp <= R /\ (R = Rabs (rv (vx r0)) \/ R = Rabs (rv (vy r0))) /\ Rabs (rv (vx r0)) <= R /\ Rabs (rv (vy r0)) <= R).
    { pose proof (vsub_bd _ _ Le Ls) as Hr.
      assert (Len : exists R, bp epsexp <= R /\ (R = Rabs (rv (vx (vsub (lend l) (lstart l)))) \/ R = Rabs (rv (vy (vsub (lend l) (lstart l))))) /\
        Rabs (rv (vx (vsub (lend l) (lstart l)))) <= R /\ Rabs (rv (vy (vsub (lend l) (lstart l)))) <= R).
      { set (x := Rabs (rv (vx (vsub (lend l) (lstart l))))). set (y := Rabs (rv (vy (vsub (lend l) (lstart l))))).
        assert (M : bp epsexp <= x \/ bp epsexp <= y).
        { assert (Sy : forall a b : spec_float, bd B a -> bd B b -> Rabs (rv (SFsub prec emax a b)) = Rabs (rv (SFsub prec emax b a))).
          { intros a b Ha Hb. unfold Prec_gt_0, scale_ok in *. rewrite (proj2 (bd_sub B a b ltac:(lia) Ha Hb)), (proj2 (bd_sub B b a ltac:(lia) Hb Ha)).
            rewrite !rnd_abs by auto. rewrite Rabs_minus_sym. auto. }
          destruct Ls as [Lx Ly], Le as [Ex Ey]. unfold vulps in HU. apply andb_false_iff in HU as [U|U]; [left|right].
          - unfold x. cbn [vsub vx ssub FloatS]. rewrite Sy by auto. apply not_ulps_sub; auto.
          - unfold y. cbn [vsub vy ssub FloatS]. rewrite Sy by auto. apply not_ulps_sub; auto. }
        destruct (Rle_dec x y); [exists y|exists x]; (split; [lra|]); (split; [auto|]); split; lra. }
      destruct (precedes _ _); eexists; eexists; (split; [reflexivity|]); (split; [auto|]).
      - split; [apply vneg_bd; auto|]. destruct Len as (R & L1 & L2 & L3 & L4). exists R. cbn [vneg vx vy sneg FloatS].
        destruct Hr as [[Gx _] [Gy _]]. rewrite (proj2 (opp_good _ Gx)), (proj2 (opp_good _ Gy)), !Rabs_Ropp. auto.
      - split; auto. }
    destruct PR as (p & r0 & EP & Hp & Hr & R & HR & HRm & Hx & Hy).
    assert (QS : exists q s, (if precedes (lstart r) (lend r) then (lend r, vneg (vsub (lend r) (lstart r))) else (lstart r, vsub (lend r) (lstart r))) = (q, s) /\ bdv B q).
    { destruct (precedes (lstart r) (lend r)); eexists; eexists; (split; [reflexivity|]); auto. }
    destruct QS as (q & s & EQ & Hq). unfold intersection_parallel in E. rewrite EP, EQ in E.
    destruct (sulps _ _) in E; [|discriminate].
    set (t0 := sdiv (vdot (vsub q p) r0) (vdot r0 r0)) in *.
    assert (Fin : fin_pt (vadd p (vscale r0 (smax t0 s0)))).
    { pose proof (vsub_bd _ _ Hq Hp) as Hqp. destruct (dot_le _ _ R Hqp Hr HR Hx Hy) as [D1 D2]. destruct (dot_le _ _ R Hr Hr HR Hx Hy) as [D3 _].
      pose proof (rdr_ge r0 R Hr HR HRm) as D4. pose proof (bpow_gt_0 radix2 epsexp) as Pe. pose proof (bpow_gt_0 radix2 B) as PB. unfold Prec_gt_0, scale_ok in *.
      assert (RR : 0 < R * R) by nra.
      assert (Q : Rabs (rv (vdot (vsub q p) r0) / rv (vdot r0 r0)) <= 64 * bp B / R).
      { unfold Rdiv. rewrite Rabs_mult, Rabs_inv, (Rabs_pos_eq (rv (vdot r0 r0))) by lra.
        apply Rle_trans with (16 * (bp B * R) * / (R * R / 4)).
        - apply Rmult_le_compat; auto using Rabs_pos; [apply Rlt_le, Rinv_0_lt_compat; lra|apply Rinv_le; lra].
        - right. field. lra. }
      assert (RB : R <= bp (B + 1)) by (destruct HRm as [->| ->]; apply Hr).
      assert (Q2 : 64 * bp B / R <= bp (B + 6 - epsexp)).
      { replace (B + 6 - epsexp)%Z with (6 + B + - epsexp)%Z by lia. rewrite !bpow_plus, bpow_opp. change (bp 6) with 64. unfold Rdiv. apply Rmult_le_compat_l; [lra|]. apply Rinv_le; lra. }
      assert (Q3 : bp (emin + prec - 1) <= 64 * bp B / R).
      { apply Rle_trans with 1; [change 1 with (bp 0); apply bpow_le; lia|]. rewrite bp_double in RB. apply (Rmult_le_reg_r R); [lra|]. unfold Rdiv. rewrite Rmult_assoc, Rinv_l by lra. lra. }
      destruct (div_rnd prec emax Hprec Hmax _ _ (proj1 D1) (proj1 D3)) as [Gt Et]; [lra|eapply rnd_finite; [auto| |eapply Rle_trans; eauto]; lia|].
      change (good t0) in Gt. change (rv t0 = rnd (rv (vdot (vsub q p) r0) / rv (vdot r0 r0))) in Et.
      pose proof (rnd_up _ _ Q Q3) as Q4. rewrite <- Et in Q4.
      assert (G0 : good (S754_zero false)) by apply good_zero.
      assert (T : good (@smax FS t0 s0) /\ Rabs (rv (@smax FS t0 s0)) <= 128 * bp B / R).
      { assert (0 <= 128 * bp B / R) by (apply Rmult_le_pos; [lra|apply Rlt_le, Rinv_0_lt_compat; lra]).
        destruct (max_t0 t0) as [[-> _]|[Z G]]; [split; auto; unfold Rdiv in *; lra|split; auto; rewrite Z, Rabs_R0; auto]. }
      destruct T as [GT BT].
      assert (W : forall a b, bd B a -> bd (B + 1) b -> Rabs (rv b) <= R -> fl_fin (SFadd prec emax a (SFmul prec emax b (@smax FS t0 s0))) = true).
      { intros a b Ha [Gb _] Hb. assert (P : Rabs (rv b * rv (@smax FS t0 s0)) <= bp (B + 7)).
        { rewrite Rabs_mult. apply Rle_trans with (R * (128 * bp B / R)); [apply Rmult_le_compat; auto using Rabs_pos|].
          replace (B + 7)%Z with (7 + B)%Z by lia. rewrite bpow_plus. change (bp 7) with 128. right. field. lra. }
        destruct (mul_rnd prec emax Hprec Hmax b _ Gb GT) as [Gm Em]; [eapply rnd_finite; [auto| |exact P]; lia|].
        apply good_fin. apply (bd_add (B + 7)); [lia|apply (bd_weak B); auto; lia|]. split; auto. rewrite Em. apply rnd_small; auto. lia. }
      destruct Hp, Hr. split; apply W; auto. }
    destruct (veqb _ _) in E; injection E as <-; exact Fin.
  Qed.

  Lemma point_fin l r it : bdl B l -> bdl B r -> intersection_point l r = Some it -> fin_pt (isingle it).
  Proof.
    intros Hl Hr E. assert (FP : forall p, bdv B p -> fin_pt p) by (intros p [[G1 _] [G2 _]]; split; apply good_fin; auto).
    assert (LP : forall m p i, bdv B p -> intersect_line_point m p = Some i -> fin_pt (isingle i)).
    { intros m p i Hp. unfold intersect_line_point. repeat destruct (_ && _)%bool; repeat destruct (sulps _ _); intros [= <-]; auto. }
    unfold intersection_point in E. destruct (vulps (lstart l) (lend l)) eqn:U; [eapply LP; [|exact E]; apply Hl|].
    destruct (vulps (lstart r) (lend r)); [eapply LP; [|exact E]; apply Hr|].
    destruct (_ || _)%bool in E; [discriminate|]. destruct (sulps _ _) in E; [exact (parallel_fin l r it Hl Hr U E)|exact (cross_fin l r it Hl Hr E)].
  Qed.
  Lemma bounded_fin ls : Forall (bdl B) ls -> Forall fin_line ls.
  Proof. apply Forall_impl. intros l [[[A1 _] [A2 _]] [[A3 _] [A4 _]]]. repeat split; apply good_fin; auto. Qed.
  Lemma no_bad_pair ls : Forall (bdl B) ls -> ~ bad_pair ls.
  Proof. intros F (l & r & it & Hl & Hr & E & N). rewrite Forall_forall in F. apply N. exact (point_fin l r it (F l Hl) (F r Hr) E). Qed.
  Lemma arrange_bd l : bdl B l -> bdl B (arrange l).
  Proof. intros [H1 H2]. unfold arrange. destruct (key_lt _ _); split; auto. Qed.
End Bound.
