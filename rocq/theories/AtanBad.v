(* An atan2 that is accurate to one unit in the last place of 1 but gives different results for two equal angles. *)
From Coq Require Import ZArith Reals Lra Lia Psatz Floats.SpecFloat.
From Flocq Require Import Core BinarySingleNaN.
From Verif Require Import Prelude Scalar RInst Flt FloatSpec FloatLink FloatGrid FloatRound FloatAffine AtanSpec AtanSep.
Local Open Scope R_scope.

Definition quarter : R := atan (1 / 4).
Lemma quarter_bounds : 1 / 5 < quarter <= 1 / 2.
Proof.
  assert (T : tan quarter = 1 / 4) by apply tan_atan. assert (P0 : 0 < quarter) by (unfold quarter; rewrite <- atan_0; apply atan_increasing; lra).
  assert (P1 : quarter < PI / 4) by (unfold quarter; rewrite <- atan_1; apply atan_increasing; lra).
  set (a := quarter) in *. clearbody a. assert (C0 : 0 < cos a) by (apply cos_gt_0; pose proof PI_RGT_0; lra).
  assert (E : sin a = cos a / 4). { unfold tan in T. apply (Rmult_eq_compat_r (cos a)) in T. unfold Rdiv in T at 1. rewrite Rmult_assoc, Rinv_l in T by lra. lra. }
  assert (Q := sin2_cos2 a). unfold Rsqr in Q. rewrite E in Q. assert (C2 : cos a * cos a = 16 / 17) by lra.
  split.
  - assert (L := sin_lt_x a P0). rewrite E in L. assert (4 / 5 < cos a) by nra. lra.
  - destruct (Rle_or_lt a (PI / 8)) as [K|K]; [pose proof PI_4; lra|exfalso].
    assert (S2 : sin (2 * a) = 8 / 17) by (rewrite sin_2a, E; lra).
    assert (I : sin (PI / 4) < sin (2 * a)). { apply sin_increasing_1; pose proof PI_RGT_0; lra. }
    rewrite S2, sin_PI4 in I. assert (Hs := sqrt_sqrt 2 ltac:(lra)). assert (Hp := sqrt_lt_R0 2 ltac:(lra)).
    apply (Rmult_lt_compat_r (sqrt 2)) in I; auto. unfold Rdiv in I at 1. rewrite Rmult_assoc, Rinv_l in I by lra. nra.
Qed.

Section Bad.
  Notation prec := 53%Z. Notation emax := 1024%Z.
  Notation fexp := (SpecFloat.fexp prec emax).
  Notation rnd := (round radix2 fexp ZnearestE).
  Let Hprec : Prec_gt_0 prec := eq_refl.
  Let Hmax : Prec_lt_emax prec emax := eq_refl.
  Definition delta : R := 3 * bpow radix2 (-54).
  (* correctly rounded everywhere except at y = 2, x = 8 *)
  Definition bad_atan2 (y x : spec_float) : spec_float :=
    if (SFeqb y (fl_of_Z prec emax 2) && SFeqb x (fl_of_Z prec emax 8))%bool then round_float prec emax (quarter - delta) else rounded_atan2 prec emax y x.
  Lemma delta_bounds : 2 * bpow radix2 (-54) < delta < 1 / 1000 /\ delta + bpow radix2 (-54) = bpow radix2 (-52).
  Proof. unfold delta. cbn. lra. Qed.
  Lemma near t : Rabs t <= 1 / 2 -> Rabs (rnd t - t) <= bpow radix2 (-54).
  Proof.
    intros H. replace (bpow radix2 (-54)) with (bpow radix2 (- prec) * (1 / 2)) by (cbn; lra). apply (round_err prec emax Hprec); auto.
    replace (1 / 2) with (bpow radix2 (-1)) by (cbn; lra). apply bpow_le. unfold SpecFloat.emin. lia.
  Qed.
  Lemma small t : Rabs t <= 1 / 2 -> Rabs (rnd t) < bpow radix2 emax.
  Proof.
    intros H. apply Rle_lt_trans with 1; [|change 1 with (bpow radix2 0); apply bpow_lt; lia]. assert (K := near t H).
    replace (rnd t) with (t + (rnd t - t)) by ring. eapply Rle_trans; [apply Rabs_triang|]. assert (bpow radix2 (-54) <= 1 / 2) by (cbn; lra). apply Rle_trans with (1 / 2 + bpow radix2 (-54)); [apply Rplus_le_compat; auto|]. clear - H0. lra.
  Qed.
  Lemma shifted_range : Rabs (quarter - delta) <= 1 / 2.
  Proof. pose proof quarter_bounds. pose proof delta_bounds. pose proof (bpow_gt_0 radix2 (-54)). apply Rabs_le. lra. Qed.
  Lemma bad_at : finite_float prec emax (bad_atan2 (fl_of_Z prec emax 2) (fl_of_Z prec emax 8)) /\
    fvalue (bad_atan2 (fl_of_Z prec emax 2) (fl_of_Z prec emax 8)) = rnd (quarter - delta).
  Proof. unfold bad_atan2. replace (SFeqb _ _ && _)%bool with true by reflexivity. apply (round_float_ok prec emax Hprec Hmax), small, shifted_range. Qed.
  Lemma bad_accurate : forall y x, at2_arg prec emax y x ->
    finite_float prec emax (bad_atan2 y x) /\ Rabs (fvalue (bad_atan2 y x) - Ratan2 (fvalue y) (fvalue x)) <= bpow radix2 (-52).
  Proof.
    intros y x A. destruct (rounded_accurate prec emax Hprec Hmax ltac:(lia) y x A) as (G & E & _). unfold bad_atan2.
    destruct (SFeqb y (fl_of_Z prec emax 2) && SFeqb x (fl_of_Z prec emax 8))%bool eqn:Q; [clear G E|split; auto].
    apply andb_true_iff in Q. destruct Q as [Qy Qx]. destruct A as (Gy & Gx & _).
    assert (S0 : scale_ok prec emax 0) by (split; cbn; lia).
    destruct (fl_of_Z_good prec emax Hprec Hmax 2 ltac:(lia) S0) as [H2 V2]. destruct (fl_of_Z_good prec emax Hprec Hmax 8 ltac:(lia) S0) as [H8 V8].
    rewrite (eqb_R prec emax bad_atan2) in Qy by auto. rewrite (eqb_R prec emax bad_atan2) in Qx by auto.
    destruct (Reqb_spec (fvalue y) (fvalue (fl_of_Z prec emax 2))) as [Ey|]; [|discriminate].
    destruct (Reqb_spec (fvalue x) (fvalue (fl_of_Z prec emax 8))) as [Ex|]; [|discriminate].
    rewrite V2 in Ey. rewrite V8 in Ex. rewrite Ey, Ex.
    assert (T : Ratan2 2 8 = quarter). { unfold Ratan2. destruct (Rlt_dec 0 8); [|lra]. unfold quarter. f_equal. lra. }
    rewrite T. destruct (round_float_ok prec emax Hprec Hmax _ (small _ shifted_range)) as [G E]. split; auto. rewrite E.
    assert (K := near _ shifted_range). replace (rnd (quarter - delta) - quarter) with ((rnd (quarter - delta) - (quarter - delta)) - delta) by ring.
    destruct delta_bounds as [[D1 D2] D3]. rewrite <- D3. eapply Rle_trans; [apply Rabs_triang|]. rewrite Rabs_Ropp, (Rabs_right delta); [lra|]. pose proof (bpow_gt_0 radix2 (-54)). lra.
  Qed.
  (* the two equal angles (1, 4) and (2, 8) come out in the wrong order, and the other keys are as expected *)
  Lemma bad_order : let at_ y x := fvalue (bad_atan2 (fl_of_Z prec emax y) (fl_of_Z prec emax x)) in
    at_ 0%Z 0%Z < at_ 2%Z 8%Z < at_ 1%Z 4%Z /\ at_ 1%Z 4%Z < at_ 1%Z 0%Z /\
    forall y x, In (y, x) [(0, 0); (2, 8); (1, 4); (1, 0)]%Z -> finite_float prec emax (bad_atan2 (fl_of_Z prec emax y) (fl_of_Z prec emax x)).
  Proof.
    cbv zeta. assert (S0 : scale_ok prec emax 0) by (split; cbn; lia).
    assert (A : forall y x, (0 <= x <= 100)%Z -> (Z.abs y <= 100)%Z -> at2_arg prec emax (fl_of_Z prec emax y) (fl_of_Z prec emax x)).
    { intros y x Hx Hy. destruct (fl_of_Z_good prec emax Hprec Hmax y ltac:(lia) S0) as [Gy Vy]. destruct (fl_of_Z_good prec emax Hprec Hmax x ltac:(lia) S0) as [Gx Vx].
      split; auto. split; auto. rewrite Vx. split; [apply IZR_le; lia|]. intros E. destruct x as [|q|q]; [discriminate E| |lia]. rewrite E in Vx. change (fvalue (S754_zero true)) with 0 in Vx. apply eq_IZR in Vx. discriminate Vx. }
    assert (V : forall z, (0 <= z <= 100)%Z -> fvalue (fl_of_Z prec emax z) = IZR z) by (intros z Hz; apply (fl_of_Z_good prec emax Hprec Hmax z ltac:(lia) S0)).
    assert (F : forall y x, (0 <= x <= 100)%Z -> (Z.abs y <= 100)%Z -> finite_float prec emax (bad_atan2 (fl_of_Z prec emax y) (fl_of_Z prec emax x))) by (intros y x Hx Hy; apply bad_accurate, A; auto).
    split; [|split; [|intros y x [E|[E|[E|[E|[]]]]]; injection E as <- <-; apply F; lia]].
    - rewrite (proj2 bad_at). assert (K := near _ shifted_range). assert (Q := quarter_bounds). destruct delta_bounds as [[D1 D2] D3]. assert (P := bpow_gt_0 radix2 (-54)).
      apply Raux.Rabs_le_inv in K. split.
      + destruct (bad_accurate _ _ (A 0 0 ltac:(lia) ltac:(lia))%Z) as [_ B]. rewrite !V in B by lia. replace (Ratan2 0 0) with 0 in B by (unfold Ratan2; repeat (destruct (Rlt_dec _ _); try lra)).
        apply Raux.Rabs_le_inv in B. lra.
      + assert (E14 : fvalue (bad_atan2 (fl_of_Z prec emax 1) (fl_of_Z prec emax 4)) = rnd quarter).
        { change (bad_atan2 (fl_of_Z prec emax 1) (fl_of_Z prec emax 4)) with (round_float prec emax (Ratan2 (fvalue (fl_of_Z prec emax 1)) (fvalue (fl_of_Z prec emax 4)))).
          rewrite !V by lia. replace (Ratan2 1 4) with quarter by (unfold Ratan2; destruct (Rlt_dec 0 4); [reflexivity|lra]).
          apply (round_float_ok prec emax Hprec Hmax), small. apply Rabs_le. lra. }
        rewrite E14. assert (K' : Rabs (rnd quarter - quarter) <= bpow radix2 (-54)) by (apply near, Rabs_le; lra). apply Raux.Rabs_le_inv in K'. lra.
    - destruct (bad_accurate _ _ (A 1 4 ltac:(lia) ltac:(lia))%Z) as [_ B]. destruct (bad_accurate _ _ (A 1 0 ltac:(lia) ltac:(lia))%Z) as [_ C]. rewrite !V in B, C by lia.
      replace (Ratan2 1 4) with quarter in B by (unfold Ratan2; destruct (Rlt_dec 0 4); [reflexivity|lra]).
      replace (Ratan2 1 0) with (PI / 2) in C by (unfold Ratan2; repeat (destruct (Rlt_dec _ _); try lra)).
      apply Raux.Rabs_le_inv in B, C. assert (Q := quarter_bounds). assert (P := PI2_3_2). assert (bpow radix2 (-52) < 1 / 1000) by (cbn; lra). lra.
  Qed.
End Bad.
