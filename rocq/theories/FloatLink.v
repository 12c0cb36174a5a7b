(* The SpecFloat operations behind the float instances, related to real numbers through Flocq: exact on small
   multiples of a power of two, and monotone. *)
From Coq Require Import ZArith Reals Lra Lia Psatz Floats.SpecFloat.
From Flocq Require Import Core BinarySingleNaN.
From Verif Require Import FloatSpec.
Local Open Scope R_scope.

Section Link.
  Context (prec emax : Z) (Hprec : Prec_gt_0 prec) (Hmax : Prec_lt_emax prec emax).
  Notation B := (binary_float prec emax).
  Notation fexp := (SpecFloat.fexp prec emax).
  Notation rnd := (round radix2 fexp ZnearestE).

  Lemma round_nearest_even_eq s m l : round_nearest_even m l = choice_mode mode_NE s m l.
  Proof. destruct l as [|c]; [reflexivity|]. destruct c; [|reflexivity..]. cbn. unfold Round.cond_incr. destruct (Z.even m); auto. Qed.
  Lemma binary_round_aux_eq sx mx ex lx :
    SpecFloat.binary_round_aux prec emax sx mx ex lx = BinarySingleNaN.binary_round_aux prec emax mode_NE sx mx ex lx.
  Proof.
    unfold SpecFloat.binary_round_aux, BinarySingleNaN.binary_round_aux. destruct (SpecFloat.shr_fexp _ _ _ _ _) as [mrs' e']. cbn.
    rewrite (round_nearest_even_eq sx). reflexivity.
  Qed.
  Lemma binary_round_eq s m e : SpecFloat.binary_round prec emax s m e = BinarySingleNaN.binary_round prec emax mode_NE s m e.
  Proof.
    unfold SpecFloat.binary_round, BinarySingleNaN.binary_round, shl_align_fexp. destruct (shl_align _ _ _) as [mz ez]. apply binary_round_aux_eq.
  Qed.
  Lemma binary_normalize_eq m e szero :
    SpecFloat.binary_normalize prec emax m e szero = B2SF (BinarySingleNaN.binary_normalize prec emax Hprec Hmax mode_NE m e szero).
  Proof. destruct m as [|p|p]; [reflexivity| |]; cbn; rewrite B2SF_SF2B; apply binary_round_eq. Qed.

  Lemma SFadd_B (x y : B) : SFadd prec emax (B2SF x) (B2SF y) = B2SF (Bplus mode_NE x y).
  Proof.
    destruct x as [sx|sx| |sx mx ex Bx], y as [sy|sy| |sy my ey By]; try reflexivity; try (cbn; destruct (Bool.eqb sx sy); reflexivity).
    apply binary_normalize_eq.
  Qed.
  Lemma SFsub_B (x y : B) : SFsub prec emax (B2SF x) (B2SF y) = B2SF (Bminus mode_NE x y).
  Proof.
    destruct x as [sx|sx| |sx mx ex Bx], y as [sy|sy| |sy my ey By]; try reflexivity; try (cbn; destruct (Bool.eqb sx (negb sy)); reflexivity).
    cbn. unfold Zminus. rewrite <- cond_Zopp_negb. apply binary_normalize_eq.
  Qed.
  Lemma SFmul_B (x y : B) : SFmul prec emax (B2SF x) (B2SF y) = B2SF (Bmult mode_NE x y).
  Proof.
    destruct x as [sx|sx| |sx mx ex Bx], y as [sy|sy| |sy my ey By]; try reflexivity.
    cbn. rewrite B2SF_SF2B. apply binary_round_aux_eq.
  Qed.

  (* ---- floats with a value ---- *)
  Notation good := (finite_float prec emax).
  Notation rv := fvalue.
  Lemma good_B x : good x -> exists b : B, x = B2SF b /\ is_finite b = true /\ B2R b = rv x.
  Proof.
    intros [H1 H2]. exists (SF2B x H1). rewrite B2SF_SF2B. split; auto. rewrite is_finite_SF2B. split; auto.
    apply B2R_SF2B.
  Qed.
  Lemma B_good (b : B) : is_finite b = true -> good (B2SF b) /\ rv (B2SF b) = B2R b.
  Proof. intros H. split; [split; [apply valid_binary_B2SF|rewrite is_finite_SF_B2SF; auto]|]. unfold fvalue. apply SF2R_B2SF. Qed.

  Definition fits (r : R) : Prop := generic_format radix2 fexp r /\ Rabs r < bpow radix2 emax.
  Lemma fits_round r : fits r -> rnd r = r.
  Proof. intros [H _]. apply round_generic; auto. apply valid_rnd_N. Qed.

  Lemma sub_fits x y : good x -> good y -> fits (rv x - rv y) -> good (SFsub prec emax x y) /\ rv (SFsub prec emax x y) = rv x - rv y.
  Proof.
    intros Hx Hy F. destruct (good_B x Hx) as (bx & -> & Fx & Ex), (good_B y Hy) as (by_ & -> & Fy & Ey).
    rewrite SFsub_B. rewrite <- Ex, <- Ey in F |- *. pose proof (Bminus_correct prec emax Hprec Hmax mode_NE bx by_ Fx Fy) as C.
    change (round_mode mode_NE) with ZnearestE in C. rewrite (fits_round _ F), Rlt_bool_true in C by apply F. destruct C as (C1 & C2 & _).
    destruct (B_good _ C2) as [G1 G2]. split; auto. congruence.
  Qed.
  Lemma add_fits x y : good x -> good y -> fits (rv x + rv y) -> good (SFadd prec emax x y) /\ rv (SFadd prec emax x y) = rv x + rv y.
  Proof.
    intros Hx Hy F. destruct (good_B x Hx) as (bx & -> & Fx & Ex), (good_B y Hy) as (by_ & -> & Fy & Ey).
    rewrite SFadd_B. rewrite <- Ex, <- Ey in F |- *. pose proof (Bplus_correct prec emax Hprec Hmax mode_NE bx by_ Fx Fy) as C.
    change (round_mode mode_NE) with ZnearestE in C. rewrite (fits_round _ F), Rlt_bool_true in C by apply F. destruct C as (C1 & C2 & _).
    destruct (B_good _ C2) as [G1 G2]. split; auto. congruence.
  Qed.
  Lemma mul_fits x y : good x -> good y -> fits (rv x * rv y) -> good (SFmul prec emax x y) /\ rv (SFmul prec emax x y) = rv x * rv y.
  Proof.
    intros Hx Hy F. destruct (good_B x Hx) as (bx & -> & Fx & Ex), (good_B y Hy) as (by_ & -> & Fy & Ey).
    rewrite SFmul_B. rewrite <- Ex, <- Ey in F |- *. pose proof (Bmult_correct prec emax Hprec Hmax mode_NE bx by_) as C.
    change (round_mode mode_NE) with ZnearestE in C. rewrite (fits_round _ F), Rlt_bool_true in C by apply F. destruct C as (C1 & C2 & _).
    rewrite Fx, Fy in C2. destruct (B_good _ C2) as [G1 G2]. split; auto. congruence.
  Qed.

  Lemma ltb_rv x y : good x -> good y -> (SFltb x y = true <-> rv x < rv y).
  Proof.
    intros Hx Hy. destruct (good_B x Hx) as (bx & -> & Fx & Ex), (good_B y Hy) as (by_ & -> & Fy & Ey).
    pose proof (Bltb_correct prec emax bx by_ Fx Fy) as C. unfold Bltb in C. rewrite C, <- Ex, <- Ey.
    destruct (Rlt_bool_spec (B2R bx) (B2R by_)); split; auto; try discriminate; lra.
  Qed.
  Lemma leb_rv x y : good x -> good y -> (SFleb x y = true <-> rv x <= rv y).
  Proof.
    intros Hx Hy. destruct (good_B x Hx) as (bx & -> & Fx & Ex), (good_B y Hy) as (by_ & -> & Fy & Ey).
    pose proof (Bleb_correct prec emax bx by_ Fx Fy) as C. unfold Bleb in C. rewrite C, <- Ex, <- Ey.
    destruct (Rle_bool_spec (B2R bx) (B2R by_)); split; auto; try discriminate; lra.
  Qed.
  Lemma eqb_rv x y : good x -> good y -> (SFeqb x y = true <-> rv x = rv y).
  Proof.
    intros Hx Hy. destruct (good_B x Hx) as (bx & -> & Fx & Ex), (good_B y Hy) as (by_ & -> & Fy & Ey).
    pose proof (Beqb_correct prec emax bx by_ Fx Fy) as C. unfold Beqb in C. rewrite C, <- Ex, <- Ey.
    destruct (Req_bool_spec (B2R bx) (B2R by_)); split; auto; try discriminate; lra.
  Qed.

  (* ---- multiples of a power of two ---- *)
  Lemma grid_fits z e : (Z.abs z <= 2 ^ prec)%Z -> (SpecFloat.emin prec emax <= e)%Z -> (prec + e < emax)%Z -> fits (IZR z * bpow radix2 e).
  Proof.
    intros Hz He1 He2. split.
    - destruct (Z.eq_dec (Z.abs z) (2 ^ prec)) as [Ez|Nz].
      + assert (Hb : generic_format radix2 fexp (bpow radix2 (prec + e))).
        { apply generic_format_bpow. unfold SpecFloat.fexp. unfold SpecFloat.emin in *. unfold Prec_gt_0 in Hprec. lia. }
        assert (Ep : bpow radix2 (prec + e) = IZR (2 ^ prec) * bpow radix2 e).
        { rewrite bpow_plus. f_equal. rewrite <- (IZR_Zpower radix2) by (unfold Prec_gt_0 in Hprec; lia). reflexivity. }
        destruct (Z.abs_eq_or_opp z) as [E|E].
        * assert (z = (2 ^ prec)%Z) by lia. subst z. rewrite <- Ep. auto.
        * assert (z = (- 2 ^ prec)%Z) by lia. subst z. rewrite opp_IZR, Ropp_mult_distr_l_reverse, <- Ep. apply generic_format_opp. auto.
      + apply (generic_format_FLT radix2 (SpecFloat.emin prec emax) prec). exists (Float radix2 z e); cbn; auto.
        change (Zpower radix2 prec) with (2 ^ prec)%Z. lia.
    - rewrite Rabs_mult, (Rabs_pos_eq (bpow radix2 e)) by apply bpow_ge_0. rewrite <- abs_IZR.
      apply Rle_lt_trans with (IZR (2 ^ prec) * bpow radix2 e).
      + apply Rmult_le_compat_r; [apply bpow_ge_0|]. apply IZR_le. auto.
      + change (2 ^ prec)%Z with (Zpower radix2 prec). rewrite IZR_Zpower by (unfold Prec_gt_0 in Hprec; lia). rewrite <- bpow_plus. apply bpow_lt. lia.
  Qed.
End Link.
