(* The SpecFloat operations as correctly rounded real operations, and relative error bounds. *)
From Coq Require Import ZArith Reals Lra Lia Psatz Floats.SpecFloat.
From Flocq Require Import Core BinarySingleNaN Relative.
From Verif Require Import FloatSpec FloatLink.
Local Open Scope R_scope.

Section Rnd.
  Context (prec emax : Z) (Hprec : Prec_gt_0 prec) (Hmax : Prec_lt_emax prec emax).
  Notation B := (binary_float prec emax).
  Notation fexp := (SpecFloat.fexp prec emax).
  Notation emin := (SpecFloat.emin prec emax).
  Notation rnd := (round radix2 fexp ZnearestE).
  Notation good := (finite_float prec emax).
  Notation rv := fvalue.

  Lemma SFdiv_B (x y : B) : SFdiv prec emax (B2SF x) (B2SF y) = B2SF (Bdiv mode_NE x y).
  Proof.
    destruct x as [sx|sx| |sx mx ex Bx], y as [sy|sy| |sy my ey By]; try reflexivity.
    cbn [B2SF Bdiv SFdiv]. rewrite B2SF_SF2B. destruct (SFdiv_core_binary prec emax (Z.pos mx) ex (Z.pos my) ey) as [[mz ez] lz]. apply binary_round_aux_eq.
  Qed.

  Lemma sub_rnd x y : good x -> good y -> Rabs (rnd (rv x - rv y)) < bpow radix2 emax ->
    good (SFsub prec emax x y) /\ rv (SFsub prec emax x y) = rnd (rv x - rv y).
  Proof.
    intros Hx Hy F. destruct (good_B _ _ x Hx) as (bx & -> & Fx & Ex), (good_B _ _ y Hy) as (by_ & -> & Fy & Ey).
    rewrite (SFsub_B _ _ Hprec Hmax). rewrite <- Ex, <- Ey in F |- *. pose proof (Bminus_correct prec emax Hprec Hmax mode_NE bx by_ Fx Fy) as C.
    change (round_mode mode_NE) with ZnearestE in C. rewrite Rlt_bool_true in C by apply F. destruct C as (C1 & C2 & _).
    destruct (B_good _ _ _ C2) as [G1 G2]. split; auto. congruence.
  Qed.
  Lemma add_rnd x y : good x -> good y -> Rabs (rnd (rv x + rv y)) < bpow radix2 emax ->
    good (SFadd prec emax x y) /\ rv (SFadd prec emax x y) = rnd (rv x + rv y).
  Proof.
    intros Hx Hy F. destruct (good_B _ _ x Hx) as (bx & -> & Fx & Ex), (good_B _ _ y Hy) as (by_ & -> & Fy & Ey).
    rewrite (SFadd_B _ _ Hprec Hmax). rewrite <- Ex, <- Ey in F |- *. pose proof (Bplus_correct prec emax Hprec Hmax mode_NE bx by_ Fx Fy) as C.
    change (round_mode mode_NE) with ZnearestE in C. rewrite Rlt_bool_true in C by apply F. destruct C as (C1 & C2 & _).
    destruct (B_good _ _ _ C2) as [G1 G2]. split; auto. congruence.
  Qed.
  Lemma mul_rnd x y : good x -> good y -> Rabs (rnd (rv x * rv y)) < bpow radix2 emax ->
    good (SFmul prec emax x y) /\ rv (SFmul prec emax x y) = rnd (rv x * rv y).
  Proof.
    intros Hx Hy F. destruct (good_B _ _ x Hx) as (bx & -> & Fx & Ex), (good_B _ _ y Hy) as (by_ & -> & Fy & Ey).
    rewrite (SFmul_B _ _ Hprec Hmax). rewrite <- Ex, <- Ey in F |- *. pose proof (Bmult_correct prec emax Hprec Hmax mode_NE bx by_) as C.
    change (round_mode mode_NE) with ZnearestE in C. rewrite Rlt_bool_true in C by apply F. destruct C as (C1 & C2 & _).
    rewrite Fx, Fy in C2. destruct (B_good _ _ _ C2) as [G1 G2]. split; auto. congruence.
  Qed.
  Lemma div_rnd x y : good x -> good y -> rv y <> 0 -> Rabs (rnd (rv x / rv y)) < bpow radix2 emax ->
    good (SFdiv prec emax x y) /\ rv (SFdiv prec emax x y) = rnd (rv x / rv y).
  Proof.
    intros Hx Hy Ny F. destruct (good_B _ _ x Hx) as (bx & -> & Fx & Ex), (good_B _ _ y Hy) as (by_ & -> & Fy & Ey).
    rewrite SFdiv_B. rewrite <- Ex, <- Ey in F |- *. rewrite <- Ey in Ny. pose proof (Bdiv_correct prec emax Hprec Hmax mode_NE bx by_ Ny) as C.
    change (round_mode mode_NE) with ZnearestE in C. rewrite Rlt_bool_true in C by apply F. destruct C as (C1 & C2 & _).
    rewrite Fx in C2. destruct (B_good _ _ _ C2) as [G1 G2]. split; auto. congruence.
  Qed.

  (* ---- rounding ---- *)
  Definition ulp1 : R := bpow radix2 (- prec).   (* half the spacing of the floats above 1 *)
  Lemma ulp1_pos : 0 < ulp1.
  Proof. apply bpow_gt_0. Qed.
  Lemma ulp1_small : ulp1 <= 1 / 2.
  Proof. unfold ulp1. apply Rle_trans with (bpow radix2 (-1)); [apply bpow_le; unfold Prec_gt_0 in Hprec; lia|]. cbn. lra. Qed.
  Lemma rnd_le x y : x <= y -> rnd x <= rnd y.
  Proof. intros H. apply round_le; auto; [apply fexp_correct; auto|apply valid_rnd_N]. Qed.
  Lemma rnd_0 : rnd 0 = 0.
  Proof. apply round_0. apply valid_rnd_N. Qed.
  Lemma rnd_nonneg x : 0 <= x -> 0 <= rnd x.
  Proof. intros H. rewrite <- rnd_0. apply rnd_le; auto. Qed.
  Lemma rnd_opp x : rnd (- x) = - rnd x.
  Proof. apply round_NE_opp. Qed.
  Lemma rnd_abs x : Rabs (rnd x) = rnd (Rabs x).
  Proof. symmetry. apply round_NE_abs. apply fexp_correct; auto. Qed.
  Definition normal (x : R) : Prop := bpow radix2 (emin + prec - 1) <= Rabs x.
  Lemma rnd_rel x : x = 0 \/ normal x -> Rabs (rnd x - x) <= ulp1 * Rabs x.
  Proof.
    intros [->|H]; [rewrite rnd_0, Rminus_0_r, Rabs_R0; lra|].
    eapply Rle_trans; [apply (relative_error_N_FLT radix2 emin prec); auto|]. right. f_equal. unfold ulp1.
    replace (/ 2) with (bpow radix2 (-1)) by (cbn; lra). rewrite <- bpow_plus. f_equal. lia.
  Qed.
  Lemma rnd_near x : 0 <= x -> x = 0 \/ normal x -> (1 - ulp1) * x <= rnd x <= (1 + ulp1) * x.
  Proof.
    intros Hx H. apply rnd_rel in H. rewrite (Rabs_pos_eq x) in H by auto. apply Rabs_le_inv in H. lra.
  Qed.
  Lemma rnd_small x e : (emin <= e <= emax - 1)%Z -> Rabs x <= bpow radix2 e -> Rabs (rnd x) <= bpow radix2 e.
  Proof.
    intros He H. rewrite rnd_abs. replace (bpow radix2 e) with (rnd (bpow radix2 e)); [apply rnd_le; auto|].
    apply round_generic; [apply valid_rnd_N|]. apply generic_format_bpow. unfold SpecFloat.fexp, SpecFloat.emin in *. unfold Prec_gt_0, Prec_lt_emax in *. lia.
  Qed.
  Lemma rnd_finite x e : (emin <= e <= emax - 1)%Z -> Rabs x <= bpow radix2 e -> Rabs (rnd x) < bpow radix2 emax.
  Proof. intros He H. eapply Rle_lt_trans; [apply (rnd_small x e); auto|]. apply bpow_lt. lia. Qed.
End Rnd.
