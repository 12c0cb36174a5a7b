(* SimpleAffine in floats (src/linestring_2d.rs:1464-1576): distance of the computed transform from the exact one, and of a
   round trip from its start. *)
From Coq Require Import ZArith Reals Lra Lia Psatz Floats.SpecFloat.
From Flocq Require Import Core BinarySingleNaN Relative.
From Verif Require Import Prelude Scalar RInst Flt FloatSpec FloatLink FloatRound FloatGrid Geo2 BoxSpec BoxProofs FloatBox.
Local Open Scope R_scope.

(* ---- error propagation, in real numbers ---- *)
Lemma abs_le_add x y a b : Rabs x <= a -> Rabs y <= b -> Rabs (x + y) <= a + b.
Proof. intros. eapply Rle_trans; [apply Rabs_triang|lra]. Qed.
Lemma abs_le_sub x y a b : Rabs x <= a -> Rabs y <= b -> Rabs (x - y) <= a + b.
Proof. intros. unfold Rminus. apply abs_le_add; auto. rewrite Rabs_Ropp. auto. Qed.
Lemma abs_from x y a b : Rabs x <= a -> Rabs (y - x) <= b -> Rabs y <= a + b.
Proof. intros. replace y with (x + (y - x)) by ring. apply abs_le_add; auto. Qed.
Lemma err_trans x y z a b : Rabs (x - y) <= a -> Rabs (y - z) <= b -> Rabs (x - z) <= a + b.
Proof. intros. replace (x - z) with ((x - y) + (y - z)) by ring. apply abs_le_add; auto. Qed.
Lemma abs_le_mul x y a b : Rabs x <= a -> Rabs y <= b -> Rabs (x * y) <= a * b.
Proof. intros. rewrite Rabs_mult. apply Rmult_le_compat; auto; apply Rabs_pos. Qed.
Lemma err_mul x x' y y' ax ey ex by_ : Rabs x' <= ax -> Rabs (y' - y) <= ey -> Rabs (x' - x) <= ex -> Rabs y <= by_ ->
  Rabs (x' * y' - x * y) <= ax * ey + ex * by_.
Proof. intros. replace (x' * y' - x * y) with (x' * (y' - y) + (x' - x) * y) by ring. apply abs_le_add; apply abs_le_mul; auto. Qed.

Section Err.
  Context (rnd : R -> R) (u eta : R) (Hu : 0 < u <= / 64) (Heta : 0 < eta <= / 8).
  Context (rerr : forall x M, Rabs x <= M -> eta <= M -> Rabs (rnd x - x) <= u * M).
  Context (A B : R) (HA : 1 <= A) (HB : 1 <= B).
  Lemma u_times X : 0 <= X -> (0 <= u * X <= X / 64) /\ (0 <= u * (u * X) <= u * X / 64).
  Proof.
    assert (K : forall Y, 0 <= Y -> 0 <= u * Y <= Y / 64).
    { intros Y HY. split; [apply Rmult_le_pos; lra|]. unfold Rdiv. rewrite Rmult_comm. apply Rmult_le_compat_l; lra. }
    intros HX. split; [apply K; auto|apply K, K; auto].
  Qed.

  (* the scale: both sizes are rounded, and so is their quotient *)
  Lemma scale_err D S : 1 <= D -> 1 <= S -> eta <= D / S / 4 ->
    Rabs (rnd D - D) <= u * D /\ Rabs (rnd S - S) <= u * S /\ Rabs (rnd (rnd D / rnd S) - D / S) <= 4 * u * (D / S) /\ Rabs (rnd D / rnd S) <= 2 * (D / S).
  Proof.
    intros HD HS Hs. assert (ED : Rabs (rnd D - D) <= u * D) by (apply rerr; [rewrite Rabs_pos_eq|]; lra).
    assert (ES : Rabs (rnd S - S) <= u * S) by (apply rerr; [rewrite Rabs_pos_eq|]; lra).
    split; auto. split; auto. apply Rabs_le_inv in ED, ES. set (d := rnd D) in *. set (s := rnd S) in *. clearbody d s.
    assert (Ps : 0 < s) by nra. set (q := D / S) in *. assert (EqD : D = q * S) by (unfold q; field; lra). assert (Pq : 0 < q) by lra. clearbody q. subst D.
    assert (L1 : (1 - u) * q * s <= (1 + u) * d).
    { apply Rle_trans with ((1 - u) * q * ((1 + u) * S)); [apply Rmult_le_compat_l; [apply Rmult_le_pos; lra|lra]|].
      replace ((1 - u) * q * ((1 + u) * S)) with ((1 + u) * (q * S - u * (q * S))) by ring. apply Rmult_le_compat_l; lra. }
    assert (L2 : (1 - u) * d <= (1 + u) * q * s).
    { apply Rle_trans with ((1 - u) * (q * S + u * (q * S))); [apply Rmult_le_compat_l; lra|].
      replace ((1 - u) * (q * S + u * (q * S))) with ((1 + u) * q * (S - u * S)) by ring. apply Rmult_le_compat_l; [apply Rmult_le_pos; lra|lra]. }
    assert (U1 : d / s <= q * (1 + 5 / 2 * u)).
    { apply Rmult_le_reg_r with s; auto. replace (d / s * s) with d by (field; lra).
      apply Rmult_le_reg_l with (1 - u); [lra|]. eapply Rle_trans; [exact L2|].
      assert (0 <= q * s) by nra. replace ((1 - u) * (q * (1 + 5 / 2 * u) * s)) with ((1 - u) * (1 + 5 / 2 * u) * (q * s)) by ring. replace ((1 + u) * q * s) with ((1 + u) * (q * s)) by ring. apply Rmult_le_compat_r; nra. }
    assert (U2 : q * (1 - 5 / 2 * u) <= d / s).
    { apply Rmult_le_reg_r with s; auto. replace (d / s * s) with d by (field; lra).
      apply Rmult_le_reg_l with (1 + u); [lra|]. eapply Rle_trans; [|exact L1].
      assert (0 <= q * s) by nra. replace ((1 + u) * (q * (1 - 5 / 2 * u) * s)) with ((1 + u) * (1 - 5 / 2 * u) * (q * s)) by ring. replace ((1 - u) * q * s) with ((1 - u) * (q * s)) by ring. apply Rmult_le_compat_r; nra. }
    assert (Ab : Rabs (d / s) <= q * (1 + 5 / 2 * u)) by (rewrite Rabs_pos_eq; [auto|nra]).
    split; [|nra]. apply Rle_trans with (u * (q * (1 + 5 / 2 * u)) + 5 / 2 * u * q); [|nra].
    apply err_trans with (d / s); [apply rerr; [exact Ab|nra]|apply Rabs_le; nra].
  Qed.

  Context (sg sf : R) (Hsg : 0 < sg) (Hsf : Rabs (sf - sg) <= 4 * u * sg) (HsA : / 2 <= sg * A) (HsB : / 2 <= B / sg).
  Context (ar af br bf : R) (Har : Rabs ar <= A) (Haf : Rabs (af - ar) <= u * A) (Hbr : Rabs br <= B) (Hbf : Rabs (bf - br) <= u * B).

  Lemma ab_err p : Rabs p <= A ->
    let t1 := rnd (p + af) in let t2 := rnd (t1 * sf) in let t3 := rnd (t2 + bf) in
    (Rabs (p + af) <= 4 * A /\ Rabs (t1 * sf) <= 4 * (sg * A) /\ Rabs (t2 + bf) <= 4 * (sg * A + B)) /\
    Rabs (t3 - ((p + ar) * sg + br)) <= 32 * u * (sg * A + B) /\ Rabs ((p + ar) * sg + br) <= 2 * (sg * A + B).
  Proof.
    intros Hp t1 t2 t3. set (G := sg * A) in *. destruct (u_times A) as [UA UUA]; [lra|]. destruct (u_times B) as [UB UUB]; [lra|]. destruct (u_times G) as [UG UUG]; [lra|].
    assert (X : Rabs (p + ar) <= 2 * A) by (replace (2 * A) with (A + A) by ring; apply abs_le_add; auto).
    assert (E0 : Rabs ((p + af) - (p + ar)) <= u * A) by (replace ((p + af) - (p + ar)) with (af - ar) by ring; auto).
    assert (X0 : Rabs (p + af) <= 2 * A + u * A) by exact (abs_from _ _ _ _ X E0).
    assert (E1 : Rabs (t1 - (p + ar)) <= 4 * u * A).
    { apply Rle_trans with (u * (2 * A + u * A) + u * A); [|lra]. apply err_trans with (p + af); auto. apply rerr; auto. lra. }
    assert (X1 : Rabs t1 <= 5 / 2 * A) by (eapply Rle_trans; [exact (abs_from _ _ _ _ X E1)|lra]).
    assert (E2 : Rabs (t1 * sf - (p + ar) * sg) <= 14 * u * G).
    { eapply Rle_trans; [apply (err_mul _ _ _ _ (5 / 2 * A) (4 * u * sg) (4 * u * A) sg); auto; rewrite Rabs_pos_eq; lra|]. unfold G. right. field. }
    assert (XG : Rabs ((p + ar) * sg) <= 2 * G).
    { replace (2 * G) with (2 * A * sg) by (unfold G; ring). apply abs_le_mul; auto. rewrite Rabs_pos_eq; lra. }
    assert (X2 : Rabs (t1 * sf) <= 5 / 2 * G) by (eapply Rle_trans; [exact (abs_from _ _ _ _ XG E2)|lra]).
    assert (E3 : Rabs (t2 - (p + ar) * sg) <= 17 * u * G).
    { apply Rle_trans with (u * (5 / 2 * G) + 14 * u * G); [|lra]. apply err_trans with (t1 * sf); auto. apply rerr; auto. lra. }
    assert (E4 : Rabs ((t2 + bf) - ((p + ar) * sg + br)) <= 17 * u * G + u * B).
    { replace ((t2 + bf) - ((p + ar) * sg + br)) with ((t2 - (p + ar) * sg) + (bf - br)) by ring. apply abs_le_add; auto. }
    assert (X3 : Rabs ((p + ar) * sg + br) <= 2 * G + B) by (apply abs_le_add; auto).
    assert (X4 : Rabs (t2 + bf) <= 3 * G + 2 * B) by (eapply Rle_trans; [exact (abs_from _ _ _ _ X3 E4)|lra]).
    split; [split; [lra|split; lra]|]. split; [|lra].
    apply Rle_trans with (u * (3 * G + 2 * B) + (17 * u * G + u * B)); [|lra]. apply err_trans with (t2 + bf); auto. apply rerr; auto. lra.
  Qed.

  Lemma inv_err : sf <> 0 /\ Rabs (/ sf - / sg) <= 5 * u * / sg.
  Proof.
    apply Rabs_le_inv in Hsf. assert (P : 0 < sf) by nra. split; [lra|].
    replace (/ sf - / sg) with ((sg - sf) * / sf * / sg) by (field; lra). rewrite Rabs_mult, (Rabs_pos_eq (/ sg)) by (left; apply Rinv_0_lt_compat; auto).
    apply Rmult_le_compat_r; [left; apply Rinv_0_lt_compat; auto|]. apply Rabs_le.
    assert (Q : sf * / sf = 1) by (field; lra). pose proof (Rinv_0_lt_compat _ P) as Pi. set (w := / sf) in *. clearbody w. split; nra.
  Qed.
  Lemma ba_err z C : B <= C -> Rabs z <= C ->
    let t1 := rnd (z - bf) in let t2 := rnd (t1 / sf) in let t3 := rnd (t2 - af) in
    (Rabs (z - bf) <= 4 * C /\ Rabs (t1 / sf) <= 4 * (C / sg) /\ Rabs (t2 - af) <= 4 * (C / sg + A)) /\
    Rabs (t3 - ((z - br) / sg - ar)) <= 32 * u * (C / sg + A).
  Proof.
    intros HC Hz t1 t2 t3. destruct inv_err as [Ns Ei]. pose proof (Rinv_0_lt_compat _ Hsg) as Pi.
    assert (HG : / 2 <= C / sg) by (apply Rle_trans with (B / sg); [exact HsB|apply Rmult_le_compat_r; lra]). set (G := C / sg) in *. destruct (u_times A) as [UA UUA]; [lra|]. destruct (u_times C) as [UC UUC]; [lra|]. destruct (u_times G) as [UG UUG]; [lra|]. destruct (u_times (C - B)) as [UCB _]; [lra|].
    assert (X : Rabs (z - br) <= 2 * C) by (apply Rle_trans with (C + B); [apply abs_le_sub; auto|lra]).
    assert (E0 : Rabs ((z - bf) - (z - br)) <= u * C).
    { replace ((z - bf) - (z - br)) with (- (bf - br)) by ring. rewrite Rabs_Ropp. lra. }
    assert (X0 : Rabs (z - bf) <= 2 * C + u * C) by exact (abs_from _ _ _ _ X E0).
    assert (E1 : Rabs (t1 - (z - br)) <= 4 * u * C).
    { apply Rle_trans with (u * (2 * C + u * C) + u * C); [|lra]. apply err_trans with (z - bf); auto. apply rerr; auto. lra. }
    assert (X1 : Rabs t1 <= 5 / 2 * C) by (eapply Rle_trans; [exact (abs_from _ _ _ _ X E1)|lra]).
    assert (E2 : Rabs (t1 / sf - (z - br) / sg) <= 33 / 2 * u * G).
    { unfold Rdiv at 1 2. eapply Rle_trans; [apply (err_mul _ _ _ _ (5 / 2 * C) (5 * u * / sg) (4 * u * C) (/ sg)); auto; rewrite Rabs_pos_eq; lra|]. unfold G, Rdiv. right. field. lra. }
    assert (XG : Rabs ((z - br) / sg) <= 2 * G).
    { replace (2 * G) with (2 * C * / sg) by (unfold G; field; lra). apply abs_le_mul; auto. rewrite Rabs_pos_eq; lra. }
    assert (X2 : Rabs (t1 / sf) <= 5 / 2 * G) by (eapply Rle_trans; [exact (abs_from _ _ _ _ XG E2)|lra]).
    assert (E3 : Rabs (t2 - (z - br) / sg) <= 19 * u * G).
    { apply Rle_trans with (u * (5 / 2 * G) + 33 / 2 * u * G); [|lra]. apply err_trans with (t1 / sf); auto. apply rerr; auto. lra. }
    assert (E4 : Rabs ((t2 - af) - ((z - br) / sg - ar)) <= 19 * u * G + u * A).
    { replace ((t2 - af) - ((z - br) / sg - ar)) with ((t2 - (z - br) / sg) - (af - ar)) by ring. apply abs_le_sub; auto. }
    assert (X3 : Rabs ((z - br) / sg - ar) <= 2 * G + A) by (apply abs_le_sub; auto).
    assert (X4 : Rabs (t2 - af) <= 3 * G + 2 * A) by (eapply Rle_trans; [exact (abs_from _ _ _ _ X3 E4)|lra]).
    split; [split; [lra|split; lra]|].
    apply Rle_trans with (u * (3 * G + 2 * A) + (19 * u * G + u * A)); [|lra]. apply err_trans with (t2 - af); auto. apply rerr; auto. lra.
  Qed.
End Err.

Section Float.
  Context (prec emax epsexp : Z) (at2 : spec_float -> spec_float -> spec_float) (Hprec : Prec_gt_0 prec) (Hmax : Prec_lt_emax prec emax).
  Notation FS := (FloatS prec emax epsexp at2).
  Notation fexp := (SpecFloat.fexp prec emax).
  Notation emin := (SpecFloat.emin prec emax).
  Notation rnd := (round radix2 fexp ZnearestE).
  Notation good := (finite_float prec emax).
  Notation rv := fvalue.
  Notation bp := (bpow radix2).
  Notation u := (bpow radix2 (- prec)).
  Notation eta := (bpow radix2 (emin + prec - 1)).

  (* rounding error of a number bounded by M, if M is not below the normal range *)
  Lemma round_err x M : Rabs x <= M -> eta <= M -> Rabs (rnd x - x) <= u * M.
  Proof.
    intros Hx HM. pose proof (bpow_gt_0 radix2 (- prec)) as Pu. destruct (Rle_or_lt eta (Rabs x)) as [N|N].
    - eapply Rle_trans; [apply (rnd_rel prec emax Hprec); right; exact N|]. apply Rmult_le_compat_l; [lra|auto].
    - apply Rle_trans with (u * eta); [|apply Rmult_le_compat_l; lra].
      assert (E : fexp (emin + prec - 1) = emin) by (unfold SpecFloat.fexp, Prec_gt_0 in *; lia).
      destruct (Req_dec x 0) as [->|Nx].
      { rewrite round_0 by apply valid_rnd_N. rewrite Rminus_0_r, Rabs_R0. apply Rmult_le_pos; [lra|apply bpow_ge_0]. }
      eapply Rle_trans; [apply error_le_half_ulp; apply fexp_correct; auto|]. rewrite ulp_neq_0 by auto. unfold cexp.
      replace (fexp (mag radix2 x)) with emin.
      + rewrite <- bpow_plus. replace (- prec + (emin + prec - 1))%Z with (-1 + emin)%Z by lia. rewrite bpow_plus. change (bp (-1)) with (/ 2). lra.
      + unfold SpecFloat.fexp. pose proof (mag_le_bpow radix2 x (emin + prec - 1) Nx N). lia.
  Qed.
  Lemma rnd_max x y : rnd (Rmax x y) = Rmax (rnd x) (rnd y).
  Proof.
    destruct (Rle_or_lt x y) as [H|H].
    - rewrite Rmax_right, Rmax_right; auto. apply rnd_le; auto.
    - rewrite Rmax_left, Rmax_left; auto; [apply rnd_le; auto|]; lra.
  Qed.
  Lemma rnd_min x y : rnd (Rmin x y) = Rmin (rnd x) (rnd y).
  Proof.
    destruct (Rle_or_lt x y) as [H|H].
    - rewrite Rmin_left, Rmin_left; auto. apply rnd_le; auto.
    - rewrite Rmin_right, Rmin_right; auto; [apply rnd_le; auto|]; lra.
  Qed.
  Lemma good_nan x : good x -> fl_is_nan x = false.
  Proof. intros [_ H]. destruct x; auto; discriminate. Qed.
  Lemma good_fin x : good x -> fl_fin x = true.
  Proof. intros [_ H]. destruct x; auto; discriminate. Qed.
  Lemma max_float x y : good x -> good y -> good (fl_max x y) /\ rv (fl_max x y) = Rmax (rv x) (rv y).
  Proof.
    intros Hx Hy. unfold fl_max. rewrite !good_nan by auto. rewrite (ltb_R prec emax at2) by auto.
    destruct (Rltb (rv x) (rv y)) eqn:E; [apply Rltb_true in E; rewrite Rmax_right by lra|apply Rltb_false in E; rewrite Rmax_left by lra]; auto.
  Qed.
  Lemma min_float x y : good x -> good y -> good (fl_min x y) /\ rv (fl_min x y) = Rmin (rv x) (rv y).
  Proof.
    intros Hx Hy. unfold fl_min. rewrite !good_nan by auto. rewrite (ltb_R prec emax at2) by auto.
    destruct (Rltb (rv y) (rv x)) eqn:E; [apply Rltb_true in E; rewrite Rmin_right by lra|apply Rltb_false in E; rewrite Rmin_left by lra]; auto.
  Qed.
  Lemma neg_float x : good x -> good (SFopp x) /\ rv (SFopp x) = - rv x.
  Proof.
    intros [H1 H2]. split; [split; destruct x; auto|]. unfold fvalue. destruct x as [s|s| |s m e]; cbn; try ring. destruct s; cbn; unfold F2R; cbn [Defs.Fnum Defs.Fexp].
    - change (Z.pos m) with (- Z.neg m)%Z. rewrite opp_IZR. ring.
    - change (Z.neg m) with (- Z.pos m)%Z. rewrite opp_IZR. ring.
  Qed.

  (* ---- the computed transform ---- *)
  Context (K : Z) (HK : (1 <= K)%Z) (HK5 : (5 * K + 12 <= emax - 1)%Z) (Hp : (6 <= prec)%Z) (He : (emin + prec - 1 <= - K - 3)%Z).
  Context (A B : R) (HA : 1 <= A <= bp K) (HB : 1 <= B <= bp K).
  Definition up_to (M : R) (x : spec_float) : Prop := good x /\ Rabs (rv x) <= M.

  Lemma ubound : 0 < u <= / 64.
  Proof. split; [apply bpow_gt_0|]. replace (/ 64) with (bp (-6)) by (cbn; lra). apply bpow_le. lia. Qed.
  Lemma etabound : 0 < eta <= / 8.
  Proof. split; [apply bpow_gt_0|]. replace (/ 8) with (bp (-3)) by (cbn; lra). apply bpow_le. lia. Qed.
  Lemma one_f : good (@s1 FS) /\ rv (@s1 FS) = 1.
  Proof.
    apply (fl_of_Z_good prec emax Hprec Hmax 1).
    - cbn [Z.abs]. apply (Z.pow_le_mono_r 2 0); lia.
    - unfold scale_ok, SpecFloat.emin, Prec_lt_emax, Prec_gt_0 in *. lia.
  Qed.
  Lemma one_rnd : rnd 1 = 1.
  Proof. destruct one_f as [G E]. rewrite <- E. apply round_generic; [apply valid_rnd_N|]. apply good_format; auto. Qed.
  Lemma two_f : good (@s2 FS) /\ rv (@s2 FS) = 2.
  Proof.
    apply (fl_of_Z_good prec emax Hprec Hmax 2).
    - cbn [Z.abs]. change 2%Z with (2 ^ 1)%Z at 1. apply Z.pow_le_mono_r; lia.
    - unfold scale_ok, SpecFloat.emin, Prec_lt_emax, Prec_gt_0 in *. lia.
  Qed.
  Lemma pow4 e x M : 0 <= M <= bp e -> x <= 4 * M -> x <= bp (e + 2).
  Proof. intros HM Hx. rewrite bpow_plus. change (bp 2) with 4. lra. Qed.
  Lemma bK : 1 <= bp K.
  Proof. change 1 with (bp 0). apply bpow_le. lia. Qed.

  (* the middle of two coordinates *)
  Lemma mid_f M (lo hi : car FS) : 1 <= M <= bp K -> up_to M lo -> up_to M hi ->
    let c := sdiv (s := FS) (sadd lo hi) s2 in let n := sdiv (s := FS) (sneg (sadd lo hi)) s2 in
    (good c /\ Rabs (rv c - (rv lo + rv hi) / 2) <= u * M) /\ (good n /\ Rabs (rv n - (- (rv lo + rv hi) / 2)) <= u * M) /\ Rabs ((rv lo + rv hi) / 2) <= M.
  Proof.
    intros HM [Gl Bl] [Gh Bh] c n. pose proof (proj1 etabound) as P0. pose proof (proj2 etabound) as P8.
    assert (Em : (emin <= K + 1 <= emax - 1)%Z) by (unfold SpecFloat.emin in *; unfold Prec_lt_emax in *; lia).
    assert (S1 : Rabs (rv lo + rv hi) <= 2 * M) by (replace (2 * M) with (M + M) by ring; apply abs_le_add; auto).
    assert (S2 : Rabs (rv lo + rv hi) <= bp (K + 1)) by (rewrite bpow_plus; change (bp 1) with 2; lra).
    assert (Hh : Rabs ((rv lo + rv hi) / 2) <= M) by (unfold Rdiv; rewrite Rabs_mult, (Rabs_pos_eq (/ 2)) by lra; lra).
    destruct (add_rnd prec emax Hprec Hmax lo hi Gl Gh) as [Gs Es]; [eapply rnd_finite; [auto..| |exact S2]; lia|].
    destruct two_f as [G2 E2]. destruct (neg_float _ Gs) as [Gn En].
    assert (F : Rabs (rnd (rv lo + rv hi) / 2) <= bp (K + 1)).
    { unfold Rdiv. rewrite Rabs_mult, (Rabs_pos_eq (/ 2)) by lra. pose proof (rnd_small prec emax Hprec _ _ Em S2). pose proof (bpow_gt_0 radix2 (K + 1)). lra. }
    assert (Eh : rnd (rnd (rv lo + rv hi) / 2) = rnd ((rv lo + rv hi) / 2)) by (apply rnd_half; auto; apply good_format; auto).
    assert (Er : Rabs (rnd ((rv lo + rv hi) / 2) - (rv lo + rv hi) / 2) <= u * M) by (apply round_err; [auto|lra]).
    split; [|split; [|exact Hh]].
    - destruct (div_rnd prec emax Hprec Hmax (SFadd prec emax lo hi) (@s2 FS) Gs G2) as [Gc Ec]; [lra|rewrite Es, E2; eapply rnd_finite; [auto..| |exact F]; lia|].
      split; [exact Gc|]. unfold c. cbn [sdiv sadd FloatS]. rewrite Ec, Es, E2, Eh. exact Er.
    - destruct (div_rnd prec emax Hprec Hmax (SFopp (SFadd prec emax lo hi)) (@s2 FS) Gn G2) as [Gc Ec].
      { lra. } { rewrite En, Es, E2. replace (- rnd (rv lo + rv hi) / 2) with (- (rnd (rv lo + rv hi) / 2)) by field. eapply rnd_finite; [auto..|rewrite Rabs_Ropp; exact F]. lia. }
      split; [exact Gc|]. unfold n. cbn [sdiv sadd sneg FloatS]. rewrite Ec, En, Es, E2. replace (- rnd (rv lo + rv hi) / 2) with (- (rnd (rv lo + rv hi) / 2)) by field.
      rewrite rnd_opp by auto. rewrite Eh. replace (- rnd ((rv lo + rv hi) / 2) - - (rv lo + rv hi) / 2) with (- (rnd ((rv lo + rv hi) / 2) - (rv lo + rv hi) / 2)) by field. rewrite Rabs_Ropp. exact Er.
  Qed.
  (* the size of one axis, at least one *)
  Lemma size_f M (lo hi : car FS) : 1 <= M <= bp K -> up_to M lo -> up_to M hi ->
    let w := smax (s := FS) (ssub hi lo) s1 in let x := Rmax (rv hi - rv lo) 1 in good w /\ rv w = rnd x /\ 1 <= x <= 2 * M.
  Proof.
    intros HM [Gl Bl] [Gh Bh] w x. assert (Em : (emin <= K + 1 <= emax - 1)%Z) by (unfold SpecFloat.emin in *; unfold Prec_lt_emax in *; lia).
    assert (S1 : Rabs (rv hi - rv lo) <= 2 * M) by (replace (2 * M) with (M + M) by ring; apply abs_le_sub; auto).
    assert (S2 : Rabs (rv hi - rv lo) <= bp (K + 1)) by (rewrite bpow_plus; change (bp 1) with 2; lra).
    destruct (sub_rnd prec emax Hprec Hmax hi lo Gh Gl) as [Gs Es]; [eapply rnd_finite; [auto..| |exact S2]; lia|].
    destruct one_f as [G1 E1]. destruct (max_float _ _ Gs G1) as [Gw Ew]. split; [exact Gw|]. split.
    - unfold w. cbn [smax ssub FloatS]. rewrite Ew, Es, E1. unfold x. rewrite rnd_max, one_rnd. reflexivity.
    - unfold x. split; [apply Rmax_r|]. apply Rmax_lub; [|lra]. eapply Rle_trans; [apply Rle_abs|exact S1].
  Qed.

  Definition axis (af bf sf : spec_float) (ar br sg : R) : Prop :=
    good af /\ good bf /\ good sf /\ Rabs ar <= A /\ Rabs (rv af - ar) <= u * A /\ Rabs br <= B /\ Rabs (rv bf - br) <= u * B /\
    0 < sg /\ Rabs (rv sf - sg) <= 4 * u * sg /\ / 2 <= sg * A /\ / 2 <= B / sg.

  Notation val := (@point_value prec emax epsexp at2).
  Lemma new_f (sl sh dl dh : V2 FS) : (forall x, In x [vx sl; vy sl; vx sh; vy sh] -> up_to A x) -> (forall x, In x [vx dl; vy dl; vx dh; vy dh] -> up_to B x) ->
    exists t tR sg, affine_new (Some (sl, sh)) (Some (dl, dh)) = Val t /\ affine_new (S := RS) (Some (val sl, val sh)) (Some (val dl, val dh)) = Val tR /\
      scale tR = @mkV2 RS sg sg /\
      axis (vx (a_offset t)) (vx (b_offset t)) (vx (scale t)) (vx (a_offset tR)) (vx (b_offset tR)) sg /\
      axis (vy (a_offset t)) (vy (b_offset t)) (vy (scale t)) (vy (a_offset tR)) (vy (b_offset tR)) sg.
  Proof.
    intros HS HD.
    assert (S1 : up_to A (vx sl)) by (apply HS; cbn; auto). assert (S2 : up_to A (vy sl)) by (apply HS; cbn; auto).
    assert (S3 : up_to A (vx sh)) by (apply HS; cbn; auto). assert (S4 : up_to A (vy sh)) by (apply HS; cbn; auto 6).
    assert (D1 : up_to B (vx dl)) by (apply HD; cbn; auto). assert (D2 : up_to B (vy dl)) by (apply HD; cbn; auto).
    assert (D3 : up_to B (vx dh)) by (apply HD; cbn; auto). assert (D4 : up_to B (vy dh)) by (apply HD; cbn; auto 6).
    destruct (mid_f A _ _ HA S1 S3) as (_ & (Gax & Eax) & Bax). destruct (mid_f A _ _ HA S2 S4) as (_ & (Gay & Eay) & Bay).
    destruct (mid_f B _ _ HB D1 D3) as ((Gbx & Ebx) & _ & Bbx). destruct (mid_f B _ _ HB D2 D4) as ((Gby & Eby) & _ & Bby).
    destruct (size_f A _ _ HA S1 S3) as (Gsx & Esx & Bsx). destruct (size_f A _ _ HA S2 S4) as (Gsy & Esy & Bsy).
    destruct (size_f B _ _ HB D1 D3) as (Gdx & Edx & Bdx). destruct (size_f B _ _ HB D2 D4) as (Gdy & Edy & Bdy).
    set (S := Rmax (Rmax (rv (vx sh) - rv (vx sl)) 1) (Rmax (rv (vy sh) - rv (vy sl)) 1)).
    set (D := Rmin (Rmax (rv (vx dh) - rv (vx dl)) 1) (Rmax (rv (vy dh) - rv (vy dl)) 1)).
    assert (BS : 1 <= S <= 2 * A) by (split; [eapply Rle_trans; [apply Bsx|apply Rmax_l]|apply Rmax_lub; [apply Bsx|apply Bsy]]).
    assert (BD : 1 <= D <= 2 * B) by (split; [apply Rmin_glb; [apply Bdx|apply Bdy]|eapply Rle_trans; [apply Rmin_l|apply Bdx]]).
    destruct (max_float _ _ Gsx Gsy) as [GS ES]. destruct (min_float _ _ Gdx Gdy) as [GD ED].
    rewrite Esx, Esy, <- rnd_max in ES. rewrite Edx, Edy, <- rnd_min in ED. fold S in ES. fold D in ED.
    assert (PS : 0 < / S) by (apply Rinv_0_lt_compat; lra).
    assert (IS : / (2 * A) <= / S <= 1) by (split; [apply Rinv_le; lra|rewrite <- Rinv_1; apply Rinv_le; lra]).
    assert (QA : / 2 <= D / S * A).
    { apply Rle_trans with (1 * / (2 * A) * A); [right; field; lra|]. apply Rmult_le_compat_r; [lra|]. apply Rmult_le_compat; lra || (left; apply Rinv_0_lt_compat; lra). }
    assert (QB : / 2 <= B / (D / S)).
    { replace (B / (D / S)) with (B / D * S) by (field; lra). apply Rle_trans with (B / D * 1).
      - rewrite Rmult_1_r. apply Rmult_le_reg_r with D; [lra|]. replace (B / D * D) with B by (field; lra). lra.
      - apply Rmult_le_compat_l; [|lra]. apply Rlt_le, Rdiv_lt_0_compat; lra. }
    assert (QU : D / S <= 2 * B). { apply Rle_trans with (2 * B * 1); [apply Rmult_le_compat; lra|lra]. }
    assert (Qp : 0 < D / S) by (apply Rdiv_lt_0_compat; lra).
    assert (QE : eta <= D / S / 4).
    { apply Rle_trans with (/ (2 * bp K) / 4).
      - apply Rle_trans with (bp (- K - 3)); [apply bpow_le; lia|]. replace (- K - 3)%Z with (- K + -3)%Z by lia. rewrite bpow_plus, bpow_opp. change (bp (-3)) with (/ 8). right. field. pose proof bK. lra.
      - apply Rmult_le_compat_r; [lra|]. apply Rle_trans with (1 * / S); [|apply Rmult_le_compat_r; lra]. rewrite Rmult_1_l. apply Rinv_le; lra. }
    destruct (scale_err rnd u eta ubound etabound round_err D S) as (E1 & E2 & E3 & E4); [lra|lra|auto|].
    rewrite <- ES, <- ED in E3, E4.
    destruct (div_rnd prec emax Hprec Hmax _ _ GD GS) as [Gq Eq].
    { rewrite ES. apply Rabs_le_inv in E2. pose proof ubound. pose proof (proj1 (u_times u ubound S ltac:(lra))). lra. }
    { eapply (rnd_finite prec emax Hprec _ (K + 2)); [unfold SpecFloat.emin in *; unfold Prec_lt_emax in *; lia|].
      eapply Rle_trans; [exact E4|]. rewrite bpow_plus. change (bp 2) with 4. lra. }
    rewrite <- Eq in E3.
    eexists. eexists. exists (D / S). split; [reflexivity|]. split; [reflexivity|]. split; [reflexivity|]. cbn [a_offset b_offset scale vx vy point_value].
    assert (Na : forall x y, Rabs ((x + y) / 2) <= A -> Rabs (- (x + y) / 2) <= A) by (intros x y H; replace (- (x + y) / 2) with (- ((x + y) / 2)) by field; rewrite Rabs_Ropp; auto).
    split; unfold axis.
    - split; [exact Gax|]. split; [exact Gbx|]. split; [exact Gq|]. split; [apply Na; exact Bax|]. split; [exact Eax|]. split; [exact Bbx|]. split; [exact Ebx|].
      split; [exact Qp|]. split; [exact E3|]. split; [exact QA|exact QB].
    - split; [exact Gay|]. split; [exact Gby|]. split; [exact Gq|]. split; [apply Na; exact Bay|]. split; [exact Eay|]. split; [exact Bby|]. split; [exact Eby|].
      split; [exact Qp|]. split; [exact E3|]. split; [exact QA|exact QB].
  Qed.

  Lemma axis_sg af bf sf ar br sg : axis af bf sf ar br sg -> 0 < sg <= 2 * B /\ 0 < / sg <= 2 * A.
  Proof.
    intros (_ & _ & _ & _ & _ & _ & _ & P & _ & H1 & H2). pose proof (Rinv_0_lt_compat _ P) as Pi. assert (Q : sg * / sg = 1) by (field; lra).
    split; split; auto.
    - apply Rmult_le_reg_r with (/ sg); auto. rewrite Q. unfold Rdiv in H2. lra.
    - apply Rmult_le_reg_l with sg; auto. rewrite Q. lra.
  Qed.
  Lemma big4 e X M : (emin <= e <= emax - 3)%Z -> 0 <= M <= bp e -> X <= 4 * M -> X <= bp (e + 2).
  Proof. intros _ HM HX. rewrite bpow_plus. change (bp 2) with 4. lra. Qed.
  Lemma ab_f (af bf sf p : car FS) ar br sg : axis af bf sf ar br sg -> up_to A p ->
    let q := sadd (s := FS) (smul (sadd p af) sf) bf in let e := (rv p + ar) * sg + br in
    good q /\ Rabs (rv q - e) <= 32 * u * (sg * A + B) /\ Rabs e <= 2 * (sg * A + B).
  Proof.
    intros H [Gp Bp] q e. destruct (axis_sg _ _ _ _ _ _ H) as [[Ps Us] _]. destruct H as (Ga & Gb & Gs & H1 & H2 & H3 & H4 & H5 & H6 & H7 & H8).
    destruct (ab_err rnd u eta ubound etabound round_err A B (proj1 HA) (proj1 HB) sg (rv sf) H5 H6 H7 ar (rv af) br (rv bf) H1 H2 H3 H4 (rv p) Bp) as ((L1 & L2 & L3) & E & L).
    assert (W : 0 <= sg * A + B <= bp (2 * K + 2)).
    { pose proof bK as P1. assert (PP : 0 <= bp K * bp K) by (apply Rmult_le_pos; lra). split; [lra|]. replace (2 * K + 2)%Z with (K + K + 2)%Z by lia. rewrite !bpow_plus. change (bp 2) with 4.
      apply Rle_trans with (2 * bp K * bp K + bp K * bp K); [|lra]. apply Rplus_le_compat; [apply Rmult_le_compat; lra|]. apply Rle_trans with (1 * bp K); [lra|apply Rmult_le_compat_r; lra]. }
    assert (Em : (emin <= 0)%Z) by (unfold SpecFloat.emin in *; unfold Prec_lt_emax in *; lia).
    assert (F1 : Rabs (rv p + rv af) <= bp (K + 2)) by (eapply (big4 K); [lia| |exact L1]; lra).
    destruct (add_rnd prec emax Hprec Hmax p af Gp Ga) as [G1 E1]; [eapply rnd_finite; [auto..| |exact F1]; lia|].
    rewrite <- E1 in L2, L3, E.
    assert (F2 : Rabs (rv (SFadd prec emax p af) * rv sf) <= bp (2 * K + 4)) by (replace (2 * K + 4)%Z with (2 * K + 2 + 2)%Z by lia; apply (big4 _ _ (sg * A)); [lia|lra|exact L2]).
    destruct (mul_rnd prec emax Hprec Hmax (SFadd prec emax p af) sf G1 Gs) as [G2 E2]; [eapply rnd_finite; [auto..| |exact F2]; lia|].
    rewrite <- E2 in L3, E.
    assert (F3 : Rabs (rv (SFmul prec emax (SFadd prec emax p af) sf) + rv bf) <= bp (2 * K + 4)) by (replace (2 * K + 4)%Z with (2 * K + 2 + 2)%Z by lia; eapply (big4 _ _ (sg * A + B)); [lia|lra|exact L3]).
    destruct (add_rnd prec emax Hprec Hmax _ bf G2 Gb) as [G3 E3]; [eapply rnd_finite; [auto..| |exact F3]; lia|].
    split; [exact G3|]. split; [|exact L]. unfold q. cbn [sadd smul FloatS]. rewrite E3. exact E.
  Qed.
  Lemma ba_f (af bf sf z : car FS) ar br sg C : axis af bf sf ar br sg -> B <= C <= bp (3 * K + 4) -> up_to C z ->
    let r := ssub (s := FS) (sdiv (ssub z bf) sf) af in good r /\ Rabs (rv r - ((rv z - br) / sg - ar)) <= 32 * u * (C / sg + A).
  Proof.
    intros H HC [Gp Bp] r. destruct (axis_sg _ _ _ _ _ _ H) as [_ [Ps Us]]. destruct H as (Ga & Gb & Gs & H1 & H2 & H3 & H4 & H5 & H6 & H7 & H8).
    destruct (ba_err rnd u eta ubound etabound round_err A B (proj1 HA) (proj1 HB) sg (rv sf) H5 H6 H8 ar (rv af) br (rv bf) H1 H2 H3 H4 (rv z) C (proj1 HC) Bp) as ((L1 & L2 & L3) & E).
    destruct (inv_err u eta ubound etabound sg (rv sf) H5 H6) as [Ns _].
    pose proof bK as P1. assert (W0 : 0 <= C / sg <= bp (4 * K + 5)).
    { split; [apply Rmult_le_pos; lra|]. replace (4 * K + 5)%Z with (3 * K + 4 + (K + 1))%Z by lia. rewrite bpow_plus. apply Rmult_le_compat; try lra. rewrite bpow_plus. change (bp 1) with 2. lra. }
    assert (W : 0 <= C / sg + A <= bp (4 * K + 6)).
    { split; [lra|]. replace (4 * K + 6)%Z with (4 * K + 5 + 1)%Z by lia. rewrite bpow_plus. change (bp 1) with 2.
      assert (bp K <= bp (4 * K + 5)) by (apply bpow_le; lia). lra. }
    assert (Em : (emin <= 0)%Z) by (unfold SpecFloat.emin in *; unfold Prec_lt_emax in *; lia).
    assert (F1 : Rabs (rv z - rv bf) <= bp (3 * K + 6)) by (replace (3 * K + 6)%Z with (3 * K + 4 + 2)%Z by lia; eapply big4; [| |exact L1]; [lia|lra]).
    destruct (sub_rnd prec emax Hprec Hmax z bf Gp Gb) as [G1 E1]; [eapply rnd_finite; [auto..| |exact F1]; lia|].
    rewrite <- E1 in L2, L3, E.
    assert (F2 : Rabs (rv (SFsub prec emax z bf) / rv sf) <= bp (4 * K + 7)) by (replace (4 * K + 7)%Z with (4 * K + 5 + 2)%Z by lia; eapply big4; [| |exact L2]; [lia|lra]).
    destruct (div_rnd prec emax Hprec Hmax (SFsub prec emax z bf) sf G1 Gs Ns) as [G2 E2]; [eapply rnd_finite; [auto..| |exact F2]; lia|].
    rewrite <- E2 in L3, E.
    assert (F3 : Rabs (rv (SFdiv prec emax (SFsub prec emax z bf) sf) - rv af) <= bp (4 * K + 8)) by (replace (4 * K + 8)%Z with (4 * K + 6 + 2)%Z by lia; eapply big4; [| |exact L3]; [lia|lra]).
    destruct (sub_rnd prec emax Hprec Hmax _ af G2 Ga) as [G3 E3]; [eapply rnd_finite; [auto..| |exact F3]; lia|].
    split; [exact G3|]. unfold r. cbn [ssub sdiv FloatS]. rewrite E3. exact E.
  Qed.
  (* and back *)
  Lemma trip_f (af bf sf p : car FS) ar br sg : axis af bf sf ar br sg -> up_to A p ->
    let q := sadd (s := FS) (smul (sadd p af) sf) bf in let r := ssub (s := FS) (sdiv (ssub q bf) sf) af in
    good r /\ Rabs (rv r - rv p) <= 160 * u * (A + B / sg).
  Proof.
    intros H HP q r. destruct (ab_f af bf sf p ar br sg H HP) as (Gq & Eq & Lq). fold q in Gq, Eq.
    destruct (axis_sg _ _ _ _ _ _ H) as [[Ps Us] [Pi Ui]]. pose proof bK as P1. assert (PP : 0 <= bp K * bp K) by (apply Rmult_le_pos; lra). destruct (u_times u ubound (sg * A + B)) as [[U0 U1] _].
    { assert (0 < sg * A) by (apply Rmult_lt_0_compat; lra). lra. }
    assert (W : sg * A + B <= 3 * (bp K * bp K)).
    { apply Rle_trans with (2 * bp K * bp K + bp K * bp K); [|lra]. apply Rplus_le_compat; [apply Rmult_le_compat; lra|]. apply Rle_trans with (1 * bp K); [lra|apply Rmult_le_compat_r; lra]. }
    assert (PA : 0 < sg * A) by (apply Rmult_lt_0_compat; lra).
    destruct (ba_f af bf sf q ar br sg (3 * (sg * A + B)) H) as [Gr Er].
    - split; [lra|]. replace (3 * K + 4)%Z with (K + K + (K + 4))%Z by lia. rewrite !(bpow_plus _ _ _). change (bp 4) with 16.
      apply Rle_trans with (bp K * bp K * 16); [|apply Rmult_le_compat_l; [apply Rmult_le_pos; lra|lra]]. lra.
    - split; [exact Gq|]. eapply Rle_trans; [exact (abs_from _ _ _ _ Lq Eq)|]. lra.
    - split; [exact Gr|]. fold r in Er.
      assert (E2 : Rabs (((rv q - br) / sg - ar) - rv p) <= 32 * u * (A + B / sg)).
      { replace ((rv q - br) / sg - ar - rv p) with ((rv q - ((rv p + ar) * sg + br)) * / sg) by (field; lra). rewrite Rabs_mult, (Rabs_pos_eq (/ sg)) by lra.
        eapply Rle_trans; [apply Rmult_le_compat_r; [lra|exact Eq]|]. right. field. lra. }
      eapply Rle_trans; [exact (err_trans _ _ _ _ _ Er E2)|]. replace (3 * (sg * A + B) / sg) with (3 * A + 3 * (B / sg)) by (field; lra).
      assert (0 < B / sg) by (apply Rmult_lt_0_compat; lra). assert (0 <= u * (B / sg)) by (apply Rmult_le_pos; [apply bpow_ge_0|lra]).
      apply Rle_trans with (160 * (u * A) + 128 * (u * (B / sg))); [right; ring|]. lra.
  Qed.
End Float.
