(* Visvalingam-Whyatt on float points whose coordinates are small multiples of a power of two. *)
From Coq Require Import ZArith Reals Lra Lia Psatz Floats.SpecFloat.
From Flocq Require Import Core BinarySingleNaN.
From Verif Require Import Prelude Scalar RInst Flt FloatSpec FloatLink FloatGrid FloatRound Geo2 Geo3 GeoSpec Simplify Rdp1 FltOrd VwSpec VwProofs VwProofs2.
Local Open Scope R_scope.

(* ---- moving greedy steps along a map that keeps the order of areas ---- *)
Lemma vw_steps_map {S S' : Scalar} {T T'} (area : T -> T -> T -> car S) (area' : T' -> T' -> T' -> car S') (f : T -> T') (D : T -> Prop) :
  (forall a b c a' b' c', D a -> D b -> D c -> D a' -> D b' -> D c' -> sltb (area a b c) (area a' b' c') = false -> sltb (area' (f a) (f b) (f c)) (area' (f a') (f b') (f c')) = false) ->
  forall k p q, vw_steps area k p q -> Forall D p -> vw_steps area' k (map f p) (map f q).
Proof.
  intros H k p q Hs. induction Hs as [p|k p q r (l1 & a & b & c & l2 & Ep & Eq & Hm) _ IH]; intros HD; [constructor|].
  rewrite Forall_forall in HD.
  assert (In a p /\ In b p /\ In c p) as (Ia & Ib & Ic) by (rewrite Ep, !in_app_iff; cbn; tauto).
  apply vw_more with (map f q).
  - exists (map f l1), (f a), (f b), (f c), (map f l2). rewrite Ep, Eq, !map_app. split; [reflexivity|]. split; [reflexivity|].
    intros l1' a' b' c' l2' E. rewrite <- (map_app f l1 (a :: b :: c :: l2)), <- Ep in E.
    apply map_eq_app in E as (m1 & m2 & E1 & _ & E2).
    destruct m2 as [|x [|y [|z m2]]]; try discriminate. injection E2 as <- <- <- _.
    assert (In x p /\ In y p /\ In z p) as (Ix & Iy & Iz) by (rewrite E1, !in_app_iff; cbn; tauto).
    apply H; auto. eapply Hm; eauto.
  - apply IH. apply Forall_forall. intros x Hx. apply HD. rewrite Ep. rewrite Eq in Hx. rewrite in_app_iff in *. cbn in *. tauto.
Qed.

Section Grid.
  Context (prec emax epsexp : Z) (at2 : spec_float -> spec_float -> spec_float) (Hprec : Prec_gt_0 prec) (Hmax : Prec_lt_emax prec emax).
  Notation FS := (FloatS prec emax epsexp at2).
  Notation emin := (SpecFloat.emin prec emax).
  Notation good := (finite_float prec emax).
  Notation rv := fvalue.
  Notation ong := (on_grid prec emax).
  Notation rnd := (round radix2 (SpecFloat.fexp prec emax) ZnearestE).

  (* squares of small multiples keep their strict order through rounding *)
  Lemma square_order t m x y : (2 <= prec)%Z -> (m <= 2 ^ (prec - 1))%Z -> (emin + prec - 1 <= t + t)%Z -> (prec + prec - 2 + (t + t) < emax)%Z -> ong t m x -> ong t m y ->
    good (SFmul prec emax x x) /\ SFltb (SFmul prec emax x x) (SFmul prec emax y y) = Rltb (rv x * rv x) (rv y * rv y).
  Proof.
    intros Hp2 Hm H1 H2.
    assert (P1 : IZR (2 ^ (prec - 1)) = bpow radix2 (prec - 1)) by (rewrite <- (IZR_Zpower radix2) by (unfold Prec_gt_0 in Hprec; lia); reflexivity).
    assert (K : forall x, ong t m x -> exists k, (0 <= k <= 2 ^ (prec - 1))%Z /\ rv x * rv x = IZR k * IZR k * bpow radix2 (t + t) /\
              good (SFmul prec emax x x) /\ rv (SFmul prec emax x x) = rnd (rv x * rv x) /\
              (rv x * rv x = 0 \/ normal prec emax (rv x * rv x))).
    { intros z (Gz & k & Hk & Ez). exists (Z.abs k). split; [lia|].
      assert (E : rv z * rv z = IZR (Z.abs k) * IZR (Z.abs k) * bpow radix2 (t + t)).
      { rewrite Ez, bpow_plus, abs_IZR. unfold Rabs. destruct (Rcase_abs (IZR k)); ring. }
      split; [exact E|].
      assert (Hle : IZR (Z.abs k) <= bpow radix2 (prec - 1)) by (rewrite <- P1; apply IZR_le; lia).
      assert (Hge : 0 <= IZR (Z.abs k)) by (apply IZR_le; lia).
      assert (B : Rabs (rv z * rv z) <= bpow radix2 (prec + prec - 2 + (t + t))).
      { rewrite Rabs_pos_eq by apply Rle_0_sqr. rewrite E. replace (prec + prec - 2 + (t + t))%Z with ((prec - 1) + (prec - 1) + (t + t))%Z by lia. rewrite !bpow_plus.
        apply Rmult_le_compat_r; [rewrite <- bpow_plus; apply bpow_ge_0|]. apply Rmult_le_compat; auto. }
      destruct (mul_rnd prec emax Hprec Hmax z z Gz Gz) as [G1 G2].
      { eapply rnd_finite; [..|exact B]; auto. unfold Prec_gt_0 in Hprec. lia. }
      split; auto. split; auto. destruct (Z.eq_dec k 0) as [->|NZ]; [left; rewrite Ez; ring|right].
      unfold normal. rewrite Rabs_pos_eq by apply Rle_0_sqr. rewrite E. eapply Rle_trans; [apply bpow_le; exact H1|].
      assert (1 <= IZR (Z.abs k)) by (apply IZR_le; lia). rewrite <- (Rmult_1_l (bpow radix2 (t + t))) at 1. apply Rmult_le_compat_r; [apply bpow_ge_0|]. nra. }
    intros Hx Hy. destruct (K x Hx) as (k & Hk & Ek & Gx & Rx & Nx), (K y Hy) as (l & Hl & El & Gy & Ry & Ny). split; auto.
    rewrite (ltb_R prec emax at2 _ _ Gx Gy), Rx, Ry. apply Bool.eq_iff_eq_true. rewrite !Rltb_true. split; intros H.
    - apply Rnot_le_lt. intros C. apply (rnd_le prec emax Hprec) in C. lra.
    - destruct (rnd_near prec emax Hprec _ (Rle_0_sqr _) Nx) as [_ Ux], (rnd_near prec emax Hprec _ (Rle_0_sqr _) Ny) as [Uy _]. unfold Rsqr in *.
      eapply Rle_lt_trans; [exact Ux|]. eapply Rlt_le_trans; [|exact Uy]. rewrite Ek, El in *. pose proof (bpow_gt_0 radix2 (t + t)) as Bp.
      assert (Hkl : IZR k * IZR k < IZR l * IZR l) by (eapply Rmult_lt_reg_r; eauto).
      assert (kl : (k < l)%Z). { rewrite <- !mult_IZR in Hkl. apply lt_IZR in Hkl. nia. }
      rewrite <- !Rmult_assoc. apply Rmult_lt_compat_r; auto. unfold ulp1.
      assert (U : bpow radix2 (- prec) * IZR l <= 1 / 2).
      { apply Rle_trans with (bpow radix2 (- prec) * bpow radix2 (prec - 1)).
        - apply Rmult_le_compat_l; [apply bpow_ge_0|]. rewrite <- P1. apply IZR_le; lia.
        - rewrite <- bpow_plus. replace (- prec + (prec - 1))%Z with (-1)%Z by lia. cbn. lra. }
      assert (Hu := ulp1_pos prec). assert (Hu2 : bpow radix2 (- prec) <= / 4). { apply Rle_trans with (bpow radix2 (-2)); [apply bpow_le; lia|]. cbn. lra. } unfold ulp1 in *. set (u := bpow radix2 (- prec)) in *.
      assert (H3 : IZR k + 1 <= IZR l) by (rewrite <- plus_IZR; apply IZR_le; lia). assert (H4 : 0 <= IZR k) by (apply IZR_le; lia).
      set (a := IZR k) in *. set (b := IZR l) in *. clearbody a b u. clear - U Hu Hu2 H3 H4.
      (* a (1+u) a < b b (1-u):  b b - a a >= a + b, u (a a + b b) <= (a + b) / 2 *)
      assert (Y1 : u * b * b <= 1 / 2 * b) by nra. assert (Y2 : u * a * a <= 1 / 2 * a) by nra. nra.
  Qed.

  (* ---- 2D ---- *)
  Context (s n : Z).
  Notation onp := (@grid_point prec emax epsexp at2 s n).
  Notation val := (@point_value prec emax epsexp at2).
  Lemma orient_exact (a b c : V2 FS) : scale_ok prec emax (s + s) -> (6 * (n * n) <= 2 ^ prec)%Z -> onp a -> onp b -> onp c ->
    exists o : spec_float, area2 a b c = SFmul prec emax o o /\ ong (s + s) (6 * (n * n)) o /\ rv o = orient (val a) (val b) (val c).
  Proof.
    intros Hss Hn [Ax Ay] [Bx By] [Cx Cy]. assert (N0 := ong_nonneg _ _ _ _ _ Ax).
    assert (M : forall x y, ong s n x -> ong s n y -> ong (s + s) (n * n) (SFmul prec emax x y) /\ rv (SFmul prec emax x y) = rv x * rv y) by (intros x y Hx Hy; apply ong_mul; auto; nia).
    destruct (M _ _ Ax By) as [G1 E1], (M _ _ Bx Cy) as [G2 E2], (M _ _ Cx Ay) as [G3 E3], (M _ _ Ax Cy) as [G4 E4], (M _ _ Bx Ay) as [G5 E5], (M _ _ Cx By) as [G6 E6].
    destruct (ong_add prec emax Hprec Hmax (s + s) _ _ _ _ Hss G1 G2) as [G7 E7]; [nia|].
    destruct (ong_add prec emax Hprec Hmax (s + s) _ _ _ _ Hss G7 G3) as [G8 E8]; [nia|].
    destruct (ong_sub prec emax Hprec Hmax (s + s) _ _ _ _ Hss G8 G4) as [G9 E9]; [nia|].
    destruct (ong_sub prec emax Hprec Hmax (s + s) _ _ _ _ Hss G9 G5) as [Ga Ea]; [nia|].
    destruct (ong_sub prec emax Hprec Hmax (s + s) _ _ _ _ Hss Ga G6) as [Gb Eb]; [nia|].
    match type of Gb with ong _ _ ?o => exists o end. split; [reflexivity|]. split; [eapply ong_weaken; [exact Gb|nia]|].
    rewrite Eb, Ea, E9, E8, E7, E1, E2, E3, E4, E5, E6. unfold orient. cbn [vx vy point_value car RS]. ring.
  Qed.
  Lemma sq_abs_lt (x y : R) : x * x < y * y <-> Rabs x < Rabs y.
  Proof.
    split; intros H.
    - apply Rsqr_lt_abs_0. exact H.
    - apply Rsqr_lt_abs_1 in H. exact H.
  Qed.
  Record vw_ok : Prop := { vo_p : (2 <= prec)%Z; vo_ss : scale_ok prec emax (s + s); vo_n : (6 * (n * n) <= 2 ^ (prec - 1))%Z;
    vo_lo : (emin + prec - 1 <= (s + s) + (s + s))%Z; vo_hi : (prec + prec - 2 + ((s + s) + (s + s)) < emax)%Z }.
  Lemma area2_order (OK : vw_ok) a b c a' b' c' : onp a -> onp b -> onp c -> onp a' -> onp b' -> onp c' ->
    good (area2 a b c) /\ sltb (area2 a b c) (area2 a' b' c') = sltb (triangle_area (val a) (val b) (val c)) (triangle_area (val a') (val b') (val c')).
  Proof.
    intros Ha Hb Hc Ha' Hb' Hc'. destruct OK.
    assert (Hpp : (2 ^ (prec - 1) <= 2 ^ prec)%Z) by (apply Z.pow_le_mono_r; lia).
    destruct (orient_exact a b c) as (o & -> & Go & Eo); auto; [lia|]. destruct (orient_exact a' b' c') as (o' & -> & Go' & Eo'); auto; [lia|].
    destruct (square_order (s + s) (6 * (n * n)) o o') as [G E]; auto. split; auto. cbn [sltb FloatS RS]. rewrite E, Eo, Eo'. unfold triangle_area.
    apply Bool.eq_iff_eq_true. rewrite !Rltb_true, sq_abs_lt. lra.
  Qed.
  Lemma good_not_nan x : good x -> x <> S754_nan.
  Proof. intros [_ H] ->. discriminate. Qed.

  Lemma vw2_grid (OK : vw_ok) pick (line : list (V2 FS)) k : pops_smallest (S := FS) (fun x => x <> S754_nan) pick -> (3 <= length line)%nat -> Forall onp line ->
    exists out, simplify_vw_2d pick line k = Val out /\
      (is_connected line = false ->
         vw_steps (S := RS) triangle_area (Nat.min k (if Nat.eqb (length line) 3 then 1 else length line - 4)) (map val line) (map val out)) /\
      (is_connected line = true ->
         exists f tl, line = f :: tl /\ vw_steps (S := RS) triangle_area (Nat.min k (length line - 3)) (map val (line ++ [f])) (map val (out ++ [f]))).
  Proof.
    intros Hp H3 HL. assert (HL' := HL). rewrite Forall_forall in HL'.
    assert (HD : forall a b c, In a line -> In b line -> In c line -> area2 a b c <> S754_nan).
    { intros a b c Ia Ib Ic. apply good_not_nan. apply (area2_order OK a b c a b c); auto. }
    assert (MP : forall k p q, vw_steps (S := FS) area2 k p q -> Forall onp p -> vw_steps (S := RS) triangle_area k (map val p) (map val q)).
    { apply vw_steps_map. intros a b c a' b' c' Ha Hb Hc Ha' Hb' Hc' E. destruct (area2_order OK a b c a' b' c') as [_ E2]; auto. rewrite <- E2. exact E. }
    pose proof (OrdOn_float prec emax epsexp at2) as HO.
    destruct (is_connected line) eqn:Ec.
    - destruct (vw2_closed _ HO pick line k Hp HD H3 Ec) as (f & tl & out & El & E & Hs).
      exists out. split; auto. split; [discriminate|]. intros _. exists f, tl. split; auto. apply MP; auto.
      apply Forall_app. split; auto. constructor; auto. apply HL'. rewrite El. left; auto.
    - destruct (vw2_open _ HO pick line k Hp HD H3 Ec) as (out & E & Hs). exists out. split; auto. split; [|discriminate]. intros _. apply MP; auto.
  Qed.

  (* ---- 3D ---- *)
  Notation onp3 := (@grid_point3 prec emax epsexp at2 s n).
  Notation val3 := (@point_value3 prec emax epsexp at2).
  Record vw3_ok : Prop := { v3_s : scale_ok prec emax s; v3_ss : scale_ok prec emax (s + s); v3_4 : scale_ok prec emax ((s + s) + (s + s));
    v3_n : (192 * (n * n * (n * n)) <= 2 ^ prec)%Z }.
  Lemma area3_exact (OK : vw3_ok) (a b c : V3 FS) : onp3 a -> onp3 b -> onp3 c -> good (area3 a b c) /\ rv (area3 a b c) = area3 (val3 a) (val3 b) (val3 c).
  Proof.
    intros (Ax & Ay & Az) (Bx & By & Bz) (Cx & Cy & Cz). destruct OK. assert (N0 := ong_nonneg _ _ _ _ _ Ax).
    assert (NN : (0 <= n * n)%Z) by nia. assert (NNN : (n = 0 \/ 1 <= n * n)%Z) by nia.
    assert (X : forall x y, ong s n x -> ong s n y -> ong s (2 * n) (SFsub prec emax x y) /\ rv (SFsub prec emax x y) = rv x - rv y).
    { intros x y Hx Hy. replace (2 * n)%Z with (n + n)%Z by lia. apply ong_sub; auto. nia. }
    destruct (X _ _ Ax Bx) as [G1 E1], (X _ _ Ay By) as [G2 E2], (X _ _ Az Bz) as [G3 E3], (X _ _ Cx Bx) as [G4 E4], (X _ _ Cy By) as [G5 E5], (X _ _ Cz Bz) as [G6 E6].
    assert (M : forall x y z w, ong s (2 * n) x -> ong s (2 * n) y -> ong s (2 * n) z -> ong s (2 * n) w ->
      ong (s + s) (8 * (n * n)) (SFsub prec emax (SFmul prec emax x y) (SFmul prec emax z w)) /\ rv (SFsub prec emax (SFmul prec emax x y) (SFmul prec emax z w)) = rv x * rv y - rv z * rv w).
    { intros x y z w Hx Hy Hz Hw.
      destruct (ong_mul prec emax Hprec Hmax s s _ _ _ _ v3_ss0 Hx Hy) as [F1 F2]; [nia|]. destruct (ong_mul prec emax Hprec Hmax s s _ _ _ _ v3_ss0 Hz Hw) as [F3 F4]; [nia|].
      destruct (ong_sub prec emax Hprec Hmax (s + s) _ _ _ _ v3_ss0 F1 F3) as [F5 F6]; [nia|]. split; [eapply ong_weaken; [exact F5|nia]|]. rewrite F6, F2, F4. reflexivity. }
    assert (Q : forall x, ong (s + s) (8 * (n * n)) x -> ong ((s + s) + (s + s)) (64 * (n * n * (n * n))) (SFmul prec emax x x) /\ rv (SFmul prec emax x x) = rv x * rv x).
    { intros x Hx. destruct (ong_mul prec emax Hprec Hmax (s + s) (s + s) _ _ _ _ v3_5 Hx Hx) as [F1 F2]; [nia|]. split; [eapply ong_weaken; [exact F1|nia]|exact F2]. }
    unfold area3. cbn [sadd ssub smul FloatS RS car point_value3 wx wy wz].
    destruct (M _ _ _ _ G2 G6 G5 G3) as [P1 P1e], (M _ _ _ _ G1 G6 G4 G3) as [P2 P2e], (M _ _ _ _ G1 G5 G4 G2) as [P3 P3e].
    destruct (Q _ P1) as [Q1 Q1e], (Q _ P2) as [Q2 Q2e], (Q _ P3) as [Q3 Q3e].
    destruct (ong_add prec emax Hprec Hmax _ _ _ _ _ v3_5 Q1 Q2) as [S1 S1e]; [lia|].
    destruct (ong_add prec emax Hprec Hmax _ _ _ _ _ v3_5 S1 Q3) as [S2 S2e]; [lia|].
    split; [apply S2|]. rewrite S2e, S1e, Q1e, Q2e, Q3e, P1e, P2e, P3e, E1, E2, E3, E4, E5, E6. reflexivity.
  Qed.
  Lemma triangle_area3_eq (a b c : pt3) : triangle_area3 a b c = (sqrt (area3 (S := RS) a b c) / 2)%R.
  Proof. unfold triangle_area3, area3. cbn. f_equal. f_equal. unfold Rsqr. ring. Qed.
  Lemma area3_nonneg (a b c : pt3) : 0 <= area3 (S := RS) a b c.
  Proof. unfold area3; cbn. apply Rplus_le_le_0_compat; [apply Rplus_le_le_0_compat|]; apply Rle_0_sqr. Qed.
  Lemma vw3_grid (OK : vw3_ok) pick (line : list (V3 FS)) k : pops_smallest (S := FS) (fun x => x <> S754_nan) pick -> (3 <= length line)%nat -> Forall onp3 line ->
    exists out z, simplify_vw_3d pick line k = Val out /\ hd_error (rev line) = Some z /\
      vw_steps (S := RS) triangle_area3 (Nat.min k (length line - 2)) (map val3 line) (map val3 (out ++ [z])).
  Proof.
    intros Hp H3 HL. assert (HL' := HL). rewrite Forall_forall in HL'.
    assert (HD : forall a b c, In a line -> In b line -> In c line -> area3 a b c <> S754_nan).
    { intros a b c Ia Ib Ic. apply good_not_nan. apply (area3_exact OK a b c); auto. }
    pose proof (OrdOn_float prec emax epsexp at2) as HO.
    destruct (vw3_total _ HO pick line k Hp HD H3) as (out & z & E & Hz & Hs). exists out, z. split; auto. split; auto.
    revert Hs HL. generalize (Nat.min k (length line - 2)), (out ++ [z]), line. clear - OK Hprec Hmax.
    intros k' q p Hs HL. revert Hs HL. apply (vw_steps_map (S := FS) (S' := RS)).
    intros a b c a' b' c' Ha Hb Hc Ha' Hb' Hc' E. destruct (area3_exact OK a b c) as [G1 E1], (area3_exact OK a' b' c') as [G2 E2]; auto.
    cbn [sltb FloatS RS] in *. rewrite (ltb_R prec emax at2 _ _ G1 G2), E1, E2 in E. rewrite !triangle_area3_eq. apply Rltb_false in E. apply Rltb_false.
    apply Rmult_le_compat_r; [lra|]. apply sqrt_le_1; auto using area3_nonneg.
  Qed.
End Grid.
