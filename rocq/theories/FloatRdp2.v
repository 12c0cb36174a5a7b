(* Ramer-Douglas-Peucker on floats as Ramer-Douglas-Peucker on the real values of the computed distances; consequences for
   lines given backwards and for lines scaled by a power of two. *)
From Coq Require Import ZArith Reals Lra Lia Psatz Floats.SpecFloat.
From Flocq Require Import Core BinarySingleNaN.
From Verif Require Import Prelude Scalar RInst Flt FloatSpec FloatLink FloatGrid FloatRound Geo2 Geo3 GeoSpec DistR Simplify Rdp1 Rdp2 Rdp3 RdpRev FltOrd FloatIsect FloatRdp FloatDist FloatVal DiscSym.
Local Open Scope R_scope.

Section Grid.
  Context (prec emax epsexp : Z) (at2 : spec_float -> spec_float -> spec_float) (Hprec : Prec_gt_0 prec) (Hmax : Prec_lt_emax prec emax).
  Notation FS := (FloatS prec emax epsexp at2).
  Notation good := (finite_float prec emax).
  Notation rv := fvalue.
  Notation ong := (on_grid prec emax).
  Notation rnd := (round radix2 (SpecFloat.fexp prec emax) ZnearestE).
  Notation emin := (SpecFloat.emin prec emax).

  (* ---- transport ---- *)
  Section Transport.
    Context {A : Type} (dist : A -> A -> A -> car FS) (on : A -> Prop) (Hg : forall a b p, on a -> on b -> on p -> good (dist a b p)).
    Let dr (a b p : A) : car RS := rv (dist a b p).

    Lemma fold_tr l : Forall (fun x : car FS * nat => good (fst x)) l -> forall a : car FS * nat, good (fst a) ->
      fold_left (max_step (S := RS)) (map (fun x : car FS * nat => (rv (fst x) : car RS, snd x)) l) (rv (fst a) : car RS, snd a) =
      ((rv (fst (fold_left (max_step (S := FS)) l a)) : car RS, snd (fold_left (max_step (S := FS)) l a))) /\ good (fst (fold_left (max_step (S := FS)) l a)).
    Proof.
      induction 1 as [|x l Gx Gl IH]; intros a Ga; [split; auto|]. cbn [map fold_left].
      assert (E : max_step (S := RS) (rv (fst a) : car RS, snd a) (rv (fst x) : car RS, snd x) = (rv (fst (max_step (S := FS) a x)) : car RS, snd (max_step (S := FS) a x)) /\ good (fst (max_step (S := FS) a x))).
      { unfold max_step. cbn [fst snd]. rewrite <- (pcmp_R prec emax epsexp at2) by auto. destruct (spcmp (S := FS) (fst a) (fst x)) as [[]|]; split; auto. }
      destruct E as [E Gm]. rewrite E. apply IH. exact Gm.
    Qed.
    Lemma farthest_tr a mid b v i : mid <> [] -> on a -> on b -> Forall on mid -> farthest (S := FS) dist (a :: mid ++ [b]) a b = (v, i) ->
      farthest (S := RS) dr (a :: mid ++ [b]) a b = (rv v : car RS, i) /\ good v.
    Proof.
      intros Hm Ha Hb Hmid. rewrite (farthest_cand (S := FS) dist), (farthest_cand (S := RS) dr).
      assert (Ec : cand (S := RS) dr a b mid = map (fun x : car FS * nat => (rv (fst x) : car RS, snd x)) (cand (S := FS) dist a b mid)) by (unfold cand; rewrite map_map; reflexivity).
      rewrite Ec. assert (Gc : Forall (fun x : car FS * nat => good (fst x)) (cand (S := FS) dist a b mid)).
      { apply (cand_D (S := FS) dist good). intros p Hp. apply Hg; auto. rewrite Forall_forall in Hmid. auto. }
      destruct (cand (S := FS) dist a b mid) as [|c l] eqn:El; [destruct mid; [congruence|discriminate]|].
      cbn [map max_by]. inversion Gc as [|? ? G1 G2]; subst. destruct (fold_tr l G2 c G1) as [E G].
      intros Ev. rewrite E, Ev in *. split; [reflexivity|exact G].
    Qed.
    Lemma Rdp_tr d2 pts out : good d2 -> Rdp (S := FS) dist d2 pts out -> Forall on pts -> Rdp (S := RS) dr (rv d2) pts out.
    Proof.
      intros Gd H; induction H as [a|a b|a mid b Hm Hs|a m1 p m2 b l r Hf Hs Hl IHl Hr IHr]; intros HL; [constructor|constructor| |].
      - assert (Ha : on a) by (inversion HL; auto). assert (HL' := Forall_inv_tail HL). apply Forall_app in HL' as [Hmid Hb]. apply Forall_inv in Hb.
        destruct (farthest (S := FS) dist (a :: mid ++ [b]) a b) as [v i] eqn:E. destruct (farthest_tr a mid b v i Hm Ha Hb Hmid E) as [E' Gv].
        apply R_drop; auto. rewrite E'. cbn [fst] in *. cbn [sleb FloatS] in Hs. rewrite (leb_R prec emax at2) in Hs by auto. exact Hs.
      - assert (Ha : on a) by (inversion HL; auto). assert (HL' := Forall_inv_tail HL). apply Forall_app in HL' as [Hmid Hb]. apply Forall_inv in Hb.
        assert (Hm : m1 ++ p :: m2 <> []) by (destruct m1; discriminate).
        destruct (farthest_tr a (m1 ++ p :: m2) b _ _ Hm Ha Hb Hmid Hf) as [E' Gv]. apply Forall_app in Hmid as [H1 H2]. assert (Hp := Forall_inv H2). apply Forall_inv_tail in H2.
        apply R_split; auto.
        + cbn [sleb FloatS] in Hs. rewrite (leb_R prec emax at2) in Hs by auto. exact Hs.
        + apply IHl. constructor; auto. apply Forall_app. split; auto.
        + apply IHr. constructor; auto. apply Forall_app. split; auto.
    Qed.
    Lemma rdp_tr pts d : Forall on pts -> good (SFmul prec emax d d) -> 0 <= rv (SFmul prec emax d d) ->
      simplify_rdp (S := FS) dist pts d = simplify_rdp (S := RS) dr pts (sqrt (rv (SFmul prec emax d d))).
    Proof.
      intros HL Gd Pd. destruct (le_lt_dec (length pts) 2) as [H|H].
      - unfold simplify_rdp. replace (Nat.leb (length pts) 2) with true by (symmetry; apply Nat.leb_le; auto). reflexivity.
      - destruct (simplify_rdp_rel (S := FS) dist pts d H) as (a & t & out & Ep & Rp & ->).
        apply (Rdp_tr _ _ _ Gd) in Rp; auto.
        unfold simplify_rdp. replace (Nat.leb (length pts) 2) with false by (symmetry; apply Nat.leb_gt; auto).
        rewrite Ep at 1. unfold idx at 1. cbn [nth_error obind].
        replace (smul (s := RS) (sqrt (rv (SFmul prec emax d d))) (sqrt (rv (SFmul prec emax d d)))) with (rv (SFmul prec emax d d)) by (symmetry; apply sqrt_sqrt; auto).
        rewrite (Rdp_rdp_rec (S := RS) dr _ _ _ Rp) by lia. reflexivity.
    Qed.
  End Transport.
  (* only points of the line matter *)
  Lemma rdp_ext {A} (d1 d2 : A -> A -> A -> car RS) (on : A -> Prop) pts (d : R) : (forall a b p, on a -> on b -> on p -> d1 a b p = d2 a b p) -> Forall on pts ->
    simplify_rdp (S := RS) d1 pts d = simplify_rdp (S := RS) d2 pts d.
  Proof.
    intros He HL. destruct (le_lt_dec (length pts) 2) as [H|H].
    - unfold simplify_rdp. replace (Nat.leb (length pts) 2) with true by (symmetry; apply Nat.leb_le; auto). reflexivity.
    - destruct (simplify_rdp_rel (S := RS) d1 pts d H) as (a & t & out & Ep & Rp & E). refine (eq_trans E _). clear E.
      assert (Rp' : Rdp (S := RS) d2 (smul (s := RS) d d) pts out).
      { clear Ep H. induction Rp as [x|x y|x mid y Hm Hs|x m1 p m2 y l r Hf Hs Hl IHl Hr IHr]; [constructor|constructor| |].
        - assert (Ha : on x) by (inversion HL; auto). assert (HL' := Forall_inv_tail HL). apply Forall_app in HL' as [Hmid Hb]. apply Forall_inv in Hb.
          apply R_drop; auto. rewrite <- Hs. f_equal. f_equal. rewrite !farthest_cand. f_equal. 
          assert (Ec : cand (S := RS) d1 x y mid = cand (S := RS) d2 x y mid); [|rewrite Ec; reflexivity].
          unfold cand. apply map_ext_in. intros [i q] Hq. cbn [fst snd]. f_equal. apply He; auto. apply in_combine_r in Hq. rewrite Forall_forall in Hmid. auto.
        - assert (Ha : on x) by (inversion HL; auto). assert (HL' := Forall_inv_tail HL). apply Forall_app in HL' as [Hmid Hb]. apply Forall_inv in Hb.
          assert (Hp : on p) by (apply Forall_app in Hmid as [_ Hmid]; apply Forall_inv in Hmid; auto).
          apply R_split; auto.
          + rewrite <- (He x y p) by auto. rewrite <- Hf. rewrite !farthest_cand.
            assert (Ec : cand (S := RS) d1 x y (m1 ++ p :: m2) = cand (S := RS) d2 x y (m1 ++ p :: m2)); [|rewrite Ec; reflexivity].
            unfold cand. apply map_ext_in. intros [i q] Hq. cbn [fst snd]. f_equal. apply He; auto. apply in_combine_r in Hq. rewrite Forall_forall in Hmid. auto.
          + rewrite <- (He x y p) by auto. exact Hs.
          + apply IHl. apply Forall_app in Hmid as [H1 H2]. constructor; auto. apply Forall_app. split; auto.
          + apply IHr. apply Forall_app in Hmid as [H1 H2]. apply Forall_inv_tail in H2. constructor; auto. apply Forall_app. split; auto. }
      unfold simplify_rdp. replace (Nat.leb (length pts) 2) with false by (symmetry; apply Nat.leb_gt; auto).
      rewrite Ep at 1. unfold idx at 1. cbn [nth_error obind]. rewrite (Rdp_rdp_rec (S := RS) d2 _ _ _ Rp') by lia. reflexivity.
  Qed.

  (* ---- the computed distance as a function of the real points ---- *)
  Notation dval2 := (dval2 prec emax).
  Notation dval3 := (dval3 prec emax).
  Definition dsafe2 (A B P : pt) : R := if veqb (S := RS) A B then sqdist P A else dval2 A B P.
  Definition dsafe3 (A B P : pt3) : R := if weqb (S := RS) A B then sqdist3 P A else dval3 A B P.

  Lemma veqb_sym (A B : pt) : veqb (S := RS) A B = veqb (S := RS) B A.
  Proof. destruct (veqb (S := RS) A B) eqn:E, (veqb (S := RS) B A) eqn:F; auto; [apply veqb_R in E; subst; rewrite <- F; symmetry; apply veqb_R; auto|apply veqb_R in F; subst; rewrite <- E; apply veqb_R; auto]. Qed.
  Lemma weqb_sym (A B : pt3) : weqb (S := RS) A B = weqb (S := RS) B A.
  Proof. destruct (weqb (S := RS) A B) eqn:E, (weqb (S := RS) B A) eqn:F; auto; [apply weqb_R in E; subst; rewrite <- F; symmetry; apply weqb_R; auto|apply weqb_R in F; subst; rewrite <- E; apply weqb_R; auto]. Qed.
  Lemma dsafe2_sym (A B P : pt) : dsafe2 B A P = dsafe2 A B P.
  Proof.
    unfold dsafe2. rewrite (veqb_sym B A). destruct (veqb (S := RS) A B) eqn:E; [apply veqb_R in E; subst; auto|].
    assert (N : A <> B) by (intros C; apply veqb_R in C; congruence). unfold FloatVal.dval2. cbv zeta.
    assert (ED : vmag2 (S := RS) (vsub B A) = vmag2 (S := RS) (vsub A B)) by (destruct A as [a1 a2], B as [b1 b2]; unfold vmag2, vdot, vsub; cbn [vx vy sadd ssub smul RS car] in *; ring).
    assert (EC : vperp (S := RS) (vsub B P) (vsub B A) = - vperp (S := RS) (vsub A P) (vsub A B)) by (destruct A as [a1 a2], B as [b1 b2], P as [p1 p2]; unfold vperp, vsub; cbn [vx vy sadd ssub smul RS car] in *; ring).
    assert (EN : vdot (S := RS) (vsub B P) (vsub B A) = vmag2 (S := RS) (vsub A B) - vdot (S := RS) (vsub A P) (vsub A B)) by (destruct A as [a1 a2], B as [b1 b2], P as [p1 p2]; unfold vmag2, vdot, vsub; cbn [vx vy sadd ssub smul RS car] in *; ring).
    assert (D0 : vmag2 (S := RS) (vsub A B) <> 0).
    { intros Z. apply N. rewrite mag_sqdist in Z. apply (sqdist_eq0 B A) in Z. auto. }
    rewrite ED, EC, EN, Rmult_opp_opp. revert D0. generalize (vmag2 (S := RS) (vsub A B)), (vdot (S := RS) (vsub A P) (vsub A B)), (vperp (S := RS) (vsub A P) (vsub A B)). intros D M C D0. cbn [car RS] in *.
    replace ((D - M) / D) with (1 - M / D) by (field; exact D0). set (q := M / D).
    destruct (Rltb_spec (1 - q) 0), (Rltb_spec q 0), (Rltb_spec 1 q), (Rltb_spec 1 (1 - q)); try lra; reflexivity.
  Qed.
  Lemma dsafe3_sym (A B P : pt3) : dsafe3 B A P = dsafe3 A B P.
  Proof.
    unfold dsafe3. rewrite (weqb_sym B A). destruct (weqb (S := RS) A B) eqn:E; [apply weqb_R in E; subst; auto|].
    unfold FloatVal.dval3. cbv zeta.
    assert (EX : dX B A P = - dX A B P) by (unfold dX; destruct A as [a1 a2 a3], B as [b1 b2 b3], P as [p1 p2 p3]; cbn [wx wy wz car RS] in *; ring).
    assert (EY : dY B A P = - dY A B P) by (unfold dY; destruct A as [a1 a2 a3], B as [b1 b2 b3], P as [p1 p2 p3]; cbn [wx wy wz car RS] in *; ring).
    assert (EZ : dZ B A P = - dZ A B P) by (unfold dZ; destruct A as [a1 a2 a3], B as [b1 b2 b3], P as [p1 p2 p3]; cbn [wx wy wz car RS] in *; ring).
    assert (ED : dD B A = dD A B) by (unfold dD; destruct A as [a1 a2 a3], B as [b1 b2 b3]; cbn [wx wy wz car RS] in *; ring).
    rewrite EX, EY, EZ, ED, !Rmult_opp_opp. reflexivity.
  Qed.

  (* ---- scaling by a power of two ---- *)
  Lemma rnd_scale k x : x = 0 \/ (normal prec emax x /\ normal prec emax (bpow radix2 k * x)) -> rnd (bpow radix2 k * x) = bpow radix2 k * rnd x.
  Proof.
    intros [->|[N1 N2]]; [rewrite Rmult_0_r, rnd_0; ring|]. assert (B := bpow_gt_0 radix2 k).
    assert (NZ : x <> 0). { intros ->. unfold normal in N1. rewrite Rabs_R0 in N1. pose proof (bpow_gt_0 radix2 (emin + prec - 1)). lra. }
    assert (M1 : (emin + prec <= mag radix2 x)%Z).
    { apply mag_ge_bpow. replace (emin + prec - 1)%Z with (emin + prec - 1)%Z by lia. exact N1. }
    assert (M2 : (mag radix2 (bpow radix2 k * x) = mag radix2 x + k :> Z)%Z) by (rewrite Rmult_comm; apply mag_mult_bpow; auto).
    assert (M3 : (emin + prec <= mag radix2 (bpow radix2 k * x))%Z) by (apply mag_ge_bpow; exact N2).
    assert (C : cexp radix2 (SpecFloat.fexp prec emax) (bpow radix2 k * x) = (cexp radix2 (SpecFloat.fexp prec emax) x + k)%Z).
    { unfold cexp, SpecFloat.fexp in *. rewrite M2 in *. rewrite !Z.max_l by lia. lia. }
    unfold round, scaled_mantissa. rewrite C. unfold Defs.F2R. cbn [Fnum Fexp].
    replace (bpow radix2 k * x * bpow radix2 (- (cexp radix2 (SpecFloat.fexp prec emax) x + k))) with (x * bpow radix2 (- cexp radix2 (SpecFloat.fexp prec emax) x)).
    - rewrite bpow_plus. ring.
    - rewrite Z.opp_add_distr, bpow_plus, (bpow_opp radix2 k). field. lra.
  Qed.
  Definition mul2 (c : R) (A : pt) : pt := @mkV2 RS (c * vx A) (c * vy A).
  Definition mul3 (c : R) (A : pt3) : pt3 := @mkV3 RS (c * wx A) (c * wy A) (c * wz A).
  Notation small2 := (small2 prec emax).
  Notation small3 := (small3 prec emax).
  Lemma bp2 k : bpow radix2 k * bpow radix2 k = bpow radix2 (k + k).
  Proof. rewrite bpow_plus. reflexivity. Qed.
  Lemma zscale c x : 0 < c -> c * x = 0 -> x = 0.
  Proof. intros Hc H. apply Rmult_integral in H as [H|H]; [lra|auto]. Qed.
  (* both values are zero, or both are normal *)
  Lemma nz_both k x y : y = bpow radix2 k * x -> x = 0 \/ normal prec emax x -> y = 0 \/ normal prec emax y -> x = 0 \/ (normal prec emax x /\ normal prec emax (bpow radix2 k * x)).
  Proof.
    intros -> [H|H]; [auto|]. intros [Z|Z]; [left; apply (zscale (bpow radix2 k)); auto; apply bpow_gt_0|right; auto].
  Qed.
  Lemma dval2_scale k A B P : A <> B -> small2 A B P -> small2 (mul2 (bpow radix2 k) A) (mul2 (bpow radix2 k) B) (mul2 (bpow radix2 k) P) ->
    dval2 (mul2 (bpow radix2 k) A) (mul2 (bpow radix2 k) B) (mul2 (bpow radix2 k) P) = bpow radix2 k * bpow radix2 k * dval2 A B P.
  Proof.
    intros N. assert (Bk := bpow_gt_0 radix2 k). unfold FloatVal.small2, FloatVal.dval2. cbv zeta.
    assert (ED : vmag2 (S := RS) (vsub (mul2 (bpow radix2 k) A) (mul2 (bpow radix2 k) B)) = bpow radix2 (k + k) * vmag2 (S := RS) (vsub A B)).
    { rewrite <- bp2. generalize (bpow radix2 k). intros c. destruct A as [a1 a2], B as [b1 b2]. unfold mul2, vmag2, vdot, vsub. cbn [vx vy sadd ssub smul RS car] in *. ring. }
    assert (EN : vdot (S := RS) (vsub (mul2 (bpow radix2 k) A) (mul2 (bpow radix2 k) P)) (vsub (mul2 (bpow radix2 k) A) (mul2 (bpow radix2 k) B)) = bpow radix2 (k + k) * vdot (S := RS) (vsub A P) (vsub A B)).
    { rewrite <- bp2. generalize (bpow radix2 k). intros c. destruct A as [a1 a2], B as [b1 b2], P as [p1 p2]. unfold mul2, vmag2, vdot, vsub. cbn [vx vy sadd ssub smul RS car] in *. ring. }
    assert (EC : vperp (S := RS) (vsub (mul2 (bpow radix2 k) A) (mul2 (bpow radix2 k) P)) (vsub (mul2 (bpow radix2 k) A) (mul2 (bpow radix2 k) B)) = bpow radix2 (k + k) * vperp (S := RS) (vsub A P) (vsub A B)).
    { rewrite <- bp2. generalize (bpow radix2 k). intros c. destruct A as [a1 a2], B as [b1 b2], P as [p1 p2]. unfold mul2, vperp, vsub. cbn [vx vy sadd ssub smul RS car] in *. ring. }
    assert (E1 : forall Q : pt, sqdist (mul2 (bpow radix2 k) P) (mul2 (bpow radix2 k) Q) = bpow radix2 k * bpow radix2 k * sqdist P Q).
    { intros Q. generalize (bpow radix2 k). intros c. destruct Q as [b1 b2], P as [p1 p2]. unfold mul2, sqdist. cbn [vx vy car RS] in *. ring. }
    assert (D0 : vmag2 (S := RS) (vsub A B) <> 0).
    { intros Z. apply N. rewrite mag_sqdist in Z. apply (sqdist_eq0 B A) in Z. auto. }
    rewrite ED, EN, EC, !E1. revert D0. generalize (vmag2 (S := RS) (vsub A B)), (vdot (S := RS) (vsub A P) (vsub A B)), (vperp (S := RS) (vsub A P) (vsub A B)). intros D M C D0. cbn [car RS] in *.
    assert (B2 := bpow_gt_0 radix2 (k + k)).
    replace (bpow radix2 (k + k) * M / (bpow radix2 (k + k) * D)) with (M / D) by (field; split; [exact D0|lra]).
    replace (bpow radix2 (k + k) * C * (bpow radix2 (k + k) * C)) with (bpow radix2 (k + k + (k + k)) * (C * C)) by (rewrite (bpow_plus _ (k + k) (k + k)); ring).
    intros [S1 S2] [S3 S4].
    assert (R1 : rnd (bpow radix2 (k + k + (k + k)) * (C * C)) = bpow radix2 (k + k + (k + k)) * rnd (C * C)) by (apply rnd_scale; eapply nz_both; [reflexivity|eassumption|eassumption]).
    assert (Q : bpow radix2 (k + k + (k + k)) * rnd (C * C) / (bpow radix2 (k + k) * D) = bpow radix2 (k + k) * (rnd (C * C) / D)).
    { rewrite (bpow_plus _ (k + k) (k + k)). field. split; [exact D0|lra]. }
    rewrite R1, Q in *. rewrite rnd_scale by (eapply nz_both; [reflexivity|eassumption|eassumption]). rewrite <- bp2.
    destruct (Rltb (M / D) 0); [reflexivity|]. destruct (Rltb 1 (M / D)); reflexivity.
  Qed.
  Lemma dval3_scale k A B P : A <> B -> small3 A B P -> small3 (mul3 (bpow radix2 k) A) (mul3 (bpow radix2 k) B) (mul3 (bpow radix2 k) P) ->
    dval3 (mul3 (bpow radix2 k) A) (mul3 (bpow radix2 k) B) (mul3 (bpow radix2 k) P) = bpow radix2 k * bpow radix2 k * dval3 A B P.
  Proof.
    intros N. assert (Bk := bpow_gt_0 radix2 k). unfold FloatVal.small3, FloatVal.dval3. cbv zeta.
    assert (EX : dX (mul3 (bpow radix2 k) A) (mul3 (bpow radix2 k) B) (mul3 (bpow radix2 k) P) = bpow radix2 (k + k) * dX A B P).
    { rewrite <- bp2. generalize (bpow radix2 k). intros c. destruct A as [a1 a2 a3], B as [b1 b2 b3], P as [p1 p2 p3]. unfold mul3, dX. cbn [wx wy wz car RS] in *. ring. }
    assert (EY : dY (mul3 (bpow radix2 k) A) (mul3 (bpow radix2 k) B) (mul3 (bpow radix2 k) P) = bpow radix2 (k + k) * dY A B P).
    { rewrite <- bp2. generalize (bpow radix2 k). intros c. destruct A as [a1 a2 a3], B as [b1 b2 b3], P as [p1 p2 p3]. unfold mul3, dY. cbn [wx wy wz car RS] in *. ring. }
    assert (EZ : dZ (mul3 (bpow radix2 k) A) (mul3 (bpow radix2 k) B) (mul3 (bpow radix2 k) P) = bpow radix2 (k + k) * dZ A B P).
    { rewrite <- bp2. generalize (bpow radix2 k). intros c. destruct A as [a1 a2 a3], B as [b1 b2 b3], P as [p1 p2 p3]. unfold mul3, dZ. cbn [wx wy wz car RS] in *. ring. }
    assert (ED : dD (mul3 (bpow radix2 k) A) (mul3 (bpow radix2 k) B) = bpow radix2 (k + k) * dD A B).
    { rewrite <- bp2. generalize (bpow radix2 k). intros c. destruct A as [a1 a2 a3], B as [b1 b2 b3]. unfold mul3, dD. cbn [wx wy wz car RS] in *. ring. }
    assert (D0 : dD A B <> 0). { intros Z. apply N. apply sqdist3_eq0. exact Z. }
    rewrite EX, EY, EZ, ED. revert D0. generalize (dX A B P), (dY A B P), (dZ A B P), (dD A B). intros X Y Z D D0.
    assert (B2 := bpow_gt_0 radix2 (k + k)). set (K := (k + k + (k + k))%Z).
    assert (Sq : forall x, bpow radix2 (k + k) * x * (bpow radix2 (k + k) * x) = bpow radix2 K * (x * x)) by (intros x; unfold K; rewrite (bpow_plus _ (k + k) (k + k)); ring).
    rewrite !Sq. intros (S1 & S2 & S3 & S4 & S5 & S6) (T1 & T2 & T3 & T4 & T5 & T6).
    rewrite (rnd_scale K (X * X)) in * by (eapply nz_both; [reflexivity|eassumption|eassumption]).
    rewrite (rnd_scale K (Y * Y)) in * by (eapply nz_both; [reflexivity|eassumption|eassumption]).
    rewrite (rnd_scale K (Z * Z)) in * by (eapply nz_both; [reflexivity|eassumption|eassumption]).
    rewrite <- Rmult_plus_distr_l in *. rewrite (rnd_scale K (rnd (X * X) + rnd (Y * Y))) in * by (eapply nz_both; [reflexivity|eassumption|eassumption]).
    rewrite <- Rmult_plus_distr_l in *. rewrite (rnd_scale K (rnd (rnd (X * X) + rnd (Y * Y)) + rnd (Z * Z))) in * by (eapply nz_both; [reflexivity|eassumption|eassumption]).
    assert (Q : bpow radix2 K * rnd (rnd (rnd (X * X) + rnd (Y * Y)) + rnd (Z * Z)) / (bpow radix2 (k + k) * D) = bpow radix2 (k + k) * (rnd (rnd (rnd (X * X) + rnd (Y * Y)) + rnd (Z * Z)) / D)).
    { unfold K. rewrite (bpow_plus _ (k + k) (k + k)). field. split; [exact D0|lra]. }
    rewrite Q in *. rewrite rnd_scale by (eapply nz_both; [reflexivity|eassumption|eassumption]). rewrite <- bp2. reflexivity.
  Qed.

  (* ---- the theorems ---- *)
  Notation onp s n := (@grid_point prec emax epsexp at2 s n).
  Notation val := (@point_value prec emax epsexp at2).
  Notation onp3 s n := (@grid_point3 prec emax epsexp at2 s n).
  Notation val3 := (@point_value3 prec emax epsexp at2).
  Definition fine (s n : Z) : Prop := rdp_ok prec emax epsexp s n /\ (4 <= prec)%Z /\ (epsexp < s)%Z /\ (emin + 3 <= s)%Z /\ (0 < n <= 2 ^ (prec - 4))%Z.
  Lemma safe2_value s n (a b p : V2 FS) : fine s n -> onp s n a -> onp s n b -> onp s n p ->
    good (dist_line2_safe a b p) /\ rv (dist_line2_safe a b p) = dsafe2 (val a) (val b) (val p) /\ (val a <> val b -> small2 (val a) (val b) (val p)).
  Proof.
    intros (OK & P4 & Es & Em & Hn) Ha Hb Hp. destruct (dist2_safe_both prec emax epsexp at2 Hprec Hmax s n OK P4 Es Em Hn a b p Ha Hb Hp) as [G _].
    split; [exact G|]. clear G. unfold dsafe2. destruct (veqb (S := RS) (val a) (val b)) eqn:E.
    - apply veqb_R in E. split; [|intros N; congruence]. unfold dist_line2_safe.
      replace (vulps a b) with true.
      2:{ symmetry. destruct Ha as [Ax Ay], Hb as [Bx By]. injection E as C1 C2. unfold vulps.
          rewrite (sulps_same prec emax epsexp at2 Hprec Hmax s n OK _ _ Ax Bx C1), (sulps_same prec emax epsexp at2 Hprec Hmax s n OK _ _ Ay By C2). reflexivity. }
      destruct Ha as [Ax Ay], Hp as [Px Py].
      destruct (dif prec emax epsexp Hprec Hmax s n OK _ _ Ax Px) as [F1 F1e], (dif prec emax epsexp Hprec Hmax s n OK _ _ Ay Py) as [F2 F2e].
      destruct (prd prec emax epsexp Hprec Hmax s n OK _ _ F1 F1) as [S1 S1e], (prd prec emax epsexp Hprec Hmax s n OK _ _ F2 F2) as [S2 S2e], (sm2 prec emax epsexp Hprec Hmax s n OK _ _ S1 S2) as [M M_e].
      change (vdist2 (S := FS) a p) with (SFadd prec emax (SFmul prec emax (SFsub prec emax (vx a) (vx p)) (SFsub prec emax (vx a) (vx p))) (SFmul prec emax (SFsub prec emax (vy a) (vy p)) (SFsub prec emax (vy a) (vy p)))).
      rewrite M_e, S1e, S2e, F1e, F2e. unfold sqdist, point_value. cbn [vx vy]. rring.
    - assert (N : val a <> val b) by (intros C; apply veqb_R in C; congruence).
      destruct (dist2_value prec emax epsexp at2 Hprec Hmax s n OK a b p Ha Hb Hp N) as (_ & V & Sm). split; [|auto].
      unfold dist_line2_safe. destruct (vulps a b) eqn:Eu; [|exact V].
      exfalso. apply N. exact (vulps_ex prec emax epsexp at2 Hprec Hmax s n OK P4 Es Em Hn a b Ha Hb Eu).
  Qed.
  Lemma safe3_value s n (a b p : V3 FS) : fine s n -> onp3 s n a -> onp3 s n b -> onp3 s n p ->
    good (dist_line3_safe a b p) /\ rv (dist_line3_safe a b p) = dsafe3 (val3 a) (val3 b) (val3 p) /\ (val3 a <> val3 b -> small3 (val3 a) (val3 b) (val3 p)).
  Proof.
    intros (OK & P4 & Es & Em & Hn) Ha Hb Hp. destruct (dist3_safe_both prec emax epsexp at2 Hprec Hmax s n OK P4 Es Em Hn a b p Ha Hb Hp) as [G _].
    split; [exact G|]. clear G. unfold dsafe3. destruct (weqb (S := RS) (val3 a) (val3 b)) eqn:E.
    - apply weqb_R in E. split; [|intros N; congruence]. unfold dist_line3_safe.
      replace (wulps a b) with true.
      2:{ symmetry. destruct Ha as (Ax & Ay & Az), Hb as (Bx & By & Bz). injection E as C1 C2 C3. unfold wulps.
          rewrite (sulps_same prec emax epsexp at2 Hprec Hmax s n OK _ _ Ax Bx C1), (sulps_same prec emax epsexp at2 Hprec Hmax s n OK _ _ Ay By C2), (sulps_same prec emax epsexp at2 Hprec Hmax s n OK _ _ Az Bz C3). reflexivity. }
      destruct Ha as (Ax & Ay & Az), Hp as (Px & Py & Pz).
      destruct (dif prec emax epsexp Hprec Hmax s n OK _ _ Ax Px) as [F1 F1e], (dif prec emax epsexp Hprec Hmax s n OK _ _ Ay Py) as [F2 F2e], (dif prec emax epsexp Hprec Hmax s n OK _ _ Az Pz) as [F3 F3e].
      destruct (prd prec emax epsexp Hprec Hmax s n OK _ _ F1 F1) as [S1 S1e], (prd prec emax epsexp Hprec Hmax s n OK _ _ F2 F2) as [S2 S2e], (prd prec emax epsexp Hprec Hmax s n OK _ _ F3 F3) as [S3 S3e], (sm3 prec emax epsexp Hprec Hmax s n OK _ _ _ S1 S2 S3) as [M M_e].
      unfold wdist2, wmag2, wdot, wsub. cbn [wx wy wz sadd ssub smul FloatS].
      rewrite M_e, S1e, S2e, S3e, F1e, F2e, F3e. unfold sqdist3, point_value3. cbn [wx wy wz]. rring.
    - assert (N : val3 a <> val3 b) by (intros C; apply weqb_R in C; congruence).
      destruct (dist3_value prec emax epsexp at2 Hprec Hmax s n OK a b p Ha Hb Hp N) as (_ & V & Sm). split; [|auto].
      unfold dist_line3_safe. destruct (wulps a b) eqn:Eu; [|exact V].
      exfalso. apply N. exact (wulps_ex prec emax epsexp at2 Hprec Hmax s n OK P4 Es Em Hn a b Ha Hb Eu).
  Qed.
  Lemma tol_good d : tolerance_ok prec emax d -> good (SFmul prec emax d d) /\ 0 <= rv (SFmul prec emax d d) /\ rv (SFmul prec emax d d) = rnd (rv d * rv d).
  Proof.
    intros (G & P & N & B). destruct (mul_rnd prec emax Hprec Hmax d d) as [G1 E1]; auto.
    { apply rnd_finite with (emax - 1)%Z; auto; [unfold Prec_gt_0, Prec_lt_emax, SpecFloat.emin in *; lia|]. rewrite Rabs_pos_eq by apply Rle_0_sqr. auto. }
    split; [exact G1|]. split; [|exact E1]. rewrite E1. apply rnd_nonneg; auto. apply Rle_0_sqr.
  Qed.

  (* generic over the point type: [vals] maps points to real points, [dv] is the computed distance on real points *)
  Section Both.
    Context {A B : Type} (dist : A -> A -> A -> car FS) (vals : A -> B) (dv : B -> B -> B -> R) (dv_sym : forall a b p, dv b a p = dv a b p).
    Definition fits (on : A -> Prop) : Prop := forall a b p, on a -> on b -> on p -> good (dist a b p) /\ rv (dist a b p) = dv (vals a) (vals b) (vals p).
    Let dA (a b p : A) : car RS := dv (vals a) (vals b) (vals p).

    Lemma rdp_dv on pts d : fits on -> Forall on pts -> tolerance_ok prec emax d ->
      simplify_rdp (S := FS) dist pts d = simplify_rdp (S := RS) dA pts (sqrt (rv (SFmul prec emax d d))).
    Proof.
      intros F HL Hd. destruct (tol_good d Hd) as (G & P & _).
      rewrite (rdp_tr dist on (fun a b p Ha Hb Hp => proj1 (F a b p Ha Hb Hp)) pts d HL G P).
      apply (rdp_ext _ _ on); auto. intros a b p Ha Hb Hp. exact (proj2 (F a b p Ha Hb Hp)).
    Qed.
    Lemma rev_float on pts d : fits on -> Forall on pts -> tolerance_ok prec emax d ->
      (forall l1 a m1 p m2 q m3 b l2, pts = l1 ++ a :: (m1 ++ p :: m2 ++ q :: m3) ++ b :: l2 -> rv (dist a b p) = rv (dist a b q) ->
         rv (dist a b p) <= rv (SFmul prec emax d d) \/ exists r, In r (m1 ++ p :: m2 ++ q :: m3) /\ rv (dist a b p) < rv (dist a b r)) ->
      simplify_rdp (S := FS) dist (rev pts) d = omap (@rev A) (simplify_rdp (S := FS) dist pts d).
    Proof.
      intros F HL Hd HT. destruct (tol_good d Hd) as (G & P & _).
      rewrite (rdp_dv on (rev pts) d F) by (auto; apply Forall_rev; auto). rewrite (rdp_dv on pts d F) by auto.
      apply (rdp_rev dA). { intros a b p. apply dv_sym. }
      intros l1 a m1 p m2 q m3 b l2 E Eq. rewrite sqrt_sqrt by auto.
      assert (I : forall x, In x (a :: (m1 ++ p :: m2 ++ q :: m3) ++ [b]) -> on x).
      { intros x Hx. rewrite Forall_forall in HL. apply HL. rewrite E. apply in_app_iff. right. destruct Hx as [<-|Hx]; [left; auto|right].
        rewrite in_app_iff in Hx |- *. destruct Hx as [Hx|[<-|[]]]; [auto|right; left; auto]. }
      assert (Ia : on a) by (apply I; left; auto). assert (Ib : on b) by (apply I; right; apply in_app_iff; right; left; auto).
      assert (Im : forall x, In x (m1 ++ p :: m2 ++ q :: m3) -> on x) by (intros x Hx; apply I; right; apply in_app_iff; auto).
      assert (Ip : on p) by (apply Im; apply in_app_iff; right; left; auto).
      assert (Iq : on q) by (apply Im; apply in_app_iff; right; right; apply in_app_iff; right; left; auto).
      assert (V : forall x, on x -> rv (dist a b x) = dA a b x) by (intros x Hx; apply F; auto).
      destruct (HT l1 a m1 p m2 q m3 b l2 E) as [H|(r & Hr & H)].
      - rewrite !V by auto. exact Eq.
      - left. rewrite V in H by auto. exact H.
      - right. exists r. split; [exact Hr|]. rewrite !V in H by auto. exact H.
    Qed.
    Lemma scale_float on1 on2 k pts qs d d' : fits on1 -> fits on2 -> Forall on1 pts -> Forall on2 qs -> tolerance_ok prec emax d -> tolerance_ok prec emax d' ->
      rv d' = bpow radix2 k * rv d -> forall sc : A -> A -> Prop, Forall2 sc pts qs ->
      (forall a b p a' b' p', on1 a -> on1 b -> on1 p -> on2 a' -> on2 b' -> on2 p' -> sc a a' -> sc b b' -> sc p p' ->
         dv (vals a') (vals b') (vals p') = bpow radix2 k * bpow radix2 k * dv (vals a) (vals b) (vals p)) ->
      exists out out', simplify_rdp (S := FS) dist pts d = Val out /\ simplify_rdp (S := FS) dist qs d' = Val out' /\ Forall2 sc out out'.
    Proof.
      intros F1 F2 H1 H2 Hd Hd' Ed sc Hs Hsc. destruct (tol_good d Hd) as (G & P & E). destruct (tol_good d' Hd') as (G' & P' & E').
      rewrite (rdp_dv on1 pts d F1) by auto. rewrite (rdp_dv on2 qs d' F2) by auto.
      assert (Dd : sqrt (rv (SFmul prec emax d' d')) = bpow radix2 k * sqrt (rv (SFmul prec emax d d))).
      { rewrite E', E, Ed. replace (bpow radix2 k * rv d * (bpow radix2 k * rv d)) with (bpow radix2 (k + k) * (rv d * rv d)) by (rewrite <- bp2; ring).
        assert (Q : bpow radix2 k * rv d * (bpow radix2 k * rv d) = bpow radix2 (k + k) * (rv d * rv d)) by (rewrite <- bp2; ring).
        destruct Hd as (_ & _ & Nd & _), Hd' as (_ & _ & Nd' & _). rewrite Ed, Q in Nd'.
        rewrite rnd_scale.
        - rewrite <- bp2, sqrt_mult; [rewrite sqrt_square by apply bpow_ge_0; reflexivity|apply Rmult_le_pos; apply bpow_ge_0|apply rnd_nonneg; auto; apply Rle_0_sqr].
        - eapply nz_both; [reflexivity| |].
          + destruct Nd as [Z|Nd]; [left; rewrite Z; ring|right; exact Nd].
          + destruct Nd' as [Z|Nd']; [left; apply (f_equal (fun x => x * x)) in Z; rewrite Q, Rmult_0_l in Z; exact Z|right; exact Nd']. }
      rewrite Dd. generalize (sqrt (rv (SFmul prec emax d d))). intros D.
      set (l := combine pts qs).
      assert (L1 : map fst l = pts /\ map snd l = qs /\ Forall (fun x => on1 (fst x) /\ on2 (snd x) /\ sc (fst x) (snd x)) l).
      { clear -Hs H1 H2. unfold l. induction Hs as [|p q pts qs Hpq Hs IH]; [repeat split; constructor|]. inversion H1; inversion H2; subst. destruct IH as (I1 & I2 & I3); auto.
        cbn [combine map fst snd]. rewrite I1, I2. split; [auto|split; [auto|]]. constructor; auto. }
      destruct L1 as (L1 & L2 & L3). rewrite <- L1, <- L2.
      set (d1 := fun a b p : A * A => (dv (vals (fst a)) (vals (fst b)) (vals (fst p)) : car RS)).
      set (d2 := fun a b p : A * A => (dv (vals (snd a)) (vals (snd b)) (vals (snd p)) : car RS)).
      assert (T1 := simplify_rdp_similar (@fst A A) d1 dA 1 Rlt_0_1 ltac:(intros; unfold d1, dA; cbn [car RS] in *; ring) l D). rewrite Rmult_1_l in T1.
      assert (T2 := simplify_rdp_similar (@snd A A) d2 dA 1 Rlt_0_1 ltac:(intros; unfold d2, dA; cbn [car RS] in *; ring) l (bpow radix2 k * D)). rewrite Rmult_1_l in T2.
      assert (T3 := simplify_rdp_similar (fun x : A * A => x) d1 (fun a b p => bpow radix2 k * bpow radix2 k * d1 a b p) (bpow radix2 k) (bpow_gt_0 radix2 k) ltac:(intros; reflexivity) l D).
      rewrite map_id in T3.
      assert (T4 : simplify_rdp (S := RS) d2 l (bpow radix2 k * D) = simplify_rdp (S := RS) (fun a b p => bpow radix2 k * bpow radix2 k * d1 a b p) l (bpow radix2 k * D)).
      { apply (rdp_ext _ _ (fun x => on1 (fst x) /\ on2 (snd x) /\ sc (fst x) (snd x))); auto.
        intros a b p (A1 & A2 & A3) (B1 & B2 & B3) (P1 & P2 & P3). unfold d1, d2. apply Hsc; auto. }
      destruct (simplify_rdp_ok (S := RS) d1 l D) as (out & Eo & So & _). rewrite Eo in T1, T3. cbn [omap obind] in T1, T3. rewrite map_id in T3.
      assert (T5 : simplify_rdp (S := RS) d2 l (bpow radix2 k * D) = Val out) by (etransitivity; [exact T4|exact T3]).
      rewrite T5 in T2. cbn [omap obind] in T2. exists (map fst out), (map snd out). split; [exact T1|]. split; [exact T2|].
      assert (Fo : Forall (fun x => on1 (fst x) /\ on2 (snd x) /\ sc (fst x) (snd x)) out).
      { clear -So L3. rewrite Forall_forall in *. intros x Hx. apply L3. eapply subseq_In; eauto. }
      clear -Fo. induction Fo as [|x out (_ & _ & H) Fo IH]; cbn [map]; constructor; auto.
    Qed.
  End Both.
End Grid.
