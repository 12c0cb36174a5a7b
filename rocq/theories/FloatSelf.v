(* Self-intersection of short float line strings whose points are on a grid. *)
From Coq Require Import ZArith Reals Lra Lia Psatz Floats.SpecFloat.
From Flocq Require Import Core BinarySingleNaN.
From Verif Require Import Prelude Scalar RInst Flt FloatSpec FloatLink FloatGrid FloatRound Geo2 GeoSpec DistR IsectProofs FloatRdp FloatIsect FloatPoint.
Local Open Scope R_scope.

(* the start of an overlap is an end of one of the segments *)
Lemma overlap_end (a b : Line2 RS) (q r : pt) : q <> r -> (forall x, common a b x <-> on_segment x q r) ->
  (q = lstart a \/ q = lend a) \/ (q = lstart b \/ q = lend b).
Proof.
  intros N H. destruct (proj2 (H q) (on_segment_start _ _)) as [(t & Ht & Et) (w & Hw & Ew)]. destruct (proj2 (H r) (on_segment_end _ _)) as [(t' & Ht' & Et') (w' & Hw' & Ew')].
  assert (L0 : forall x y : pt, lerp x y 0 = x) by (intros; unfold lerp; apply V2_ext; rring). assert (L1 : forall x y : pt, lerp x y 1 = y) by (intros; unfold lerp; apply V2_ext; rring).
  destruct (Req_dec t 0) as [->|T0]; [left; left; rewrite Et; apply L0|]. destruct (Req_dec t 1) as [->|T1]; [left; right; rewrite Et; apply L1|].
  destruct (Req_dec w 0) as [->|W0]; [right; left; rewrite Ew; apply L0|]. destruct (Req_dec w 1) as [->|W1]; [right; right; rewrite Ew; apply L1|]. exfalso.
  set (e := Rmin (Rmin t (1 - t)) (Rmin w (1 - w))).
  assert (E0 : 0 < e) by (unfold e; repeat apply Rmin_glb_lt; lra).
  assert (E1 : e <= t /\ e <= 1 - t /\ e <= w /\ e <= 1 - w).
  { unfold e. repeat split; [eapply Rle_trans; [apply Rmin_l|apply Rmin_l]|eapply Rle_trans; [apply Rmin_l|apply Rmin_r]|eapply Rle_trans; [apply Rmin_r|apply Rmin_l]|eapply Rle_trans; [apply Rmin_r|apply Rmin_r]]. }
  assert (Ext : forall x y : pt, forall c c', 0 <= c <= 1 -> 0 <= c' <= 1 -> e <= c -> e <= 1 - c -> q = lerp x y c -> r = lerp x y c' -> on_segment (lerp q r (- e)) x y).
  { intros x y c c' Hc Hc' M1 M2 Q R. exists (c - e * (c' - c)). split.
    - assert (- e <= e * (c' - c) <= e) by (split; [apply Rle_trans with (e * (-1)); [lra|apply Rmult_le_compat_l; lra]|apply Rle_trans with (e * 1); [apply Rmult_le_compat_l; lra|lra]]). lra.
    - rewrite Q, R. unfold lerp. apply V2_ext; rring. }
  assert (X : common a b (lerp q r (- e))) by (split; [apply (Ext _ _ t t')|apply (Ext _ _ w w')]; tauto).
  apply H in X as (v & Hv & Ev). apply N. unfold lerp in Ev. injection Ev as V1 V2. cbn [vx vy] in *.
  apply V2_ext.
  - apply Rmult_eq_reg_l with (v + e); [|lra]. change ((v + e) * vx q = (v + e) * vx r :> R). lra.
  - apply Rmult_eq_reg_l with (v + e); [|lra]. change ((v + e) * vy q = (v + e) * vy r :> R). lra.
Qed.

Section Self.
  Context (prec emax epsexp : Z) (at2 : spec_float -> spec_float -> spec_float) (Hprec : Prec_gt_0 prec) (Hmax : Prec_lt_emax prec emax).
  Notation FS := (FloatS prec emax epsexp at2).
  Notation emin := (SpecFloat.emin prec emax).
  Notation good := (finite_float prec emax).
  Notation rv := fvalue.
  Notation ong := (on_grid prec emax).
  Notation rnd := (round radix2 (SpecFloat.fexp prec emax) ZnearestE).
  Notation u := (ulp1 prec).

  (* ulps-equal floats are close *)
  Lemma ulps_bound x y e : (4 <= prec)%Z -> scale_ok prec emax epsexp -> (emin < epsexp)%Z -> (emin <= e <= emax - 3)%Z -> good x -> good y -> Rabs (rv x) <= bpow radix2 e -> Rabs (rv y) <= bpow radix2 e ->
    fl_ulps_with prec emax (fl_pow2 prec emax epsexp) 4 x y = true -> Rabs (rv x - rv y) <= Rmax (2 * bpow radix2 epsexp) (8 * u * Rmax (Rabs (rv x)) (Rabs (rv y))).
  Proof.
    intros Hp Heps Hee He Hx Hy Ux Uy H. unfold fl_ulps_with in H. destruct (fl_absdiff _ _ _ _ _) eqn:Ea.
    - eapply Rle_trans; [|apply Rmax_l]. unfold fl_absdiff in Ea.
      assert (Bd : Rabs (rv x - rv y) <= bpow radix2 (e + 1)).
      { rewrite bpow_plus. change (bpow radix2 1) with 2. apply Rabs_le_inv in Ux. apply Rabs_le_inv in Uy. apply Rabs_le. lra. }
      destruct (sub_rnd prec emax Hprec Hmax x y Hx Hy) as [G E]; [eapply rnd_finite; [auto..| |exact Bd]; lia|].
      destruct (good_abs _ _ _ G) as [Ga Ea']. destruct (pow2_good prec emax Hprec Hmax epsexp Heps) as [Gp Ep].
      rewrite (leb_R prec emax at2 _ _ Ga Gp), Rleb_true, Ea', E, Ep in Ea. apply Rnot_lt_le. intros C.
      rewrite rnd_abs in Ea by auto. assert (L : bpow radix2 (epsexp + 1) <= Rabs (rv x - rv y)) by (rewrite bpow_plus; change (bpow radix2 1) with 2; lra).
      apply (rnd_le prec emax Hprec) in L. rewrite rnd_bpow in L by (auto; lia). rewrite bpow_plus in L. change (bpow radix2 1) with 2 in L. pose proof (bpow_gt_0 radix2 epsexp). lra.
    - clear Ea. destruct (fl_is_nan x || fl_is_nan y)%bool; [discriminate|]. destruct (negb (Bool.eqb (fl_signneg x) (fl_signneg y))) eqn:Sg; [discriminate|]. apply Bool.negb_false_iff, Bool.eqb_prop in Sg.
      apply Z.leb_le in H. change (Z.of_N 4) with 4%Z in H.
      assert (E2 : 4 * bpow radix2 emin <= 2 * bpow radix2 epsexp).
      { assert (bpow radix2 (emin + 1) <= bpow radix2 epsexp) by (apply bpow_le; lia). rewrite bpow_plus in H0. change (bpow radix2 1) with 2 in H0. lra. }
      assert (B0 := bpow_gt_0 radix2 epsexp). assert (U0 := ulp1_pos prec).
      assert (Small : forall b m e', valid_binary prec emax (S754_finite b m e') = true -> (Z.abs ((e' - emin) * 2 ^ (prec - 1) + Zpos m) <= 4)%Z -> Rabs (rv (S754_finite b m e')) <= 2 * bpow radix2 epsexp).
      { intros b m e' V Hm. destruct (valid_facts prec emax m e' ltac:(lia) V) as (A1 & A2 & A3). assert (2 ^ 3 <= 2 ^ (prec - 1))%Z by (apply Z.pow_le_mono_r; lia). change (2 ^ 3)%Z with 8%Z in H0.
        assert (e' = emin) by nia. subst e'. assert (Zpos m <= 4)%Z by nia. unfold fvalue, SF2R, Defs.F2R. cbn [Defs.Fnum Defs.Fexp].
        rewrite Rabs_mult, <- abs_IZR, (Rabs_pos_eq (bpow radix2 emin)) by apply bpow_ge_0. replace (Z.abs (cond_Zopp b (Zpos m))) with (Zpos m) by (destruct b; reflexivity).
        eapply Rle_trans; [|exact E2]. apply Rmult_le_compat_r; [apply bpow_ge_0|]. apply (IZR_le _ 4); auto. }
      destruct Hx as [Vx Fx], Hy as [Vy Fy].
      destruct x as [bx|bx| |bx mx ex]; try discriminate; destruct y as [by_|by_| |by_ my ey]; try discriminate; unfold fl_bits in H.
      + unfold fvalue. cbn [SF2R]. rewrite Rminus_0_r, Rabs_R0. eapply Rle_trans; [|apply Rmax_l]. lra.
      + eapply Rle_trans; [|apply Rmax_l]. rewrite Rabs_minus_sym. change (rv (S754_zero bx)) with 0. rewrite Rminus_0_r. apply Small; auto. lia.
      + eapply Rle_trans; [|apply Rmax_l]. change (rv (S754_zero by_)) with 0. rewrite Rminus_0_r. apply Small; auto. lia.
      + cbn [fl_signneg] in Sg. subst by_.
        assert (Vf : forall m e', rv (S754_finite bx m e') = (if bx then -1 else 1) * (IZR (Zpos m) * bpow radix2 e')).
        { intros m e'. unfold fvalue, SF2R, Defs.F2R. cbn [Defs.Fnum Defs.Fexp]. destruct bx; cbn [cond_Zopp]; [change (Z.neg m) with (- Zpos m)%Z; rewrite opp_IZR; ring|ring]. }
        assert (Va : forall m e', Rabs (rv (S754_finite bx m e')) = IZR (Zpos m) * bpow radix2 e').
        { intros m e'. assert (0 <= IZR (Zpos m) * bpow radix2 e') by (apply Rmult_le_pos; [apply IZR_le; lia|apply bpow_ge_0]). rewrite Vf, Rabs_mult, (Rabs_pos_eq (IZR _ * _)) by auto. destruct bx; [rewrite Rabs_left by lra|rewrite Rabs_R1]; ring. }
        replace (Rabs (rv (S754_finite bx mx ex) - rv (S754_finite bx my ey))) with (Rabs (IZR (Zpos mx) * bpow radix2 ex - IZR (Zpos my) * bpow radix2 ey)).
        2: { rewrite !Vf. destruct bx; [|f_equal; ring]. rewrite <- Rabs_Ropp. f_equal. ring. }
        rewrite !Va.
        assert (Core : forall m1 e1 m2 e2, valid_binary prec emax (S754_finite false m1 e1) = true -> valid_binary prec emax (S754_finite false m2 e2) = true -> (e1 <= e2)%Z ->
          (Z.abs (((e1 - emin) * 2 ^ (prec - 1) + Zpos m1) - ((e2 - emin) * 2 ^ (prec - 1) + Zpos m2)) <= 4)%Z ->
          Rabs (IZR (Zpos m1) * bpow radix2 e1 - IZR (Zpos m2) * bpow radix2 e2) <= Rmax (2 * bpow radix2 epsexp) (8 * u * (IZR (Zpos m2) * bpow radix2 e2))).
        { clear - Hp Hee. intros m1 e1 m2 e2 V1 V2 L Hb. destruct (bits_close prec emax m1 m2 e1 e2 Hp V1 V2 L Hb) as [C [Ee|N]].
          - eapply Rle_trans; [exact C|]. eapply Rle_trans; [|apply Rmax_l]. assert (bpow radix2 (emin + 1) <= bpow radix2 epsexp) by (apply bpow_le; lia).
            rewrite bpow_plus in H. change (bpow radix2 1) with 2 in H. rewrite Ee. lra.
          - eapply Rle_trans; [exact C|]. eapply Rle_trans; [|apply Rmax_r]. assert (B := bpow_gt_0 radix2 e2). rewrite <- Rmult_assoc. apply Rmult_le_compat_r; [lra|].
            assert (E : u * bpow radix2 (prec - 1) = / 2) by (unfold ulp1; rewrite <- bpow_plus; replace (- prec + (prec - 1))%Z with (-1)%Z by lia; cbn; lra).
            apply Rmult_le_compat_l with (r := 8 * u) in N; [lra|]. pose proof (ulp1_pos prec). lra. }
        destruct (Z.le_ge_cases ex ey) as [L|L].
        * eapply Rle_trans; [apply Core; auto|]. apply Rle_max_compat_l. apply Rmult_le_compat_l; [lra|apply Rmax_r].
        * rewrite Rabs_minus_sym. eapply Rle_trans; [apply Core; auto; lia|]. apply Rle_max_compat_l. apply Rmult_le_compat_l; [lra|apply Rmax_l].
  Qed.

  Context (s K : Z) (OK : isect_ok prec emax epsexp s K).
  Notation n := (2 ^ K)%Z.
  Notation onp := (@grid_point prec emax epsexp at2 s n).
  Notation val := (@point_value prec emax epsexp at2).
  Notation lval := (lval prec emax epsexp at2).
  Context (Hee : (emin < epsexp)%Z) (Hes : (epsexp + 2 < s)%Z) (HK7 : (K + 7 <= prec)%Z).

  Lemma grid_le x : ong s n x -> Rabs (rv x) <= bpow radix2 (K + s).
  Proof.
    intros (_ & k & Hk & ->). rewrite Rabs_mult, (Rabs_pos_eq (bpow radix2 s)), bpow_plus by apply bpow_ge_0. apply Rmult_le_compat_r; [apply bpow_ge_0|].
    rewrite <- abs_IZR. destruct OK. rewrite <- (IZR_Zpower radix2) by auto. apply IZR_le. exact Hk.
  Qed.
  Lemma ulps_half x g : good x -> Rabs (rv x) <= bpow radix2 (K + s + 1) -> ong s n g -> @sulps FS x g = true -> Rabs (rv x - rv g) < / 2 * bpow radix2 s.
  Proof.
    intros Hx Bx Hg H. pose proof (p4 prec emax epsexp s K OK) as P4. assert (OK' := OK). destruct OK'.
assert (Bg := grid_le g Hg). assert (bpow radix2 (K + s) <= bpow radix2 (K + s + 1)) by (apply bpow_le; lia).
      eapply Rle_lt_trans; [apply (ulps_bound x g (K + s + 1)); auto; try lia; try (apply Hg); try lra|].
      apply Rmax_lub_lt.
      - change 2 with (bpow radix2 1) at 1. rewrite <- bpow_plus. replace (/ 2 * bpow radix2 s) with (bpow radix2 (s - 1)); [apply bpow_lt; lia|].
        replace (s - 1)%Z with (-1 + s)%Z by lia. rewrite bpow_plus. reflexivity.
      - apply Rle_lt_trans with (8 * u * bpow radix2 (K + s + 1)).
        + pose proof (ulp1_pos prec). apply Rmult_le_compat_l; [lra|]. apply Rmax_lub; lra.
        + unfold ulp1. change 8 with (bpow radix2 3). rewrite <- !bpow_plus. replace (/ 2 * bpow radix2 s) with (bpow radix2 (s - 1)); [apply bpow_lt; lia|].
          replace (s - 1)%Z with (-1 + s)%Z by lia. rewrite bpow_plus. reflexivity.
  Qed.
  Lemma grid_apart x e f : ong s n e -> ong s n f -> Rabs (rv x - rv e) < / 2 * bpow radix2 s -> Rabs (rv x - rv f) < / 2 * bpow radix2 s -> rv e = rv f.
  Proof.
    intros He Hf T1 T2.
    destruct He as (_ & k & _ & Ek), Hf as (_ & l & _ & El). rewrite Ek, El in *.
    destruct (Z.eq_dec k l) as [->|N]; auto. exfalso. assert (B := bpow_gt_0 radix2 s).
    assert (D : Rabs (IZR (k - l) * bpow radix2 s) < bpow radix2 s).
    { rewrite minus_IZR. replace ((IZR k - IZR l) * bpow radix2 s) with ((rv x - IZR l * bpow radix2 s) - (rv x - IZR k * bpow radix2 s)) by ring.
      eapply Rle_lt_trans; [apply Rabs_triang|]. rewrite Rabs_Ropp. lra. }
    rewrite Rabs_mult, (Rabs_pos_eq (bpow radix2 s)), <- abs_IZR in D by lra. assert (1 <= IZR (Z.abs (k - l))) by (apply IZR_le; lia).
    assert (1 * bpow radix2 s <= IZR (Z.abs (k - l)) * bpow radix2 s) by (apply Rmult_le_compat_r; lra). lra.
  Qed.
  (* a float cannot be ulps-equal to two different grid values *)
  Lemma ulps_two x e f : good x -> Rabs (rv x) <= bpow radix2 (K + s + 1) -> ong s n e -> ong s n f -> @sulps FS x e = true -> @sulps FS x f = true -> rv e = rv f.
  Proof. intros Hx Bx He Hf H1 H2. apply (grid_apart x); auto; apply ulps_half; auto. Qed.
  Lemma ulps_close_two x e f : good x -> Rabs (rv x) <= bpow radix2 (K + s + 1) -> ong s n e -> ong s n f -> Rabs (rv x - rv f) <= 8 * bpow radix2 (K + s - prec) -> @sulps FS x e = true -> rv e = rv f.
  Proof.
    intros Hx Bx He Hf H1 H2. apply (grid_apart x); auto; [apply ulps_half; auto|]. eapply Rle_lt_trans; [exact H1|].
    change 8 with (bpow radix2 3). rewrite <- bpow_plus. replace (/ 2 * bpow radix2 s) with (bpow radix2 (s - 1)); [apply bpow_lt; lia|].
    replace (s - 1)%Z with (-1 + s)%Z by lia. rewrite bpow_plus. reflexivity.
  Qed.
  Lemma vulps_two (p e f : V2 FS) : good (vx p) -> good (vy p) -> Rabs (rv (vx p)) <= bpow radix2 (K + s + 1) -> Rabs (rv (vy p)) <= bpow radix2 (K + s + 1) -> onp e -> onp f ->
    vulps p e = true -> vulps p f = true -> val e = val f.
  Proof.
    intros Gx Gy Bx By [Ex Ey] [Fx Fy] H1 H2. unfold vulps in *. apply andb_prop in H1 as [H1 H1'], H2 as [H2 H2']. unfold point_value.
    rewrite (ulps_two (vx p) (vx e) (vx f)), (ulps_two (vy p) (vy e) (vy f)); auto.
  Qed.
  Lemma near_two (p e f : V2 FS) : good (vx p) -> good (vy p) -> Rabs (rv (vx p)) <= bpow radix2 (K + s + 1) -> Rabs (rv (vy p)) <= bpow radix2 (K + s + 1) -> onp e -> onp f ->
    close prec emax epsexp at2 s K 8 p (val f) -> vulps p e = true -> val e = val f.
  Proof.
    intros Gx Gy Bx By [Ex Ey] [Fx Fy] [C1 C2] H. unfold vulps in H. apply andb_prop in H as [H1 H2]. unfold point_value in *. cbn [vx vy] in *.
    rewrite (ulps_close_two (vx p) (vx e) (vx f)), (ulps_close_two (vy p) (vy e) (vy f)); auto.
  Qed.
  Lemma near_grid x (q : R) : good x -> Rabs (rv x - q) <= 8 * bpow radix2 (K + s - prec) -> Rabs q <= bpow radix2 (K + s) -> Rabs (rv x) <= bpow radix2 (K + s + 1).
  Proof.
    intros Gx C B. assert (OK' := OK). destruct OK'. assert (8 * bpow radix2 (K + s - prec) <= bpow radix2 (K + s)).
    { change 8 with (bpow radix2 3). rewrite <- bpow_plus. apply bpow_le. lia. }
    rewrite bpow_plus. change (bpow radix2 1) with 2. apply Rabs_le_inv in C. apply Rabs_le_inv in B. apply Rabs_le. lra.
  Qed.
  Lemma segment_le (q a b : pt) c : on_segment q a b -> Rabs (vx a) <= c -> Rabs (vx b) <= c -> Rabs (vy a) <= c -> Rabs (vy b) <= c -> Rabs (vx q) <= c /\ Rabs (vy q) <= c.
  Proof.
    intros (t & Ht & ->) A1 B1 A2 B2. unfold lerp. cbn [vx vy]. apply Rabs_le_inv in A1. apply Rabs_le_inv in B1. apply Rabs_le_inv in A2. apply Rabs_le_inv in B2.
    assert (L : forall x y, - c <= x <= c -> - c <= y <= c -> - c <= x + t * (y - x) <= c).
    { intros x y Hx Hy. replace (x + t * (y - x)) with ((1 - t) * x + t * y) by ring.
      assert (t * - c <= t * y <= t * c) by (split; apply Rmult_le_compat_l; lra). assert ((1 - t) * - c <= (1 - t) * x <= (1 - t) * c) by (split; apply Rmult_le_compat_l; lra). lra. }
    split; apply Rabs_le; [apply (L (vx a) (vx b))|apply (L (vy a) (vy b))]; auto.
  Qed.

  (* edges that are not neighbours *)
  Lemma far_pair i j (a b : Line2 FS) : (i + 1 < j)%nat -> onp (lstart a) -> onp (lend a) -> onp (lstart b) -> onp (lend b) -> val (lstart a) <> val (lend a) -> val (lstart b) <> val (lend b) ->
    self_pair i a j b = self_pair i (lval a) j (lval b).
  Proof.
    intros Hij A0 A1 B0 B1 Na Nb. unfold self_pair. destruct (Nat.eqb_spec i j); [lia|]. destruct (Nat.eqb_spec (i + 1) j); [lia|].
    pose proof (intersection_like prec emax epsexp at2 Hprec Hmax s K OK a b A0 A1 B0 B1 Na Nb) as H.
    pose proof (intersection_correct (lval a) (lval b)) as C.
    assert (Core : forall (p : V2 FS) (q : pt), close prec emax epsexp at2 s K 8 p q -> sharp prec emax epsexp at2 a p q -> common (lval a) (lval b) q ->
      ((forall x, common (lval a) (lval b) x -> x = q) \/ (q = val (lstart a) \/ q = val (lend a)) \/ (q = val (lstart b) \/ q = val (lend b))) ->
      negb ((vulps p (lstart a) || vulps p (lend a)) && (vulps p (lstart b) || vulps p (lend b))) =
      negb ((vulps q (lstart (lval a)) || vulps q (lend (lval a))) && (vulps q (lstart (lval b)) || vulps q (lend (lval b))))).
    { intros p q [Cx Cy] (Gx & Gy & Sh) [Ca Cb] Hq. f_equal. unfold FloatIsect.lval in *. cbn [lstart lend] in *.
      assert (QB : Rabs (vx q) <= bpow radix2 (K + s) /\ Rabs (vy q) <= bpow radix2 (K + s)).
      { apply (segment_le q (val (lstart a)) (val (lend a))); auto; unfold point_value; cbn [vx vy]; apply grid_le; first [apply A0|apply A1]. }
      destruct QB as [Qx Qy]. assert (Bx := near_grid _ _ Gx Cx Qx). assert (By := near_grid _ _ Gy Cy Qy).
      assert (OrR : forall (x y z : pt), (vulps x y || vulps x z)%bool = true <-> x = y \/ x = z) by (intros x y z; rewrite orb_true_iff, !vulps_R; tauto).
      assert (Grid : forall e, onp e -> q = val e -> val p = q -> onp p).
      { intros e [[_ (k & Hk & Ek)] [_ (l & Hl & El)]] -> Ep. injection Ep as E1 E2. split; (split; [auto|]); [exists k|exists l]; (split; [auto|congruence]). }
      assert (Ends : q = val (lstart a) \/ q = val (lend a) \/ (q <> val (lstart a) /\ q <> val (lend a))).
      { destruct (pt_eq_dec q (val (lstart a))); auto. destruct (pt_eq_dec q (val (lend a))); auto. }
      assert (Exact : q = val (lstart a) \/ q = val (lend a) -> ((vulps p (lstart a) || vulps p (lend a)) && (vulps p (lstart b) || vulps p (lend b)))%bool =
        ((vulps q (val (lstart a)) || vulps q (val (lend a))) && (vulps q (val (lstart b)) || vulps q (val (lend b))))%bool).
      { intros Hend. assert (Ep := Sh Hend). assert (Op : onp p) by (destruct Hend as [E|E]; [apply (Grid (lstart a))|apply (Grid (lend a))]; auto).
        rewrite !(vulps_ex prec emax epsexp at2 Hprec Hmax s K OK) by auto. rewrite Ep. reflexivity. }
      destruct Ends as [E|[E|[N1 N2]]]; [apply Exact; auto..|].
      apply Bool.eq_iff_eq_true. rewrite !andb_true_iff, !OrR. rewrite !orb_true_iff. split; [|tauto].
      intros [Ha Hb]. exfalso.
      assert (F : exists e0 e1, (e0 = lstart a \/ e0 = lend a) /\ (e1 = lstart b \/ e1 = lend b) /\ vulps p e0 = true /\ vulps p e1 = true).
      { destruct Ha as [Ha|Ha]; [exists (lstart a)|exists (lend a)]; (destruct Hb as [Hb|Hb]; [exists (lstart b)|exists (lend b)]); auto. }
      destruct F as (e0 & e1 & He0 & He1 & V0 & V1).
      assert (O0 : onp e0) by (destruct He0; subst; auto). assert (O1 : onp e1) by (destruct He1; subst; auto).
      assert (E01 := vulps_two p e0 e1 Gx Gy Bx By O0 O1 V0 V1).
      destruct Hq as [Hu|[Hq|Hq]]; [|tauto|].
      + assert (Q : val e0 = q).
        { apply Hu. split; cbn [lstart lend]; [destruct He0; subst; [apply on_segment_start|apply on_segment_end]|rewrite E01; destruct He1; subst; [apply on_segment_start|apply on_segment_end]]. }
        destruct He0; subst e0; auto.
      + assert (G : exists e, onp e /\ q = val e) by (destruct Hq as [E|E]; [exists (lstart b)|exists (lend b)]; auto). destruct G as (e & Oe & Ee).
        assert (Q : val e0 = q). { rewrite Ee in *. clear Ee. apply (near_two p e0 e); auto; [split; auto]. }
        destruct He0; subst e0; auto. }
    destruct (intersection_point a b) as [[p|l]|], (intersection_point (lval a) (lval b)) as [[q|m]|]; cbn [like correct isingle] in *; try tauto.
    - destruct H as [H1 H2]. apply Core; auto; [apply C; auto|left; intros x Hx; apply C; auto].
    - destruct H as (H1 & _ & H2), C as [C1 C2]. apply Core; auto; [apply C2, on_segment_start|right]. apply (overlap_end (lval a) (lval b) _ _ C1 C2).
  Qed.

  (* neighbouring edges: slopes are compared *)
  Lemma frac_gap (k1 l1 k2 l2 : Z) : (l1 <> 0)%Z -> (l2 <> 0)%Z -> IZR k1 / IZR l1 <> IZR k2 / IZR l2 -> 1 <= Rabs (IZR k1 / IZR l1 - IZR k2 / IZR l2) * (Rabs (IZR l1) * Rabs (IZR l2)).
  Proof.
    intros N1 N2 H. apply IZR_neq in N1, N2. rewrite <- !Rabs_mult. replace ((IZR k1 / IZR l1 - IZR k2 / IZR l2) * (IZR l1 * IZR l2)) with (IZR (k1 * l2 - k2 * l1)) by (rewrite minus_IZR, !mult_IZR; field; auto).
    rewrite <- abs_IZR. apply (IZR_le 1). destruct (Z.eq_dec (k1 * l2 - k2 * l1) 0) as [E|E]; [|lia]. exfalso. apply H.
    apply Rmult_eq_reg_r with (IZR l1 * IZR l2); [|apply Rmult_integral_contrapositive; auto]. transitivity (IZR (k1 * l2)); [rewrite mult_IZR; field; auto|].
    replace (k1 * l2)%Z with (k2 * l1)%Z by lia. rewrite mult_IZR. field. auto.
  Qed.
  Lemma slopes (x1 y1 x2 y2 : spec_float) : (epsexp <= 1 - prec)%Z -> (2 * K + 7 <= prec)%Z -> ong s (2 * n) x1 -> ong s (2 * n) y1 -> ong s (2 * n) x2 -> ong s (2 * n) y2 -> rv y1 <> 0 -> rv y2 <> 0 ->
    fl_ulps_with prec emax (fl_pow2 prec emax epsexp) 4 (SFdiv prec emax x1 y1) (SFdiv prec emax x2 y2) = Reqb (rv x1 / rv y1) (rv x2 / rv y2).
  Proof.
    intros He HK X1 Y1 X2 Y2 N1 N2. pose proof (p4 prec emax epsexp s K OK) as P4. pose proof (n_pos prec emax epsexp s K OK) as NP. assert (OK' := OK). destruct OK'.
    assert (NP2 : (2 * n <= 2 ^ prec)%Z) by (replace (2 * n)%Z with (2 ^ (K + 1))%Z by (rewrite Z.pow_add_r by lia; lia); apply Z.pow_le_mono_r; lia).
    destruct (quot prec emax Hprec Hmax s (2 * n) x1 y1 NP2 i_q ltac:(lia) X1 Y1 N1) as (G1 & E1 & D1 & B1 & _).
    destruct (quot prec emax Hprec Hmax s (2 * n) x2 y2 NP2 i_q ltac:(lia) X2 Y2 N2) as (G2 & E2 & D2 & B2 & _).
    set (f1 := SFdiv prec emax x1 y1) in *. set (f2 := SFdiv prec emax x2 y2) in *. set (q1 := rv x1 / rv y1) in *. set (q2 := rv x2 / rv y2) in *.
    assert (U0 := ulp1_pos prec). assert (Uh := ulp1_small prec Hprec).
    destruct (Reqb_spec q1 q2) as [E|N].
    - assert (Ef : rv f1 = rv f2) by congruence. unfold fl_ulps_with, fl_absdiff.
      destruct (sub_rnd prec emax Hprec Hmax f1 f2 G1 G2) as [G Es]; [rewrite Ef, Rminus_diag_eq, rnd_0, Rabs_R0 by auto; apply bpow_gt_0|].
      destruct (good_abs _ _ _ G) as [Ga Ea']. destruct (pow2_good prec emax Hprec Hmax epsexp i_eps) as [Gp Ep].
      rewrite (leb_R prec emax at2 _ _ Ga Gp), Ea', Es, Ep, Ef, (Rminus_diag_eq (rv f2)), rnd_0, Rabs_R0 by auto. replace (Rleb 0 (bpow radix2 epsexp)) with true; auto. symmetry. apply Rleb_true, bpow_ge_0.
    - apply Bool.not_true_iff_false. intros H.
      assert (A1 : Rabs (rv f1) <= 2 * Rabs q1) by (replace (rv f1) with ((rv f1 - q1) + q1) by ring; eapply Rle_trans; [apply Rabs_triang|]; assert (u * Rabs q1 <= 1 * Rabs q1) by (apply Rmult_le_compat_r; [apply Rabs_pos|lra]); lra).
      assert (A2 : Rabs (rv f2) <= 2 * Rabs q2) by (replace (rv f2) with ((rv f2 - q2) + q2) by ring; eapply Rle_trans; [apply Rabs_triang|]; assert (u * Rabs q2 <= 1 * Rabs q2) by (apply Rmult_le_compat_r; [apply Rabs_pos|lra]); lra).
      assert (BB : 2 * bpow radix2 prec = bpow radix2 (prec + 1)) by (rewrite bpow_plus; change (bpow radix2 1) with 2; ring).
      assert (PE : (emin <= prec + 1 <= emax - 3)%Z) by (split; lia).
      pose proof (ulps_bound f1 f2 (prec + 1) P4 i_eps Hee PE G1 G2 ltac:(lra) ltac:(lra) H) as Hb. clear H B1 B2 BB PE A1 A2.
      destruct X1 as (_ & k1 & K1 & X1), Y1 as (_ & l1 & L1 & Y1), X2 as (_ & k2 & K2 & X2), Y2 as (_ & l2 & L2 & Y2). assert (Bs := bpow_gt_0 radix2 s).
      assert (Nl1 : l1 <> 0%Z) by (intros ->; apply N1; rewrite Y1; ring). assert (Nl2 : l2 <> 0%Z) by (intros ->; apply N2; rewrite Y2; ring).
      assert (R1 := IZR_neq _ _ Nl1). assert (R2 := IZR_neq _ _ Nl2).
      assert (Q1 : q1 = IZR k1 / IZR l1) by (unfold q1; rewrite X1, Y1; field; split; auto; lra). assert (Q2 : q2 = IZR k2 / IZR l2) by (unfold q2; rewrite X2, Y2; field; split; auto; lra).
      rewrite Q1, Q2 in N. pose proof (frac_gap k1 l1 k2 l2 Nl1 Nl2 N) as Gap. rewrite <- Q1, <- Q2 in Gap.
      set (c := 2 * bpow radix2 K). assert (Ck : forall k, (Z.abs k <= 2 * n)%Z -> Rabs (IZR k) <= c).
      { intros k Hk. unfold c. rewrite <- abs_IZR, <- (IZR_Zpower radix2) by auto. rewrite <- mult_IZR. apply IZR_le. exact Hk. }
      assert (c0 : 0 < c) by (unfold c; pose proof (bpow_gt_0 radix2 K); lra).
      set (W := Rabs (IZR l1) * Rabs (IZR l2)) in *. assert (W0 : 0 <= W) by (apply Rmult_le_pos; apply Rabs_pos).
      assert (W1 : W <= c * c) by (apply Rmult_le_compat; try apply Rabs_pos; auto).
      assert (QW1 : Rabs q1 * W <= c * c).
      { unfold W. rewrite <- Rmult_assoc, <- Rabs_mult. replace (q1 * IZR l1) with (IZR k1) by (rewrite Q1; field; auto). apply Rmult_le_compat; try apply Rabs_pos; auto. }
      assert (QW2 : Rabs q2 * W <= c * c).
      { unfold W. rewrite (Rmult_comm (Rabs (IZR l1))). rewrite <- Rmult_assoc, <- Rabs_mult. replace (q2 * IZR l2) with (IZR k2) by (rewrite Q2; field; auto). apply Rmult_le_compat; try apply Rabs_pos; auto. }
      assert (Tot : Rabs (q1 - q2) <= 4 * u + 10 * u * (Rabs q1 + Rabs q2) + 2 * (u * u) * (Rabs q1 + Rabs q2) * 4).
      { replace (q1 - q2) with ((rv f1 - rv f2) - (rv f1 - q1) + (rv f2 - q2)) by ring. eapply Rle_trans; [apply Rabs_triang|]. eapply Rle_trans; [apply Rplus_le_compat_r, Rabs_triang|]. rewrite Rabs_Ropp.
        assert (F1 : Rabs (rv f1) <= Rabs q1 + u * Rabs q1) by (replace (rv f1) with ((rv f1 - q1) + q1) by ring; eapply Rle_trans; [apply Rabs_triang|]; lra).
        assert (F2 : Rabs (rv f2) <= Rabs q2 + u * Rabs q2) by (replace (rv f2) with ((rv f2 - q2) + q2) by ring; eapply Rle_trans; [apply Rabs_triang|]; lra).
        assert (P1 := Rabs_pos q1). assert (P2 := Rabs_pos q2). assert (Pu1 : 0 <= u * Rabs q1) by (apply Rmult_le_pos; lra). assert (Pu2 : 0 <= u * Rabs q2) by (apply Rmult_le_pos; lra).
        assert (Mx : 8 * u * Rmax (Rabs (rv f1)) (Rabs (rv f2)) <= 8 * u * ((Rabs q1 + u * Rabs q1) + (Rabs q2 + u * Rabs q2))) by (apply Rmult_le_compat_l; [lra|]; apply Rmax_lub; lra).
        assert (Ee : 2 * bpow radix2 epsexp <= 4 * u).
        { assert (bpow radix2 epsexp <= bpow radix2 (1 - prec)) by (apply bpow_le; auto). replace (1 - prec)%Z with (1 + - prec)%Z in H by lia. rewrite bpow_plus in H. change (bpow radix2 1) with 2 in H. unfold ulp1. lra. }
        assert (Pq : 0 <= u * u * Rabs q1 + u * u * Rabs q2) by (rewrite <- Rmult_plus_distr_l; apply Rmult_le_pos; [apply Rmult_le_pos; lra|lra]).
        assert (M8 : 0 <= 8 * u * ((Rabs q1 + u * Rabs q1) + (Rabs q2 + u * Rabs q2))) by (apply Rmult_le_pos; lra).
        assert (Hm : Rabs (rv f1 - rv f2) <= 4 * u + 8 * u * ((Rabs q1 + u * Rabs q1) + (Rabs q2 + u * Rabs q2))) by (eapply Rle_trans; [exact Hb|]; apply Rmax_lub; lra).
        lra. }
      apply Rmult_le_compat_r with (r := W) in Tot; auto.
      assert (Fin : u * (c * c) <= / 32).
      { unfold ulp1, c. change 2 with (bpow radix2 1). rewrite <- !bpow_plus. apply Rle_trans with (bpow radix2 (-5)); [apply bpow_le; lia|cbn; lra]. }
      assert (T1 : u * W <= / 32) by (eapply Rle_trans; [|exact Fin]; apply Rmult_le_compat_l; lra).
      assert (T2 : u * (Rabs q1 * W) <= / 32) by (eapply Rle_trans; [|exact Fin]; apply Rmult_le_compat_l; lra).
      assert (T3 : u * (Rabs q2 * W) <= / 32) by (eapply Rle_trans; [|exact Fin]; apply Rmult_le_compat_l; lra).
      assert (U16 : u <= / 16) by (unfold ulp1; apply Rle_trans with (bpow radix2 (-4)); [apply bpow_le; lia|cbn; lra]).
      assert (T4 : u * (u * (Rabs q1 * W)) <= / 16 * / 32) by (apply Rmult_le_compat; try lra; apply Rmult_le_pos; [lra|apply Rmult_le_pos; [apply Rabs_pos|auto]]).
      assert (T5 : u * (u * (Rabs q2 * W)) <= / 16 * / 32) by (apply Rmult_le_compat; try lra; apply Rmult_le_pos; [lra|apply Rmult_le_pos; [apply Rabs_pos|auto]]).
      lra.
  Qed.
  (* an infinite slope is not ulps-equal to a finite one *)
  Lemma ulps_inf b f : (4 <= prec)%Z -> scale_ok prec emax epsexp -> good f -> Rabs (rv f) <= bpow radix2 (emax - 2) ->
    fl_ulps_with prec emax (fl_pow2 prec emax epsexp) 4 (S754_infinity b) f = false /\ fl_ulps_with prec emax (fl_pow2 prec emax epsexp) 4 f (S754_infinity b) = false.
  Proof.
    intros Hp Heps [Vf Ff] Bf. destruct (pow2_good prec emax Hprec Hmax epsexp Heps) as [[Vp Fp] _].
    assert (L : SFleb (S754_infinity false) (fl_pow2 prec emax epsexp) = false) by (destruct (fl_pow2 prec emax epsexp) as [?|?| |[] ? ?]; auto; discriminate).
    assert (P8 : (8 <= 2 ^ (prec - 1))%Z) by (apply (Z.pow_le_mono_r 2 3); lia). assert (PP : (2 ^ prec = 2 * 2 ^ (prec - 1))%Z) by (rewrite <- Z.pow_succ_r by lia; f_equal; lia).
    assert (Em : (emin <= emax - prec)%Z) by (unfold Prec_lt_emax in Hmax; unfold SpecFloat.emin; lia).
    assert (Bits : (fl_bits prec emax f + 8 <= fl_bits prec emax (S754_infinity b))%Z).
    { destruct f as [x|x| |x m e]; try discriminate; unfold fl_bits; [nia|].
      destruct (valid_facts prec emax m e ltac:(lia) Vf) as (A1 & A2 & A3). assert (A0 : (Zpos m < 2 ^ prec)%Z) by lia.
      assert (e <= emax - prec - 1)%Z; [|nia].
      apply Znot_gt_le. intros C. assert (Hm : (2 ^ (prec - 1) <= Zpos m)%Z) by (destruct A3; unfold SpecFloat.emin in *; lia).
      revert Bf. apply Rlt_not_le. unfold fvalue, SF2R, Defs.F2R. cbn [Defs.Fnum Defs.Fexp].
      rewrite Rabs_mult, <- abs_IZR, (Rabs_pos_eq (bpow radix2 e)) by apply bpow_ge_0. replace (Z.abs (cond_Zopp x (Zpos m))) with (Zpos m) by (destruct x; reflexivity).
      apply Rlt_le_trans with (bpow radix2 (prec - 1) * bpow radix2 e); [rewrite <- bpow_plus; apply bpow_lt; lia|].
      apply Rmult_le_compat_r; [apply bpow_ge_0|]. rewrite <- (IZR_Zpower radix2) by lia. apply IZR_le. exact Hm. }
    unfold fl_ulps_with, fl_absdiff. destruct f as [x|x| |x m e]; try discriminate; cbn [SFsub SFabs fl_is_nan orb]; rewrite L; split;
      (destruct (negb _); [auto|]; apply Z.leb_gt; change (Z.of_N 4) with 4%Z; lia).
  Qed.

  (* what the test on neighbouring edges decides; the second subtraction uses the first point's x *)
  Definition neighbours_hit (a b c : pt) : Prop :=
    (vx a = vx b /\ vx b = vx c /\ ~ (vy b < vx a /\ vy c < vy b)) \/
    (vx a <> vx b /\ vx b <> vx c /\ (vx b - vx a) * (vy b - vy c) = (vx b - vx c) * (vy b - vx a)).
  Lemma sign_neg x : good x -> rv x <> 0 -> fl_signneg x = Rltb (rv x) 0.
  Proof.
    intros [V F] N. destruct x as [b|b| |b m e]; try discriminate; [destruct N; reflexivity|]. cbn [fl_signneg]. symmetry.
    assert (P : 0 < IZR (Zpos m) * bpow radix2 e) by (apply Rmult_lt_0_compat; [apply IZR_lt; lia|apply bpow_gt_0]).
    unfold fvalue, SF2R, Defs.F2R. cbn [Defs.Fnum Defs.Fexp]. destruct b; cbn [cond_Zopp]; [apply Rltb_true; change (Z.neg m) with (- Zpos m)%Z; rewrite opp_IZR; lra|apply Rltb_false; lra].
  Qed.
  Lemma near_triple (a b c : V2 FS) : (epsexp <= 1 - prec)%Z -> (2 * K + 7 <= prec)%Z -> onp a -> onp b -> onp c -> val b <> val c ->
    (vy (val b) = vx (val a) -> vy (val b) <> vy (val c) /\ ~ (vx (val a) = vx (val b) /\ vx (val b) = vx (val c))) ->
    intersection_point3 a b c <> None <-> neighbours_hit (val a) (val b) (val c).
  Proof.
    intros He HK Ha Hb Hc Nbc Hz. pose proof (p4 prec emax epsexp s K OK) as P4. pose proof (n_pos prec emax epsexp s K OK) as NP. assert (OK' := OK). destruct OK'.
    assert (NP2 : (2 * n <= 2 ^ prec)%Z) by (replace (2 * n)%Z with (2 ^ (K + 1))%Z by (rewrite Z.pow_add_r by lia; lia); apply Z.pow_le_mono_r; lia).
    assert (Sub : forall x y, ong s n x -> ong s n y -> ong s (2 * n) (SFsub prec emax x y) /\ rv (SFsub prec emax x y) = rv x - rv y).
    { intros x y Hx Hy. replace (2 * n)%Z with (n + n)%Z by lia. apply ong_sub; auto. lia. }
    destruct Ha as [Ax Ay], Hb as [Bx By], Hc as [Cx Cy].
    destruct (Sub _ _ Bx Ax) as [X1 E1], (Sub _ _ By Ax) as [Y1 F1], (Sub _ _ Bx Cx) as [X2 E2], (Sub _ _ By Cy) as [Y2 F2].
    assert (Vz : forall x, ong s (2 * n) x -> fl_ulps_with prec emax (fl_pow2 prec emax epsexp) 4 x (S754_zero false) = Reqb (rv x) 0).
    { intros x Hx. apply (FloatGrid.ulps_zero prec emax epsexp at2 Hprec Hmax s (2 * n)); auto. }
    unfold intersection_point3. cbn [vx vy ssub sulps s0 ssignneg sdiv FloatS]. rewrite !Vz by auto.
    unfold neighbours_hit, point_value in *. cbn [vx vy] in *.
    set (ax := rv (vx a)) in *. set (bx := rv (vx b)) in *. set (cx := rv (vx c)) in *. set (by_ := rv (vy b)) in *. set (cy := rv (vy c)) in *.
    set (x1 := SFsub prec emax (vx b) (vx a)) in *. set (x2 := SFsub prec emax (vx b) (vx c)) in *. set (y1 := SFsub prec emax (vy b) (vx a)) in *. set (y2 := SFsub prec emax (vy b) (vy c)) in *.
    match goal with |- context [if ?d then Some (IOverlap _) else _] => set (d0 := d) end.
    assert (Pick : (if d0 then Some (IOverlap (mkL a b)) else Some (IOverlap (mkL b c))) <> None) by (destruct d0; discriminate).
    set (pick := if d0 then _ else _) in *. clearbody pick. clear d0.
    destruct (Reqb_spec (rv x1) 0) as [Z1|Z1], (Reqb_spec (rv x2) 0) as [Z2|Z2]; cbn [andb orb]; rewrite E1 in Z1; rewrite E2 in Z2.
    - assert (Ny2 : by_ <> cy). { intros E. apply Nbc. f_equal; lra. }
      assert (Ny1 : by_ <> ax). { intros E. destruct (Hz E) as [_ N]. apply N. lra. }
      rewrite (sign_neg y1), (sign_neg y2), F1, F2 by first [apply Y1|apply Y2|lra].
      destruct (Rltb_spec (by_ - ax) 0), (Rltb_spec (by_ - cy) 0); cbn [andb negb]; split; intros H; auto; try (left; lra); try congruence.
      destruct H as [(_ & _ & H)|(H & _)]; [destruct H|]; lra.
    - split; [congruence|]. intros [H|H]; lra.
    - split; [congruence|]. intros [H|H]; lra.
    - assert (Goal' : fl_ulps_with prec emax (fl_pow2 prec emax epsexp) 4 (SFdiv prec emax x1 y1) (SFdiv prec emax x2 y2) = true <-> (bx - ax) * (by_ - cy) = (bx - cx) * (by_ - ax)).
      { assert (Inf : forall x y, ong s (2 * n) x -> ong s (2 * n) y -> rv x <> 0 -> rv y = 0 -> exists sg, SFdiv prec emax x y = S754_infinity sg).
        { intros x y [[_ Gx] _] [[_ Gy] _] Nx Ny. destruct x as [?|?| |bb mm ee]; try discriminate; [destruct Nx; reflexivity|].
          destruct y as [?|?| |[] m e]; try discriminate; [eexists; reflexivity| |]; exfalso; revert Ny; unfold fvalue, SF2R, Defs.F2R; cbn [Defs.Fnum Defs.Fexp cond_Zopp];
            (apply Rmult_integral_contrapositive; split; [apply IZR_neq; discriminate|apply Rgt_not_eq, bpow_gt_0]). }
        assert (Fin : forall x y, ong s (2 * n) x -> ong s (2 * n) y -> rv y <> 0 -> good (SFdiv prec emax x y) /\ Rabs (rv (SFdiv prec emax x y)) <= bpow radix2 (emax - 2)).
        { intros x y Hx Hy Ny. destruct (quot prec emax Hprec Hmax s (2 * n) x y NP2 i_q ltac:(lia) Hx Hy Ny) as (G & _ & D & B & _). split; auto.
          apply Rle_trans with (bpow radix2 (prec + 1)); [|apply bpow_le; lia]. rewrite bpow_plus. change (bpow radix2 1) with 2.
          pose proof (ulp1_pos prec). pose proof (ulp1_small prec Hprec). assert (u * Rabs (rv x / rv y) <= 1 * Rabs (rv x / rv y)) by (apply Rmult_le_compat_r; [apply Rabs_pos|lra]).
          replace (rv (SFdiv prec emax x y)) with ((rv (SFdiv prec emax x y) - rv x / rv y) + rv x / rv y) by ring. eapply Rle_trans; [apply Rabs_triang|]. lra. }
        destruct (Req_dec (rv y1) 0) as [W1|W1], (Req_dec (rv y2) 0) as [W2|W2].
        - rewrite F1 in W1. rewrite F2 in W2. destruct Hz; lra.
        - destruct (Inf x1 y1) as [sg Es]; auto; [lra|]. destruct (Fin x2 y2) as [G B]; auto. rewrite Es, (proj1 (ulps_inf sg _ P4 i_eps G B)). rewrite F1 in W1. rewrite F2 in W2.
          split; [discriminate|]. rewrite W1, Rmult_0_r. intros H. apply Rmult_integral in H. lra.
        - destruct (Inf x2 y2) as [sg Es]; auto; [lra|]. destruct (Fin x1 y1) as [G B]; auto. rewrite Es, (proj2 (ulps_inf sg _ P4 i_eps G B)). rewrite F1 in W1. rewrite F2 in W2.
          split; [discriminate|]. rewrite W2, Rmult_0_r. intros H. symmetry in H. apply Rmult_integral in H. lra.
        - rewrite (slopes x1 y1 x2 y2 He HK X1 Y1 X2 Y2 W1 W2). rewrite F1 in W1. rewrite F2 in W2. rewrite Reqb_true, E1, E2, F1, F2. split; intros H.
          + apply Rmult_eq_reg_r with (/ ((by_ - ax) * (by_ - cy))); [|apply Rinv_neq_0_compat, Rmult_integral_contrapositive; auto].
            transitivity ((bx - ax) / (by_ - ax)); [field; auto|]. rewrite H. field; auto.
          + apply Rmult_eq_reg_r with ((by_ - ax) * (by_ - cy)); [|apply Rmult_integral_contrapositive; auto].
            transitivity ((bx - ax) * (by_ - cy)); [field; auto|]. rewrite H. field; auto. }
      destruct (fl_ulps_with _ _ _ _ (SFdiv _ _ _ _) _) eqn:E; cbn [negb]; split; auto.
      + intros _. right. split; [lra|]. split; [lra|]. apply Goal'. auto.
      + congruence.
      + intros [H|(_ & _ & H)]; [lra|]. apply Goal' in H. discriminate.
  Qed.

  (* the whole test *)
  Definition self_meets (l : list (V2 FS)) : Prop :=
    (exists i a b c, edge_of l i a b /\ edge_of l (i + 1) b c /\ neighbours_hit (val a) (val b) (val c)) \/
    (exists i j a b c d p, (i + 1 < j)%nat /\ edge_of l i a b /\ edge_of l j c d /\
       on_segment p (val a) (val b) /\ on_segment p (val c) (val d) /\ ~ ((p = val a \/ p = val b) /\ (p = val c \/ p = val d))).
  Lemma self_float (l : list (V2 FS)) : (epsexp <= 1 - prec)%Z -> (2 * K + 7 <= prec)%Z -> Forall onp l -> (forall i a b, edge_of l i a b -> val a <> val b) ->
    (forall i a b c, edge_of l i a b -> edge_of l (i + 1) b c -> vy (val b) = vx (val a) -> vy (val b) <> vy (val c) /\ ~ (vx (val a) = vx (val b) /\ vx (val b) = vx (val c))) ->
    (self_intersecting_short l = true -> self_meets l) /\
    (forall i a b c, edge_of l i a b -> edge_of l (i + 1) b c -> neighbours_hit (val a) (val b) (val c) -> self_intersecting_short l = true) /\
    (forall i j a b c d p, (i + 1 < j)%nat -> edge_of l i a b -> edge_of l j c d -> on_segment p (val a) (val b) -> on_segment p (val c) (val d) ->
       ~ ((p = val a \/ p = val b) /\ (p = val c \/ p = val d)) -> (forall q, on_segment q (val a) (val b) -> on_segment q (val c) (val d) -> q = p) -> self_intersecting_short l = true).
  Proof.
    intros He HK HG HN HZ. rewrite Forall_forall in HG.
    assert (In1 : forall i a b, edge_of l i a b -> onp a /\ onp b) by (intros i a b [H1 H2]; split; apply HG; [apply (nth_error_In l i)|apply (nth_error_In l (i + 1))]; auto).
    assert (Tri : forall i a b c, edge_of l i a b -> edge_of l (i + 1) b c -> intersection_point3 a b c <> None <-> neighbours_hit (val a) (val b) (val c)).
    { intros i a b c H1 H2. destruct (In1 _ _ _ H1), (In1 _ _ _ H2). apply near_triple; auto; [apply (HN _ _ _ H2)|apply (HZ _ _ _ _ H1 H2)]. }
    assert (Far : forall i j a b c d, (i + 1 < j)%nat -> edge_of l i a b -> edge_of l j c d -> self_pair i (mkL a b) j (mkL c d) = self_pair i (mkL (val a) (val b)) j (mkL (val c) (val d))).
    { intros i j a b c d Hij H1 H2. destruct (In1 _ _ _ H1), (In1 _ _ _ H2). apply far_pair; auto; cbn [lstart lend]; [apply (HN _ _ _ H1)|apply (HN _ _ _ H2)]. }
    split; [|split].
    - intros E. apply self_short_spec in E as (i & j & a & b & c & d & Hij & He1 & Hf & H). destruct (Nat.eq_dec (i + 1) j) as [Ej|Ej].
      + left. subst j. assert (c = b) by (destruct He1, Hf; congruence). subst c. exists i, a, b, d. split; [auto|]. split; [auto|]. apply (Tri i a b d); auto.
        unfold self_pair in H. destruct (Nat.eqb_spec i (i + 1)); [lia|]. rewrite Nat.eqb_refl in H. cbn [lstart lend] in H. destruct (intersection_point3 a b d); congruence.
      + right. rewrite Far in H by (auto; lia). unfold self_pair in H. destruct (Nat.eqb_spec i j); [lia|]. destruct (Nat.eqb_spec (i + 1) j); [lia|].
        cbn [lstart lend] in H. pose proof (intersection_correct (mkL (val a) (val b)) (mkL (val c) (val d))) as C.
        destruct (intersection_point (mkL (val a) (val b)) (mkL (val c) (val d))) as [it|]; [|discriminate].
        assert (X : common (mkL (val a) (val b)) (mkL (val c) (val d)) (isingle it)).
        { destruct it as [x|s']; cbn [correct isingle] in *; apply C; auto. apply on_segment_start. }
        destruct X as [X1 X2]. exists i, j, a, b, c, d, (isingle it). split; [lia|]. split; [auto|]. split; [auto|]. split; [auto|]. split; [auto|].
        intros [G1 G2]. assert (T : forall x y z : pt, (x = y \/ x = z) -> (vulps x y || vulps x z)%bool = true).
        { intros x y z [T|T]; apply vulps_R in T; rewrite T; auto. apply orb_true_r. }
        rewrite (T _ _ _ G1), (T _ _ _ G2) in H. discriminate.
    - intros i a b c H1 H2 Hh. apply self_short_spec. exists i, (i + 1)%nat, a, b, b, c. split; [lia|]. split; [auto|]. split; [auto|].
      unfold self_pair. destruct (Nat.eqb_spec i (i + 1)); [lia|]. rewrite Nat.eqb_refl. cbn [lstart lend].
      apply (Tri i a b c H1 H2) in Hh. destruct (intersection_point3 a b c); auto; congruence.
    - intros i j a b c d p Hij H1 H2 P1 P2 Hn Hu. apply self_short_spec. exists i, j, a, b, c, d. split; [lia|]. split; [auto|]. split; [auto|]. rewrite Far by auto.
      unfold self_pair. destruct (Nat.eqb_spec i j); [lia|]. destruct (Nat.eqb_spec (i + 1) j); [lia|]. cbn [lstart lend].
      pose proof (intersection_correct (mkL (val a) (val b)) (mkL (val c) (val d))) as C.
      assert (Cp : common (mkL (val a) (val b)) (mkL (val c) (val d)) p) by (split; auto).
      destruct (intersection_point (mkL (val a) (val b)) (mkL (val c) (val d))) as [it|]; [|exfalso; cbn [correct] in C; apply (C p); auto].
      assert (X : isingle it = p).
      { destruct it as [x|s']; cbn [correct isingle] in *; [symmetry; apply C; auto|]. destruct (proj2 (proj2 C (lstart s')) (on_segment_start _ _)). apply Hu; auto. }
      rewrite X. match goal with |- negb ?x = true => destruct x eqn:B end; auto. exfalso. apply Hn.
      apply andb_prop in B as [B1 B2]. rewrite orb_true_iff, !vulps_R in B1, B2. auto.
  Qed.
End Self.
