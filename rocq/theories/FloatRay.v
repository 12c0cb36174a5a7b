(* Rays against line strings on float points whose coordinates are small multiples of a power of two: the same edges are hit
   as in exact arithmetic, and the parameters are within a few rounding errors. *)
From Coq Require Import ZArith Reals Lra Lia Psatz Floats.SpecFloat.
From Flocq Require Import Core BinarySingleNaN.
From Verif Require Import Prelude Scalar RInst Flt FloatSpec FloatLink FloatGrid FloatRound Geo2 GeoSpec DistR IsectProofs FloatRdp FloatIsect.
Local Open Scope R_scope.

(* an edge along the ray that reaches back to its origin *)
Definition passed_over (o d a b : pt) : Prop :=
  vx d * (vy b - vy a) = vy d * (vx b - vx a) /\ exists t0, t0 <= 0 /\ (a = ray_at o d t0 \/ b = ray_at o d t0).

(* a hit at t' that is not passed over is reported at some parameter <= t' *)
Lemma ray_hit (o d a b : pt) t' : vx d <> 0 \/ vy d <> 0 -> 0 < t' -> on_segment (ray_at o d t') a b ->
  passed_over o d a b \/ exists t, ray_edge_intersection o d a b = Some t /\ 0 < t <= t'.
Proof.
  intros Hd Ht' Hs.
  assert (Nd : vx d * vx d + vy d * vy d <> 0).
  { pose proof (sq_nn (vx d)); pose proof (sq_nn (vy d)). destruct Hd as [Hd|Hd]; apply sq_pos in Hd; lra. }
  destruct (Req_dec (vx d * (vy b - vy a) - vy d * (vx b - vx a)) 0) as [E|E].
  - pose proof (ray_edge_parallel o d a b Hd E) as G. destruct (ray_edge_intersection o d a b) as [t|]; [|destruct (G t'); auto].
    destruct G as (u0 & u1 & E0 & E1 & ->). destruct (Rle_dec (Rmin u0 u1) 0) as [L|L].
    + left. split; [lra|]. exists (Rmin u0 u1). split; auto. unfold Rmin. destruct (Rle_dec u0 u1); auto.
    + right. exists (Rmin u0 u1). split; [auto|]. split; [lra|].
      destruct Hs as (w & Hw & Es). subst a b. unfold ray_at, lerp in Es. cbn [vx vy] in Es. injection Es as Es1 Es2.
      assert (t' = u0 + w * (u1 - u0)). { apply (line_param_inj (vx o) (vy o) (vx d) (vy d)); auto; lra. }
      pose proof (mul01 w (u1 - u0) Hw) as [M1 M2]. unfold Rmin. destruct (Rle_dec u0 u1); [lra|].
      assert (M : u1 - u0 <= 0) by lra. specialize (M2 M). lra.
  - right. exists t'. split; [|lra]. apply ray_edge_cross; auto. split; [lra|auto].
Qed.
Lemma ray_on_edge (o d a b : pt) t : vx d <> 0 \/ vy d <> 0 -> ray_edge_intersection o d a b = Some t -> on_segment (ray_at o d t) a b.
Proof.
  intros Hd Hf. destruct (Req_dec (vx d * (vy b - vy a) - vy d * (vx b - vx a)) 0) as [E|E].
  - pose proof (ray_edge_parallel o d a b Hd E) as G. rewrite Hf in G. destruct G as (u0 & u1 & E0 & E1 & ->).
    unfold Rmin. destruct (Rle_dec u0 u1); [rewrite <- E0; apply on_segment_start|rewrite <- E1; apply on_segment_end].
  - apply ray_edge_cross in Hf; tauto.
Qed.
Lemma min_err c a b x y d : Rabs (d * (a - x)) <= c -> Rabs (d * (b - y)) <= c -> Rabs (d * (Rmin a b - Rmin x y)) <= c.
Proof.
  rewrite !Rabs_mult. pose proof (Rabs_pos d) as D. set (e := Rabs d) in *. clearbody e. intros H1 H2.
  unfold Rmin. destruct (Rle_dec a b), (Rle_dec x y); auto.
  - eapply Rle_trans; [|apply Rmax_lub; [exact H1|exact H2]]. destruct (Rle_or_lt 0 (a - y)) as [S|S].
    + eapply Rle_trans; [|apply Rmax_r]. apply Rmult_le_compat_l; auto. rewrite !Rabs_pos_eq by lra. lra.
    + eapply Rle_trans; [|apply Rmax_l]. apply Rmult_le_compat_l; auto. rewrite !Rabs_left1 by lra. lra.
  - eapply Rle_trans; [|apply Rmax_lub; [exact H1|exact H2]]. destruct (Rle_or_lt 0 (b - x)) as [S|S].
    + eapply Rle_trans; [|apply Rmax_l]. apply Rmult_le_compat_l; auto. rewrite !Rabs_pos_eq by lra. lra.
    + eapply Rle_trans; [|apply Rmax_r]. apply Rmult_le_compat_l; auto. rewrite !Rabs_left1 by lra. lra.
Qed.

Section Ray.
  Context (prec emax epsexp : Z) (at2 : spec_float -> spec_float -> spec_float) (Hprec : Prec_gt_0 prec) (Hmax : Prec_lt_emax prec emax).
  Notation FS := (FloatS prec emax epsexp at2).
  Notation emin := (SpecFloat.emin prec emax).
  Notation good := (finite_float prec emax).
  Notation rv := fvalue.
  Notation ong := (on_grid prec emax).
  Notation rnd := (round radix2 (SpecFloat.fexp prec emax) ZnearestE).
  Notation u := (ulp1 prec).
  Context (s K : Z) (OK : isect_ok prec emax epsexp s K).
  Notation n := (2 ^ K)%Z.
  Notation onp := (@grid_point prec emax epsexp at2 s n).
  Notation onv := (@FloatIsect.onv prec emax epsexp at2 s K).
  Notation val := (@point_value prec emax epsexp at2).
  Notation bk := (bpow radix2 (K + s)).
  Notation e := (bpow radix2 (K + s - prec)).

  Lemma onp_onv d : onp d -> onv d.
  Proof. intros [[G1 (k & Hk & E1)] [G2 (j & Hj & E2)]]. split; split; auto; [exists k|exists j]; split; auto; lia. Qed.
  Lemma on_le m x : ong s m x -> Rabs (rv x) <= IZR m * bpow radix2 s.
  Proof.
    intros (_ & k & Hk & ->). pose proof (bpow_gt_0 radix2 s). rewrite Rabs_mult, (Rabs_pos_eq (bpow radix2 s)) by lra.
    apply Rmult_le_compat_r; [lra|]. rewrite <- abs_IZR. apply IZR_le; auto.
  Qed.
  Lemma bk_n : IZR n * bpow radix2 s = bk.
  Proof. destruct OK. rewrite bpow_plus. f_equal. rewrite <- (IZR_Zpower radix2) by lia. auto. Qed.
  Lemma onp_le d : onp d -> Rabs (vx (val d)) <= bk /\ Rabs (vy (val d)) <= bk.
  Proof. intros [H1 H2]. apply on_le in H1, H2. rewrite bk_n in H1, H2. auto. Qed.

  (* the values of the two coordinates along an edge *)
  Lemma hit_le (o d a b : V2 FS) T : onp o -> onp a -> onp b -> on_segment (ray_at (val o) (val d) T) (val a) (val b) ->
    Rabs (vx (val d) * T) <= 2 * bk /\ Rabs (vy (val d) * T) <= 2 * bk.
  Proof.
    intros Ho Ha Hb (w & Hw & E). apply onp_le in Ho, Ha, Hb. unfold ray_at, lerp in E. destruct Ho as [O1 O2], Ha as [A1 A2], Hb as [B1 B2].
    set (vo := val o) in *. set (vd := val d) in *. set (va := val a) in *. set (vb := val b) in *. clearbody vo vd va vb.
    injection E as Ex Ey. apply Raux.Rabs_le_inv in O1, O2, A1, A2, B1, B2.
    pose proof (mul01 w (vx vb - vx va) Hw) as [M1 M2]. pose proof (mul01 w (vy vb - vy va) Hw) as [M3 M4].
    assert (X : - bk <= vx va + w * (vx vb - vx va) <= bk) by (destruct (Rle_or_lt 0 (vx vb - vx va)) as [L|L]; [specialize (M1 L)|specialize (M2 ltac:(lra))]; lra).
    assert (Y : - bk <= vy va + w * (vy vb - vy va) <= bk) by (destruct (Rle_or_lt 0 (vy vb - vy va)) as [L|L]; [specialize (M3 L)|specialize (M4 ltac:(lra))]; lra).
    split; apply Rabs_le; lra.
  Qed.

  Definition ray_like (d : V2 FS) (t : spec_float) (T : R) : Prop :=
    good t /\ (0 < rv t <-> 0 < T) /\ Rabs (vx (val d) * (rv t - T)) <= 10 * e /\ Rabs (vy (val d) * (rv t - T)) <= 10 * e.

  Lemma rel_pos x q : Rabs (x - q) <= u * Rabs q -> (0 < x <-> 0 < q).
  Proof.
    intros H. assert (U : 0 < u <= 1 / 2). { unfold ulp1. split; [apply bpow_gt_0|]. replace (1 / 2) with (bpow radix2 (-1)) by (cbn; lra). apply bpow_le. unfold Prec_gt_0 in Hprec. lia. }
    destruct (Rle_or_lt 0 q) as [S|S]; [rewrite (Rabs_pos_eq q) in H by auto|rewrite (Rabs_left q) in H by auto]; apply Raux.Rabs_le_inv in H; split; intros; nra.
  Qed.

  Lemma cross_ray o d a b : onp o -> onp d -> onp a -> onp b -> vperp (val d) (vsub (val b) (val a)) <> 0 ->
    match ray_edge_intersection o d a b, ray_edge_intersection (S := RS) (val o) (val d) (val a) (val b) with
    | None, None => True | Some t, Some T => ray_like d t T | _, _ => False end.
  Proof.
    intros Ho Hd Ha Hb Nz. unfold ray_edge_intersection. cbv zeta.
    destruct (vsub_ex prec emax epsexp at2 Hprec Hmax s K OK b a Hb Ha) as [Hs Es]. destruct (vsub_ex prec emax epsexp at2 Hprec Hmax s K OK a o Ha Ho) as [Hq Eq].
    pose proof (onp_onv d Hd) as Hd'.
    rewrite (perp_zero prec emax epsexp at2 Hprec Hmax s K OK d (vsub b a) Hd' Hs). rewrite Es.
    cbn [sulps s0 RS]. destruct (Reqb_spec (vperp (val d) (vsub (val b) (val a))) 0) as [Z|_]; [contradiction|].
    destruct (vprods prec emax epsexp at2 Hprec Hmax s K OK d (vsub b a) Hd' Hs) as [[GD ED] _].
    destruct (vprods prec emax epsexp at2 Hprec Hmax s K OK (vsub a o) (vsub b a) Hq Hs) as [[GT ET] _].
    destruct (vprods prec emax epsexp at2 Hprec Hmax s K OK (vsub a o) d Hq Hd') as [[GU EU] _].
    rewrite Es in ED. rewrite Eq, Es in ET. rewrite Eq in EU.
    pose proof (nn16 prec emax epsexp s K OK) as NN. pose proof (n_pos prec emax epsexp s K OK) as NP. pose proof OK as OK'. destruct OK'.
    assert (Mm : (8 * (n * n) <= 2 ^ prec)%Z) by nia.
    assert (ND : rv (vperp d (vsub b a)) <> 0) by (rewrite ED; exact Nz).
    destruct (quot prec emax Hprec Hmax (s + s) (8 * (n * n)) _ _ Mm i_q ltac:(lia) GT GD ND) as (Gt & Et & Rt & _ & Pt & _).
    destruct (quot prec emax Hprec Hmax (s + s) (8 * (n * n)) _ _ Mm i_q ltac:(lia) GU GD ND) as (Gu & Eu & _ & _ & Pu & Qu).
    rewrite ET, ED in *. rewrite EU in *.
    destruct (G1 prec emax epsexp at2 Hprec Hmax s K OK) as [H1 V1]. pose proof (G0 prec emax) as H0.
    set (T := vperp (vsub (val a) (val o)) (vsub (val b) (val a)) / vperp (val d) (vsub (val b) (val a))) in *.
    set (U := vperp (vsub (val a) (val o)) (val d) / vperp (val d) (vsub (val b) (val a))) in *.
    unfold in_range. cbn [sdiv sleb s0 s1 FloatS RS] in *. 
    rewrite (leb_R prec emax at2 _ _ H0 Gt), (leb_R prec emax at2 _ _ H0 Gu), (leb_R prec emax at2 _ _ Gu H1).
    cbn [s1 FloatS] in V1. rewrite V1. change (rv (S754_zero false)) with 0.
    assert (B1 : forall x y : R, (0 <= x <-> 0 <= y) -> Rleb 0 x = Rleb 0 y) by (intros x y I; destruct (Rleb_spec 0 x), (Rleb_spec 0 y); auto; lra).
    assert (B2 : forall x y : R, (x <= 1 <-> y <= 1) -> Rleb x 1 = Rleb y 1) by (intros x y I; destruct (Rleb_spec x 1), (Rleb_spec y 1); auto; lra).
    rewrite (B1 _ _ Pt), (B1 _ _ Pu), (B2 _ _ Qu). fold T U.
    destruct (Rleb 0 T && (Rleb 0 U && Rleb U 1))%bool eqn:EB; [|exact I].
    assert (Hit : on_segment (ray_at (val o) (val d) T) (val a) (val b)).
    { apply (ray_edge_cross (val o) (val d) (val a) (val b) T); [exact Nz|]. unfold ray_edge_intersection. cbv zeta. cbn [sulps s0 s1 RS sdiv sleb].
      destruct (Reqb_spec (vperp (val d) (vsub (val b) (val a))) 0) as [Z|_]; [contradiction|]. unfold in_range. cbn [sleb s0 s1 RS]. fold T U. rewrite EB. reflexivity. }
    destruct (hit_le o d a b T Ho Ha Hb Hit) as [L1 L2].
    assert (Pe : u * bk = e) by (unfold ulp1; rewrite <- bpow_plus; f_equal; lia). assert (Pu0 : 0 < u) by (unfold ulp1; apply bpow_gt_0). assert (Pk := bpow_gt_0 radix2 (K + s)).
    split; [exact Gt|]. split; [apply rel_pos; exact Rt|].
    assert (W : forall c, Rabs (c * T) <= 2 * bk -> Rabs (c * (rv (SFdiv prec emax (vperp (vsub a o) (vsub b a)) (vperp d (vsub b a))) - T)) <= 10 * e).
    { intros c Hc. rewrite Rabs_mult in *. eapply Rle_trans; [apply Rmult_le_compat_l; [apply Rabs_pos|exact Rt]|].
      replace (Rabs c * (u * Rabs T)) with (u * (Rabs c * Rabs T)) by ring. eapply Rle_trans; [apply Rmult_le_compat_l; [lra|exact Hc]|]. rewrite <- Pe. nra. }
    split; apply W; auto.
  Qed.

  Lemma dot_le x y (p q : V2 FS) : 0 <= x -> 0 <= y -> Rabs (vx (val p)) <= x -> Rabs (vy (val p)) <= x -> Rabs (vx (val q)) <= y -> Rabs (vy (val q)) <= y ->
    Rabs (vdot (val p) (val q)) <= 2 * (x * y).
  Proof.
    intros X Y P1 P2 Q1 Q2. unfold vdot. cbn [sadd smul RS]. eapply Rle_trans; [apply Rabs_triang|]. rewrite !Rabs_mult.
    assert (Rabs (vx (val p)) * Rabs (vx (val q)) <= x * y) by (apply Rmult_le_compat; auto using Rabs_pos).
    assert (Rabs (vy (val p)) * Rabs (vy (val q)) <= x * y) by (apply Rmult_le_compat; auto using Rabs_pos). cbn [car RS] in *. lra.
  Qed.
  (* the two quotients of the parallel case and their sum: A/B, C/B with |A|, |C| <= 2^(prec-2) units and B at least one unit *)
  Lemma sum_quot (A B C : spec_float) : ong (s + s) (8 * (n * n)) A -> ong (s + s) (8 * (n * n)) B -> ong (s + s) (8 * (n * n)) C ->
    0 < rv B -> Rabs (rv A) <= 4 * (bk * bk) -> Rabs (rv C) <= 4 * (bk * bk) ->
    let T0 := rv A / rv B in let T2 := rv C / rv B in let t0 := SFdiv prec emax A B in let t2 := SFdiv prec emax C B in let t1 := SFadd prec emax t0 t2 in
    good t0 /\ good t1 /\ Rabs (rv t0 - T0) <= u * Rabs T0 /\ (0 < rv t1 <-> 0 < T0 + T2) /\
    Rabs (rv t1 - (T0 + T2)) <= u * (Rabs (T0 + T2) + 2 * Rabs T0 + 2 * Rabs T2).
  Proof.
    intros HA HB HC PB LA LC. cbv zeta. pose proof (nn16 prec emax epsexp s K OK) as NN. pose proof (n_pos prec emax epsexp s K OK) as NP. pose proof OK as OK'. destruct OK'.
    assert (Mm : (8 * (n * n) <= 2 ^ prec)%Z) by nia.
    destruct (quot prec emax Hprec Hmax (s + s) (8 * (n * n)) _ _ Mm i_q ltac:(lia) HA HB ltac:(lra)) as (G0_ & E0 & R0 & L0 & _).
    destruct (quot prec emax Hprec Hmax (s + s) (8 * (n * n)) _ _ Mm i_q ltac:(lia) HC HB ltac:(lra)) as (G2_ & E2 & R2 & L2 & _).
    set (T0 := rv A / rv B) in *. set (T2 := rv C / rv B) in *. set (t0 := SFdiv prec emax A B) in *. set (t2 := SFdiv prec emax C B) in *.
    assert (U : 0 < u <= 1 / 2). { unfold ulp1. split; [apply bpow_gt_0|]. replace (1 / 2) with (bpow radix2 (-1)) by (cbn; lra). apply bpow_le. unfold Prec_gt_0 in Hprec. lia. }
    set (g := bpow radix2 (s + s)) in *. assert (Pg : 0 < g) by apply bpow_gt_0.
    destruct HA as (_ & k & Hk & EA), HB as (_ & l & Hl & EB), HC as (_ & j & Hj & EC). fold g in EA, EB, EC.
    assert (Pl : (1 <= l)%Z). { destruct (Z_lt_le_dec 0 l) as [|Q]; [lia|]. apply IZR_le in Q. rewrite EB in PB. assert (IZR l * g <= 0 * g) by (apply Rmult_le_compat_r; lra). lra. }
    assert (Pl' : 1 <= IZR l) by (apply IZR_le; auto).
    assert (Bk : bk * bk = IZR (n * n) * g). { rewrite <- (bk_n). rewrite mult_IZR. unfold g. rewrite bpow_plus. ring. }
    assert (Nu : u * IZR (n * n) <= 1 / 16).
    { assert (Q : IZR (16 * (n * n)) <= bpow radix2 prec) by (rewrite <- (IZR_Zpower radix2) by lia; apply IZR_le; exact NN). rewrite mult_IZR in Q.
      assert (Ui : u * bpow radix2 prec = 1) by (unfold ulp1; rewrite <- bpow_plus; replace (- prec + prec)%Z with 0%Z by lia; reflexivity). nra. }
    assert (D0 : T0 = IZR k / IZR l) by (unfold T0; rewrite EA, EB; field; lra).
    assert (D2 : T2 = IZR j / IZR l) by (unfold T2; rewrite EC, EB; field; lra).
    assert (Kn : Rabs (IZR k) <= 4 * IZR (n * n)). { apply Rmult_le_reg_r with g; auto. rewrite EA, Bk in LA. rewrite Rabs_mult, (Rabs_pos_eq g) in LA by lra. lra. }
    assert (Jn : Rabs (IZR j) <= 4 * IZR (n * n)). { apply Rmult_le_reg_r with g; auto. rewrite EC, Bk in LC. rewrite Rabs_mult, (Rabs_pos_eq g) in LC by lra. lra. }
    assert (Il : 0 < / IZR l) by (apply Rinv_0_lt_compat; lra).
    assert (Q : forall z, Rabs (IZR z) <= 4 * IZR (n * n) -> u * Rabs (IZR z / IZR l) <= / 4 * / IZR l).
    { intros z Hz. unfold Rdiv. rewrite Rabs_mult, (Rabs_pos_eq (/ IZR l)) by lra. rewrite <- Rmult_assoc. apply Rmult_le_compat_r; [lra|]. 
      eapply Rle_trans; [apply Rmult_le_compat_l; [lra|exact Hz]|]. lra. }
    assert (Q0 : u * Rabs T0 <= / 4 * / IZR l) by (rewrite D0; auto). assert (Q2 : u * Rabs T2 <= / 4 * / IZR l) by (rewrite D2; auto).
    assert (Sm : T0 + T2 = IZR (k + j) * / IZR l) by (rewrite D0, D2, plus_IZR; field; lra).
    (* the computed sum has the right sign and is not tiny *)
    set (x := rv t0 + rv t2). assert (Cx : Rabs (x - (T0 + T2)) <= u * Rabs T0 + u * Rabs T2).
    { unfold x. replace (rv t0 + rv t2 - (T0 + T2)) with ((rv t0 - T0) + (rv t2 - T2)) by ring. eapply Rle_trans; [apply Rabs_triang|]. lra. }
    assert (Tiny : u <= / 2 * / IZR l).
    { assert (Z1 : IZR l <= 8 * IZR (n * n)) by (rewrite <- mult_IZR; apply IZR_le; lia). apply Rmult_le_reg_r with (IZR l); [lra|]. rewrite Rmult_assoc, Rinv_l by lra. nra. }
    assert (Sx : (x = 0 /\ T0 + T2 = 0) \/ (u <= x /\ 0 < T0 + T2) \/ (x <= - u /\ T0 + T2 < 0)).
    { apply Raux.Rabs_le_inv in Cx. destruct (Z.lt_trichotomy (k + j) 0) as [Z|[Z|Z]].
      - right. right. assert (IZR (k + j) <= -1) by (apply IZR_le; lia). assert (IZR (k + j) * / IZR l <= -1 * / IZR l) by (apply Rmult_le_compat_r; lra). split; lra.
      - left. split; [|rewrite Sm, Z; ring]. unfold x. rewrite E0, E2. replace T2 with (- T0) by (rewrite D0, D2; replace j with (- k)%Z by lia; rewrite opp_IZR; field; lra).
        rewrite (rnd_opp prec emax). ring.
      - right. left. assert (1 <= IZR (k + j)) by (apply IZR_le; lia). assert (1 * / IZR l <= IZR (k + j) * / IZR l) by (apply Rmult_le_compat_r; lra). split; lra. }
    assert (Nx : x = 0 \/ normal prec emax x).
    { destruct Sx as [[Z _]|[[Z _]|[Z _]]]; auto; right; unfold normal; eapply Rle_trans; [|apply RRle_abs| |rewrite <- Rabs_Ropp; apply RRle_abs]; (apply Rle_trans with u; [unfold ulp1; apply bpow_le; lia|lra]). }
    assert (L0' : Rabs (rv t0) <= bpow radix2 prec) by (rewrite E0; apply rnd_small; auto; unfold Prec_gt_0 in Hprec; lia).
    assert (L2' : Rabs (rv t2) <= bpow radix2 prec) by (rewrite E2; apply rnd_small; auto; unfold Prec_gt_0 in Hprec; lia).
    assert (Lx : Rabs x <= bpow radix2 (prec + 1)).
    { rewrite bpow_plus. change (bpow radix2 1) with 2. unfold x. eapply Rle_trans; [apply Rabs_triang|]. lra. }
    destruct (add_rnd prec emax Hprec Hmax t0 t2 G0_ G2_) as [G1_ E1]; [eapply rnd_finite; [auto..| |exact Lx]; unfold Prec_gt_0 in Hprec; lia|]. fold x in E1.
    assert (R1 : Rabs (rnd x - x) <= u * Rabs x) by (apply rnd_rel; auto).
    split; [exact G0_|]. split; [exact G1_|]. split; [exact R0|]. rewrite E1. split.
    - rewrite (rel_pos _ _ R1). destruct Sx as [[Z1 Z2]|[[Z1 Z2]|[Z1 Z2]]]; lra.
    - replace (rnd x - (T0 + T2)) with ((rnd x - x) + (x - (T0 + T2))) by ring. eapply Rle_trans; [apply Rabs_triang|].
      assert (X1 : Rabs x <= Rabs (T0 + T2) + (u * Rabs T0 + u * Rabs T2)).
      { replace x with ((T0 + T2) + (x - (T0 + T2))) by ring. eapply Rle_trans; [apply Rabs_triang|]. lra. }
      pose proof (Rabs_pos T0). pose proof (Rabs_pos T2). assert (u * Rabs T0 <= Rabs T0) by nra. assert (u * Rabs T2 <= Rabs T2) by nra.
      assert (u * Rabs x <= u * (Rabs (T0 + T2) + Rabs T0 + Rabs T2)) by (apply Rmult_le_compat_l; lra). lra.
  Qed.

  Lemma parallel_ray o d a b : onp o -> onp d -> onp a -> onp b -> (vx (val d) <> 0 \/ vy (val d) <> 0) -> vperp (val d) (vsub (val b) (val a)) = 0 ->
    match ray_edge_intersection o d a b, ray_edge_intersection (S := RS) (val o) (val d) (val a) (val b) with
    | None, None => True | Some t, Some T => ray_like d t T | _, _ => False end.
  Proof.
    intros Ho Hd Ha Hb Dn Z. unfold ray_edge_intersection. cbv zeta.
    destruct (vsub_ex prec emax epsexp at2 Hprec Hmax s K OK b a Hb Ha) as [Hs Es]. destruct (vsub_ex prec emax epsexp at2 Hprec Hmax s K OK a o Ha Ho) as [Hq Eq].
    pose proof (onp_onv d Hd) as Hd'.
    rewrite (perp_zero prec emax epsexp at2 Hprec Hmax s K OK d (vsub b a) Hd' Hs), (perp_zero prec emax epsexp at2 Hprec Hmax s K OK (vsub a o) d Hq Hd'). rewrite Es, Eq.
    cbn [sulps s0 RS]. destruct (Reqb_spec (vperp (val d) (vsub (val b) (val a))) 0) as [_|N]; [|contradiction].
    destruct (Reqb_spec (vperp (vsub (val a) (val o)) (val d)) 0) as [Zq|_]; [|exact I].
    destruct (vprods prec emax epsexp at2 Hprec Hmax s K OK d d Hd' Hd') as [_ [GB EB]].
    destruct (vprods prec emax epsexp at2 Hprec Hmax s K OK (vsub a o) d Hq Hd') as [_ [GA EA]].
    destruct (vprods prec emax epsexp at2 Hprec Hmax s K OK (vsub b a) d Hs Hd') as [_ [GC EC]].
    pose proof (onp_le d Hd) as [D1 D2]. pose proof (onv_le prec emax epsexp at2 s K OK _ Hq) as [Q1 Q2]. pose proof (onv_le prec emax epsexp at2 s K OK _ Hs) as [S1 S2].
    assert (Pk := bpow_gt_0 radix2 (K + s)).
    assert (LA : Rabs (rv (vdot (vsub a o) d)) <= 4 * (bk * bk)). { rewrite EA. replace (4 * (bk * bk)) with (2 * ((2 * bk) * bk)) by ring. apply dot_le; auto; lra. }
    assert (LC : Rabs (rv (vdot (vsub b a) d)) <= 4 * (bk * bk)). { rewrite EC. replace (4 * (bk * bk)) with (2 * ((2 * bk) * bk)) by ring. apply dot_le; auto; lra. }
    assert (PB : 0 < rv (vdot d d)). { rewrite EB. unfold vdot. cbn [sadd smul RS]. pose proof (sq_nn (vx (val d))); pose proof (sq_nn (vy (val d))). destruct Dn as [Dn|Dn]; apply sq_pos in Dn; cbn [car RS] in *; lra. }
    destruct (sum_quot _ _ _ GA GB GC PB LA LC) as (G0_ & G1_ & R0 & P1 & R1).
    rewrite Es in EC. rewrite Eq in EA. rewrite EA, EB, EC in *.
    cbn [sdiv sadd smin FloatS RS] in *.
    set (t0 := SFdiv prec emax (vdot (vsub a o) d) (vdot d d)) in *. set (t1 := SFadd prec emax t0 (SFdiv prec emax (vdot (vsub b a) d) (vdot d d))) in *.
    set (T0 := vdot (vsub (val a) (val o)) (val d) / vdot (val d) (val d)) in *. set (T2 := vdot (vsub (val b) (val a)) (val d) / vdot (val d) (val d)) in *.
    (* the vectors are multiples of the direction *)
    assert (W : forall v : pt, vperp v (val d) = 0 -> vx (val d) * (vdot v (val d) / vdot (val d) (val d)) = vx v /\ vy (val d) * (vdot v (val d) / vdot (val d) (val d)) = vy v).
    { intros v Hv. unfold vperp, vdot in *. cbn [sadd smul ssub RS] in *. set (dx := vx (val d)) in *. set (dy := vy (val d)) in *. set (X := vx v) in *. set (Y := vy v) in *. clearbody dx dy X Y.
      assert (Nd : dx * dx + dy * dy <> 0) by lra. split; apply Rmult_eq_reg_r with (dx * dx + dy * dy); auto; unfold Rdiv;
        [replace (dx * ((X * dx + Y * dy) * / (dx * dx + dy * dy)) * (dx * dx + dy * dy)) with (dx * (X * dx + Y * dy)) by (field; auto)
        |replace (dy * ((X * dx + Y * dy) * / (dx * dx + dy * dy)) * (dx * dx + dy * dy)) with (dy * (X * dx + Y * dy)) by (field; auto)].
      - assert (E1 : dy * (X * dy) = dy * (Y * dx)) by (f_equal; lra). lra.
      - assert (E1 : dx * (X * dy) = dx * (Y * dx)) by (f_equal; lra). lra. }
    destruct (W _ Zq) as [W1 W2]. fold T0 in W1, W2.
    assert (Zs : vperp (vsub (val b) (val a)) (val d) = 0). { unfold vperp in *. cbn [smul ssub RS] in *. cbn [car RS] in *. lra. }
    destruct (W _ Zs) as [W3 W4]. fold T2 in W3, W4. clear W.
    rewrite <- Eq in W1, W2. rewrite <- Es in W3, W4. 
    assert (Hb' : vx (val d) * (T0 + T2) = vx (val b) - vx (val o) /\ vy (val d) * (T0 + T2) = vy (val b) - vy (val o)).
    { rewrite !Rmult_plus_distr_l, W1, W2, W3, W4, Eq, Es. unfold vsub. cbn [vx vy ssub RS]. split; ring. }
    pose proof (onp_le o Ho) as [O1 O2]. pose proof (onp_le b Hb) as [B1 B2].
    assert (Pe : u * bk = e) by (unfold ulp1; rewrite <- bpow_plus; f_equal; lia). assert (Pu0 : 0 < u) by (unfold ulp1; apply bpow_gt_0).
    assert (Fin : forall c q v w, Rabs q <= 2 * bk -> Rabs v <= 2 * bk -> Rabs w <= 2 * bk -> c * T0 = q -> c * T2 = v -> c * (T0 + T2) = w ->
      Rabs (c * (Rmin (rv t0) (rv t1) - Rmin T0 (T0 + T2))) <= 10 * e).
    { intros c q v w Hq' Hv Hw E1 E2 E3. apply min_err.
      - rewrite Rabs_mult. eapply Rle_trans; [apply Rmult_le_compat_l; [apply Rabs_pos|exact R0]|]. rewrite <- E1, Rabs_mult in Hq'. rewrite <- Pe.
        replace (Rabs c * (u * Rabs T0)) with (u * (Rabs c * Rabs T0)) by ring. eapply Rle_trans; [apply Rmult_le_compat_l; [lra|exact Hq']|]. nra.
      - rewrite Rabs_mult. eapply Rle_trans; [apply Rmult_le_compat_l; [apply Rabs_pos|exact R1]|]. rewrite <- E1, Rabs_mult in Hq'. rewrite <- E2, Rabs_mult in Hv. rewrite <- E3, Rabs_mult in Hw. rewrite <- Pe.
        replace (Rabs c * (u * (Rabs (T0 + T2) + 2 * Rabs T0 + 2 * Rabs T2))) with (u * (Rabs c * Rabs (T0 + T2) + 2 * (Rabs c * Rabs T0) + 2 * (Rabs c * Rabs T2))) by ring.
        replace (10 * (u * bk)) with (u * (10 * bk)) by ring. apply Rmult_le_compat_l; [lra|]. lra. }
    destruct (min_ex prec emax epsexp at2 t0 t1 G0_ G1_) as [Gm Em]. cbn [smin FloatS] in Gm, Em.
    split; [exact Gm|]. rewrite Em. split.
    - assert (P0 := rel_pos _ _ R0). unfold Rmin. destruct (Rle_dec (rv t0) (rv t1)), (Rle_dec T0 (T0 + T2)); lra.
    - destruct Hb' as [Hx Hy]. assert (X1 : Rabs (vx (val b) - vx (val o)) <= 2 * bk) by (apply Raux.Rabs_le_inv in B1, O1; apply Rabs_le; lra).
      assert (X2 : Rabs (vy (val b) - vy (val o)) <= 2 * bk) by (apply Raux.Rabs_le_inv in B2, O2; apply Rabs_le; lra).
      split; [exact (Fin _ _ _ _ Q1 S1 X1 W1 W3 Hx)|exact (Fin _ _ _ _ Q2 S2 X2 W2 W4 Hy)].
  Qed.

  Theorem ray_edge_like o d a b : onp o -> onp d -> onp a -> onp b -> (vx (val d) <> 0 \/ vy (val d) <> 0) ->
    match ray_edge_intersection o d a b, ray_edge_intersection (S := RS) (val o) (val d) (val a) (val b) with
    | None, None => True | Some t, Some T => ray_like d t T | _, _ => False end.
  Proof.
    intros Ho Hd Ha Hb Dn. destruct (Req_dec (vperp (val d) (vsub (val b) (val a))) 0); [apply parallel_ray|apply cross_ray]; auto.
  Qed.

  (* the fold keeps a least positive parameter *)
  Lemma fold_least o d (ws : list (V2 FS * V2 FS)) :
    (forall w t, In w ws -> ray_edge_intersection o d (fst w) (snd w) = Some t -> good t) ->
    forall acc, (match acc with Some t => good t /\ 0 < rv t | None => True end) ->
    match fold_left (ray_step o d) ws acc with
    | Some t => good t /\ 0 < rv t /\ (acc = Some t \/ exists w, In w ws /\ ray_edge_intersection o d (fst w) (snd w) = Some t) /\
                (forall t', acc = Some t' -> rv t <= rv t') /\
                (forall w t', In w ws -> ray_edge_intersection o d (fst w) (snd w) = Some t' -> 0 < rv t' -> rv t <= rv t')
    | None => acc = None /\ forall w t', In w ws -> ray_edge_intersection o d (fst w) (snd w) = Some t' -> rv t' <= 0
    end.
  Proof.
    induction ws as [|w ws IH]; intros Hg acc Ha; cbn [fold_left].
    - destruct acc as [t|]; [destruct Ha as [G P]; split; auto; split; auto; split; auto; split; [intros t' E; injection E as <-; lra|intros w t' []]|split; auto; intros w t' []].
    - assert (Hg' : forall w t, In w ws -> ray_edge_intersection o d (fst w) (snd w) = Some t -> good t) by (intros; eapply Hg; [right|]; eauto).
      pose proof (fun t => Hg w t (or_introl eq_refl)) as Hw. pose proof (G0 prec emax) as H0.
      assert (Step : (ray_step o d acc w = acc /\ forall t, ray_edge_intersection o d (fst w) (snd w) = Some t -> 0 < rv t -> exists t', acc = Some t' /\ rv t' <= rv t) \/
        exists t, ray_edge_intersection o d (fst w) (snd w) = Some t /\ 0 < rv t /\ ray_step o d acc w = Some t /\ forall t', acc = Some t' -> rv t <= rv t').
      { unfold ray_step. destruct (ray_edge_intersection o d (fst w) (snd w)) as [t|] eqn:E; [|left; split; [auto|intros; discriminate]].
        specialize (Hw t eq_refl). cbn [sltb s0 FloatS]. rewrite (ltb_R prec emax at2 _ _ H0 Hw). change (rv (S754_zero false)) with 0.
        destruct acc as [nt|].
        - rewrite (ltb_R prec emax at2 _ _ Hw (proj1 Ha)). destruct (Rltb_spec 0 (rv t)); cbn [andb].
          + destruct (Rltb_spec (rv t) (rv nt)); [right; exists t; repeat split; auto; intros t' E'; injection E' as <-; lra|left; split; auto; intros t' E' _; injection E' as <-; exists nt; split; auto; lra].
          + left. split; auto. intros t' E'. injection E' as <-. lra.
        - destruct (Rltb_spec 0 (rv t)); [right; exists t; repeat split; auto; intros; discriminate|left; split; auto; intros t' E'; injection E' as <-; lra]. }
      assert (Hs : match ray_step o d acc w with Some t => good t /\ 0 < rv t | None => True end).
      { destruct Step as [[-> _]|(t & E & P & -> & _)]; auto. }
      specialize (IH Hg' _ Hs). destruct (fold_left (ray_step o d) ws (ray_step o d acc w)) as [t|].
      + destruct IH as (G & P & I1 & I2 & I3). split; auto. split; auto. destruct Step as [[Es Q]|(t1 & E & P1 & Es & Q)]; rewrite Es in *.
        * split; [destruct I1 as [?|(w' & Hin & E')]; [auto|right; exists w'; split; [right|]; auto]|]. split; auto.
          intros w' t' [<-|Hin] E' P'; [|eapply I3; eauto]. destruct (Q t' E' P') as (t2 & E2 & L2). specialize (I2 t2 E2). lra.
        * split; [right; destruct I1 as [I1|(w' & Hin & E')]; [injection I1 as <-; exists w; split; [left|]; auto|exists w'; split; [right|]; auto]|].
          split; [intros t' E'; specialize (I2 t1 eq_refl); specialize (Q t' E'); lra|].
          intros w' t' [<-|Hin] E' P'; [|eapply I3; eauto]. rewrite E in E'. injection E' as <-. apply I2. auto.
      + destruct IH as (I1 & I2). destruct Step as [[Es Q]|(t1 & E & P1 & Es & Q)]; rewrite Es in *; [|discriminate].
        split; auto. intros w' t' [<-|Hin] E'; [|eapply I2; eauto]. apply Rnot_lt_le. intros C. destruct (Q t' E' C) as (t2 & E2 & _). congruence.
  Qed.

  (* the point at the parameter *)
  Lemma along_ray p r x T : ong s n p -> ong s n r -> good x -> Rabs (rv r * T) <= 2 * bk -> Rabs (rv r * (rv x - T)) <= 10 * e ->
    Rabs (rv (SFadd prec emax p (SFmul prec emax r x)) - (rv p + T * rv r)) <= 22 * e.
  Proof.
    intros Hp Hr Hx HT H. assert (OK' := OK). destruct OK'. assert (Bk := bpow_gt_0 radix2 (K + s)). assert (Pp := on_le _ _ Hp). rewrite bk_n in Pp.
    assert (Ee : 16 * e <= bk). { replace (K + s - prec)%Z with (- prec + (K + s))%Z by lia. rewrite bpow_plus. assert (bpow radix2 (- prec) <= bpow radix2 (-4)) by (apply bpow_le; lia). change (bpow radix2 (-4)) with (/ 16) in *. nra. }
    assert (E2 : bpow radix2 (K + s + 2) = 4 * bk) by (rewrite bpow_plus; change (bpow radix2 2) with 4; ring).
    assert (E3 : bpow radix2 (K + s + 3) = 8 * bk) by (rewrite bpow_plus; change (bpow radix2 3) with 8; ring).
    assert (Lm : Rabs (rv r * rv x) <= bpow radix2 (K + s + 2)).
    { rewrite E2. replace (rv r * rv x) with (rv r * T + rv r * (rv x - T)) by ring. eapply Rle_trans; [apply Rabs_triang|]. pose proof (bpow_gt_0 radix2 (K + s - prec)). lra. }
    destruct (mul_rnd prec emax Hprec Hmax r x) as [Gm Em]; auto; [apply Hr|eapply rnd_finite; [auto..| |exact Lm]; unfold SpecFloat.emin in *; lia|].
    assert (Lm' : Rabs (rv (SFmul prec emax r x)) <= bpow radix2 (K + s + 2)) by (rewrite Em; apply rnd_small; auto; unfold SpecFloat.emin in *; lia).
    assert (Ls : Rabs (rv p + rv (SFmul prec emax r x)) <= bpow radix2 (K + s + 3)).
    { eapply Rle_trans; [apply Rabs_triang|]. lra. }
    destruct (add_rnd prec emax Hprec Hmax p (SFmul prec emax r x)) as [Ga Ea]; auto; [apply Hp|eapply rnd_finite; [auto..| |exact Ls]; unfold SpecFloat.emin in *; lia|].
    assert (H1 := half_err prec emax Hprec _ (K + s + 2) ltac:(lia) Lm). assert (H2 := half_err prec emax Hprec _ (K + s + 3) ltac:(lia) Ls). rewrite <- Em in H1. rewrite <- Ea in H2.
    replace (K + s + 2 - prec)%Z with (K + s - prec + 2)%Z in H1 by lia. replace (K + s + 3 - prec)%Z with (K + s - prec + 3)%Z in H2 by lia.
    rewrite bpow_plus in H1, H2. change (bpow radix2 2) with 4 in H1. change (bpow radix2 3) with 8 in H2.
    set (f := rv (SFadd prec emax p (SFmul prec emax r x))) in *. set (m := rv (SFmul prec emax r x)) in *.
    replace (f - (rv p + T * rv r)) with ((f - (rv p + m)) + ((m - rv r * rv x) + rv r * (rv x - T))) by ring.
    eapply Rle_trans; [apply Rabs_triang|]. eapply Rle_trans; [apply Rplus_le_compat_l, Rabs_triang|]. lra.
  Qed.

  Definition near2 (c : R) (p q : pt) : Prop := Rabs (vx p - vx q) <= c * e /\ Rabs (vy p - vy q) <= c * e.
  Theorem closest_like (l : list (V2 FS)) o d : onp o -> onp d -> Forall onp l -> (vx (val d) <> 0 \/ vy (val d) <> 0) ->
    let O := val o in let D := val d in
    match closest_ray_intersection l d o with
    | Some x => exists T, 0 < T /\ near2 22 (val x) (ray_at O D T) /\
        (exists i a b, edge_of l i a b /\ on_segment (ray_at O D T) (val a) (val b)) /\
        (forall i a b T', edge_of l i a b -> 0 < T' < T -> on_segment (ray_at O D T') (val a) (val b) ->
           passed_over O D (val a) (val b) \/ near2 20 (ray_at O D T') (ray_at O D T))
    | None => forall i a b T', edge_of l i a b -> 0 < T' -> on_segment (ray_at O D T') (val a) (val b) -> passed_over O D (val a) (val b)
    end.
  Proof.
    intros Ho Hd Hl Dn. cbv zeta. unfold closest_ray_intersection. rewrite Forall_forall in Hl.
    assert (Ed : forall w, In w (windows l) -> onp (fst w) /\ onp (snd w)).
    { intros [a b] Hw. apply windows_In in Hw as (i & Hi). destruct Hi as [H1 H2]. apply nth_error_In in H1, H2. cbn [fst snd]. auto. }
    assert (Like : forall w, In w (windows l) -> match ray_edge_intersection o d (fst w) (snd w), ray_edge_intersection (S := RS) (val o) (val d) (val (fst w)) (val (snd w)) with
      | None, None => True | Some t, Some T => ray_like d t T | _, _ => False end).
    { intros w Hw. destruct (Ed w Hw). apply ray_edge_like; auto. }
    assert (FL : match fold_left (ray_step o d) (windows l) None with
      | Some t => good t /\ 0 < rv t /\ (exists w, In w (windows l) /\ ray_edge_intersection o d (fst w) (snd w) = Some t) /\
          (forall w t', In w (windows l) -> ray_edge_intersection o d (fst w) (snd w) = Some t' -> 0 < rv t' -> rv t <= rv t')
      | None => forall w t', In w (windows l) -> ray_edge_intersection o d (fst w) (snd w) = Some t' -> rv t' <= 0 end).
    { pose proof (fold_least o d (windows l)) as F. specialize (F ltac:(intros w t Hw E; specialize (Like w Hw); rewrite E in Like; destruct (ray_edge_intersection (S := RS) _ _ _ _); [apply Like|destruct Like]) None I).
      change spec_float with (car FS) in F |- *. destruct (fold_left (ray_step o d) (windows l) None) as [t|]; [|exact (proj2 F)]. destruct F as (G & P & [F1|F1] & _ & F3); [discriminate|]. auto. }
    assert (Main : match fold_left (ray_step o d) (windows l) None with
      | Some t => exists T, 0 < T /\ good t /\ ray_like d t T /\
        (exists i a b, edge_of l i a b /\ on_segment (ray_at (val o) (val d) T) (val a) (val b)) /\
        (forall i a b T', edge_of l i a b -> 0 < T' < T -> on_segment (ray_at (val o) (val d) T') (val a) (val b) ->
           passed_over (val o) (val d) (val a) (val b) \/ near2 20 (ray_at (val o) (val d) T') (ray_at (val o) (val d) T))
      | None => forall i a b T', edge_of l i a b -> 0 < T' -> on_segment (ray_at (val o) (val d) T') (val a) (val b) -> passed_over (val o) (val d) (val a) (val b)
      end).
    { destruct (fold_left (ray_step o d) (windows l) None) as [t|].
      - destruct FL as (G & P & ([a b] & Hw & E) & Least). cbn [fst snd] in E. pose proof (Like _ Hw) as L. cbn [fst snd] in L. rewrite E in L.
        destruct (ray_edge_intersection (S := RS) (val o) (val d) (val a) (val b)) as [T|] eqn:ET; [|destruct L].
        assert (PT : 0 < T) by (apply L; auto). exists T. split; auto. split; auto. split; auto. split.
        + apply windows_In in Hw as (i & Hi). exists i, a, b. split; auto. apply ray_on_edge; auto.
        + intros i a' b' T' He HT' Hs. destruct (ray_hit (val o) (val d) (val a') (val b') T' Dn ltac:(lra) Hs) as [?|(T1 & E1 & H1)]; [auto|right].
          assert (Hw' : In (a', b') (windows l)) by (apply windows_In; eauto). pose proof (Like _ Hw') as L'. cbn [fst snd] in L'.
          destruct (ray_edge_intersection o d a' b') as [t'|] eqn:E'; [|rewrite E1 in L'; destruct L']. rewrite E1 in L'.
          assert (Le : rv t <= rv t') by (apply (Least (a', b')); auto; apply L'; lra).
          destruct L as (_ & _ & X1 & Y1), L' as (_ & _ & X2 & Y2).
          assert (Fin : forall c z, Rabs (c * (rv t - T)) <= 10 * e -> Rabs (c * (rv t' - T1)) <= 10 * e -> Rabs (z + T' * c - (z + T * c)) <= 20 * e).
          { intros c z A1 A2. replace (z + T' * c - (z + T * c)) with (c * (T' - T)) by ring. rewrite Rabs_mult in *. pose proof (Rabs_pos c) as Pc.
            rewrite (Rabs_left1 (T' - T)) by lra. 
            assert (B1 : Rabs c * (T - rv t) <= 10 * e). { eapply Rle_trans; [|exact A1]. apply Rmult_le_compat_l; auto. rewrite Rabs_minus_sym. apply RRle_abs. }
            assert (B2 : Rabs c * (rv t' - T1) <= 10 * e). { eapply Rle_trans; [|exact A2]. apply Rmult_le_compat_l; auto. apply RRle_abs. }
            assert (B3 : Rabs c * (- (T' - T)) <= Rabs c * ((T - rv t) + (rv t' - T1))) by (apply Rmult_le_compat_l; lra). lra. }
          unfold near2, ray_at. cbn [vx vy]. split; apply Fin; auto.
      - intros i a b T' He HT' Hs. destruct (ray_hit (val o) (val d) (val a) (val b) T' Dn HT' Hs) as [?|(T1 & E1 & H1)]; [auto|exfalso].
        assert (Hw' : In (a, b) (windows l)) by (apply windows_In; eauto). pose proof (Like _ Hw') as L'. cbn [fst snd] in L'.
        destruct (ray_edge_intersection o d a b) as [t'|] eqn:E'; [|rewrite E1 in L'; destruct L']. rewrite E1 in L'.
        assert (rv t' <= 0) by (apply (FL (a, b)); auto). assert (0 < rv t') by (apply L'; lra). lra. }
    destruct (Nat.leb_spec (length l) 1) as [Hlen|Hlen].
    - intros i a b T' He. exfalso. assert (In (a, b) (windows l)) by (apply windows_In; eauto). destruct l as [|? [|? ?]]; cbn in *; auto. lia.
    - revert Main. destruct (fold_left (ray_step o d) (windows l) None) as [t|]; cbn [option_map]; intros Main; auto.
      destruct Main as (T & PT & G & L & (i & a & b & He & Hs) & M). exists T. split; auto. split; [|split; [exists i, a, b|]; auto].
      assert (Ea : onp a /\ onp b) by (apply (Ed (a, b)); apply windows_In; eauto). destruct (hit_le o d a b T Ho (proj1 Ea) (proj2 Ea) Hs) as [L1 L2].
      destruct L as (_ & _ & X & Y). unfold near2, ray_at, vadd, vscale. cbn [vx vy point_value sadd smul FloatS] in *.
      split; apply along_ray; auto; try apply Ho; try apply Hd.
  Qed.
End Ray.
