(* The sweep line in floating point, on lines whose end points are on a grid. *)
From Coq Require Import ZArith Reals Lra Lia Psatz Permutation Sorting.Sorted Floats.SpecFloat.
From Flocq Require Import Core BinarySingleNaN.
From Verif Require Import Prelude Scalar RInst Flt FloatSpec FloatLink FloatGrid FloatRound Geo2 GeoSpec DistR IsectProofs FloatRdp FloatIsect FloatPoint FloatSelf
  Sweep SweepMap SweepProofs SweepCand SweepLoop SweepLoop2 SweepIdx SweepRun SweepFin SweepAny.
Local Open Scope R_scope.

(* p is at most d from q in each coordinate *)
Definition near_by (d : R) (p q : pt) : Prop := Rabs (vx p - vx q) <= d /\ Rabs (vy p - vy q) <= d.
Lemma near_trans d e p q r : near_by d p q -> near_by e q r -> near_by (d + e) p r.
Proof.
  intros [A1 A2] [B1 B2]. split.
  - replace (vx p - vx r) with ((vx p - vx q) + (vx q - vx r)) by rring. eapply Rle_trans; [apply Rabs_triang|]. lra.
  - replace (vy p - vy r) with ((vy p - vy q) + (vy q - vy r)) by rring. eapply Rle_trans; [apply Rabs_triang|]. lra.
Qed.
Lemma near_sym d p q : near_by d p q -> near_by d q p.
Proof. intros [A B]. split; rewrite Rabs_minus_sym; auto. Qed.
Lemma near_le d e p q : d <= e -> near_by d p q -> near_by e p q.
Proof. intros L [A B]. split; lra. Qed.
Lemma near_refl d p : 0 <= d -> near_by d p p.
Proof. intros L. split; rewrite Rminus_diag_eq, Rabs_R0; auto. Qed.

Section Grid.
  Context (prec emax epsexp : Z) (at2 : spec_float -> spec_float -> spec_float) (Hprec : Prec_gt_0 prec) (Hmax : Prec_lt_emax prec emax).
  Notation FS := (FloatS prec emax epsexp at2).
  Notation emin := (SpecFloat.emin prec emax).
  Notation good := (finite_float prec emax).
  Notation rv := fvalue.
  Notation ong := (on_grid prec emax).
  Context (s K : Z) (OK : isect_ok prec emax epsexp s K).
  Notation n := (2 ^ K)%Z.
  Notation onp := (@grid_point prec emax epsexp at2 s n).
  Notation val := (@point_value prec emax epsexp at2).
  Notation lval := (lval prec emax epsexp at2).
  Context (Hee : (emin + 2 <= epsexp)%Z) (Hes : (epsexp + 2 < s)%Z) (HK7 : (K + 7 <= prec)%Z) (Hh : (epsexp + 1 <= K + s + 4 - prec)%Z).
  Notation V := (V2 FS).
  Notation L := (Line2 FS).
  (* the size of a hop between keys that compare equal *)
  Notation h := (bpow radix2 (K + s + 4 - prec)).

  Lemma h_pos : 0 < h.
  Proof. apply bpow_gt_0. Qed.
  Definition okey (p : V) : Prop := (good (vx p) /\ good (vy p)) /\ Rabs (rv (vx p)) <= bpow radix2 (K + s + 1) /\ Rabs (rv (vy p)) <= bpow radix2 (K + s + 1).
  Lemma onp_okey p : onp p -> okey p.
  Proof.
    intros [Px Py]. assert (bpow radix2 (K + s) <= bpow radix2 (K + s + 1)) by (apply bpow_le; lia).
    pose proof (grid_le prec emax epsexp s K OK _ Px). pose proof (grid_le prec emax epsexp s K OK _ Py). split; [split; [apply Px|apply Py]|]. split; lra.
  Qed.
  Lemma fin_good x : good x -> @sfin FS x = true.
  Proof. intros [_ H]. destruct x; try discriminate; reflexivity. Qed.
  Lemma cmp_okey a b : okey a -> okey b -> key_cmp a b <> None.
  Proof.
    intros [[A1 A2] _] [[B1 B2] _]. apply key_cmp_fin; [apply comparable_float| |]; split; apply fin_good; auto.
  Qed.
  Lemma sulps_val x y : good x -> good y -> rv x = rv y -> @sulps FS x y = true.
  Proof.
    intros Gx Gy E. cbn [sulps FloatS]. unfold fl_ulps_with, fl_absdiff. destruct OK.
    destruct (sub_rnd prec emax Hprec Hmax x y Gx Gy) as [G Es]; [rewrite E, Rminus_diag_eq, rnd_0, Rabs_R0 by auto; apply bpow_gt_0|].
    destruct (good_abs _ _ _ G) as [Ga Ea']. destruct (pow2_good prec emax Hprec Hmax epsexp i_eps) as [Gp Ep].
    rewrite (leb_R prec emax at2 _ _ Ga Gp), Ea', Es, Ep, E, (Rminus_diag_eq (rv y)), rnd_0, Rabs_R0 by auto. replace (Rleb 0 (bpow radix2 epsexp)) with true; auto. symmetry. apply Rleb_true, bpow_ge_0.
  Qed.
  Lemma cmp_refl a : okey a -> key_cmp a a = Some Eq.
  Proof. intros [[A1 A2] _]. unfold key_cmp. rewrite !sulps_val; auto. Qed.
  Lemma cmp_ulps a b : okey a -> okey b -> key_cmp a b = Some Eq -> @sulps FS (vx a) (vx b) = true /\ @sulps FS (vy a) (vy b) = true.
  Proof.
    intros [[A1 A2] _] [[B1 B2] _] H. unfold key_cmp in H.
    assert (E : forall x y, good x -> good y -> @spcmp FS x y = Some Eq -> @sulps FS x y = true).
    { intros x y Gx Gy C. rewrite (pcmp_R prec emax epsexp at2 x y Gx Gy) in C. apply sulps_val; auto. unfold spcmp in C. cbn [sltb seqb RS] in C.
      destruct (Rltb_spec (rv x) (rv y)); [discriminate|]. destruct (Reqb_spec (rv x) (rv y)); auto. destruct (Rltb_spec (rv y) (rv x)); discriminate. }
    destruct (sulps (vy a) (vy b)) eqn:U.
    - split; auto. destruct (sulps (vx a) (vx b)) eqn:W; auto. rewrite <- W. apply E; auto.
    - rewrite E in U; auto. discriminate.
  Qed.
  Lemma ulps_hop x y : good x -> good y -> Rabs (rv x) <= bpow radix2 (K + s + 1) -> Rabs (rv y) <= bpow radix2 (K + s + 1) -> @sulps FS x y = true -> Rabs (rv x - rv y) <= h.
  Proof.
    intros Gx Gy Bx By H. pose proof (p4 prec emax epsexp s K OK) as P4. assert (OK' := OK). destruct OK'.
    eapply Rle_trans; [apply (ulps_bound prec emax epsexp at2 Hprec Hmax x y (K + s + 1)); auto; lia|]. apply Rmax_lub.
    - change 2 with (bpow radix2 1) at 1. rewrite <- bpow_plus. apply bpow_le. lia.
    - apply Rle_trans with (8 * ulp1 prec * bpow radix2 (K + s + 1)).
      + pose proof (ulp1_pos prec). apply Rmult_le_compat_l; [lra|]. apply Rmax_lub; auto.
      + unfold ulp1. change 8 with (bpow radix2 3). rewrite <- !bpow_plus. apply bpow_le. lia.
  Qed.
  Lemma cmp_hop a b : okey a -> okey b -> key_cmp a b = Some Eq -> near_by h (val a) (val b).
  Proof.
    intros A B H. destruct (cmp_ulps a b A B H) as [U1 U2]. destruct A as [[A1 A2] [A3 A4]], B as [[B1 B2] [B3 B4]].
    split; unfold point_value; cbn [vx vy]; apply ulps_hop; auto.
  Qed.

  (* a float with the same value behaves the same, even when the signs of zero differ *)
  Lemma same_value x y : good x -> good y -> rv x = rv y -> x = y \/ (rv x = 0 /\ exists b c, x = S754_zero b /\ y = S754_zero c).
  Proof.
    intros Gx Gy E. destruct (good_B _ _ x Gx) as (bx & Ex & Fx & Rx), (good_B _ _ y Gy) as (by_ & Ey & Fy & Ry).
    destruct (Req_dec (rv x) 0) as [Z|N].
    - right. split; auto.
      assert (Zero : forall z, rv z = 0 -> is_finite_SF z = true -> exists b, z = S754_zero b).
      { intros [b|b| |b m e] H F; try discriminate; [eauto|]. exfalso. unfold fvalue, SF2R in H. unfold Defs.F2R in H. cbn [Defs.Fnum Defs.Fexp] in H. apply Rmult_integral in H as [H|H]; [apply eq_IZR in H; destruct b; discriminate|]. pose proof (bpow_gt_0 radix2 e). lra. }
      destruct (Zero x Z) as (b & ->); [apply Gx|]. destruct (Zero y) as (c & ->); [congruence|apply Gy|]. eauto.
    - left. rewrite Ex, Ey. f_equal. apply B2R_inj; [| |congruence].
      + destruct bx; auto; exfalso; apply N; rewrite <- Rx; reflexivity || discriminate.
      + destruct by_; auto; exfalso; apply N; rewrite E, <- Ry; reflexivity || discriminate.
  Qed.
  Lemma ulps_zero_iff x b : good x -> Rabs (rv x) <= bpow radix2 (K + s + 1) -> @sulps FS x (S754_zero b) = Rleb (Rabs (rv x)) (bpow radix2 epsexp).
  Proof.
    intros Gx Bx. pose proof (p4 prec emax epsexp s K OK) as P4. assert (OK' := OK). destruct OK'. cbn [sulps FloatS]. unfold fl_ulps_with, fl_absdiff.
    assert (Gz : good (S754_zero b)) by (split; reflexivity).
    assert (Rx : round radix2 (SpecFloat.fexp prec emax) ZnearestE (rv x - rv (S754_zero b)) = rv x) by (change (rv (S754_zero b)) with 0; rewrite Rminus_0_r; apply rnd_good; auto).
    destruct (sub_rnd prec emax Hprec Hmax x (S754_zero b) Gx Gz) as [G Es]; [rewrite Rx; eapply Rle_lt_trans; [exact Bx|]; apply bpow_lt; lia|]. rewrite Rx in Es.
    destruct (good_abs _ _ _ G) as [Ga Ea]. destruct (pow2_good prec emax Hprec Hmax epsexp i_eps) as [Gp Ep].
    rewrite (leb_R prec emax at2 _ _ Ga Gp), Ea, Es, Ep. destruct (Rleb_spec (Rabs (rv x)) (bpow radix2 epsexp)) as [Le|Gt]; auto.
    destruct (fl_is_nan x || _)%bool; auto. destruct (negb _); auto. apply Z.leb_gt. change (Z.of_N 4) with 4%Z.
    apply Z.nle_gt. intros H. destruct Gx as [Vx Fx]. destruct x as [bx|bx| |bx m e]; try discriminate; unfold fl_bits in H.
    - rewrite rv_zero, Rabs_R0 in Gt. pose proof (bpow_ge_0 radix2 epsexp). lra.
    - destruct (valid_facts prec emax m e ltac:(lia) Vx) as (A1 & A2 & A3). assert (2 ^ 3 <= 2 ^ (prec - 1))%Z by (apply Z.pow_le_mono_r; lia). change (2 ^ 3)%Z with 8%Z in H0.
      assert (e = emin) by nia. subst e. assert (Zpos m <= 4)%Z by nia. unfold fvalue, SF2R, Defs.F2R in Gt. cbn [Defs.Fnum Defs.Fexp] in Gt.
      rewrite Rabs_mult, <- abs_IZR, (Rabs_pos_eq (bpow radix2 emin)) in Gt by apply bpow_ge_0. replace (Z.abs (cond_Zopp bx (Zpos m))) with (Zpos m) in Gt by (destruct bx; reflexivity).
      assert (IZR (Zpos m) * bpow radix2 emin <= 4 * bpow radix2 emin) by (apply Rmult_le_compat_r; [apply bpow_ge_0|apply (IZR_le _ 4); auto]).
      assert (bpow radix2 (emin + 2) <= bpow radix2 epsexp) by (apply bpow_le; lia). rewrite bpow_plus in H3. change (bpow radix2 2) with 4 in H3. lra.
  Qed.
  Lemma ulps_same x y z : good x -> good y -> good z -> Rabs (rv x) <= bpow radix2 (K + s + 1) -> rv y = rv z -> @sulps FS x y = @sulps FS x z.
  Proof.
    intros Gx Gy Gz Bx E. destruct (same_value y z Gy Gz E) as [->|(_ & b & c & -> & ->)]; auto. rewrite !ulps_zero_iff; auto.
  Qed.

  (* ---- the hypotheses of loop_any ---- *)
  Definition near_line (d : R) (p : V) (l : L) : Prop := exists q, on_segment q (val (lstart l)) (val (lend l)) /\ near_by d (val p) q.
  Definition endat (k : V) (l : L) : Prop := onp k /\ onp (lstart l) /\ onp (lend l) /\ (val k = val (lstart l) \/ val k = val (lend l)).
  Definition grid_line (l : L) : Prop := onp (lstart l) /\ onp (lend l) /\ val (lstart l) <> val (lend l).
  Lemma near_line_hop d p k l : okey p -> okey k -> key_cmp p k = Some Eq -> near_line d p l -> near_line (h + d) k l.
  Proof. intros Hp Hk E (q & Q1 & Q2). exists q. split; auto. apply near_trans with (val p); auto. apply near_sym, cmp_hop; auto. Qed.
  Lemma near_line_le d e p l : d <= e -> near_line d p l -> near_line e p l.
  Proof. intros Le (q & Q1 & Q2). exists q. split; auto. eapply near_le; eauto. Qed.
  Lemma endat_ulps p k l : okey p -> okey k -> key_cmp p k = Some Eq -> endat k l -> (vulps p (lstart l) || vulps p (lend l))%bool = true.
  Proof.
    intros Hp Hk E (O & O0 & O1 & Ev). destruct (cmp_ulps p k Hp Hk E) as [U1 U2]. destruct Hp as [[P1 P2] [P3 P4]], Hk as [[K1 K2] _].
    assert (G : forall q, onp q -> val k = val q -> vulps p q = true).
    { intros q [[Q1 _] [Q2 _]] Eq. injection Eq as E1 E2. unfold vulps. rewrite <- (ulps_same (vx p) (vx k) (vx q)), <- (ulps_same (vy p) (vy k) (vy q)), U1, U2; auto. }
    apply orb_true_iff. destruct Ev; auto.
  Qed.
  Lemma isect_near (a b : L) it : grid_line a -> grid_line b -> intersection_point a b = Some it ->
    okey (isingle it) /\ near_line (/ 2 * h) (isingle it) a /\ near_line (/ 2 * h) (isingle it) b.
  Proof.
    intros (A0 & A1 & Na) (B0 & B1 & Nb) E. pose proof (intersection_like prec emax epsexp at2 Hprec Hmax s K OK a b A0 A1 B0 B1 Na Nb) as H. rewrite E in H.
    pose proof (intersection_correct (lval a) (lval b)) as C.
    assert (Core : forall (p : V) (q : pt), close prec emax epsexp at2 s K 8 p q -> good (vx p) -> good (vy p) -> common (lval a) (lval b) q -> okey p /\ near_line (/ 2 * h) p a /\ near_line (/ 2 * h) p b).
    { intros p q [Cx Cy] Gx Gy [Oa Ob]. cbn [lstart lend FloatIsect.lval] in Oa, Ob.
      assert (QB : Rabs (vx q) <= bpow radix2 (K + s) /\ Rabs (vy q) <= bpow radix2 (K + s)).
      { apply (segment_le q (val (lstart a)) (val (lend a))); auto; unfold point_value; cbn [vx vy]; apply (grid_le prec emax epsexp s K OK); first [apply A0|apply A1]. }
      destruct QB as [Qx Qy].
      assert (D : / 2 * h = 8 * bpow radix2 (K + s - prec)).
      { replace (K + s + 4 - prec)%Z with (4 + (K + s - prec))%Z by lia. rewrite bpow_plus. change (bpow radix2 4) with 16. field. }
      assert (N : near_by (/ 2 * h) (val p) q) by (rewrite D; split; auto).
      split; [|split; exists q; auto]. split; auto. split; [apply (near_grid prec emax epsexp s K OK HK7 _ _ Gx Cx Qx)|apply (near_grid prec emax epsexp s K OK HK7 _ _ Gy Cy Qy)]. }
    destruct it as [p|l], (intersection_point (lval a) (lval b)) as [[q|m]|]; cbn [like correct isingle] in *; try tauto.
    - destruct H as (H & Gx & Gy & _). apply (Core p q); auto. apply C. auto.
    - destruct H as (H & _ & Gx & Gy & _), C as [_ C]. apply (Core (lstart l) (lstart m)); auto. apply C, on_segment_start.
  Qed.

  Lemma loop_grid inf lines ign stop ord : Forall grid_line lines -> (forall m l, Permutation (ord m l) l) -> forall fuel q,
    q_fine lines True okey (near_line (/ 2 * h + h)) endat q ->
    match event_loop (S := FS) inf lines ign stop ord fuel 0 (mkSt [] q []) with
    | Val r => Forall (fun x => okey (fst x) /\ two_of (snd x) /\ Forall (has lines (near_line (/ 2 * h + h + h)) (fst x)) (snd x)) r /\
        (stop = false -> ign = false -> forall k e, In (k, e) q -> (2 <= length (e_drop e) + length (e_add e))%nat ->
           exists k' is, In (k', is) r /\ near_by h (val k) (val k') /\ incl (e_drop e ++ e_add e) is)
    | NoFuel => True
    | _ => False
    end.
  Proof.
    intros HL Ho fuel q Hq. rewrite Forall_forall in HL. pose proof h_pos as h0.
    pose proof (loop_any (S := FS) inf lines True okey (near_line (/ 2 * h)) (near_line (/ 2 * h + h)) (near_line (/ 2 * h + h + h)) endat cmp_okey cmp_refl) as A.
    specialize (A (fun _ l Hl => match HL l Hl with conj _ (conj G _) => eq_trans (f_equal2 andb (sulps_val _ _ (proj1 (proj1 G)) (proj1 (proj1 G)) eq_refl) (sulps_val _ _ (proj1 (proj2 G)) (proj1 (proj2 G)) eq_refl)) eq_refl end)).
    specialize (A ltac:(intros l r it Hl Hr E _ _; apply isect_near; auto)).
    specialize (A ltac:(intros p l; apply near_line_le; lra) ltac:(intros p l; apply near_line_le; lra)).
    specialize (A ltac:(intros p k l Hp Hk E N; apply near_line_le with (h + / 2 * h); [lra|]; apply near_line_hop with p; auto) ltac:(intros p k l Hp Hk E N; apply near_line_le with (h + (/ 2 * h + h)); [lra|]; apply near_line_hop with p; auto)).
    specialize (A ltac:(intros _; apply endat_ulps) ign stop ord Ho fuel 0%nat (mkSt [] q [])).
    assert (St : st_fine lines True okey (near_line (/ 2 * h + h)) (near_line (/ 2 * h + h + h)) endat (mkSt [] q [])) by (split; [constructor|]; split; [exact Hq|constructor]).
    specialize (A St). destruct (event_loop _ _ _ _ _ _ _ _) as [r|x| |]; auto.
    - destruct A as (A1 & _ & A3). split.
      + eapply Forall_impl; [|exact A1]. intros [k is] (H1 & H2 & H3). auto.
      + intros Es Ei k e He Hl. destruct (A3 Es Ei k e He Hl) as (k' & is & I1 & I2 & I3). exists k', is. split; auto. split; auto.
        destruct I2 as [->|I2]; [apply near_refl; lra|]. apply cmp_hop; auto.
        * unfold q_fine in Hq. rewrite Forall_forall in Hq. apply (Hq (k, e) He).
        * unfold r_fine in A1. rewrite Forall_forall in A1. apply (A1 (k', is) I1).
    - destruct A as (_ & l & r & it & Hl & Hr & E & F). destruct (isect_near l r it) as ([[G1 G2] _] & _); auto. rewrite !fin_good in F by auto. discriminate.
  Qed.
  (* ---- the initial queue is the exact one ---- *)
  Definition vq (q : Queue (S := FS)) : Queue (S := RS) := map (fun x => (val (fst x), snd x)) q.
  Definition gridq (q : Queue (S := FS)) : Prop := Forall (fun x => onp (fst x)) q.
  Lemma key_cmp_grid a b : onp a -> onp b -> key_cmp a b = key_cmp (val a) (val b).
  Proof.
    intros [Ax Ay] [Bx By]. unfold key_cmp, point_value. cbn [vx vy]. rewrite !(sulps_ex prec emax epsexp at2 Hprec Hmax s K OK) by auto.
    rewrite !(pcmp_R prec emax epsexp at2) by first [apply Ax|apply Ay|apply Bx|apply By]. reflexivity.
  Qed.
  Lemma bt_grid k (upd : option SiteEvent -> SiteEvent) : onp k -> forall q, gridq q ->
    exists q', bt_update (fun v : V => v) k upd q = Val q' /\ gridq q' /\ bt_update (fun v : pt => v) (val k) upd (vq q) = Val (vq q').
  Proof.
    intros Hk. induction q as [|[k0 e0] q IH]; intros Hq; cbn [bt_update vq map fst snd].
    - exists [(k, upd None)]. split; auto. split; [repeat constructor; apply Hk|reflexivity].
    - inversion_clear Hq as [|? ? H0 Hq']. cbn [fst] in H0. rewrite <- (key_cmp_grid k k0 Hk H0). pose proof (cmp_okey k k0 (onp_okey k Hk) (onp_okey k0 H0)) as Hn.
      destruct (IH Hq') as (q' & E' & G' & V'). destruct (key_cmp k k0) as [[]|]; [| | |congruence].
      + eexists. split; [reflexivity|]. split; [constructor; auto|reflexivity].
      + eexists. split; [reflexivity|]. split; [repeat (constructor; auto)|reflexivity].
      + fold (vq q). rewrite E', V'. cbn [obind]. eexists. split; [reflexivity|]. split; [constructor; auto|reflexivity].
  Qed.
  Lemma arrange_grid (l : L) : onp (lstart l) -> onp (lend l) -> lval (arrange l) = arrange (lval l).
  Proof.
    intros H0 H1. unfold arrange, key_lt. cbn [lstart lend FloatIsect.lval]. rewrite key_cmp_grid by auto. unfold FloatIsect.lval. destruct (key_cmp (val (lstart l)) (val (lend l))) as [[]|]; reflexivity.
  Qed.
  Lemma arrange_grid_line (l : L) : grid_line l -> grid_line (arrange l).
  Proof. intros (H0 & H1 & N). unfold arrange. destruct (key_lt _ _); repeat split; auto; apply H0 || apply H1. Qed.
  Lemma with_lines_grid : forall (input : list L) m q acc acc', Forall grid_line input -> gridq q ->
    exists q', with_lines_loop m input q acc = Val (q', acc ++ map arrange input) /\ gridq q' /\ exists ls, with_lines_loop m (map lval input) (vq q) acc' = Val (vq q', ls).
  Proof.
    induction input as [|l input IH]; intros m q acc acc' Hi Hq; cbn [with_lines_loop map].
    - exists q. rewrite app_nil_r. eauto.
    - inversion_clear Hi as [|? ? Hl Hi']. destruct (Hl) as (H0 & H1 & N).
      assert (F : line_finite (lstart l) (lend l) = true) by (apply line_finite_spec; destruct H0 as [[X0 _] [Y0 _]], H1 as [[X1 _] [Y1 _]]; repeat split; apply fin_good; auto).
      rewrite F. change (line_finite (lstart (lval l)) (lend (lval l))) with true. cbv iota. rewrite <- arrange_grid by auto. unfold queue_line.
      destruct (arrange_grid_line l Hl) as (A0 & A1 & _).
      destruct (bt_grid (lstart (arrange l)) (push_add m) A0 q Hq) as (q1 & E1 & G1 & V1). rewrite E1. cbn [obind].
      destruct (bt_grid (lend (arrange l)) (push_drop m) A1 q1 G1) as (q2 & E2 & G2 & V2). rewrite E2. cbn [obind].
      cbn [lstart lend FloatIsect.lval]. rewrite V1. cbn [obind]. rewrite V2. cbn [obind].
      destruct (IH (Datatypes.S m) q2 (acc ++ [arrange l]) (acc' ++ [lval (arrange l)]) Hi' G2) as (q' & E' & G' & ls & V').
      exists q'. rewrite E', <- app_assoc. split; auto. split; auto. exists ls. exact V'.
  Qed.
  (* every event of the initial queue, for lines f(input) with the same ends *)
  Lemma init_grid (f : L -> L) input : Forall grid_line input -> (f = arrange \/ f = fun l => l) ->
    exists q, with_lines_loop 0 input [] [] = Val (q, map arrange input) /\ q_fine (map f input) True okey (near_line (/ 2 * h + h)) endat q /\
      (forall i l v, nth_error input i = Some l -> v = val (lstart l) \/ v = val (lend l) ->
         exists k e, In (k, e) q /\ val k = v /\ forall j l', nth_error input j = Some l' -> v = val (lstart l') \/ v = val (lend l') -> In j (e_drop e ++ e_add e)).
  Proof.
    intros Hi Hf. destruct (with_lines_grid input 0 [] [] [] Hi (Forall_nil _)) as (q & E & G & ls & W). exists q. split; [exact E|]. assert (NI : no_inter q) by (eapply with_lines_no_inter; [|exact E]; intros k e []). clear E.
    destruct (with_lines_loop_ok (fun l => l)) with (input := map lval input) (lines := @nil line) (acc := @nil line) (q := @nil (pt * SiteEvent)) as (q' & E & Hq).
    { auto. } { apply q_ok_nil. } { intros k e; discriminate. }
    cbn [length] in E. change (vq []) with (@nil (pt * SiteEvent)) in W. rewrite W in E. injection E as <- _. clear W ls. rewrite map_id in Hq. cbn [app] in Hq.
    assert (Fl : forall i, (forall l, nth_error input i = Some l -> nth_error (map f input) i = Some (f l)) ) by (intros i l Hl; rewrite nth_error_map, Hl; auto).
    assert (Fe : forall l v, v = val (lstart l) \/ v = val (lend l) -> v = val (lstart (f l)) \/ v = val (lend (f l))).
    { intros l v H. destruct Hf as [-> | ->]; auto. unfold arrange. destruct (key_lt _ _); cbn [lstart lend]; tauto. }
    assert (Fg : forall l, grid_line l -> grid_line (f l)) by (intros l H; destruct Hf as [-> | ->]; auto using arrange_grid_line).
    assert (Lv : forall i l, ln (map lval input) i l -> exists l0, nth_error input i = Some l0 /\ l = lval l0).
    { intros i l H. unfold ln in H. rewrite nth_error_map in H. destruct (nth_error input i) as [l0|]; [|discriminate]. injection H as <-. eauto. }
    assert (Inq : forall k e, In (k, e) q -> ev_ok (map lval input) (val k) e).
    { intros k e H. apply (q_ev _ _ _ Hq). apply In_get; [apply Hq|]. apply in_map_iff. exists (k, e). auto. }
    rewrite Forall_forall in Hi.
    assert (Ends : forall k e i, In (k, e) q -> In i (e_drop e ++ e_add e) -> exists l, nth_error input i = Some l /\ (val k = val (lstart l) \/ val k = val (lend l))).
    { intros k e i H Hin. pose proof (Inq k e H) as Ok. apply in_app_iff in Hin as [Hin|Hin]; [apply (ok_drop _ _ _ Ok) in Hin|apply (ok_add _ _ _ Ok) in Hin]; destruct Hin as (l & Hl & El);
        apply Lv in Hl as (l0 & Hl0 & ->); exists l0; split; auto; destruct (lohi (lval l0)) as [[E1 E2]|[E1 E2]]; rewrite <- El, ?E1, ?E2; cbn; auto. }
    split.
    - apply Forall_forall. intros [k e] H. cbn [fst snd]. pose proof (Inq k e H) as Ok. pose proof (NI k e H) as Ni.
      assert (Ok' : onp k) by (unfold gridq in G; rewrite Forall_forall in G; apply (G (k, e) H)).
      assert (En : Forall (has (map f input) endat k) (e_drop e ++ e_add e)).
      { apply Forall_forall. intros i Hin. destruct (Ends k e i H Hin) as (l & Hl & El). exists (f l). split; auto. destruct (Fg l (Hi l (nth_error_In _ _ Hl))) as (F0 & F1 & _). repeat split; auto; apply F0 || apply F1 || apply Ok'. }
      constructor; auto.
      + apply onp_okey; auto.
      + unfold ev_lines. rewrite Ni, app_nil_r. eapply Forall_impl; [|exact En]. intros i (l & Hl & _ & _ & _ & El). exists l. split; auto. exists (val k). split; [destruct El as [-> | ->]; [apply on_segment_start|apply on_segment_end]|].
        apply near_refl. pose proof h_pos. lra.
      + intros _. unfold ev_lines. rewrite Ni, app_nil_r. apply nodup_app. split; [apply Ok|]. split; [apply Ok|]. intros i H1 H2.
        apply (ok_drop _ _ _ Ok) in H1 as (l1 & L1 & E1). apply (ok_add _ _ _ Ok) in H2 as (l2 & L2 & E2). assert (l2 = l1) by (unfold ln in *; congruence). subst l2.
        apply Lv in L1 as (l0 & Hl0 & ->). destruct (Hi l0 (nth_error_In _ _ Hl0)) as (_ & _ & Nn). apply Nn. destruct (lohi (lval l0)) as [[X1 X2]|[X1 X2]]; rewrite X1, X2 in *; cbn in *; congruence.
      + intros _. left. intros E. apply app_eq_nil in E as [D0 A0]. pose proof (ok_some _ _ _ Ok D0 A0) as Hs. rewrite Ni in Hs. cbn in Hs. lia.
    - intros i l v Hl Hv. 
      assert (Hg : get (vq q) v <> None).
      { assert (L1 : ln (map lval input) i (lval l)) by (unfold ln; rewrite nth_error_map, Hl; auto).
        destruct (lohi (lval l)) as [[X1 X2]|[X1 X2]]; cbn [lstart lend FloatIsect.lval] in X1, X2; destruct Hv as [-> | ->]; rewrite <- ?X1, <- ?X2; first [apply (q_lo _ _ _ Hq _ _ L1 I)|apply (q_hi _ _ _ Hq _ _ L1 I)]. }
      destruct (get (vq q) v) as [e|] eqn:Ge; [|congruence]. pose proof (q_ev _ _ _ Hq _ _ Ge) as Ok. apply get_In in Ge. apply in_map_iff in Ge as ([k e'] & [= Ek ->] & Hin). cbn [fst] in Ek.
      exists k, e. split; auto. split; auto. intros j l' Hl' Hv'. apply in_app_iff. rewrite (ok_drop _ _ _ Ok), (ok_add _ _ _ Ok).
      assert (L1 : ln (map lval input) j (lval l')) by (unfold ln; rewrite nth_error_map, Hl'; auto).
      destruct (lohi (lval l')) as [[X1 X2]|[X1 X2]]; cbn [lstart lend FloatIsect.lval] in X1, X2; destruct Hv' as [E1|E1];
        first [left; exists (lval l'); split; [exact L1|congruence]|right; exists (lval l'); split; [exact L1|congruence]].
  Qed.

  (* ---- whole calls ---- *)
  Lemma nodes_two (i j : nat) (l : list nat) : i <> j -> In i l -> In j l -> (2 <= length l)%nat.
  Proof. intros N Hi Hj. destruct l as [|a [|b t]]; cbn in *; try lia; intuition congruence. Qed.
  Lemma finish inf (f : L -> L) input ign stop ord fuel q : Forall grid_line input -> (f = arrange \/ f = fun l => l) -> (forall m l, Permutation (ord m l) l) ->
    q_fine (map f input) True okey (near_line (/ 2 * h + h)) endat q ->
    (forall i l v, nth_error input i = Some l -> v = val (lstart l) \/ v = val (lend l) ->
         exists k e, In (k, e) q /\ val k = v /\ forall j l', nth_error input j = Some l' -> v = val (lstart l') \/ v = val (lend l') -> In j (e_drop e ++ e_add e)) ->
    match event_loop (S := FS) inf (map f input) ign stop ord fuel 0 (mkSt [] q []) with
    | Val r => (forall p is, In (p, is) r -> okey p /\ two_of is /\ forall i, In i is -> exists l q, nth_error input i = Some l /\ on_segment q (val (lstart l)) (val (lend l)) /\ near_by (4 * h) (val p) q) /\
        (stop = false -> ign = false -> forall v i j, i <> j -> (forall k, k = i \/ k = j -> exists l, nth_error input k = Some l /\ (v = val (lstart l) \/ v = val (lend l))) ->
           exists p is, In (p, is) r /\ near_by h v (val p) /\ forall k l, nth_error input k = Some l -> v = val (lstart l) \/ v = val (lend l) -> In k is)
    | NoFuel => True
    | _ => False
    end.
  Proof.
    intros Hi Hf Ho Hq He.
    assert (Fg : forall l, grid_line l -> grid_line (f l)) by (intros l H; destruct Hf as [-> | ->]; auto using arrange_grid_line).
    assert (HL : Forall grid_line (map f input)) by (apply Forall_forall; intros l Hl; apply in_map_iff in Hl as (l0 & <- & Hl0); rewrite Forall_forall in Hi; auto).
    pose proof (loop_grid inf (map f input) ign stop ord HL Ho fuel q Hq) as A. destruct (event_loop _ _ _ _ _ _ _ _) as [r|x| |]; auto. destruct A as [A1 A2]. split.
    - intros p is Hp. rewrite Forall_forall in A1. destruct (A1 _ Hp) as (B1 & B2 & B3). cbn [fst snd] in *. split; auto. split; auto. intros i Hin. rewrite Forall_forall in B3. destruct (B3 i Hin) as (l & Hl & q0 & O & N).
      rewrite nth_error_map in Hl. destruct (nth_error input i) as [l0|] eqn:El; [|discriminate]. cbn [option_map] in Hl. injection Hl as <-. exists l0, q0. split; auto. split.
      + destruct Hf as [-> | ->]; auto. unfold arrange in O. destruct (key_lt _ _); auto. apply on_segment_sym. exact O.
      + eapply near_le; [|exact N]. pose proof h_pos. lra.
    - intros Es Ei v i j Nij Hij. destruct (Hij i (or_introl eq_refl)) as (li & Li & Vi). destruct (Hij j (or_intror eq_refl)) as (lj & Lj & Vj).
      destruct (He i li v Li Vi) as (k & e & Ke & Kv & Kall).
      destruct (A2 Es Ei k e Ke) as (p & is & P1 & P2 & P3).
      { rewrite <- app_length. apply (nodes_two i j); eauto. }
      exists p, is. split; auto. split; [rewrite <- Kv; auto|]. intros m l Hl Hv. apply P3. eapply Kall; eauto.
  Qed.
  Lemma plain_grid inf ord fuel stop ign (input : list L) : Forall grid_line input -> (forall m l, Permutation (ord m l) l) ->
    match intersections (S := FS) inf ord fuel stop ign input with
    | Val r => (forall p is, In (p, is) r -> okey p /\ two_of is /\ forall i, In i is -> exists l q, nth_error input i = Some l /\ on_segment q (val (lstart l)) (val (lend l)) /\ near_by (4 * h) (val p) q) /\
        (stop = false -> ign = false -> forall v i j, i <> j -> (forall k, k = i \/ k = j -> exists l, nth_error input k = Some l /\ (v = val (lstart l) \/ v = val (lend l))) ->
           exists p is, In (p, is) r /\ near_by h v (val p) /\ forall k l, nth_error input k = Some l -> v = val (lstart l) \/ v = val (lend l) -> In k is)
    | NoFuel => True
    | _ => False
    end.
  Proof.
    intros Hi Ho. unfold intersections, with_lines, compute. cbn [d_events d_lines d_stop d_ign default_data with_ignore_end_point_intersections with_stop_at_first_intersection].
    destruct (init_grid (@arrange FS) input Hi (or_introl eq_refl)) as (q & E & Hq & He). rewrite E. cbn [obind d_events d_lines d_stop d_ign].
    apply finish; auto.
  Qed.
  Lemma indexed_grid inf ord fuel stop ign vertices edges (ls : list L) : lines_of vertices edges ls -> Forall grid_line ls -> (forall m l, Permutation (ord m l) l) ->
    match indexed_intersections (S := FS) inf ord fuel stop ign vertices edges with
    | Val (vs, out) => (exists added, vs = vertices ++ added) /\
        (forall x is, In (x, is) out -> exists p, nth_error vs x = Some p /\ two_of is /\ forall i, In i is -> exists l q, nth_error ls i = Some l /\ on_segment q (val (lstart l)) (val (lend l)) /\ near_by (4 * h) (val p) q) /\
        (stop = false -> ign = false -> forall v i j, i <> j -> (forall k, k = i \/ k = j -> exists l, nth_error ls k = Some l /\ (v = val (lstart l) \/ v = val (lend l))) ->
           exists x p is, In (x, is) out /\ nth_error vs x = Some p /\ near_by h v (val p) /\ forall k l, nth_error ls k = Some l -> v = val (lstart l) \/ v = val (lend l) -> In k is)
    | NoFuel => True
    | _ => False
    end.
  Proof.
    intros Hl Hi Ho. unfold indexed_intersections, with_edges, icompute. cbn [t_events t_lines t_stop t_ign t_vertices tester_new tester_ign tester_stop].
    pose proof (lines_of_edge_lines _ _ _ Hl) as HE.
    pose proof (with_edges_sim vertices edges ls Hl 0 [] [] [] (Forall_nil _)) as W. cbn [plain map] in W.
    destruct (init_grid (fun l => l) ls Hi (or_intror eq_refl)) as (q & E & Hq & He). rewrite E in W.
    destruct (with_edges_loop vertices 0 edges [] []) as [[iq es]|x| |]; cbn in W; try contradiction; cbn [obind t_events t_lines t_stop t_ign t_vertices].
    destruct W as (K1 & K2 & K3 & K4). subst es. change (plain iq = q) in K2. subst q.
    pose proof (finish inf (fun l => l) ls ign stop ord fuel (plain iq) Hi (or_intror eq_refl) Ho Hq He) as A. rewrite map_id in A.
    assert (SR : st_rel vertices (mkISt [] vertices iq []) (mkSt [] (plain iq) [])).
    { split; [auto|]. split; [exists []; rewrite app_nil_r; auto|]. cbn. repeat split; auto. constructor. }
    pose proof (iloop_sim inf edges vertices ls HE ign stop ord fuel 0 (mkISt [] vertices iq []) (mkSt [] (plain iq) []) SR) as Sm.
    destruct (ievent_loop inf edges ign stop ord fuel 0 (mkISt [] vertices iq [])) as [[vs ir]|x| |], (event_loop inf ls ign stop ord fuel 0 (mkSt [] (plain iq) [])) as [r|x'| |];
      cbn in Sm; try contradiction; cbn [obind]; auto.
    destruct Sm as (G1 & G2 & G3). change (plain ir = r) in G3. destruct (mapM_unwrap vs ir G2) as (out & Eo & Fo). rewrite Eo. cbn [obind].
    split; [destruct G1 as (w & ->); eauto|]. rewrite G3 in Fo. destruct A as [A1 A2].
    assert (To : forall x is, In (x, is) out -> exists p, nth_error vs x = Some p /\ In (p, is) r).
    { clear - Fo. induction Fo as [|[x is] [p is'] out r [E1 E2] _ IH]; intros y js; [intros []|]. intros [[= <- <-]|H]; [exists p; cbn in *; subst; auto|]. destruct (IH y js H) as (p' & P1 & P2). exists p'. cbn. auto. }
    assert (Fro : forall p is, In (p, is) r -> exists x, nth_error vs x = Some p /\ In (x, is) out).
    { clear - Fo. induction Fo as [|[x is] [p is'] out r [E1 E2] _ IH]; intros y js; [intros []|]. intros [[= <- <-]|H]; [exists x; cbn in *; subst; auto|]. destruct (IH y js H) as (p' & P1 & P2). exists p'. cbn. auto. }
    split.
    - intros x is H. destruct (To x is H) as (p & P1 & P2). exists p. split; auto. apply A1. auto.
    - intros Es Ei v i j Nij Hij. destruct (A2 Es Ei v i j Nij Hij) as (p & is & P1 & P2 & P3). destruct (Fro p is P1) as (x & X1 & X2). exists x, p, is. auto.
  Qed.
End Grid.
