(* f64 and f32 Ramer-Douglas-Peucker on coordinates that are small multiples of a power of two: lines given backwards (C160) and
   lines scaled by a power of two (C161). Models: Flt.v, Geo2.v, Geo3.v, Simplify.v. Vocabulary: FloatSpec.v (grids, value64, ...),
   Properties_Float2 (tolerance64, tolerance32). *)
From Coq Require Import ZArith Reals Lra Lia Psatz Floats.SpecFloat.
From Flocq Require Import Core BinarySingleNaN.
From Verif Require Import Prelude Scalar RInst Flt FloatSpec FloatLink FloatGrid FloatRound FloatRdp FloatDist FloatVal FloatRdp2 Geo2 Geo3 GeoSpec DistR Simplify Properties_Hull Properties_Float Properties_Float2.
Local Open Scope R_scope.

(* wherever two points between a and b tie in the computed distance [dist], both are within the (squared) tolerance [dd] or a third is farther *)
Definition no_computed_ties {A} (dist : A -> A -> A -> spec_float) (dd : spec_float) (pts : list A) : Prop :=
  forall l1 a m1 p m2 q m3 b l2, pts = l1 ++ a :: (m1 ++ p :: m2 ++ q :: m3) ++ b :: l2 -> fvalue (dist a b p) = fvalue (dist a b q) ->
    fvalue (dist a b p) <= fvalue dd \/ exists r, In r (m1 ++ p :: m2 ++ q :: m3) /\ fvalue (dist a b p) < fvalue (dist a b r).
(* q is p times 2^k *)
Definition doubled (k : Z) (p q : pt) : Prop := vx q = bpow radix2 k * vx p /\ vy q = bpow radix2 k * vy p.
Definition doubled3 (k : Z) (p q : pt3) : Prop := wx q = bpow radix2 k * wx p /\ wy q = bpow radix2 k * wy p /\ wz q = bpow radix2 k * wz p.

Lemma fine64 s : (-51 <= s <= 228)%Z -> fine 53 1024 (-52) s (2 ^ 24).
Proof. intros H. split; [apply rdp_ok64; lia|]. unfold SpecFloat.emin. repeat split; lia. Qed.
Lemma fine32 s : (-22 <= s <= 19)%Z -> fine 24 128 (-23) s (2 ^ 10).
Proof. intros H. split; [apply rdp_ok32; lia|]. unfold SpecFloat.emin. repeat split; lia. Qed.
Lemma fits2 (prec emax epsexp : Z) at2 (Hprec : Prec_gt_0 prec) (Hmax : Prec_lt_emax prec emax) s n : fine prec emax epsexp s n ->
  fits prec emax epsexp at2 (dist_line2_safe (S := FloatS prec emax epsexp at2)) (@point_value prec emax epsexp at2) (dsafe2 prec emax) (@grid_point prec emax epsexp at2 s n).
Proof. intros F a b p Ha Hb Hp. destruct (safe2_value prec emax epsexp at2 Hprec Hmax s n a b p F Ha Hb Hp) as (G & V & _). split; [exact G|exact V]. Qed.
Lemma fits3 (prec emax epsexp : Z) at2 (Hprec : Prec_gt_0 prec) (Hmax : Prec_lt_emax prec emax) s n : fine prec emax epsexp s n ->
  fits prec emax epsexp at2 (dist_line3_safe (S := FloatS prec emax epsexp at2)) (@point_value3 prec emax epsexp at2) (dsafe3 prec emax) (@grid_point3 prec emax epsexp at2 s n).
Proof. intros F a b p Ha Hb Hp. destruct (safe3_value prec emax epsexp at2 Hprec Hmax s n a b p F Ha Hb Hp) as (G & V & _). split; [exact G|exact V]. Qed.
Lemma doubled_mul k p q : doubled k p q -> q = mul2 (bpow radix2 k) p.
Proof. intros [H1 H2]. unfold mul2. apply V2_ext; cbn [vx vy]; auto. Qed.
Lemma doubled3_mul k p q : doubled3 k p q -> q = mul3 (bpow radix2 k) p.
Proof. intros (H1 & H2 & H3). unfold mul3. apply V3_ext; cbn [wx wy wz]; auto. Qed.
Lemma mul2_inj k p q : mul2 (bpow radix2 k) p = mul2 (bpow radix2 k) q -> p = q.
Proof. assert (B := bpow_gt_0 radix2 k). unfold mul2. intros E. injection E as E1 E2. apply Rmult_eq_reg_l in E1; [|lra]. apply Rmult_eq_reg_l in E2; [|lra]. apply V2_ext; auto. Qed.
Lemma mul3_inj k p q : mul3 (bpow radix2 k) p = mul3 (bpow radix2 k) q -> p = q.
Proof. assert (B := bpow_gt_0 radix2 k). unfold mul3. intros E. injection E as E1 E2 E3. apply Rmult_eq_reg_l in E1; [|lra]. apply Rmult_eq_reg_l in E2; [|lra]. apply Rmult_eq_reg_l in E3; [|lra]. apply V3_ext; auto. Qed.
Section Scale.
  Context (prec emax epsexp : Z) (at2 : spec_float -> spec_float -> spec_float) (Hprec : Prec_gt_0 prec) (Hmax : Prec_lt_emax prec emax).
  Notation FS := (FloatS prec emax epsexp at2).
  Notation val := (@point_value prec emax epsexp at2).
  Notation val3 := (@point_value3 prec emax epsexp at2).
  Lemma scale2 s s' n k : fine prec emax epsexp s n -> fine prec emax epsexp s' n -> forall pts qs d d',
    Forall (@grid_point prec emax epsexp at2 s n) pts -> Forall (@grid_point prec emax epsexp at2 s' n) qs -> tolerance_ok prec emax d -> tolerance_ok prec emax d' ->
    fvalue d' = bpow radix2 k * fvalue d -> Forall2 (fun p q => doubled k (val p) (val q)) pts qs ->
    exists out out', simplify_rdp_2d (S := FS) pts d = Val out /\ simplify_rdp_2d (S := FS) qs d' = Val out' /\ Forall2 (fun p q => doubled k (val p) (val q)) out out'.
  Proof.
    intros F F' pts qs d d' H1 H2 Hd Hd' Ed Hs.
    apply (scale_float prec emax epsexp at2 Hprec Hmax (dist_line2_safe (S := FS)) val (dsafe2 prec emax) (@grid_point prec emax epsexp at2 s n) (@grid_point prec emax epsexp at2 s' n) k pts qs d d'); auto; try (apply fits2; auto).
    intros a b p a' b' p' Ha Hb Hp Ha' Hb' Hp' Sa Sb Sp.
    destruct (safe2_value prec emax epsexp at2 Hprec Hmax s n a b p F Ha Hb Hp) as (_ & _ & M). destruct (safe2_value prec emax epsexp at2 Hprec Hmax s' n a' b' p' F' Ha' Hb' Hp') as (_ & _ & M').
    rewrite (doubled_mul _ _ _ Sa), (doubled_mul _ _ _ Sb), (doubled_mul _ _ _ Sp) in *. unfold dsafe2.
    destruct (veqb (S := RS) (val a) (val b)) eqn:E.
    - apply veqb_R in E. rewrite E in *. replace (veqb (S := RS) (mul2 (bpow radix2 k) (val b)) (mul2 (bpow radix2 k) (val b))) with true by (symmetry; apply veqb_R; auto).
      generalize (bpow radix2 k). intros c. generalize (val b), (val p). intros [b1 b2] [p1 p2]. unfold mul2, sqdist. cbn [vx vy car RS] in *. ring.
    - assert (N : val a <> val b) by (intros C; apply veqb_R in C; congruence).
      assert (N' : mul2 (bpow radix2 k) (val a) <> mul2 (bpow radix2 k) (val b)) by (intros C; apply mul2_inj in C; auto).
      replace (veqb (S := RS) (mul2 (bpow radix2 k) (val a)) (mul2 (bpow radix2 k) (val b))) with false by (symmetry; apply Bool.not_true_iff_false; intros C; apply veqb_R in C; auto).
      apply dval2_scale; auto.
  Qed.
  Lemma scale3 s s' n k : fine prec emax epsexp s n -> fine prec emax epsexp s' n -> forall pts qs d d',
    Forall (@grid_point3 prec emax epsexp at2 s n) pts -> Forall (@grid_point3 prec emax epsexp at2 s' n) qs -> tolerance_ok prec emax d -> tolerance_ok prec emax d' ->
    fvalue d' = bpow radix2 k * fvalue d -> Forall2 (fun p q => doubled3 k (val3 p) (val3 q)) pts qs ->
    exists out out', simplify_rdp_3d (S := FS) pts d = Val out /\ simplify_rdp_3d (S := FS) qs d' = Val out' /\ Forall2 (fun p q => doubled3 k (val3 p) (val3 q)) out out'.
  Proof.
    intros F F' pts qs d d' H1 H2 Hd Hd' Ed Hs.
    apply (scale_float prec emax epsexp at2 Hprec Hmax (dist_line3_safe (S := FS)) val3 (dsafe3 prec emax) (@grid_point3 prec emax epsexp at2 s n) (@grid_point3 prec emax epsexp at2 s' n) k pts qs d d'); auto; try (apply fits3; auto).
    intros a b p a' b' p' Ha Hb Hp Ha' Hb' Hp' Sa Sb Sp.
    destruct (safe3_value prec emax epsexp at2 Hprec Hmax s n a b p F Ha Hb Hp) as (_ & _ & M). destruct (safe3_value prec emax epsexp at2 Hprec Hmax s' n a' b' p' F' Ha' Hb' Hp') as (_ & _ & M').
    rewrite (doubled3_mul _ _ _ Sa), (doubled3_mul _ _ _ Sb), (doubled3_mul _ _ _ Sp) in *. unfold dsafe3.
    destruct (weqb (S := RS) (val3 a) (val3 b)) eqn:E.
    - apply weqb_R in E. rewrite E in *. replace (weqb (S := RS) (mul3 (bpow radix2 k) (val3 b)) (mul3 (bpow radix2 k) (val3 b))) with true by (symmetry; apply weqb_R; auto).
      generalize (bpow radix2 k). intros c. generalize (val3 b), (val3 p). intros [b1 b2 b3] [p1 p2 p3]. unfold mul3, sqdist3. cbn [wx wy wz car RS] in *. ring.
    - assert (N : val3 a <> val3 b) by (intros C; apply weqb_R in C; congruence).
      assert (N' : mul3 (bpow radix2 k) (val3 a) <> mul3 (bpow radix2 k) (val3 b)) by (intros C; apply mul3_inj in C; auto).
      replace (weqb (S := RS) (mul3 (bpow radix2 k) (val3 a)) (mul3 (bpow radix2 k) (val3 b))) with false by (symmetry; apply Bool.not_true_iff_false; intros C; apply weqb_R in C; auto).
      apply dval3_scale; auto.
  Qed.
End Scale.

(* ---- C160: a float line given backwards ---- *)
Theorem C160_backwards_f64 : forall at2 s (pts : list (V2 (F64 at2))) d, pts <> [] -> (-51 <= s)%Z -> Forall (grid64_to (2 ^ 24) s) pts -> tolerance64 d ->
  no_computed_ties (fun a b p => dist_line2_safe (S := F64 at2) a b p) (smul (s := F64 at2) d d) pts ->
  simplify_rdp_2d (S := F64 at2) (rev pts) d = omap (@rev _) (simplify_rdp_2d (S := F64 at2) pts d).
Proof.
  intros at2 s pts d Hne Hlo HL Hd HT. destruct (all64 _ _ _ pts Hne HL) as [Hs HG]. apply tol64 in Hd.
  exact (rev_float 53 1024 (-52) at2 P53 M53 (dist_line2_safe (S := FloatS 53 1024 (-52) at2)) (@point_value 53 1024 (-52) at2) (dsafe2 53 1024) (dsafe2_sym 53 1024)
    (@grid_point 53 1024 (-52) at2 s (2 ^ 24)) pts d (fits2 53 1024 (-52) at2 P53 M53 s (2 ^ 24) (fine64 s ltac:(lia))) HG Hd HT).
Qed.
Print Assumptions C160_backwards_f64.
Theorem C160_backwards_f32 : forall at2 s (pts : list (V2 (F32 at2))) d, pts <> [] -> (-22 <= s)%Z -> Forall (grid32_to (2 ^ 10) s) pts -> tolerance32 d ->
  no_computed_ties (fun a b p => dist_line2_safe (S := F32 at2) a b p) (smul (s := F32 at2) d d) pts ->
  simplify_rdp_2d (S := F32 at2) (rev pts) d = omap (@rev _) (simplify_rdp_2d (S := F32 at2) pts d).
Proof.
  intros at2 s pts d Hne Hlo HL Hd HT. destruct (all32 _ _ _ pts Hne HL) as [Hs HG]. apply tol32 in Hd.
  exact (rev_float 24 128 (-23) at2 P24 M24 (dist_line2_safe (S := FloatS 24 128 (-23) at2)) (@point_value 24 128 (-23) at2) (dsafe2 24 128) (dsafe2_sym 24 128)
    (@grid_point 24 128 (-23) at2 s (2 ^ 10)) pts d (fits2 24 128 (-23) at2 P24 M24 s (2 ^ 10) (fine32 s ltac:(lia))) HG Hd HT).
Qed.
Print Assumptions C160_backwards_f32.
Theorem C160_backwards_3d_f64 : forall at2 s (pts : list (V3 (F64 at2))) d, pts <> [] -> (-51 <= s)%Z -> Forall (grid64_to3 (2 ^ 24) s) pts -> tolerance64 d ->
  no_computed_ties (fun a b p => dist_line3_safe (S := F64 at2) a b p) (smul (s := F64 at2) d d) pts ->
  simplify_rdp_3d (S := F64 at2) (rev pts) d = omap (@rev _) (simplify_rdp_3d (S := F64 at2) pts d).
Proof.
  intros at2 s pts d Hne Hlo HL Hd HT. destruct (all64_3 _ _ _ pts Hne HL) as [Hs HG]. apply tol64 in Hd.
  exact (rev_float 53 1024 (-52) at2 P53 M53 (dist_line3_safe (S := FloatS 53 1024 (-52) at2)) (@point_value3 53 1024 (-52) at2) (dsafe3 53 1024) (dsafe3_sym 53 1024)
    (@grid_point3 53 1024 (-52) at2 s (2 ^ 24)) pts d (fits3 53 1024 (-52) at2 P53 M53 s (2 ^ 24) (fine64 s ltac:(lia))) HG Hd HT).
Qed.
Print Assumptions C160_backwards_3d_f64.
Theorem C160_backwards_3d_f32 : forall at2 s (pts : list (V3 (F32 at2))) d, pts <> [] -> (-22 <= s)%Z -> Forall (grid32_to3 (2 ^ 10) s) pts -> tolerance32 d ->
  no_computed_ties (fun a b p => dist_line3_safe (S := F32 at2) a b p) (smul (s := F32 at2) d d) pts ->
  simplify_rdp_3d (S := F32 at2) (rev pts) d = omap (@rev _) (simplify_rdp_3d (S := F32 at2) pts d).
Proof.
  intros at2 s pts d Hne Hlo HL Hd HT. destruct (all32_3 _ _ _ pts Hne HL) as [Hs HG]. apply tol32 in Hd.
  exact (rev_float 24 128 (-23) at2 P24 M24 (dist_line3_safe (S := FloatS 24 128 (-23) at2)) (@point_value3 24 128 (-23) at2) (dsafe3 24 128) (dsafe3_sym 24 128)
    (@grid_point3 24 128 (-23) at2 s (2 ^ 10)) pts d (fits3 24 128 (-23) at2 P24 M24 s (2 ^ 10) (fine32 s ltac:(lia))) HG Hd HT).
Qed.
Print Assumptions C160_backwards_3d_f32.

(* ---- C161: a float line scaled by a power of two ---- *)
Theorem C161_scaled_f64 : forall at2 s s' k (pts qs : list (V2 (F64 at2))) d d', pts <> [] -> (-51 <= s)%Z -> (-51 <= s')%Z -> Forall (grid64_to (2 ^ 24) s) pts -> Forall (grid64_to (2 ^ 24) s') qs ->
  tolerance64 d -> tolerance64 d' -> fvalue d' = bpow radix2 k * fvalue d -> Forall2 (fun p q => doubled k (value64 p) (value64 q)) pts qs ->
  exists out out', simplify_rdp_2d (S := F64 at2) pts d = Val out /\ simplify_rdp_2d (S := F64 at2) qs d' = Val out' /\ Forall2 (fun p q => doubled k (value64 p) (value64 q)) out out'.
Proof.
  intros at2 s s' k pts qs d d' Hne Hlo Hlo' HL HL' Hd Hd' Ed H2. assert (Hne' : qs <> []) by (destruct H2; [congruence|discriminate]).
  destruct (all64 _ _ _ pts Hne HL) as [Hs HG]. destruct (all64 _ _ _ qs Hne' HL') as [Hs' HG']. apply tol64 in Hd. apply tol64 in Hd'.
  exact (scale2 53 1024 (-52) at2 P53 M53 s s' (2 ^ 24) k (fine64 s ltac:(lia)) (fine64 s' ltac:(lia)) pts qs d d' HG HG' Hd Hd' Ed H2).
Qed.
Print Assumptions C161_scaled_f64.
Theorem C161_scaled_f32 : forall at2 s s' k (pts qs : list (V2 (F32 at2))) d d', pts <> [] -> (-22 <= s)%Z -> (-22 <= s')%Z -> Forall (grid32_to (2 ^ 10) s) pts -> Forall (grid32_to (2 ^ 10) s') qs ->
  tolerance32 d -> tolerance32 d' -> fvalue d' = bpow radix2 k * fvalue d -> Forall2 (fun p q => doubled k (value32 p) (value32 q)) pts qs ->
  exists out out', simplify_rdp_2d (S := F32 at2) pts d = Val out /\ simplify_rdp_2d (S := F32 at2) qs d' = Val out' /\ Forall2 (fun p q => doubled k (value32 p) (value32 q)) out out'.
Proof.
  intros at2 s s' k pts qs d d' Hne Hlo Hlo' HL HL' Hd Hd' Ed H2. assert (Hne' : qs <> []) by (destruct H2; [congruence|discriminate]).
  destruct (all32 _ _ _ pts Hne HL) as [Hs HG]. destruct (all32 _ _ _ qs Hne' HL') as [Hs' HG']. apply tol32 in Hd. apply tol32 in Hd'.
  exact (scale2 24 128 (-23) at2 P24 M24 s s' (2 ^ 10) k (fine32 s ltac:(lia)) (fine32 s' ltac:(lia)) pts qs d d' HG HG' Hd Hd' Ed H2).
Qed.
Print Assumptions C161_scaled_f32.
Theorem C161_scaled_3d_f64 : forall at2 s s' k (pts qs : list (V3 (F64 at2))) d d', pts <> [] -> (-51 <= s)%Z -> (-51 <= s')%Z -> Forall (grid64_to3 (2 ^ 24) s) pts -> Forall (grid64_to3 (2 ^ 24) s') qs ->
  tolerance64 d -> tolerance64 d' -> fvalue d' = bpow radix2 k * fvalue d -> Forall2 (fun p q => doubled3 k (value64_3 p) (value64_3 q)) pts qs ->
  exists out out', simplify_rdp_3d (S := F64 at2) pts d = Val out /\ simplify_rdp_3d (S := F64 at2) qs d' = Val out' /\ Forall2 (fun p q => doubled3 k (value64_3 p) (value64_3 q)) out out'.
Proof.
  intros at2 s s' k pts qs d d' Hne Hlo Hlo' HL HL' Hd Hd' Ed H2. assert (Hne' : qs <> []) by (destruct H2; [congruence|discriminate]).
  destruct (all64_3 _ _ _ pts Hne HL) as [Hs HG]. destruct (all64_3 _ _ _ qs Hne' HL') as [Hs' HG']. apply tol64 in Hd. apply tol64 in Hd'.
  exact (scale3 53 1024 (-52) at2 P53 M53 s s' (2 ^ 24) k (fine64 s ltac:(lia)) (fine64 s' ltac:(lia)) pts qs d d' HG HG' Hd Hd' Ed H2).
Qed.
Print Assumptions C161_scaled_3d_f64.
Theorem C161_scaled_3d_f32 : forall at2 s s' k (pts qs : list (V3 (F32 at2))) d d', pts <> [] -> (-22 <= s)%Z -> (-22 <= s')%Z -> Forall (grid32_to3 (2 ^ 10) s) pts -> Forall (grid32_to3 (2 ^ 10) s') qs ->
  tolerance32 d -> tolerance32 d' -> fvalue d' = bpow radix2 k * fvalue d -> Forall2 (fun p q => doubled3 k (value32_3 p) (value32_3 q)) pts qs ->
  exists out out', simplify_rdp_3d (S := F32 at2) pts d = Val out /\ simplify_rdp_3d (S := F32 at2) qs d' = Val out' /\ Forall2 (fun p q => doubled3 k (value32_3 p) (value32_3 q)) out out'.
Proof.
  intros at2 s s' k pts qs d d' Hne Hlo Hlo' HL HL' Hd Hd' Ed H2. assert (Hne' : qs <> []) by (destruct H2; [congruence|discriminate]).
  destruct (all32_3 _ _ _ pts Hne HL) as [Hs HG]. destruct (all32_3 _ _ _ qs Hne' HL') as [Hs' HG']. apply tol32 in Hd. apply tol32 in Hd'.
  exact (scale3 24 128 (-23) at2 P24 M24 s s' (2 ^ 10) k (fine32 s ltac:(lia)) (fine32 s' ltac:(lia)) pts qs d d' HG HG' Hd Hd' Ed H2).
Qed.
Print Assumptions C161_scaled_3d_f32.
Definition corner : list (V2 F64_) := [P 0 0; P 1 1; P 2 3; P 4 0].
Example C160_hypotheses_met : corner <> [] /\ Forall (grid64_to (2 ^ 24) 0) corner /\ tolerance64 (f64 1) /\
  no_computed_ties (fun a b p => dist_line2_safe (S := F64_) a b p) (smul (s := F64_) (f64 1) (f64 1)) corner.
Proof.
  split; [discriminate|]. split; [repeat (apply Forall_cons; [apply I64_to; lia|]); apply Forall_nil|]. split.
  - destruct (fl_of_Z_good 53 1024 P53 M53 1) as [G E]; [lia|split; cbn; lia|]. split; [exact G|right].
    change (fvalue (f64 1)) with (fvalue (fl_of_Z 53 1024 1)). rewrite E. split; [apply (bpow_le radix2 (-511) 0); lia|apply (bpow_le radix2 0 511); lia].
  - intros l1 a m1 p m2 q m3 b l2 El Et. exfalso. unfold corner in El.
    assert (Len := f_equal (@length _) El). rewrite !app_length in Len. cbn [length] in Len. rewrite !app_length in Len. cbn [length] in Len. rewrite app_length in Len. cbn [length] in Len.
    assert (l1 = []) as -> by (destruct l1; [reflexivity|cbn [length] in Len; lia]).
    assert (m1 = []) as -> by (destruct m1; [reflexivity|cbn [length] in Len; lia]).
    assert (m2 = []) as -> by (destruct m2; [reflexivity|cbn [length] in Len; lia]).
    assert (m3 = []) as -> by (destruct m3; [reflexivity|cbn [length] in Len; lia]).
    cbn [app] in El. injection El as <- <- <- <- _.
    assert (E1 : dist_line2_safe (S := F64_) (P 0 0) (P 4 0) (P 1 1) = fl_of_Z 53 1024 1) by (apply sf_eqb_eq; vm_compute; reflexivity).
    assert (E2 : dist_line2_safe (S := F64_) (P 0 0) (P 4 0) (P 2 3) = fl_of_Z 53 1024 9) by (apply sf_eqb_eq; vm_compute; reflexivity).
    rewrite E1, E2 in Et.
    destruct (fl_of_Z_good 53 1024 P53 M53 1) as [_ V1]; [lia|split; cbn; lia|]. destruct (fl_of_Z_good 53 1024 P53 M53 9) as [_ V9]; [lia|split; cbn; lia|].
    rewrite V1, V9 in Et. lra.
Qed.
Example C161_hypotheses_met at2 : let pts := [@I64 at2 0 0; I64 1 1; I64 2 3; I64 4 0] in let qs := [@I64 at2 0 0; I64 2 2; I64 4 6; I64 8 0] in
  Forall (grid64_to (2 ^ 24) 0) pts /\ Forall (grid64_to (2 ^ 24) 0) qs /\ fvalue (f64 2) = bpow radix2 1 * fvalue (f64 1) /\ Forall2 (fun p q => doubled 1 (value64 p) (value64 q)) pts qs.
Proof.
  intros pts qs.
  assert (V : forall z, (Z.abs z <= 2 ^ 24)%Z -> fvalue (fl_of_Z 53 1024 z) = IZR z) by (intros z Hz; apply (fl_of_Z_good 53 1024 P53 M53 z); [lia|split; cbn; lia]).
  split; [repeat (apply Forall_cons; [apply I64_to; lia|]); apply Forall_nil|]. split; [repeat (apply Forall_cons; [apply I64_to; lia|]); apply Forall_nil|]. split.
  - change (fvalue (fl_of_Z 53 1024 2) = bpow radix2 1 * fvalue (fl_of_Z 53 1024 1)). rewrite !V by lia. cbn. lra.
  - assert (D : forall x y, (Z.abs x <= 2 ^ 20)%Z -> (Z.abs y <= 2 ^ 20)%Z -> doubled 1 (value64 (@I64 at2 x y)) (value64 (@I64 at2 (2 * x) (2 * y)))).
    { intros x y Hx Hy. unfold doubled, value64, point_value, I64. cbn [vx vy]. rewrite !V by lia. rewrite !mult_IZR. split; reflexivity. }
    repeat (apply Forall2_cons; [apply D; lia|]). apply Forall2_nil.
Qed.
