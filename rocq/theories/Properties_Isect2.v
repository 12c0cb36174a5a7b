(* Segment intersection in f64 and f32 (C117). Model: Geo2.v. Vocabulary: FloatSpec.v ([grid64_to n s]: both coordinates
   are integers of absolute value at most n times 2^s; [value64]: the point of real numbers a float point stands for),
   IsectProofs.v ([common a b q]: q is on both segments). *)
From Coq Require Import ZArith Reals Lra Lia Psatz Floats.SpecFloat.
From Flocq Require Import Core BinarySingleNaN.
From Verif Require Import Prelude Scalar RInst Flt FloatSpec FloatLink FloatGrid Geo2 GeoSpec DistR IsectProofs FloatIsect Properties_Float Properties_Float2.
Local Open Scope R_scope.

(* p is at most d from q in each coordinate *)
Definition within (d : R) (p q : pt) : Prop := Rabs (vx p - vx q) <= d /\ Rabs (vy p - vy q) <= d.
Definition segment64 {at2} (a : Line2 (F64 at2)) : Line2 RS := @mkL RS (value64 (lstart a)) (value64 (lend a)).
Definition segment32 {at2} (a : Line2 (F32 at2)) : Line2 RS := @mkL RS (value32 (lstart a)) (value32 (lend a)).

Lemma isect_ok64 s : (-25 <= s <= 228)%Z -> isect_ok 53 1024 (-52) s 24.
Proof. intros H. split; unfold scale_ok, SpecFloat.emin; lia. Qed.
Lemma isect_ok32 s : (-11 <= s <= 19)%Z -> isect_ok 24 128 (-23) s 10.
Proof. intros H. split; unfold scale_ok, SpecFloat.emin; lia. Qed.

(* what [like] says, in terms of the exact segments *)
Lemma like_spec prec emax epsexp at2 (Hp : Prec_gt_0 prec) (Hm : Prec_lt_emax prec emax) s K (OK : isect_ok prec emax epsexp s K) (a b : Line2 (FloatS prec emax epsexp at2)) :
  let val := @point_value prec emax epsexp at2 in
  grid_point s (2 ^ K) (lstart a) -> grid_point s (2 ^ K) (lend a) -> grid_point s (2 ^ K) (lstart b) -> grid_point s (2 ^ K) (lend b) ->
  val (lstart a) <> val (lend a) -> val (lstart b) <> val (lend b) ->
  let meets := common (@mkL RS (val (lstart a)) (val (lend a))) (@mkL RS (val (lstart b)) (val (lend b))) in
  let d := bpow radix2 (K + s - prec + 3) in
  match intersection_point a b with
  | None => forall q, ~ meets q
  | Some (IPoint p) => exists q, (forall x, meets x <-> x = q) /\ within d (val p) q
  | Some (IOverlap l) => exists q r, q <> r /\ (forall x, meets x <-> on_segment x q r) /\ within d (val (lstart l)) q /\ within (2 * d) (val (lend l)) r
  end.
Proof.
  intros val A0 A1 B0 B1 Na Nb meets d. pose proof (intersection_like prec emax epsexp at2 Hp Hm s K OK a b A0 A1 B0 B1 Na Nb) as H.
  pose proof (intersection_correct (lval prec emax epsexp at2 a) (lval prec emax epsexp at2 b)) as C.
  assert (D : d = 8 * bpow radix2 (K + s - prec)) by (unfold d; rewrite bpow_plus; change (bpow radix2 3) with 8; ring).
  assert (W : forall p q, close prec emax epsexp at2 s K 8 p q -> within d (val p) q) by (intros p q [H1 H2]; rewrite D; split; auto).
  assert (W2 : forall p q, close prec emax epsexp at2 s K 12 p q -> within (2 * d) (val p) q).
  { intros p q [H1 H2]. pose proof (bpow_gt_0 radix2 (K + s - prec)). rewrite D; split; unfold val, point_value; cbn [vx vy]; lra. }
  destruct (intersection_point a b) as [[p|l]|], (intersection_point (lval prec emax epsexp at2 a) (lval prec emax epsexp at2 b)) as [[q|m]|]; cbn [like] in H; try tauto; cbn [correct] in C.
  - exists q. destruct H as [H _]. split; auto.
  - exists (lstart m), (lend m). destruct C as [C1 C2], H as (H1 & H2 & _). split; [auto|]. split; [exact C2|]. split; auto.
Qed.

(* C117: two segments with distinct ends on a grid of 2^24 (f64) or 2^10 (f32) steps around the origin *)
Theorem C117_intersection_f64 : forall at2 s (a b : Line2 (F64 at2)), (-25 <= s)%Z ->
  Forall (grid64_to (2 ^ 24) s) [lstart a; lend a; lstart b; lend b] ->
  value64 (lstart a) <> value64 (lend a) -> value64 (lstart b) <> value64 (lend b) ->
  let meets := common (segment64 a) (segment64 b) in
  match intersection_point a b with
  | None => forall q, ~ meets q
  | Some (IPoint p) => exists q, (forall x, meets x <-> x = q) /\ within (bpow radix2 (s - 26)) (value64 p) q
  | Some (IOverlap l) => exists q r, q <> r /\ (forall x, meets x <-> on_segment x q r) /\
      within (bpow radix2 (s - 26)) (value64 (lstart l)) q /\ within (2 * bpow radix2 (s - 26)) (value64 (lend l)) r
  end.
Proof.
  intros at2 s a b Hs HF Na Nb. assert (HF' := HF). rewrite Forall_forall in HF'.
  assert (A : forall p, In p [lstart a; lend a; lstart b; lend b] -> @grid_point 53 1024 (-52) at2 s (2 ^ 24) p) by (intros p Hp; apply HF', Hp).
  assert (Hs2 : (-25 <= s <= 228)%Z) by (destruct (HF' (lstart a) (or_introl eq_refl)) as [H _]; lia). clear HF HF'.
  assert (H := like_spec 53 1024 (-52) at2 P53 M53 s 24 (isect_ok64 s Hs2) a b (A _ (or_introl eq_refl)) (A _ (or_intror (or_introl eq_refl)))
    (A _ (or_intror (or_intror (or_introl eq_refl)))) (A _ (or_intror (or_intror (or_intror (or_introl eq_refl))))) Na Nb).
  cbv zeta in H |- *. replace (24 + s - 53 + 3)%Z with (s - 26)%Z in H by lia. exact H.
Qed.
Print Assumptions C117_intersection_f64.
Theorem C117_intersection_f32 : forall at2 s (a b : Line2 (F32 at2)), (-11 <= s)%Z ->
  Forall (grid32_to (2 ^ 10) s) [lstart a; lend a; lstart b; lend b] ->
  value32 (lstart a) <> value32 (lend a) -> value32 (lstart b) <> value32 (lend b) ->
  let meets := common (segment32 a) (segment32 b) in
  match intersection_point a b with
  | None => forall q, ~ meets q
  | Some (IPoint p) => exists q, (forall x, meets x <-> x = q) /\ within (bpow radix2 (s - 11)) (value32 p) q
  | Some (IOverlap l) => exists q r, q <> r /\ (forall x, meets x <-> on_segment x q r) /\
      within (bpow radix2 (s - 11)) (value32 (lstart l)) q /\ within (2 * bpow radix2 (s - 11)) (value32 (lend l)) r
  end.
Proof.
  intros at2 s a b Hs HF Na Nb. assert (HF' := HF). rewrite Forall_forall in HF'.
  assert (A : forall p, In p [lstart a; lend a; lstart b; lend b] -> @grid_point 24 128 (-23) at2 s (2 ^ 10) p) by (intros p Hp; apply HF', Hp).
  assert (Hs2 : (-11 <= s <= 19)%Z) by (destruct (HF' (lstart a) (or_introl eq_refl)) as [H _]; lia). clear HF HF'.
  assert (H := like_spec 24 128 (-23) at2 P24 M24 s 10 (isect_ok32 s Hs2) a b (A _ (or_introl eq_refl)) (A _ (or_intror (or_introl eq_refl)))
    (A _ (or_intror (or_intror (or_introl eq_refl)))) (A _ (or_intror (or_intror (or_intror (or_introl eq_refl))))) Na Nb).
  cbv zeta in H |- *. replace (10 + s - 24 + 3)%Z with (s - 11)%Z in H by lia. exact H.
Qed.
Print Assumptions C117_intersection_f32.
(* the three outcomes with coordinates at the limit of the grid *)
Example C117_hypotheses_met at2 : Forall (grid64_to (2 ^ 24) 0) [@I64 at2 (-16777216) (-16777215); I64 16777216 16777213; I64 5 (-16777216); I64 4 16777216] /\
  value64 (@I64 at2 5 (-16777216)) <> value64 (@I64 at2 4 16777216).
Proof.
  split; [repeat (apply Forall_cons; [apply I64_to; lia|]); apply Forall_nil|]. intros E. injection E as E _.
  assert (S0 : scale_ok 53 1024 0) by (split; cbn; lia). unfold fvalue in E.
  destruct (fl_of_Z_good 53 1024 P53 M53 5) as [_ E5]; [cbn; lia|auto|]. destruct (fl_of_Z_good 53 1024 P53 M53 4) as [_ E4]; [cbn; lia|auto|].
  unfold fvalue in E4, E5. assert (IZR 5 = IZR 4) by (rewrite <- E4, <- E5; exact E). lra.
Qed.
Example C117_outcomes :
  match intersection_point (S := F64_) (mkL (P (-16777216) (-16777215)) (P 16777216 16777213)) (mkL (P 5 (-16777216)) (P 4 16777216)) with Some (IPoint _) => true | _ => false end = true /\
  match intersection_point (S := F64_) (mkL (P (-16777216) (-16777215)) (P 16777216 16777213)) (mkL (P (-16777215) (-16777215)) (P 16777216 16777212)) with None => true | _ => false end = true /\
  match intersection_point (S := F64_) (mkL (P (-3) (-1)) (P 12582912 4194304)) (mkL (P 0 0) (P 15728640 5242880)) with Some (IOverlap _) => true | _ => false end = true.
Proof. vm_compute. auto. Qed.
(* beyond the grid the kind can be wrong: these two meet in the origin only *)
Example C117_limit : match intersection_point (S := F64_) (mkL (P 0 0) (P 134217729 134217728)) (mkL (P 0 0) (P 134217728 134217727)) with Some (IOverlap _) => true | _ => false end = true.
Proof. vm_compute. reflexivity. Qed.
