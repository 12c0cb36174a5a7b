(* Is a point on a segment, in f64 and f32 (C118). Model: Geo2.v. Vocabulary: FloatSpec.v ([grid64_to n s]: both coordinates
   are integers of absolute value at most n times 2^s; [value64]: the point of real numbers a float point stands for),
   GeoSpec.v ([on_segment p a b]; [edist]: Euclidean distance), Properties_Isect2.v ([segment64]). *)
From Coq Require Import ZArith Reals Lra Lia Psatz Floats.SpecFloat.
From Flocq Require Import Core BinarySingleNaN.
From Verif Require Import Prelude Scalar RInst Flt FloatSpec FloatLink FloatGrid FloatRound Geo2 GeoSpec DistR IsectProofs DiscProofs FloatRdp FloatIsect FloatPoint HullSpec Properties_Float Properties_Float2 Properties_Isect2.
Local Open Scope R_scope.

Definition on64 {at2} (p : V2 (F64 at2)) (l : Line2 (F64 at2)) : Prop := on_segment (value64 p) (value64 (lstart l)) (value64 (lend l)).
Definition on32 {at2} (p : V2 (F32 at2)) (l : Line2 (F32 at2)) : Prop := on_segment (value32 p) (value32 (lstart l)) (value32 (lend l)).

(* C118, no false negatives: a point of the segment is always reported *)
Theorem C118_point_found_f64 : forall at2 s (l : Line2 (F64 at2)) (p : V2 (F64 at2)), (-25 <= s)%Z ->
  Forall (grid64_to (2 ^ 24) s) [lstart l; lend l; p] -> on64 p l -> intersect_line_point l p = Some (IPoint p).
Proof.
  intros at2 s [a b] p Hs HF Ho. rewrite Forall_forall in HF. pose proof (HF a (or_introl eq_refl)) as A. pose proof (HF b (or_intror (or_introl eq_refl))) as B.
  pose proof (HF p (or_intror (or_intror (or_introl eq_refl)))) as C. destruct A as [Hr A], B as [_ B], C as [_ C].
  refine (point_found 53 1024 (-52) at2 P53 M53 s 24 (isect_ok64 s ltac:(lia)) _ _ a b p A B C Ho); unfold SpecFloat.emin; lia.
Qed.
Print Assumptions C118_point_found_f64.
Theorem C118_point_found_f32 : forall at2 s (l : Line2 (F32 at2)) (p : V2 (F32 at2)), (-11 <= s)%Z ->
  Forall (grid32_to (2 ^ 10) s) [lstart l; lend l; p] -> on32 p l -> intersect_line_point l p = Some (IPoint p).
Proof.
  intros at2 s [a b] p Hs HF Ho. rewrite Forall_forall in HF. pose proof (HF a (or_introl eq_refl)) as A. pose proof (HF b (or_intror (or_introl eq_refl))) as B.
  pose proof (HF p (or_intror (or_intror (or_introl eq_refl)))) as C. destruct A as [Hr A], B as [_ B], C as [_ C].
  refine (point_found 24 128 (-23) at2 P24 M24 s 10 (isect_ok32 s ltac:(lia)) _ _ a b p A B C Ho); unfold SpecFloat.emin; lia.
Qed.
Print Assumptions C118_point_found_f32.

(* C118, false positives are close: with a step of at least 1, a reported point is within 2^-25 (f64) or 2^-10 (f32) of the
   length of the segment *)
Lemma edist_bound (p q a b : pt) c e : 0 <= e -> c <= e * e -> sqdist p q <= c * sqdist a b -> edist p q <= e * edist a b.
Proof.
  intros He Hc H. apply le_sq; [apply Rmult_le_pos; auto; apply edist_nonneg|]. rewrite sqdist_edist. eapply Rle_trans; [exact H|].
  replace (e * edist a b * (e * edist a b)) with (e * e * (edist a b * edist a b)) by ring. rewrite sqdist_edist. apply Rmult_le_compat_r; auto. apply sqdist_nonneg.
Qed.
Theorem C118_point_close_f64 : forall at2 s (l : Line2 (F64 at2)) (p : V2 (F64 at2)), (0 <= s)%Z ->
  Forall (grid64_to (2 ^ 24) s) [lstart l; lend l; p] -> intersect_line_point l p <> None ->
  let a := value64 (lstart l) in let b := value64 (lend l) in
  exists q, on_segment q a b /\ edist (value64 p) q <= bpow radix2 (-25) * edist a b.
Proof.
  intros at2 s [a b] p Hs HF Ho. rewrite Forall_forall in HF. pose proof (HF a (or_introl eq_refl)) as A. pose proof (HF b (or_intror (or_introl eq_refl))) as B.
  pose proof (HF p (or_intror (or_intror (or_introl eq_refl)))) as C. destruct A as [Hr A], B as [_ B], C as [_ C].
  assert (OKs : isect_ok 53 1024 (-52) s 24) by (apply isect_ok64; lia). cbv zeta. cbn [lstart lend].
  destruct (point_close 53 1024 (-52) at2 P53 M53 s 24 OKs ltac:(unfold SpecFloat.emin; lia) ltac:(lia) a b p) as (q & Hq & Dq); auto; try (unfold SpecFloat.emin; lia).
  exists q. split; auto. apply edist_bound with (8 * ulp1 53); [apply bpow_ge_0| |exact Dq].
  unfold ulp1. change 8 with (bpow radix2 3). rewrite <- !bpow_plus. apply bpow_le. lia.
Qed.
Print Assumptions C118_point_close_f64.
Theorem C118_point_close_f32 : forall at2 s (l : Line2 (F32 at2)) (p : V2 (F32 at2)), (0 <= s)%Z ->
  Forall (grid32_to (2 ^ 10) s) [lstart l; lend l; p] -> intersect_line_point l p <> None ->
  let a := value32 (lstart l) in let b := value32 (lend l) in
  exists q, on_segment q a b /\ edist (value32 p) q <= bpow radix2 (-10) * edist a b.
Proof.
  intros at2 s [a b] p Hs HF Ho. rewrite Forall_forall in HF. pose proof (HF a (or_introl eq_refl)) as A. pose proof (HF b (or_intror (or_introl eq_refl))) as B.
  pose proof (HF p (or_intror (or_intror (or_introl eq_refl)))) as C. destruct A as [Hr A], B as [_ B], C as [_ C].
  assert (OKs : isect_ok 24 128 (-23) s 10) by (apply isect_ok32; lia). cbv zeta. cbn [lstart lend].
  destruct (point_close 24 128 (-23) at2 P24 M24 s 10 OKs ltac:(unfold SpecFloat.emin; lia) ltac:(lia) a b p) as (q & Hq & Dq); auto; try (unfold SpecFloat.emin; lia).
  exists q. split; auto. apply edist_bound with (8 * ulp1 24); [apply bpow_ge_0| |exact Dq].
  unfold ulp1. change 8 with (bpow radix2 3). rewrite <- !bpow_plus. apply bpow_le. lia.
Qed.
Print Assumptions C118_point_close_f32.

(* C118, exact on small grids: the answer is right for coordinates of at most 2^10 steps in f64, 2^3 in f32 *)
Theorem C118_point_exact_f64 : forall at2 s (l : Line2 (F64 at2)) (p : V2 (F64 at2)), (0 <= s)%Z ->
  Forall (grid64_to (2 ^ 10) s) [lstart l; lend l; p] ->
  (on64 p l -> intersect_line_point l p = Some (IPoint p)) /\ (~ on64 p l -> intersect_line_point l p = None).
Proof.
  intros at2 s [a b] p Hs HF. rewrite Forall_forall in HF. pose proof (HF a (or_introl eq_refl)) as A. pose proof (HF b (or_intror (or_introl eq_refl))) as B.
  pose proof (HF p (or_intror (or_intror (or_introl eq_refl)))) as C. destruct A as [Hr A], B as [_ B], C as [_ C].
  assert (OKs : isect_ok 53 1024 (-52) s 10) by (split; unfold scale_ok, SpecFloat.emin; lia). split; intros Ho.
  - apply (point_found 53 1024 (-52) at2 P53 M53 s 10 OKs ltac:(unfold SpecFloat.emin; lia) ltac:(lia) a b p); auto.
  - destruct (intersect_line_point _ _) eqn:E; auto. exfalso. apply Ho.
    apply (point_exact 53 1024 (-52) at2 P53 M53 s 10 OKs ltac:(unfold SpecFloat.emin; lia) ltac:(lia) a b p); auto; try (unfold SpecFloat.emin; lia).
    intros E'. change (F64 at2) with (FloatS 53 1024 (-52) at2) in E. rewrite E in E'. discriminate.
Qed.
Print Assumptions C118_point_exact_f64.
Theorem C118_point_exact_f32 : forall at2 s (l : Line2 (F32 at2)) (p : V2 (F32 at2)), (0 <= s)%Z ->
  Forall (grid32_to (2 ^ 3) s) [lstart l; lend l; p] ->
  (on32 p l -> intersect_line_point l p = Some (IPoint p)) /\ (~ on32 p l -> intersect_line_point l p = None).
Proof.
  intros at2 s [a b] p Hs HF. rewrite Forall_forall in HF. pose proof (HF a (or_introl eq_refl)) as A. pose proof (HF b (or_intror (or_introl eq_refl))) as B.
  pose proof (HF p (or_intror (or_intror (or_introl eq_refl)))) as C. destruct A as [Hr A], B as [_ B], C as [_ C].
  assert (OKs : isect_ok 24 128 (-23) s 3) by (split; unfold scale_ok, SpecFloat.emin; lia). split; intros Ho.
  - apply (point_found 24 128 (-23) at2 P24 M24 s 3 OKs ltac:(unfold SpecFloat.emin; lia) ltac:(lia) a b p); auto.
  - destruct (intersect_line_point _ _) eqn:E; auto. exfalso. apply Ho.
    apply (point_exact 24 128 (-23) at2 P24 M24 s 3 OKs ltac:(unfold SpecFloat.emin; lia) ltac:(lia) a b p); auto; try (unfold SpecFloat.emin; lia).
    intros E'. change (F32 at2) with (FloatS 24 128 (-23) at2) in E. rewrite E in E'. discriminate.
Qed.
Print Assumptions C118_point_exact_f32.

(* the same through [intersection_point]: a segment of one point against a segment *)
Theorem C118_one_point_segment_f64 : forall at2 s (l : Line2 (F64 at2)) (p : V2 (F64 at2)), (-25 <= s)%Z ->
  Forall (grid64_to (2 ^ 24) s) [lstart l; lend l; p] ->
  intersection_point (mkL p p) l = intersect_line_point l p /\
  (value64 (lstart l) <> value64 (lend l) -> intersection_point l (mkL p p) = intersect_line_point l p).
Proof.
  intros at2 s [a b] p Hs HF. rewrite Forall_forall in HF. pose proof (HF a (or_introl eq_refl)) as A. pose proof (HF b (or_intror (or_introl eq_refl))) as B.
  pose proof (HF p (or_intror (or_intror (or_introl eq_refl)))) as C. destruct A as [Hr A], B as [_ B], C as [_ C].
  pose proof (vulps_ex 53 1024 (-52) at2 P53 M53 s 24 (isect_ok64 s ltac:(lia))) as V. change (FloatS 53 1024 (-52) at2) with (F64 at2) in V.
  assert (Vp : vulps p p = true) by (rewrite (V p p C C); apply vulps_R; reflexivity).
  unfold intersection_point. cbn [lstart lend]. rewrite Vp. split; auto. intros N.
  assert (Vab : vulps a b = false) by (rewrite (V a b A B); apply Bool.not_true_iff_false; intros E; apply vulps_R in E; apply N; exact E). rewrite Vab. reflexivity.
Qed.
Print Assumptions C118_one_point_segment_f64.

Lemma V64 at2 x y : (Z.abs x <= 2 ^ 24)%Z -> (Z.abs y <= 2 ^ 24)%Z -> value64 (@I64 at2 x y) = @mkV2 RS (IZR x) (IZR y).
Proof. intros Hx Hy. apply I64_grid; lia. Qed.
Lemma some_not_none {X} (o : option X) : match o with Some _ => true | None => false end = true -> o <> None.
Proof. destruct o; congruence. Qed.
Lemma not_on (x y u v w z t : R) : @mkV2 RS w z = lerp (@mkV2 RS x y) (@mkV2 RS u v) t -> w = x + t * (u - x) /\ z = y + t * (v - y).
Proof. intros E. unfold lerp in E. cbn [vx vy] in E. injection E as E1 E2. split; [exact E1|exact E2]. Qed.

(* not exact on the larger grid: (20001, 20000) is not on the segment from (0,0) to (40003, 40001) but is reported *)
Theorem C118_point_refuted : exists (l : Line2 F64_) (p : V2 F64_), Forall (grid64_to (2 ^ 24) 0) [lstart l; lend l; p] /\
  ~ on64 p l /\ intersect_line_point l p <> None.
Proof.
  exists (mkL (@I64 no_atan2 0 0) (@I64 no_atan2 40003 40001)), (@I64 no_atan2 20001 20000). split; [cbn [lstart lend]; repeat (apply Forall_cons; [apply I64_to; lia|]); apply Forall_nil|]. split.
  - unfold on64. cbn [lstart lend]. rewrite (V64 no_atan2 0 0), (V64 no_atan2 40003 40001), (V64 no_atan2 20001 20000) by lia. intros (t & Ht & E). apply not_on in E as [E1 E2]. lra.
  - apply some_not_none. vm_compute. reflexivity.
Qed.
Print Assumptions C118_point_refuted.

Example C118_hypotheses_met at2 : let l := mkL (@I64 at2 0 0) (I64 1024 (-512)) in
  Forall (grid64_to (2 ^ 10) 0) [lstart l; lend l; I64 2 (-1)] /\ on64 (I64 2 (-1)) l /\ ~ on64 (I64 2 1) l.
Proof.
  cbv zeta. unfold on64. cbn [lstart lend]. rewrite (V64 at2 0 0), (V64 at2 1024 (-512)), (V64 at2 2 (-1)), (V64 at2 2 1) by lia. split; [|split].
  - assert (S0 : scale_ok 53 1024 0) by (split; cbn; lia).
    assert (G : forall x y, (Z.abs x <= 2 ^ 10)%Z -> (Z.abs y <= 2 ^ 10)%Z -> grid64_to (2 ^ 10) 0 (@I64 at2 x y)).
    { intros x y Hx Hy. split; [lia|]. split; apply (ong_of_Z 53 1024 P53 M53); auto; lia. }
    repeat (apply Forall_cons; [apply G; lia|]); apply Forall_nil.
  - exists (/ 512). split; [lra|]. unfold lerp. apply V2_ext; cbn [vx vy]; [change (2 = 0 + / 512 * (1024 - 0))|change (-1 = 0 + / 512 * (-512 - 0))]; lra.
  - intros (t & Ht & E). apply not_on in E as [E1 E2]. lra.
Qed.
