(* f64 and f32 simplification on coordinates that are small multiples of a power of two (C109, C110). Models: Flt.v, Geo2.v,
   Geo3.v, Simplify.v. Vocabulary (FloatSpec.v): [grid64_to n s p]: the coordinates of p are k * 2^s with integers |k| <= n
   and -255 <= s <= 228; [grid32_to n s p]: -31 <= s <= 19; [.._to3]: the same in 3D; [value64], [value32] (.._3): the exact point;
   [triangle_area]. VwSpec.v: vw_steps, pops_smallest. GeoSpec.v: thinned, on_segment, lerp3, edist, edist3. *)
From Coq Require Import ZArith Reals Lra Lia Psatz Floats.SpecFloat.
From Flocq Require Import Core BinarySingleNaN.
From Verif Require Import Prelude Scalar RInst Flt FloatSpec FloatLink FloatGrid FloatRound FloatVw FloatRdp Geo2 Geo3 GeoSpec DistR Simplify Rdp1 Rdp2 FltOrd VwSpec VwProofs VwProofs2 Properties_Hull Properties_Float.
Local Open Scope R_scope.

Lemma P53 : Prec_gt_0 53. Proof. reflexivity. Qed.
Lemma M53 : Prec_lt_emax 53 1024. Proof. reflexivity. Qed.
Lemma P24 : Prec_gt_0 24. Proof. reflexivity. Qed.
Lemma M24 : Prec_lt_emax 24 128. Proof. reflexivity. Qed.
Lemma vw_ok64 s : (-255 <= s <= 228)%Z -> vw_ok 53 1024 s (2 ^ 24).
Proof. intros H. split; unfold scale_ok, SpecFloat.emin; lia. Qed.
Lemma vw_ok32 s : (-31 <= s <= 19)%Z -> vw_ok 24 128 s (2 ^ 10).
Proof. intros H. split; unfold scale_ok, SpecFloat.emin; lia. Qed.
Lemma vw3_ok64 s : (-255 <= s <= 228)%Z -> vw3_ok 53 1024 s (2 ^ 11).
Proof. intros H. split; unfold scale_ok, SpecFloat.emin; lia. Qed.
Lemma vw3_ok32 s : (-31 <= s <= 19)%Z -> vw3_ok 24 128 s (2 ^ 4).
Proof. intros H. split; unfold scale_ok, SpecFloat.emin; lia. Qed.
Lemma rdp_ok64 s : (-255 <= s <= 228)%Z -> rdp_ok 53 1024 (-52) s (2 ^ 24).
Proof. intros H. split; unfold scale_ok, SpecFloat.emin; lia. Qed.
Lemma rdp_ok32 s : (-31 <= s <= 19)%Z -> rdp_ok 24 128 (-23) s (2 ^ 10).
Proof. intros H. split; unfold scale_ok, SpecFloat.emin; lia. Qed.
Lemma all_grid {A} (R : Prop) (Q : A -> Prop) (l : list A) : l <> [] -> Forall (fun p => R /\ Q p) l -> R /\ Forall Q l.
Proof. intros Hn H. split; [destruct H as [|p l [K _] _]; [congruence|auto]|]. eapply Forall_impl; [|exact H]. intros p [_ K]; auto. Qed.

Lemma all64 at2 n s (l : list (V2 (F64 at2))) : l <> [] -> Forall (grid64_to n s) l -> (-255 <= s <= 228)%Z /\ Forall (@grid_point 53 1024 (-52) at2 s n) l.
Proof. exact (all_grid _ _ l). Qed.
Lemma all32 at2 n s (l : list (V2 (F32 at2))) : l <> [] -> Forall (grid32_to n s) l -> (-31 <= s <= 19)%Z /\ Forall (@grid_point 24 128 (-23) at2 s n) l.
Proof. exact (all_grid _ _ l). Qed.
Lemma all64_3 at2 n s (l : list (V3 (F64 at2))) : l <> [] -> Forall (grid64_to3 n s) l -> (-255 <= s <= 228)%Z /\ Forall (@grid_point3 53 1024 (-52) at2 s n) l.
Proof. exact (all_grid _ _ l). Qed.
Lemma all32_3 at2 n s (l : list (V3 (F32 at2))) : l <> [] -> Forall (grid32_to3 n s) l -> (-31 <= s <= 19)%Z /\ Forall (@grid_point3 24 128 (-23) at2 s n) l.
Proof. exact (all_grid _ _ l). Qed.
Lemma three_ne {A} (l : list A) : (3 <= length l)%nat -> l <> [].
Proof. intros H ->. cbn in H. lia. Qed.

(* ---- C109: float Visvalingam-Whyatt is the exact greedy algorithm ---- *)
Theorem C109_vw_exact_f64 : forall at2 s pick (line : list (V2 (F64 at2))) k,
  pops_smallest (S := F64 at2) (fun x => x <> S754_nan) pick -> (3 <= length line)%nat -> Forall (grid64_to (2 ^ 24) s) line ->
  exists out, simplify_vw_2d pick line k = Val out /\
    (is_connected line = false ->
       vw_steps triangle_area (Nat.min k (if Nat.eqb (length line) 3 then 1 else length line - 4)) (map value64 line) (map value64 out)) /\
    (is_connected line = true ->
       exists f tl, line = f :: tl /\ vw_steps triangle_area (Nat.min k (length line - 3)) (map value64 (line ++ [f])) (map value64 (out ++ [f]))).
Proof.
  intros at2 s pick line k Hp H3 HL. destruct (all64 _ _ _ line (three_ne _ H3) HL) as [Hs HG].
  exact (vw2_grid 53 1024 (-52) at2 P53 M53 s (2 ^ 24) (vw_ok64 s Hs) pick line k Hp H3 HG).
Qed.
Print Assumptions C109_vw_exact_f64.
Theorem C109_vw_exact_f32 : forall at2 s pick (line : list (V2 (F32 at2))) k,
  pops_smallest (S := F32 at2) (fun x => x <> S754_nan) pick -> (3 <= length line)%nat -> Forall (grid32_to (2 ^ 10) s) line ->
  exists out, simplify_vw_2d pick line k = Val out /\
    (is_connected line = false ->
       vw_steps triangle_area (Nat.min k (if Nat.eqb (length line) 3 then 1 else length line - 4)) (map value32 line) (map value32 out)) /\
    (is_connected line = true ->
       exists f tl, line = f :: tl /\ vw_steps triangle_area (Nat.min k (length line - 3)) (map value32 (line ++ [f])) (map value32 (out ++ [f]))).
Proof.
  intros at2 s pick line k Hp H3 HL. destruct (all32 _ _ _ line (three_ne _ H3) HL) as [Hs HG].
  exact (vw2_grid 24 128 (-23) at2 P24 M24 s (2 ^ 10) (vw_ok32 s Hs) pick line k Hp H3 HG).
Qed.
Print Assumptions C109_vw_exact_f32.
(* 3D: exact on smaller numbers; z is the last point, which the function drops (C19) *)
Theorem C109_vw3_exact_f64 : forall at2 s pick (line : list (V3 (F64 at2))) k,
  pops_smallest (S := F64 at2) (fun x => x <> S754_nan) pick -> (3 <= length line)%nat -> Forall (grid64_to3 (2 ^ 11) s) line ->
  exists out z, simplify_vw_3d pick line k = Val out /\ hd_error (rev line) = Some z /\
    vw_steps triangle_area3 (Nat.min k (length line - 2)) (map value64_3 line) (map value64_3 (out ++ [z])).
Proof.
  intros at2 s pick line k Hp H3 HL. destruct (all64_3 _ _ _ line (three_ne _ H3) HL) as [Hs HG].
  exact (vw3_grid 53 1024 (-52) at2 P53 M53 s (2 ^ 11) (vw3_ok64 s Hs) pick line k Hp H3 HG).
Qed.
Print Assumptions C109_vw3_exact_f64.
Theorem C109_vw3_exact_f32 : forall at2 s pick (line : list (V3 (F32 at2))) k,
  pops_smallest (S := F32 at2) (fun x => x <> S754_nan) pick -> (3 <= length line)%nat -> Forall (grid32_to3 (2 ^ 4) s) line ->
  exists out z, simplify_vw_3d pick line k = Val out /\ hd_error (rev line) = Some z /\
    vw_steps triangle_area3 (Nat.min k (length line - 2)) (map value32_3 line) (map value32_3 (out ++ [z])).
Proof.
  intros at2 s pick line k Hp H3 HL. destruct (all32_3 _ _ _ line (three_ne _ H3) HL) as [Hs HG].
  exact (vw3_grid 24 128 (-23) at2 P24 M24 s (2 ^ 4) (vw3_ok32 s Hs) pick line k Hp H3 HG).
Qed.
Print Assumptions C109_vw3_exact_f32.
Lemma I64_to at2 x y : (Z.abs x <= 2 ^ 24)%Z -> (Z.abs y <= 2 ^ 24)%Z -> grid64_to (2 ^ 24) 0 (@I64 at2 x y).
Proof. intros Hx Hy. split; [lia|]. assert (S0 : scale_ok 53 1024 0) by (split; cbn; lia). split; apply (ong_of_Z 53 1024 P53 M53); auto; lia. Qed.
Example C109_hypotheses_met at2 : pops_smallest (S := F64 at2) (fun x => x <> S754_nan) pick_min /\
  Forall (grid64_to (2 ^ 24) 0) [@I64 at2 0 0; I64 16777216 1; I64 16777215 16777216; I64 3 16777216; I64 (-16777216) 7].
Proof. split; [apply pick_min_ok, OrdOn_float|]. repeat (apply Forall_cons; [apply I64_to; lia|]). apply Forall_nil. Qed.
(* the grid limit is sharp up to a small factor: with coordinates near 2^27 the computed areas of two triangles, one
   strictly smaller, coincide *)
Example C109_limit : sf_eqb (area2 (S := F64_) (P 0 0) (P 134217728 0) (P 0 134217728)) (area2 (S := F64_) (P 0 0) (P 134217728 1) (P 1 134217728)) = true.
Proof. vm_compute. reflexivity. Qed.

(* ---- C110: float Ramer-Douglas-Peucker keeps the tolerance up to a machine epsilon ---- *)
(* tolerance between 2^-511 and 2^511, or zero (f64); between 2^-63 and 2^63, or zero (f32) *)
Definition tolerance64 (d : spec_float) : Prop := finite_float 53 1024 d /\ (fvalue d = 0 \/ bpow radix2 (-511) <= fvalue d <= bpow radix2 511).
Definition tolerance32 (d : spec_float) : Prop := finite_float 24 128 d /\ (fvalue d = 0 \/ bpow radix2 (-63) <= fvalue d <= bpow radix2 63).
Lemma tol64 d : tolerance64 d -> tolerance_ok 53 1024 d.
Proof.
  intros [G H]. split; auto. destruct H as [->|[H1 H2]].
  - split; [lra|]. split; [auto|]. rewrite Rmult_0_l. apply bpow_ge_0.
  - assert (P := bpow_gt_0 radix2 (-511)). split; [lra|]. split; [right; unfold normal; rewrite Rabs_pos_eq by apply Rle_0_sqr|].
    + change (SpecFloat.emin 53 1024 + 53 - 1)%Z with (-511 + -511)%Z. rewrite bpow_plus. apply Rmult_le_compat; lra.
    + apply Rle_trans with (bpow radix2 (511 + 511)); [rewrite bpow_plus; apply Rmult_le_compat; lra|apply bpow_le; lia].
Qed.
Lemma tol32 d : tolerance32 d -> tolerance_ok 24 128 d.
Proof.
  intros [G H]. split; auto. destruct H as [->|[H1 H2]].
  - split; [lra|]. split; [auto|]. rewrite Rmult_0_l. apply bpow_ge_0.
  - assert (P := bpow_gt_0 radix2 (-63)). split; [lra|]. split; [right; unfold normal; rewrite Rabs_pos_eq by apply Rle_0_sqr|].
    + change (SpecFloat.emin 24 128 + 24 - 1)%Z with (-63 + -63)%Z. rewrite bpow_plus. apply Rmult_le_compat; lra.
    + apply Rle_trans with (bpow radix2 (63 + 63)); [rewrite bpow_plus; apply Rmult_le_compat; lra|apply bpow_le; lia].
Qed.
Lemma two_u prec : 2 * ulp1 prec = bpow radix2 (1 - prec).
Proof. unfold ulp1. change 2 with (bpow radix2 1). rewrite <- bpow_plus. f_equal. Qed.
Lemma four_u prec : 4 * ulp1 prec = bpow radix2 (2 - prec).
Proof. unfold ulp1. change 4 with (bpow radix2 2). rewrite <- bpow_plus. f_equal. Qed.
Lemma u8 prec : (3 <= prec)%Z -> ulp1 prec <= / 8.
Proof. intros H. unfold ulp1. apply Rle_trans with (bpow radix2 (-3)); [apply bpow_le; lia|cbn; lra]. Qed.

(* every dropped point is within d (1 + epsilon) of the segment between the kept points around it; a point is dropped
   only then, so lines that bend by more everywhere are returned unchanged. epsilon = 2^-52 (f64), 2^-23 (f32). *)
Theorem C110_rdp_tolerance_f64 : forall at2 s (pts : list (V2 (F64 at2))) d, pts <> [] -> Forall (grid64_to (2 ^ 24) s) pts -> tolerance64 d ->
  let r := fvalue d * (1 + bpow radix2 (-52)) in
  (exists out, simplify_rdp_2d (S := F64 at2) pts d = Val out /\
     thinned (fun a b p => exists q, on_segment q (value64 a) (value64 b) /\ edist (value64 p) q <= r) pts out) /\
  ((forall pre a mid b post, pts = pre ++ a :: mid ++ b :: post -> mid <> [] ->
      exists p, In p mid /\ forall q, on_segment q (value64 a) (value64 b) -> r < edist (value64 p) q) ->
   simplify_rdp_2d (S := F64 at2) pts d = Val pts).
Proof.
  intros at2 s pts d Hne HL Hd r. destruct (all64 _ _ _ pts Hne HL) as [Hs HG].
  assert (OK := rdp_ok64 s Hs). apply tol64 in Hd. pose proof (two_u 53) as U. change (1 - 53)%Z with (-52)%Z in U. unfold r. rewrite <- U. split.
  - destruct (simplify_rdp_ok (S := F64 at2) dist_line2_safe pts d) as (out & E & _). exists out. split; [exact E|].
    exact (rdp2_near 53 1024 (-52) at2 P53 M53 s (2 ^ 24) OK pts d out HG Hd Hne E).
  - intros HK. apply (rdp2_kept 53 1024 (-52) at2 P53 M53 s (2 ^ 24) OK pts d HG Hd). intros pre a mid b post Ep Hm.
    destruct (HK pre a mid b post Ep Hm) as (p & Hp & Hq). exists p. split; auto. intros (q & Hs' & Hle). specialize (Hq q Hs'). unfold value64 in Hq. lra.
Qed.
Print Assumptions C110_rdp_tolerance_f64.
Theorem C110_rdp_tolerance_f32 : forall at2 s (pts : list (V2 (F32 at2))) d, pts <> [] -> Forall (grid32_to (2 ^ 10) s) pts -> tolerance32 d ->
  let r := fvalue d * (1 + bpow radix2 (-23)) in
  (exists out, simplify_rdp_2d (S := F32 at2) pts d = Val out /\
     thinned (fun a b p => exists q, on_segment q (value32 a) (value32 b) /\ edist (value32 p) q <= r) pts out) /\
  ((forall pre a mid b post, pts = pre ++ a :: mid ++ b :: post -> mid <> [] ->
      exists p, In p mid /\ forall q, on_segment q (value32 a) (value32 b) -> r < edist (value32 p) q) ->
   simplify_rdp_2d (S := F32 at2) pts d = Val pts).
Proof.
  intros at2 s pts d Hne HL Hd r. destruct (all32 _ _ _ pts Hne HL) as [Hs HG].
  assert (OK := rdp_ok32 s Hs). apply tol32 in Hd. pose proof (two_u 24) as U. change (1 - 24)%Z with (-23)%Z in U. unfold r. rewrite <- U. split.
  - destruct (simplify_rdp_ok (S := F32 at2) dist_line2_safe pts d) as (out & E & _). exists out. split; [exact E|].
    exact (rdp2_near 24 128 (-23) at2 P24 M24 s (2 ^ 10) OK pts d out HG Hd Hne E).
  - intros HK. apply (rdp2_kept 24 128 (-23) at2 P24 M24 s (2 ^ 10) OK pts d HG Hd). intros pre a mid b post Ep Hm.
    destruct (HK pre a mid b post Ep Hm) as (p & Hp & Hq). exists p. split; auto. intros (q & Hs' & Hle). specialize (Hq q Hs'). unfold value32 in Hq. lra.
Qed.
Print Assumptions C110_rdp_tolerance_f32.
(* 3D: distance to the line (C13), epsilon = 2^-51 and 2^-22 *)
Theorem C110_rdp3_tolerance_f64 : forall at2 s (pts : list (V3 (F64 at2))) d, pts <> [] -> Forall (grid64_to3 (2 ^ 24) s) pts -> tolerance64 d ->
  exists out, simplify_rdp_3d (S := F64 at2) pts d = Val out /\
     thinned (fun a b p => exists t, edist3 (value64_3 p) (lerp3 (value64_3 a) (value64_3 b) t) <= fvalue d * (1 + bpow radix2 (-51))) pts out.
Proof.
  intros at2 s pts d Hne HL Hd. destruct (all64_3 _ _ _ pts Hne HL) as [Hs HG].
  assert (OK := rdp_ok64 s Hs). apply tol64 in Hd. pose proof (four_u 53) as U. change (2 - 53)%Z with (-51)%Z in U. rewrite <- U.
  destruct (simplify_rdp_ok (S := F64 at2) dist_line3_safe pts d) as (out & E & _). exists out. split; [exact E|].
  exact (rdp3_near 53 1024 (-52) at2 P53 M53 s (2 ^ 24) OK pts d out (u8 53 ltac:(lia)) HG Hd Hne E).
Qed.
Print Assumptions C110_rdp3_tolerance_f64.
Theorem C110_rdp3_tolerance_f32 : forall at2 s (pts : list (V3 (F32 at2))) d, pts <> [] -> Forall (grid32_to3 (2 ^ 10) s) pts -> tolerance32 d ->
  exists out, simplify_rdp_3d (S := F32 at2) pts d = Val out /\
     thinned (fun a b p => exists t, edist3 (value32_3 p) (lerp3 (value32_3 a) (value32_3 b) t) <= fvalue d * (1 + bpow radix2 (-22))) pts out.
Proof.
  intros at2 s pts d Hne HL Hd. destruct (all32_3 _ _ _ pts Hne HL) as [Hs HG].
  assert (OK := rdp_ok32 s Hs). apply tol32 in Hd. pose proof (four_u 24) as U. change (2 - 24)%Z with (-22)%Z in U. rewrite <- U.
  destruct (simplify_rdp_ok (S := F32 at2) dist_line3_safe pts d) as (out & E & _). exists out. split; [exact E|].
  exact (rdp3_near 24 128 (-23) at2 P24 M24 s (2 ^ 10) OK pts d out (u8 24 ltac:(lia)) HG Hd Hne E).
Qed.
Print Assumptions C110_rdp3_tolerance_f32.
Example C110_hypotheses_met at2 : Forall (grid64_to (2 ^ 24) 0) [@I64 at2 0 0; I64 16777216 1; I64 16777215 16777216] /\ tolerance64 (f64 3).
Proof.
  split; [repeat (apply Forall_cons; [apply I64_to; lia|]); apply Forall_nil|].
  destruct (fl_of_Z_good 53 1024 P53 M53 3) as [G E]; [lia|split; cbn; lia|]. split; [exact G|right].
  change (fvalue (f64 3)) with (fvalue (fl_of_Z 53 1024 3)). rewrite E. split; [apply Rle_trans with (bpow radix2 0); [apply bpow_le; lia|cbn; lra]|apply Rle_trans with (bpow radix2 2); [cbn; lra|apply bpow_le; lia]].
Qed.
(* the factor is needed: here (1, 1) is dropped between (0, 0) and (1, 4) although every point of that segment is farther than d *)
Definition d110 : spec_float := S754_finite false 6553700103226197 (-53).
Theorem C110_factor_needed : simplify_rdp_2d (S := F64_) [P 0 0; P 1 1; P 1 4] d110 = Val [P 0 0; P 1 4] /\ tolerance64 d110 /\
  forall q, on_segment q (at_ 0 0) (at_ 1 4) -> fvalue d110 < edist (at_ 1 1) q.
Proof.
  assert (E : fvalue d110 = 6553700103226197 / 9007199254740992) by (unfold fvalue, d110, SF2R, Defs.F2R; cbn; field).
  split; [fcomp2|]. split; [split; [split; reflexivity|]|].
  - right. rewrite E. split; [apply Rle_trans with (bpow radix2 (-2)); [apply bpow_le; lia|cbn; lra]|apply Rle_trans with (bpow radix2 0); [cbn; lra|apply bpow_le; lia]].
  - intros q (t & _ & ->). rewrite E. unfold edist. rewrite <- (sqrt_square (6553700103226197 / 9007199254740992)) by lra.
    apply sqrt_lt_1.
    { apply Rmult_le_pos; lra. }
    { unfold sqdist. apply Rplus_le_le_0_compat; apply Rle_0_sqr. }
    apply Rlt_le_trans with (9 / 17); [lra|].
    replace (sqdist (at_ 1 1) (lerp (at_ 0 0) (at_ 1 4) t)) with (9 / 17 + (17 * t - 5) * (17 * t - 5) / 17) by (unfold sqdist, lerp; cbn [vx vy]; field).
    pose proof (Rle_0_sqr (17 * t - 5)) as K. unfold Rsqr in K. lra.
Qed.
Print Assumptions C110_factor_needed.
