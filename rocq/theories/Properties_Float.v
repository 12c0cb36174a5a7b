(* f64 and f32 results on coordinates that are small multiples of a power of two (C104-C108). Models: Flt.v, Hull.v.
   Vocabulary (FloatSpec.v): [grid64 s p]: the coordinates of p are k * 2^s with integers |k| <= 2^25 and -25 <= s <= 485;
   [grid32 s p]: |k| <= 1448 and -11 <= s <= 51; [value64 p], [value32 p]: the exact point p stands for;
   [same_angle_order st p q]: the computed atan2 orders the directions from st to p and q like the exact one.
   at2 is the atan2 of the platform, any function. Hull vocabulary: HullSpec.v. *)
From Coq Require Import ZArith Reals Lra Lia Psatz Floats.SpecFloat Sorting.Permutation.
From Flocq Require Import Core BinarySingleNaN.
From Verif Require Import Prelude Scalar RInst Flt FloatSpec FloatLink FloatGrid FloatHull Geo2 GeoSpec DistR Hull HullSpec HullGeo HullMisc Properties_Hull.
Local Open Scope R_scope.

Lemma grid64_all at2 s (l : list (V2 (F64 at2))) : l <> [] -> Forall (grid64 s) l -> format_ok 53 1024 (-52) s (2 ^ 25) /\ Forall (@grid_point 53 1024 (-52) at2 s (2 ^ 25)) l.
Proof.
  intros Hn H. split; [|eapply Forall_impl; [|exact H]; intros p [_ K]; exact K]. destruct H as [|p l [Hs _] _]; [congruence|]. apply ok64; auto.
Qed.
Lemma grid32_all at2 s (l : list (V2 (F32 at2))) : l <> [] -> Forall (grid32 s) l -> format_ok 24 128 (-23) s 1448 /\ Forall (@grid_point 24 128 (-23) at2 s 1448) l.
Proof.
  intros Hn H. split; [|eapply Forall_impl; [|exact H]; intros p [_ K]; exact K]. destruct H as [|p l [Hs _] _]; [congruence|]. apply ok32; auto.
Qed.
(* points with integer coordinates *)
Definition I64 {at2} (x y : Z) : V2 (F64 at2) := @mkV2 (F64 at2) (fl_of_Z 53 1024 x) (fl_of_Z 53 1024 y).
Definition I32 {at2} (x y : Z) : V2 (F32 at2) := @mkV2 (F32 at2) (fl_of_Z 24 128 x) (fl_of_Z 24 128 y).
Lemma I64_grid at2 x y : (Z.abs x <= 2 ^ 25)%Z -> (Z.abs y <= 2 ^ 25)%Z -> grid64 0 (@I64 at2 x y) /\ value64 (@I64 at2 x y) = at_ (IZR x) (IZR y).
Proof.
  intros Hx Hy. assert (P : Prec_gt_0 53) by reflexivity. assert (M : Prec_lt_emax 53 1024) by reflexivity. assert (S0 : scale_ok 53 1024 0) by (split; cbn; lia). split.
  - split; [lia|]. split; apply (ong_of_Z 53 1024 P M); auto; lia.
  - unfold value64, point_value, I64. cbn [vx vy]. f_equal; apply (fl_of_Z_good 53 1024 P M); auto; lia.
Qed.
Lemma I32_grid at2 x y : (Z.abs x <= 1448)%Z -> (Z.abs y <= 1448)%Z -> grid32 0 (@I32 at2 x y) /\ value32 (@I32 at2 x y) = at_ (IZR x) (IZR y).
Proof.
  intros Hx Hy. assert (P : Prec_gt_0 24) by reflexivity. assert (M : Prec_lt_emax 24 128) by reflexivity. assert (S0 : scale_ok 24 128 0) by (split; cbn; lia). split.
  - split; [lia|]. split; apply (ong_of_Z 24 128 P M); auto; lia.
  - unfold value32, point_value, I32. cbn [vx vy]. f_equal; apply (fl_of_Z_good 24 128 P M); auto; lia.
Qed.

(* ---- C104: orientation ---- *)
Definition orientation_exact {S : Scalar} (val : V2 S -> pt) (a b c : V2 S) : Prop :=
  let o := orient (val a) (val b) (val c) in
  (point_orientation a b c = OLeft <-> 0 < o) /\ (point_orientation a b c = ORight <-> o < 0) /\ (point_orientation a b c = OCollinear <-> o = 0) /\
  (is_point_left a b c = true <-> 0 < o) /\ (is_point_left_allow_collinear a b c = true <-> 0 <= o).
Theorem C104_orientation_exact_f64 : forall at2 s (a b c : V2 (F64 at2)), grid64 s a -> grid64 s b -> grid64 s c -> orientation_exact value64 a b c.
Proof.
  intros at2 s a b c [Hs Ha] [_ Hb] [_ Hc]. destruct (gen_orientation 53 1024 (-52) s (2 ^ 25) (ok64 s Hs) at2 a b c Ha Hb Hc) as (E1 & E2 & E3).
  unfold orientation_exact. cbv zeta. destruct (C61_orientation (value64 a) (value64 b) (value64 c)) as (H1 & H2 & H3 & H4 & H5 & _).
  unfold value64 in *. rewrite <- E1 in H1, H2, H3. rewrite <- E2 in H4. rewrite <- E3 in H5. tauto.
Qed.
Print Assumptions C104_orientation_exact_f64.
Theorem C104_orientation_exact_f32 : forall at2 s (a b c : V2 (F32 at2)), grid32 s a -> grid32 s b -> grid32 s c -> orientation_exact value32 a b c.
Proof.
  intros at2 s a b c [Hs Ha] [_ Hb] [_ Hc]. destruct (gen_orientation 24 128 (-23) s 1448 (ok32 s Hs) at2 a b c Ha Hb Hc) as (E1 & E2 & E3).
  unfold orientation_exact. cbv zeta. destruct (C61_orientation (value32 a) (value32 b) (value32 c)) as (H1 & H2 & H3 & H4 & H5 & _).
  unfold value32 in *. rewrite <- E1 in H1, H2, H3. rewrite <- E2 in H4. rewrite <- E3 in H5. tauto.
Qed.
Print Assumptions C104_orientation_exact_f32.
(* points almost on a line, with the largest coordinates: the f64 answer is "left", as it should be *)
Example C104_almost_collinear at2 : point_orientation (@I64 at2 (-33554432) (-33554432)) (I64 33554432 33554431) (I64 (-1) 0) = OLeft.
Proof.
  assert (G : forall x y, (Z.abs x <= 2 ^ 25)%Z -> (Z.abs y <= 2 ^ 25)%Z -> grid64 0 (@I64 at2 x y)) by (intros; apply I64_grid; auto).
  apply (C104_orientation_exact_f64 at2 0); try (apply G; lia).
  assert (V : forall x y, (Z.abs x <= 2 ^ 25)%Z -> (Z.abs y <= 2 ^ 25)%Z -> value64 (@I64 at2 x y) = at_ (IZR x) (IZR y)) by (intros; apply I64_grid; auto).
  rewrite !V by lia. unfold orient. cbn [vx vy]. lra.
Qed.

(* ---- C105: gift wrapping ---- *)
Theorem C105_gift_wrap_exact_f64 : forall at2 s fuel (pts : list (V2 (F64 at2))) opn, Forall (grid64 s) pts ->
  ring_of (map value64 pts) opn -> NoDup opn -> (4 <= length opn)%nat -> (length pts <= fuel)%nat ->
  exists vs, gift_wrap fuel pts = Val vs /\ incl vs pts /\ hull_result (map value64 pts) (map value64 vs).
Proof.
  intros at2 s fuel pts opn Hg Hr Hn Hl Hf. assert (Hne : pts <> []) by (intros ->; destruct Hr as [<-|(a & m & -> & E)]; [cbn in Hl; lia|discriminate]).
  destruct (grid64_all at2 s pts Hne Hg) as [OK G]. exact (gen_gift _ _ _ _ _ OK at2 fuel pts opn G Hr Hn Hl Hf).
Qed.
Print Assumptions C105_gift_wrap_exact_f64.
Theorem C105_gift_wrap_exact_f32 : forall at2 s fuel (pts : list (V2 (F32 at2))) opn, Forall (grid32 s) pts ->
  ring_of (map value32 pts) opn -> NoDup opn -> (4 <= length opn)%nat -> (length pts <= fuel)%nat ->
  exists vs, gift_wrap fuel pts = Val vs /\ incl vs pts /\ hull_result (map value32 pts) (map value32 vs).
Proof.
  intros at2 s fuel pts opn Hg Hr Hn Hl Hf. assert (Hne : pts <> []) by (intros ->; destruct Hr as [<-|(a & m & -> & E)]; [cbn in Hl; lia|discriminate]).
  destruct (grid32_all at2 s pts Hne Hg) as [OK G]. exact (gen_gift _ _ _ _ _ OK at2 fuel pts opn G Hr Hn Hl Hf).
Qed.
Print Assumptions C105_gift_wrap_exact_f32.
Theorem C105_indexed_gift_wrap_exact_f64 : forall at2 s fuel (vertices : list (V2 (F64 at2))) indices opn pts, Forall (grid64 s) vertices ->
  ring_of indices opn -> picks (map value64 vertices) opn pts -> NoDup pts -> (4 <= length pts)%nat -> (length pts <= fuel)%nat ->
  exists out vs, indexed_gift_wrap fuel vertices indices = Val out /\ picks (map value64 vertices) out vs /\ hull_result pts vs.
Proof.
  intros at2 s fuel vertices indices opn pts Hg Hr Hp Hn Hl Hf. assert (Hne : vertices <> []).
  { intros ->. destruct Hp as [|i q ? ? E _]; [cbn in Hl; lia|]. destruct i; discriminate. }
  destruct (grid64_all at2 s vertices Hne Hg) as [OK G]. exact (gen_indexed_gift _ _ _ _ _ OK at2 fuel vertices indices opn pts G Hr Hp Hn Hl Hf).
Qed.
Print Assumptions C105_indexed_gift_wrap_exact_f64.
Theorem C105_indexed_gift_wrap_exact_f32 : forall at2 s fuel (vertices : list (V2 (F32 at2))) indices opn pts, Forall (grid32 s) vertices ->
  ring_of indices opn -> picks (map value32 vertices) opn pts -> NoDup pts -> (4 <= length pts)%nat -> (length pts <= fuel)%nat ->
  exists out vs, indexed_gift_wrap fuel vertices indices = Val out /\ picks (map value32 vertices) out vs /\ hull_result pts vs.
Proof.
  intros at2 s fuel vertices indices opn pts Hg Hr Hp Hn Hl Hf. assert (Hne : vertices <> []).
  { intros ->. destruct Hp as [|i q ? ? E _]; [cbn in Hl; lia|]. destruct i; discriminate. }
  destruct (grid32_all at2 s vertices Hne Hg) as [OK G]. exact (gen_indexed_gift _ _ _ _ _ OK at2 fuel vertices indices opn pts G Hr Hp Hn Hl Hf).
Qed.
Print Assumptions C105_indexed_gift_wrap_exact_f32.
Definition far64 {at2} : list (V2 (F64 at2)) := [I64 0 0; I64 33554432 0; I64 16777216 1; I64 33554432 3; I64 (-5) 33554431].
Example C105_input at2 : Forall (grid64 0) (@far64 at2) /\
  map value64 (@far64 at2) = [at_ 0 0; at_ 33554432 0; at_ 16777216 1; at_ 33554432 3; at_ (-5) 33554431] /\
  NoDup [at_ 0 0; at_ 33554432 0; at_ 16777216 1; at_ 33554432 3; at_ (-5) 33554431].
Proof.
  split; [unfold far64; repeat (apply Forall_cons; [apply I64_grid; lia|]); apply Forall_nil|].
  assert (V : forall x y, (Z.abs x <= 2 ^ 25)%Z -> (Z.abs y <= 2 ^ 25)%Z -> value64 (@I64 at2 x y) = at_ (IZR x) (IZR y)) by (intros; apply I64_grid; auto).
  split; [unfold far64; cbn [map]; rewrite !V by lia; reflexivity|]. nodup.
Qed.

(* ---- C106: the scan without atan2 ---- *)
Theorem C106_scan_exact_f64 : forall at2 s (pts : list (V2 (F64 at2))) opn r, Forall (grid64 s) pts ->
  ring_of (map value64 pts) opn -> NoDup opn -> (4 <= length opn)%nat -> graham_scan_wo_atan2 pts r ->
  exists vs, r = Val vs /\ incl vs pts /\ hull_result (map value64 pts) (map value64 vs).
Proof.
  intros at2 s pts opn r Hg Hr Hn Hl. assert (Hne : pts <> []) by (intros ->; destruct Hr as [<-|(a & m & -> & E)]; [cbn in Hl; lia|discriminate]).
  destruct (grid64_all at2 s pts Hne Hg) as [OK G]. exact (gen_wo _ _ _ _ _ OK at2 pts opn r G Hr Hn Hl).
Qed.
Print Assumptions C106_scan_exact_f64.
Theorem C106_scan_exact_f32 : forall at2 s (pts : list (V2 (F32 at2))) opn r, Forall (grid32 s) pts ->
  ring_of (map value32 pts) opn -> NoDup opn -> (4 <= length opn)%nat -> graham_scan_wo_atan2 pts r ->
  exists vs, r = Val vs /\ incl vs pts /\ hull_result (map value32 pts) (map value32 vs).
Proof.
  intros at2 s pts opn r Hg Hr Hn Hl. assert (Hne : pts <> []) by (intros ->; destruct Hr as [<-|(a & m & -> & E)]; [cbn in Hl; lia|discriminate]).
  destruct (grid32_all at2 s pts Hne Hg) as [OK G]. exact (gen_wo _ _ _ _ _ OK at2 pts opn r G Hr Hn Hl).
Qed.
Print Assumptions C106_scan_exact_f32.

(* ---- C107: the scan with atan2 ---- *)
Theorem C107_graham_scan_exact_f64 : forall at2 s (pts : list (V2 (F64 at2))) r, Forall (grid64 s) pts -> enough (map value64 pts) ->
  (forall st p q, In st pts -> In p pts -> In q pts -> (forall o, In o pts -> lex_le (value64 st) (value64 o)) -> @same_angle_order 53 1024 (-52) at2 st p q) ->
  graham_scan pts r -> exists vs, r = Val vs /\ incl vs pts /\ hull_result (map value64 pts) (map value64 vs).
Proof.
  intros at2 s pts r Hg He Ha. assert (Hne : pts <> []) by (intros ->; destruct He as (a & m & b & E & _); discriminate).
  destruct (grid64_all at2 s pts Hne Hg) as [OK G]. exact (gen_graham _ _ _ _ _ OK at2 pts r G He Ha).
Qed.
Print Assumptions C107_graham_scan_exact_f64.
Theorem C107_graham_scan_exact_f32 : forall at2 s (pts : list (V2 (F32 at2))) r, Forall (grid32 s) pts -> enough (map value32 pts) ->
  (forall st p q, In st pts -> In p pts -> In q pts -> (forall o, In o pts -> lex_le (value32 st) (value32 o)) -> @same_angle_order 24 128 (-23) at2 st p q) ->
  graham_scan pts r -> exists vs, r = Val vs /\ incl vs pts /\ hull_result (map value32 pts) (map value32 vs).
Proof.
  intros at2 s pts r Hg He Ha. assert (Hne : pts <> []) by (intros ->; destruct He as (a & m & b & E & _); discriminate).
  destruct (grid32_all at2 s pts Hne Hg) as [OK G]. exact (gen_graham _ _ _ _ _ OK at2 pts r G He Ha).
Qed.
Print Assumptions C107_graham_scan_exact_f32.

(* the hypothesis on atan2 is met here by a function that returns the slope *)
Definition slope (y x : spec_float) : spec_float :=
  if SFeqb x (S754_zero false) then (if SFeqb y (S754_zero false) then S754_zero false else fl_of_Z 53 1024 9) else SFdiv 53 1024 y x.
Example C107_input : let pts := [I64 0 0; I64 2 0; I64 1 1; I64 2 2; I64 0 2] : list (V2 (F64 slope)) in
  Forall (grid64 0) pts /\ enough (map value64 pts) /\
  (forall st p q, In st pts -> In p pts -> In q pts -> (forall o, In o pts -> lex_le (value64 st) (value64 o)) -> @same_angle_order 53 1024 (-52) slope st p q).
Proof.
  assert (V : forall x y, (Z.abs x <= 2 ^ 25)%Z -> (Z.abs y <= 2 ^ 25)%Z -> value64 (@I64 slope x y) = at_ (IZR x) (IZR y)) by (intros; apply I64_grid; auto).
  cbv zeta. split; [repeat (apply Forall_cons; [apply I64_grid; lia|]); apply Forall_nil|]. split.
  { cbn [map]. rewrite !V by lia. exists (at_ 0 0), [at_ 2 0; at_ 1 1; at_ 2 2], (at_ 0 2). split; auto. left. split; [ptne|cbn; lia]. }
  intros st p q Is Ip Iq Hm. assert (Est : st = I64 0 0).
  { assert (K := Hm (I64 0 0) (or_introl eq_refl)). cbn [In] in Is. repeat (destruct Is as [<-|Is]; [auto; exfalso; rewrite !V in K by lia; unfold lex_le in K; cbn [vx vy] in K; lra|]). destruct Is. }
  subst st. clear Is Hm.
  pose (ex := fun v : V2 (F64 slope) => Ratan2 (fvalue (vy v) - fvalue (vy (@I64 slope 0 0))) (fvalue (vx v) - fvalue (vx (@I64 slope 0 0)))).
  pose (an := fun v : V2 (F64 slope) => slope (SFsub 53 1024 (vy v) (vy (@I64 slope 0 0))) (SFsub 53 1024 (vx v) (vx (@I64 slope 0 0)))).
  assert (Vx : forall x y, (Z.abs x <= 2 ^ 25)%Z -> (Z.abs y <= 2 ^ 25)%Z -> ex (I64 x y) = Ratan2 (IZR y) (IZR x)).
  { intros x y Hx Hy. change (Ratan2 (vy (value64 (@I64 slope x y)) - vy (value64 (@I64 slope 0 0))) (vx (value64 (@I64 slope x y)) - vx (value64 (@I64 slope 0 0))) = Ratan2 (IZR y) (IZR x)).
    rewrite !V by lia. cbn [vx vy]. f_equal; lra. }
  (* the five angles and the five computed values *)
  assert (Q : forall v, In v [I64 0 0; I64 2 0; I64 1 1; I64 2 2; I64 0 2] -> (ex v = 0 /\ sf_eqb (an v) (S754_zero false) = true) \/
     (ex v = PI / 4 /\ sf_eqb (an v) (fl_of_Z 53 1024 1) = true) \/ (ex v = PI / 2 /\ sf_eqb (an v) (fl_of_Z 53 1024 9) = true)).
  { assert (A1 : Ratan2 1 1 = PI / 4) by (unfold Ratan2; destruct (Rlt_dec 0 1); [|lra]; replace (1 / 1) with 1 by lra; apply atan_1).
    assert (A2 : Ratan2 2 2 = PI / 4) by (unfold Ratan2; destruct (Rlt_dec 0 2); [|lra]; replace (2 / 2) with 1 by lra; apply atan_1).
    assert (A3 : Ratan2 0 2 = 0) by (unfold Ratan2; destruct (Rlt_dec 0 2); [|lra]; replace (0 / 2) with 0 by lra; apply atan_0).
    assert (A4 : Ratan2 2 0 = PI / 2) by (unfold Ratan2; repeat (destruct (Rlt_dec _ _); try lra); auto).
    assert (A5 : Ratan2 0 0 = 0) by (unfold Ratan2; repeat (destruct (Rlt_dec _ _); try lra); auto).
    intros v Hv. cbn [In] in Hv. destruct Hv as [<-|[<-|[<-|[<-|[<-|[]]]]]]; rewrite Vx by lia; [left|left|right; left|right; left|right; right]; (split; [auto|vm_compute; reflexivity]). }
  assert (P0 := PI_RGT_0). change ((SFltb (an p) (an q) = true <-> ex p < ex q) /\ (SFeqb (an p) (an q) = true <-> ex p = ex q)).
  destruct (Q p Ip) as [[E1 F1]|[[E1 F1]|[E1 F1]]], (Q q Iq) as [[E2 F2]|[[E2 F2]|[E2 F2]]]; apply sf_eqb_eq in F1, F2; rewrite E1, E2, F1, F2;
    (split; split; intros K; try lra; try (vm_compute; reflexivity); try (vm_compute in K; discriminate K)).
Qed.

(* ---- C108: containment ---- *)
Theorem C108_containment_exact_f64 : forall at2 s (vs : list pt) (l m : list (V2 (F64 at2))) p, Forall (grid64 s) l -> Forall (grid64 s) m -> grid64 s p ->
  convex_polygon vs -> ring_of (map value64 l) vs ->
  (exists r, contains_point_inclusive l p = Val r /\ (r = true <-> inside vs (value64 p))) /\
  (exists r, contains_point_exclusive l p = Val r /\ (r = true -> strictly_inside vs (value64 p))) /\
  (exists r, contains_convex_hull l m = Val r /\ (r = true <-> forall q, In q m -> inside vs (value64 q))).
Proof.
  intros at2 s vs l m p Hl Hm [Hs Hp] Hc Hr.
  assert (K : forall x, Forall (grid64 s) x -> Forall (@grid_point 53 1024 (-52) at2 s (2 ^ 25)) x) by (intros x Hx; eapply Forall_impl; [|exact Hx]; intros y [_ Y]; exact Y).
  destruct (gen_contains _ _ _ _ _ (ok64 s Hs) at2 l m p (K l Hl) (K m Hm) Hp) as (E1 & E2 & E3). unfold F64 in *. rewrite E1, E2, E3.
  split; [apply C56_contains_inclusive; auto|]. split; [apply C57_contains_exclusive_sound; auto|].
  destruct (C60_hull_in_hull vs (map value64 l) (map value64 m) (map value64 m) Hc Hr (Permutation_refl _)) as (r & R1 & _ & R2). exists r. split; [exact R1|]. rewrite R2. split.
  - intros H q Hq. apply H. apply in_map. auto.
  - intros H q Hq. apply in_map_iff in Hq as (y & <- & Hy). auto.
Qed.
Print Assumptions C108_containment_exact_f64.
Theorem C108_containment_exact_f32 : forall at2 s (vs : list pt) (l m : list (V2 (F32 at2))) p, Forall (grid32 s) l -> Forall (grid32 s) m -> grid32 s p ->
  convex_polygon vs -> ring_of (map value32 l) vs ->
  (exists r, contains_point_inclusive l p = Val r /\ (r = true <-> inside vs (value32 p))) /\
  (exists r, contains_point_exclusive l p = Val r /\ (r = true -> strictly_inside vs (value32 p))) /\
  (exists r, contains_convex_hull l m = Val r /\ (r = true <-> forall q, In q m -> inside vs (value32 q))).
Proof.
  intros at2 s vs l m p Hl Hm [Hs Hp] Hc Hr.
  assert (K : forall x, Forall (grid32 s) x -> Forall (@grid_point 24 128 (-23) at2 s 1448) x) by (intros x Hx; eapply Forall_impl; [|exact Hx]; intros y [_ Y]; exact Y).
  destruct (gen_contains _ _ _ _ _ (ok32 s Hs) at2 l m p (K l Hl) (K m Hm) Hp) as (E1 & E2 & E3). unfold F32 in *. rewrite E1, E2, E3.
  split; [apply C56_contains_inclusive; auto|]. split; [apply C57_contains_exclusive_sound; auto|].
  destruct (C60_hull_in_hull vs (map value32 l) (map value32 m) (map value32 m) Hc Hr (Permutation_refl _)) as (r & R1 & _ & R2). exists r. split; [exact R1|]. rewrite R2. split.
  - intros H q Hq. apply H. apply in_map. auto.
  - intros H q Hq. apply in_map_iff in Hq as (y & <- & Hy). auto.
Qed.
Print Assumptions C108_containment_exact_f32.
Example C108_input at2 : let l := [I64 0 0; I64 33554432 0; I64 33554432 33554432; I64 0 33554432; I64 0 0] : list (V2 (F64 at2)) in
  Forall (grid64 0) l /\ exists vs, convex_polygon vs /\ ring_of (map value64 l) vs /\ inside vs (value64 (@I64 at2 33554432 1)) /\ ~ inside vs (value64 (@I64 at2 (-1) 1)).
Proof.
  assert (V : forall x y, (Z.abs x <= 2 ^ 25)%Z -> (Z.abs y <= 2 ^ 25)%Z -> value64 (@I64 at2 x y) = at_ (IZR x) (IZR y)) by (intros; apply I64_grid; auto).
  cbv zeta. split; [repeat (apply Forall_cons; [apply I64_grid; lia|]); apply Forall_nil|]. cbn [map]. rewrite !V by lia.
  exists [at_ 0 0; at_ 33554432 0; at_ 33554432 33554432; at_ 0 33554432]. split; [apply rectangle_convex; lra|]. split; [right; eexists _, _; split; reflexivity|].
  rewrite !rectangle_inside by lra. cbn [vx vy]. lra.
Qed.
