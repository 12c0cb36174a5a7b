(* f64 and f32 Visvalingam-Whyatt on coordinates that are small multiples of a power of two: the line moved, scaled, sheared or mirrored,
   and given backwards (C163). Models: Flt.v, Geo2.v, Simplify.v. Vocabulary: FloatSpec.v (grids, value64, triangle_area), VwSpec.v
   (vw_steps, pops_smallest), VwRev.v (no_tied_smallest), HullAff.v (affine_map p q e s t g (x, y) = (p x + q y + e, s x + t y + g)). *)
From Coq Require Import ZArith Reals Lra Lia Psatz Floats.SpecFloat.
From Flocq Require Import Core BinarySingleNaN.
From Verif Require Import Prelude Scalar RInst Flt FloatSpec FloatLink FloatGrid FloatRound FloatVw Geo2 Geo3 GeoSpec DistR Simplify FltOrd VwSpec VwProofs VwProofs2 VwRev HullAff Properties_Hull Properties_Float Properties_Float2 Properties_Vw3.
Local Open Scope R_scope.

Section Unmap.
  Context {S : Scalar} {T : Type} (area : T -> T -> T -> car S) (f : T -> T).
  Context (Ho : forall a b c a' b' c', sltb (area a' b' c') (area a b c) = false <-> sltb (area (f a') (f b') (f c')) (area (f a) (f b) (f c)) = false).
  Lemma vw_step_unmap p q : vw_step area (map f p) q -> exists q0, q = map f q0 /\ vw_step area p q0.
  Proof.
    intros (l1 & a & b & c & l2 & Ep & -> & Hm). apply map_eq_app in Ep as (m1 & m2 & -> & <- & E2).
    destruct m2 as [|x [|y [|z m2]]]; try discriminate. injection E2 as <- <- <- <-.
    exists (m1 ++ x :: z :: m2). split; [rewrite map_app; reflexivity|]. exists m1, x, y, z, m2. split; [reflexivity|]. split; [reflexivity|].
    intros l1' a' b' c' l2' E. apply Ho. apply (Hm (map f l1') _ _ _ (map f l2')). rewrite E, map_app. reflexivity.
  Qed.
  Lemma vw_steps_unmap k : forall p q, vw_steps area k (map f p) q -> exists q0, q = map f q0 /\ vw_steps area k p q0.
  Proof.
    induction k as [|k IH]; intros p q H; inversion H as [|? ? q' ? H1 H2]; subst; [exists p; split; [auto|constructor]|].
    apply vw_step_unmap in H1 as (q1 & -> & S1). apply IH in H2 as (q2 & -> & S2).
    exists q2. split; auto. econstructor; eauto.
  Qed.
End Unmap.
Lemma area_map p q e s t g : p * t - q * s <> 0 -> forall a b c a' b' c' : pt, let f := affine_map p q e s t g in
  sltb (s := RS) (triangle_area a' b' c') (triangle_area a b c) = false <-> sltb (s := RS) (triangle_area (f a') (f b') (f c')) (triangle_area (f a) (f b) (f c)) = false.
Proof.
  intros Hd a b c a' b' c' f. unfold f, triangle_area. rewrite !aff_orient, !Rabs_mult.
  assert (B := Rabs_pos_lt _ Hd). generalize dependent (Rabs (p * t - q * s)). intros D HD. generalize (Rabs (orient a' b' c')), (Rabs (orient a b c)). intros x y.
  cbn [sltb RS]. rewrite !Rltb_false. split; intros H; nra.
Qed.
Lemma area_sym (a b c : pt) : triangle_area c b a = triangle_area a b c.
Proof. unfold triangle_area. replace (orient c b a) with (- orient a b c) by (destruct a as [a1 a2], b as [b1 b2], c as [c1 c2]; unfold orient; cbn in *; ring). rewrite Rabs_Ropp. reflexivity. Qed.
Lemma conn_aff p q e s t g : p * t - q * s <> 0 -> forall l : list pt, is_connected (S := RS) (map (affine_map p q e s t g) l) = is_connected (S := RS) l.
Proof.
  intros Hd [|a l]; [reflexivity|]. unfold is_connected. cbn [map]. change (affine_map p q e s t g a :: map (affine_map p q e s t g) l) with (map (affine_map p q e s t g) (a :: l)).
  assert (L : last (map (affine_map p q e s t g) (a :: l)) (affine_map p q e s t g a) = affine_map p q e s t g (last (a :: l) a)).
  { assert (GL : forall (m : list pt) d, last (map (affine_map p q e s t g) m) (affine_map p q e s t g d) = affine_map p q e s t g (last m d)).
    { induction m as [|x m IH]; intros d; [reflexivity|]. destruct m as [|y m]; [reflexivity|]. specialize (IH d). cbn [map last] in *. exact IH. }
    apply GL. }
  rewrite L. generalize (last (a :: l) a). intros z. apply Bool.eq_iff_eq_true. rewrite !veqb_R. split; [apply aff_inj; auto|intros ->; auto].
Qed.
Lemma rdet {A} (l m : list A) x : l ++ [x] = m ++ [x] -> l = m.
Proof. apply app_inv_tail. Qed.

Section Vw.
  Context (prec emax epsexp : Z) (at2 : spec_float -> spec_float -> spec_float) (Hprec : Prec_gt_0 prec) (Hmax : Prec_lt_emax prec emax).
  Notation FS := (FloatS prec emax epsexp at2).
  Notation val := (@point_value prec emax epsexp at2).
  Notation onp s n := (@grid_point prec emax epsexp at2 s n).
  Lemma conn_val s n (l : list (V2 FS)) : Forall (onp s n) l -> is_connected (S := RS) (map val l) = is_connected (S := FS) l.
  Proof.
    destruct l as [|a l]; intros HL; [reflexivity|]. unfold is_connected. cbn [map]. change (val a :: map val l) with (map val (a :: l)).
    assert (GL : forall (m : list (V2 FS)) d, last (map val m) (val d) = val (last m d)).
    { induction m as [|x m IH]; intros d; [reflexivity|]. destruct m as [|y m]; [reflexivity|]. specialize (IH d). cbn [map last] in *. exact IH. }
    rewrite GL. assert (Ha := Forall_inv HL). assert (Hz : onp s n (last (a :: l) a)).
    { rewrite Forall_forall in HL. destruct (exists_last (l := a :: l) ltac:(discriminate)) as (m & z & E). apply HL. rewrite E, last_last. apply in_app_iff. right. left. reflexivity. }
    generalize dependent (last (a :: l) a). intros z [[Zx _] [Zy _]]. destruct Ha as [[Ax _] [Ay _]].
    unfold veqb. cbn [seqb FloatS RS point_value vx vy]. rewrite !(eqb_R prec emax) by auto. reflexivity.
  Qed.
  Lemma vw_aff s s' n : vw_ok prec emax s n -> vw_ok prec emax s' n -> forall pick pick' k p q e u t g (line line' : list (V2 FS)), p * t - q * u <> 0 ->
    pops_smallest (S := FS) (fun x => x <> S754_nan) pick -> pops_smallest (S := FS) (fun x => x <> S754_nan) pick' -> (3 <= length line)%nat ->
    Forall (onp s n) line -> Forall (onp s' n) line' -> map val line' = map (affine_map p q e u t g) (map val line) ->
    exists out out', simplify_vw_2d (S := FS) pick line k = Val out /\ simplify_vw_2d (S := FS) pick' line' k = Val out' /\
      (is_connected (S := FS) line = false -> no_tied_smallest (S := RS) triangle_area k (map val line) -> map val out' = map (affine_map p q e u t g) (map val out)) /\
      (forall c tl, is_connected (S := FS) line = true -> line = c :: tl -> no_tied_smallest (S := RS) triangle_area k (map val (line ++ [c])) -> map val out' = map (affine_map p q e u t g) (map val out)).
  Proof.
    intros OK OK' pick pick' k p q e u t g line line' Hd Hp Hp' H3 HL HL' Hm.
    assert (Len : length line' = length line) by (apply (f_equal (@length pt)) in Hm; rewrite !map_length in Hm; exact Hm).
    destruct (vw2_grid prec emax epsexp at2 Hprec Hmax s n OK pick line k Hp H3 HL) as (out & E & Op & Cl).
    destruct (vw2_grid prec emax epsexp at2 Hprec Hmax s' n OK' pick' line' k Hp' ltac:(lia) HL') as (out' & E' & Op' & Cl').
    assert (Ec : is_connected (S := FS) line' = is_connected (S := FS) line) by (rewrite <- (conn_val s' n line' HL'), <- (conn_val s n line HL), Hm; apply conn_aff; auto).
    exists out, out'. split; [exact E|]. split; [exact E'|]. split.
    - intros Hc Hn. rewrite Ec in Op'. specialize (Op Hc). specialize (Op' Hc). rewrite Hm, Len in Op'.
      apply (vw_steps_unmap (S := RS) triangle_area _ (area_map p q e u t g Hd)) in Op' as (r & Er & Sr). rewrite Er. f_equal.
      eapply vw_steps_det; [eapply no_tied_less; [apply Nat.le_min_l|exact Hn]|exact Sr|exact Op].
    - intros c tl Hc El Hn. rewrite Ec in Cl'. destruct (Cl Hc) as (c1 & t1 & E1 & S1). destruct (Cl' Hc) as (c2 & t2 & E2 & S2).
      rewrite El in E1. injection E1 as <- <-. assert (Ev : val c2 = affine_map p q e u t g (val c)) by (rewrite El, E2 in Hm; cbn [map] in Hm; exact (f_equal (hd (val c)) Hm)).
      assert (Hm2 : map val (line' ++ [c2]) = map (affine_map p q e u t g) (map val (line ++ [c]))) by (rewrite !map_app, Hm; cbn [map]; rewrite Ev; reflexivity).
      rewrite Hm2, Len in S2. apply (vw_steps_unmap (S := RS) triangle_area _ (area_map p q e u t g Hd)) in S2 as (r & Er & Sr).
      assert (X : r = map val (out ++ [c])) by (eapply vw_steps_det; [eapply no_tied_less; [apply Nat.le_min_l|exact Hn]|exact Sr|exact S1]).
      rewrite X, !map_app in Er. cbn [map] in Er. rewrite Ev in Er. apply rdet in Er. exact Er.
  Qed.
  Lemma vw_back s n : vw_ok prec emax s n -> forall pick pick' k (line : list (V2 FS)),
    pops_smallest (S := FS) (fun x => x <> S754_nan) pick -> pops_smallest (S := FS) (fun x => x <> S754_nan) pick' -> (3 <= length line)%nat ->
    Forall (onp s n) line -> is_connected (S := FS) line = false -> no_tied_smallest (S := RS) triangle_area k (map val line) ->
    exists out out', simplify_vw_2d (S := FS) pick line k = Val out /\ simplify_vw_2d (S := FS) pick' (rev line) k = Val out' /\ map val out' = rev (map val out).
  Proof.
    intros OK pick pick' k line Hp Hp' H3 HL Hc Hn.
    destruct (vw2_grid prec emax epsexp at2 Hprec Hmax s n OK pick line k Hp H3 HL) as (out & E & Op & _).
    destruct (vw2_grid prec emax epsexp at2 Hprec Hmax s n OK pick' (rev line) k Hp' ltac:(rewrite rev_length; lia) ltac:(apply Forall_rev; exact HL)) as (out' & E' & Op' & _).
    exists out, out'. split; [exact E|]. split; [exact E'|].
    assert (Ec : is_connected (S := FS) (rev line) = false).
    { rewrite <- (conn_val s n (rev line)) by (apply Forall_rev; exact HL). rewrite map_rev, connected_rev, (conn_val s n line HL). exact Hc. }
    specialize (Op Hc). specialize (Op' Ec). rewrite rev_length, map_rev in Op'.
    eapply (vw_steps_rev_det (S := RS) triangle_area area_sym); [eapply no_tied_less; [apply Nat.le_min_l|exact Hn]|exact Op|exact Op'].
  Qed.
End Vw.

(* ---- C163 ---- *)
Theorem C163_affine_f64 : forall at2 s s' pick pick' k p q e u t g (line line' : list (V2 (F64 at2))), p * t - q * u <> 0 ->
  pops_smallest (S := F64 at2) (fun x => x <> S754_nan) pick -> pops_smallest (S := F64 at2) (fun x => x <> S754_nan) pick' -> (3 <= length line)%nat ->
  Forall (grid64_to (2 ^ 24) s) line -> Forall (grid64_to (2 ^ 24) s') line' -> map value64 line' = map (affine_map p q e u t g) (map value64 line) ->
  exists out out', simplify_vw_2d pick line k = Val out /\ simplify_vw_2d pick' line' k = Val out' /\
    (is_connected line = false -> no_tied_smallest (S := RS) triangle_area k (map value64 line) -> map value64 out' = map (affine_map p q e u t g) (map value64 out)) /\
    (forall c tl, is_connected line = true -> line = c :: tl -> no_tied_smallest (S := RS) triangle_area k (map value64 (line ++ [c])) -> map value64 out' = map (affine_map p q e u t g) (map value64 out)).
Proof.
  intros at2 s s' pick pick' k p q e u t g line line' Hd Hp Hp' H3 HL HL' Hm. assert (Hne' : line' <> []) by (intros ->; destruct line; [cbn in H3; lia|discriminate]).
  destruct (all64 _ _ _ line (three_ne _ H3) HL) as [Hs HG]. destruct (all64 _ _ _ line' Hne' HL') as [Hs' HG'].
  exact (vw_aff 53 1024 (-52) at2 P53 M53 s s' (2 ^ 24) (vw_ok64 s Hs) (vw_ok64 s' Hs') pick pick' k p q e u t g line line' Hd Hp Hp' H3 HG HG' Hm).
Qed.
Print Assumptions C163_affine_f64.
Theorem C163_backwards_f64 : forall at2 s pick pick' k (line : list (V2 (F64 at2))),
  pops_smallest (S := F64 at2) (fun x => x <> S754_nan) pick -> pops_smallest (S := F64 at2) (fun x => x <> S754_nan) pick' -> (3 <= length line)%nat ->
  Forall (grid64_to (2 ^ 24) s) line -> is_connected line = false -> no_tied_smallest (S := RS) triangle_area k (map value64 line) ->
  exists out out', simplify_vw_2d pick line k = Val out /\ simplify_vw_2d pick' (rev line) k = Val out' /\ map value64 out' = rev (map value64 out).
Proof.
  intros at2 s pick pick' k line Hp Hp' H3 HL. destruct (all64 _ _ _ line (three_ne _ H3) HL) as [Hs HG].
  exact (vw_back 53 1024 (-52) at2 P53 M53 s (2 ^ 24) (vw_ok64 s Hs) pick pick' k line Hp Hp' H3 HG).
Qed.
Print Assumptions C163_backwards_f64.
Theorem C163_affine_f32 : forall at2 s s' pick pick' k p q e u t g (line line' : list (V2 (F32 at2))), p * t - q * u <> 0 ->
  pops_smallest (S := F32 at2) (fun x => x <> S754_nan) pick -> pops_smallest (S := F32 at2) (fun x => x <> S754_nan) pick' -> (3 <= length line)%nat ->
  Forall (grid32_to (2 ^ 10) s) line -> Forall (grid32_to (2 ^ 10) s') line' -> map value32 line' = map (affine_map p q e u t g) (map value32 line) ->
  exists out out', simplify_vw_2d pick line k = Val out /\ simplify_vw_2d pick' line' k = Val out' /\
    (is_connected line = false -> no_tied_smallest (S := RS) triangle_area k (map value32 line) -> map value32 out' = map (affine_map p q e u t g) (map value32 out)) /\
    (forall c tl, is_connected line = true -> line = c :: tl -> no_tied_smallest (S := RS) triangle_area k (map value32 (line ++ [c])) -> map value32 out' = map (affine_map p q e u t g) (map value32 out)).
Proof.
  intros at2 s s' pick pick' k p q e u t g line line' Hd Hp Hp' H3 HL HL' Hm. assert (Hne' : line' <> []) by (intros ->; destruct line; [cbn in H3; lia|discriminate]).
  destruct (all32 _ _ _ line (three_ne _ H3) HL) as [Hs HG]. destruct (all32 _ _ _ line' Hne' HL') as [Hs' HG'].
  exact (vw_aff 24 128 (-23) at2 P24 M24 s s' (2 ^ 10) (vw_ok32 s Hs) (vw_ok32 s' Hs') pick pick' k p q e u t g line line' Hd Hp Hp' H3 HG HG' Hm).
Qed.
Print Assumptions C163_affine_f32.
Theorem C163_backwards_f32 : forall at2 s pick pick' k (line : list (V2 (F32 at2))),
  pops_smallest (S := F32 at2) (fun x => x <> S754_nan) pick -> pops_smallest (S := F32 at2) (fun x => x <> S754_nan) pick' -> (3 <= length line)%nat ->
  Forall (grid32_to (2 ^ 10) s) line -> is_connected line = false -> no_tied_smallest (S := RS) triangle_area k (map value32 line) ->
  exists out out', simplify_vw_2d pick line k = Val out /\ simplify_vw_2d pick' (rev line) k = Val out' /\ map value32 out' = rev (map value32 out).
Proof.
  intros at2 s pick pick' k line Hp Hp' H3 HL. destruct (all32 _ _ _ line (three_ne _ H3) HL) as [Hs HG].
  exact (vw_back 24 128 (-23) at2 P24 M24 s (2 ^ 10) (vw_ok32 s Hs) pick pick' k line Hp Hp' H3 HG).
Qed.
Print Assumptions C163_backwards_f32.

(* ---- the hypotheses are met ---- *)
Lemma steps_ext {S S' : Scalar} {T} (area : T -> T -> T -> car S) (area' : T -> T -> T -> car S') :
  (forall a b c a' b' c', sltb (area a b c) (area a' b' c') = sltb (area' a b c) (area' a' b' c')) -> forall k p q, vw_steps area k p q -> vw_steps area' k p q.
Proof.
  intros H k p q Hs. induction Hs as [p|k p q r (l1 & a & b & c & l2 & Ep & Eq & Hm) _ IH]; [constructor|]. apply vw_more with q; auto.
  exists l1, a, b, c, l2. split; auto. split; auto. intros l1' a' b' c' l2' E. rewrite <- H. eauto.
Qed.
Lemma no_tied_ext {S S' : Scalar} {T} (area : T -> T -> T -> car S) (area' : T -> T -> T -> car S') :
  (forall a b c a' b' c', sltb (area a b c) (area a' b' c') = sltb (area' a b c) (area' a' b' c')) -> forall k p, no_tied_smallest area k p -> no_tied_smallest area' k p.
Proof.
  intros H k p Hn n q Hk Hs l1 a b c l2 l1' a' b' c' l2' E E' M M'. apply (steps_ext area' area) in Hs; [|intros; symmetry; apply H].
  apply (Hn n q Hk Hs l1 a b c l2 l1' a' b' c' l2' E E'); intros m x y z r Eq; rewrite H; eauto.
Qed.
Lemma tri_area2 (a b c a' b' c' : pt) : sltb (s := RS) (area2 (S := RS) a b c) (area2 (S := RS) a' b' c') = sltb (s := RS) (triangle_area a b c) (triangle_area a' b' c').
Proof.
  assert (E : forall x y z : pt, area2 (S := RS) x y z = (orient x y z * orient x y z)%R).
  { intros x y z. destruct x as [x1 x2], y as [y1 y2], z as [z1 z2]. unfold area2, orient. cbn in *. ring. }
  rewrite !E. unfold triangle_area. apply Bool.eq_iff_eq_true. cbn [sltb RS]. rewrite !Rltb_true, sq_abs_lt. lra.
Qed.
Example C163_hypotheses_met at2 :
  let line := [@I64 at2 0 0; I64 1 1; I64 2 (-3); I64 3 0; I64 4 9; I64 6 1] in
  let line' := [@I64 at2 5 0; I64 8 1; I64 6 (-3); I64 11 0; I64 22 9; I64 18 1] in
  Forall (grid64_to (2 ^ 24) 0) line /\ Forall (grid64_to (2 ^ 24) 0) line' /\ map value64 line' = map (affine_map 2 1 5 0 1 0) (map value64 line) /\
  is_connected line = false /\ no_tied_smallest (S := RS) triangle_area 10 (map value64 line) /\ pops_smallest (S := F64 at2) (fun x => x <> S754_nan) pick_min.
Proof.
  assert (V : forall x y, (Z.abs x <= 2 ^ 24)%Z -> (Z.abs y <= 2 ^ 24)%Z -> value64 (@I64 at2 x y) = at_ (IZR x) (IZR y)).
  { intros x y Hx Hy. unfold value64, point_value, I64. cbn [vx vy].
    destruct (fl_of_Z_good 53 1024 P53 M53 x) as [_ Ex]; [lia|split; cbn; lia|]. destruct (fl_of_Z_good 53 1024 P53 M53 y) as [_ Ey]; [lia|split; cbn; lia|].
    rewrite Ex, Ey. reflexivity. }
  intros line line'. split; [repeat (apply Forall_cons; [apply I64_to; lia|]); apply Forall_nil|]. split; [repeat (apply Forall_cons; [apply I64_to; lia|]); apply Forall_nil|].
  split; [|split; [vm_compute; reflexivity|split; [|apply pick_min_ok, OrdOn_float]]].
  - unfold line, line'. cbn [map]. rewrite !V by lia. unfold affine_map. cbn [vx vy]. repeat (apply (f_equal2 (@cons pt)); [apply V2_ext; cbn [vx vy car RS]; ring|]). reflexivity.
  - assert (E : map value64 line = map iz [(0, 0); (1, 1); (2, -3); (3, 0); (4, 9); (6, 1)]%Z) by (unfold line; cbn [map]; rewrite !V by lia; reflexivity).
    rewrite E. apply (no_tied_ext (S := RS) area2 triangle_area tri_area2). apply (untied_ok 10). vm_compute. reflexivity.
Qed.
