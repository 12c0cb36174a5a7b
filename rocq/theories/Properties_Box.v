(* Bounding boxes, affine transforms, iterators, 2D/3D copies, planes, approximate equality
   (C20-C22, C25-C28, C41-C45, C79). Model: Geo2.v, Geo3.v. Vocabulary: BoxSpec.v. *)
From Coq Require Import Reals Lra Psatz ZArith NArith Floats.SpecFloat.
From Verif Require Import Prelude Scalar RInst Flt Geo2 Geo3 GeoSpec DistR Rdp1 FltOrd BoxSpec BoxProofs.

(* comparable coordinates *)
Notation comparable2 D := (fun p => D (vx p) /\ D (vy p)).
Notation comparable3 D := (fun p => D (wx p) /\ D (wy p) /\ D (wz p)).

(* C20 *)
Theorem C20_aabb_contains : forall (S : Scalar) (D : car S -> Prop), BoxOn S D ->
  (forall a ps, built2 a ps -> Forall (comparable2 D) ps ->
     (forall p, In p ps -> aabb2_contains_point a p = true) /\
     (forall p q, In p ps -> In q ps -> aabb2_contains_line a (mkL p q) = true) /\
     (forall b qs, built2 b qs -> qs <> [] -> incl qs ps -> aabb2_contains_aabb a b = true)) /\
  (forall a ps, built3 a ps -> Forall (comparable3 D) ps ->
     (forall p, In p ps -> aabb3_contains_point a p = true) /\
     (forall p q, In p ps -> In q ps -> aabb3_contains_line a (mkL3 p q) = true) /\
     (forall b qs, built3 b qs -> qs <> [] -> incl qs ps -> aabb3_contains_aabb a b = true)).
Proof.
  intros S D HB. split; intros a ps Ha Dp.
  - pose proof (built2_ok D HB a ps Ha Dp) as H.
    assert (P : forall mm, a = Some mm -> forall p, In p ps -> aabb2_contains_ mm p = true).
    { intros mm -> p Hp. apply (bounds2_contains D HB ps); auto. }
    split; [|split].
    + intros p Hp. destruct a as [mm|]; simpl in *; [eauto|subst; destruct Hp].
    + intros p q Hp Hq. destruct a as [mm|]; [|simpl in H; subst; destruct Hp].
      cbn [aabb2_contains_line lstart lend]. rewrite !(P mm) by auto. auto.
    + intros b qs Hb Hne Hi.
      assert (Dq : Forall (comparable2 D) qs) by (apply Forall_forall; intros q Hq; rewrite Forall_forall in Dp; auto).
      pose proof (built2_ok D HB b qs Hb Dq) as H'.
      destruct b as [[l h]|]; [|simpl in H'; congruence].
      destruct a as [mm|]; [|simpl in H; subst; destruct qs; [congruence|destruct (Hi v); left; auto]].
      cbn [aabb2_contains_aabb].
      destruct (bounds2_smallest qs (l, h) mm H') as [E1 E2]; [intros p Hp; apply (P mm); auto|].
      cbn [fst snd] in *. rewrite E1, E2. auto.
  - pose proof (built3_ok D HB a ps Ha Dp) as H.
    assert (P : forall mm, a = Some mm -> forall p, In p ps -> aabb3_contains_ mm p = true).
    { intros mm -> p Hp. apply (bounds3_contains D HB ps); auto. }
    split; [|split].
    + intros p Hp. destruct a as [mm|]; simpl in *; [eauto|subst; destruct Hp].
    + intros p q Hp Hq. destruct a as [mm|]; [|simpl in H; subst; destruct Hp].
      cbn [aabb3_contains_line wstart wend]. rewrite !(P mm) by auto. auto.
    + intros b qs Hb Hne Hi.
      assert (Dq : Forall (comparable3 D) qs) by (apply Forall_forall; intros q Hq; rewrite Forall_forall in Dp; auto).
      pose proof (built3_ok D HB b qs Hb Dq) as H'.
      destruct b as [[l h]|]; [|simpl in H'; congruence].
      destruct a as [mm|]; [|simpl in H; subst; destruct qs; [congruence|destruct (Hi v); left; auto]].
      cbn [aabb3_contains_aabb].
      destruct (bounds3_smallest qs (l, h) mm H') as [E1 E2]; [intros p Hp; apply (P mm); auto|].
      cbn [fst snd] in *. rewrite E1, E2. auto.
Qed.
Print Assumptions C20_aabb_contains.
(* the laws hold for exact arithmetic and for f64 / f32 without NaN *)
Example C20_hypotheses_met : BoxOn RS (fun _ => True) /\ (forall at2, BoxOn (F64 at2) (fun x => x <> S754_nan)) /\
  (forall at2, BoxOn (F32 at2) (fun x => x <> S754_nan)).
Proof. split; [apply BoxOn_R|split; [apply BoxOn_F64|apply BoxOn_F32]]. Qed.
(* in exact arithmetic containment is exactly the coordinate-wise comparison *)
Theorem C20_aabb_contains_exact : forall (lo hi p : pt),
  aabb2_contains_point (Some (lo, hi)) p = true <-> (vx lo <= vx p <= vx hi /\ vy lo <= vy p <= vy hi)%R.
Proof.
  intros lo hi p. cbn [aabb2_contains_point]. unfold aabb2_contains_. cbn [fst snd]. rsimp.
  rewrite !andb_true_iff, !orb_true_iff, !Rltb_true, !Reqb_true. lra.
Qed.
Print Assumptions C20_aabb_contains_exact.

(* C21: the corners are coordinates of added points, and bound all of them; hence smallest *)
Theorem C21_aabb_smallest : forall (S : Scalar) (D : car S -> Prop), BoxOn S D ->
  (forall a ps, built2 a ps -> Forall (comparable2 D) ps -> ps <> [] ->
     exists mm, a = Some mm /\ bounds2 ps mm /\
       forall B, (forall p, In p ps -> aabb2_contains_point B p = true) -> aabb2_contains_aabb B a = true) /\
  (forall a ps, built3 a ps -> Forall (comparable3 D) ps -> ps <> [] ->
     exists mm, a = Some mm /\ bounds3 ps mm /\
       forall B, (forall p, In p ps -> aabb3_contains_point B p = true) -> aabb3_contains_aabb B a = true).
Proof.
  intros S D HB. split; intros a ps Ha Dp Hne.
  - pose proof (built2_ok D HB a ps Ha Dp) as H. destruct a as [[l h]|]; [|simpl in H; congruence].
    exists (l, h). split; [auto|split; [exact H|]]. intros B HBx. destruct B as [mm|].
    + destruct (bounds2_smallest ps (l, h) mm H HBx) as [E1 E2]. cbn [aabb2_contains_aabb fst snd] in *. rewrite E1, E2; auto.
    + destruct ps as [|p ps]; [congruence|]. specialize (HBx p (or_introl eq_refl)). discriminate.
  - pose proof (built3_ok D HB a ps Ha Dp) as H. destruct a as [[l h]|]; [|simpl in H; congruence].
    exists (l, h). split; [auto|split; [exact H|]]. intros B HBx. destruct B as [mm|].
    + destruct (bounds3_smallest ps (l, h) mm H HBx) as [E1 E2]. cbn [aabb3_contains_aabb fst snd] in *. rewrite E1, E2; auto.
    + destruct ps as [|p ps]; [congruence|]. specialize (HBx p (or_introl eq_refl)). discriminate.
Qed.
Print Assumptions C21_aabb_smallest.

(* C22: two ways of building a box from the same points give boxes with equal (==) corners; equality of
   floats identifies 0 and -0, nothing else. *)
Theorem C22_aabb_order : forall (S : Scalar) (D : car S -> Prop), BoxOn S D ->
  (forall a b ps qs, built2 a ps -> built2 b qs -> (forall p, In p ps <-> In p qs) -> Forall (comparable2 D) ps ->
     match a, b with
     | None, None => True
     | Some (l, h), Some (l', h') => veqb l l' = true /\ veqb h h' = true
     | _, _ => False
     end) /\
  (forall a b ps qs, built3 a ps -> built3 b qs -> (forall p, In p ps <-> In p qs) -> Forall (comparable3 D) ps ->
     match a, b with
     | None, None => True
     | Some (l, h), Some (l', h') => weqb l l' = true /\ weqb h h' = true
     | _, _ => False
     end).
Proof.
  intros S D HB. split; intros a b ps qs Ha Hb Hset Dp.
  - assert (Dq : Forall (comparable2 D) qs) by (apply Forall_forall; intros q Hq; rewrite Forall_forall in Dp; apply Dp, Hset; auto).
    pose proof (built2_ok D HB a ps Ha Dp) as H. pose proof (built2_ok D HB b qs Hb Dq) as H'.
    destruct a as [[l h]|], b as [[l' h']|]; simpl in H, H'; auto.
    + exact (bounds2_uniq D HB ps qs (l, h) (l', h') Hset Dp H H').
    + subst. destruct H as ((A & _) & _). apply In_map_ex in A as (p & Hp & _). apply Hset in Hp. destruct Hp.
    + subst. destruct H' as ((A & _) & _). apply In_map_ex in A as (p & Hp & _). apply Hset in Hp. destruct Hp.
  - assert (Dq : Forall (comparable3 D) qs) by (apply Forall_forall; intros q Hq; rewrite Forall_forall in Dp; apply Dp, Hset; auto).
    pose proof (built3_ok D HB a ps Ha Dp) as H. pose proof (built3_ok D HB b qs Hb Dq) as H'.
    destruct a as [[l h]|], b as [[l' h']|]; simpl in H, H'; auto.
    + exact (bounds3_uniq D HB ps qs (l, h) (l', h') Hset Dp H H').
    + subst. destruct H as ((A & _) & _). apply In_map_ex in A as (p & Hp & _). apply Hset in Hp. destruct Hp.
    + subst. destruct H' as ((A & _) & _). apply In_map_ex in A as (p & Hp & _). apply Hset in Hp. destruct Hp.
Qed.
Print Assumptions C22_aabb_order.

(* C25 *)
Theorem C25_affine_inverse : forall (a b : Aabb2 RS) t, affine_new a b = Val t ->
  (forall p q, transform_ab t p = Val q -> transform_ba t q = Val p) /\
  (forall p q, transform_ba t p = Val q -> transform_ab t q = Val p) /\
  (forall p, exists q, transform_ab t p = Val q) /\ (forall p, exists q, transform_ba t p = Val q).
Proof.
  intros a b t. unfold affine_new. destruct a as [[sl sh]|], b as [[dl dh]|]; try discriminate.
  cbn [aabb2_low aabb2_high option_map fst snd]. intros E. injection E as <-.
  destruct sl as [slx sly], sh as [shx shy], dl as [dlx dly], dh as [dhx dhy]. rsimp.
  set (dst := Rmin (Rmax (dhx - dlx) 1) (Rmax (dhy - dly) 1)).
  set (src := Rmax (Rmax (shx - slx) 1) (Rmax (shy - sly) 1)).
  assert (Hd : (1 <= dst)%R).
  { unfold dst. apply Rmin_glb; apply Rmax_r. }
  assert (Hs : (1 <= src)%R).
  { unfold src. eapply Rle_trans; [|apply Rmax_l]. apply Rmax_r. }
  unfold transform_ab, transform_ba. cbn [a_offset scale b_offset vx vy sfin RS andb].
  split; [|split; [|split]]; intros; eauto.
  - injection H as <-. destruct p as [px py]. rsimp. f_equal. apply V2_ext; rsimp; field; lra.
  - injection H as <-. destruct p as [px py]. rsimp. f_equal. apply V2_ext; rsimp; field; lra.
Qed.
Print Assumptions C25_affine_inverse.
(* the four-scalar variants do to each embedded point what the point variants do; any scalar type *)
Theorem C25_affine_array_variants : forall (S : Scalar) (t : SimpleAffine S) x1 y1 x2 y2,
  transform_ab_a t (x1, y1, x2, y2) =
    match transform_ab t (mkV2 x1 y1), transform_ab t (mkV2 x2 y2) with
    | Val p, Val q => Val (vx p, vy p, vx q, vy q) | _, _ => Fail TransformError end /\
  transform_ba_a t (x1, y1, x2, y2) =
    match transform_ba t (mkV2 x1 y1), transform_ba t (mkV2 x2 y2) with
    | Val p, Val q => Val (vx p, vy p, vx q, vy q) | _, _ => Fail TransformError end.
Proof.
  intros S t x1 y1 x2 y2. unfold transform_ab_a, transform_ba_a, transform_ab, transform_ba. cbn [vx vy].
  split; repeat match goal with |- context [sfin ?x] => destruct (sfin x); cbn [andb vx vy] end; reflexivity.
Qed.
Print Assumptions C25_affine_array_variants.
Example C25_hypotheses_met : exists t, affine_new (S := RS)
  (aabb2_with_points [@mkV2 RS 0 0; @mkV2 RS 10 20])%R (aabb2_with_points [@mkV2 RS 1 1; @mkV2 RS 3 4])%R = Val t.
Proof. eexists. reflexivity. Qed.

(* C26 *)
Theorem C26_affine_fit : forall (sl sh dl dh : pt) t,
  (vx sl <= vx sh)%R -> (vy sl <= vy sh)%R -> (vx dl + 1 <= vx dh)%R -> (vy dl + 1 <= vy dh)%R ->
  affine_new (Some (sl, sh)) (Some (dl, dh)) = Val t ->
  transform_ab t (lerp sl sh (1/2)) = Val (lerp dl dh (1/2)) /\
  (forall p : pt, (vx sl <= vx p <= vx sh)%R -> (vy sl <= vy p <= vy sh)%R ->
     exists q, transform_ab t p = Val q /\ (vx dl <= vx q <= vx dh)%R /\ (vy dl <= vy q <= vy dh)%R).
Proof.
  intros [slx sly] [shx shy] [dlx dly] [dhx dhy] t Hx Hy Hdx Hdy. unfold affine_new.
  cbn [aabb2_low aabb2_high option_map fst snd]. intros E. injection E as <-. rsimp.
  set (dst := Rmin (Rmax (dhx - dlx) 1) (Rmax (dhy - dly) 1)).
  set (src := Rmax (Rmax (shx - slx) 1) (Rmax (shy - sly) 1)).
  assert (Hd1 : (0 < dst /\ dst <= dhx - dlx /\ dst <= dhy - dly)%R).
  { unfold dst. rewrite !Rmax_left by lra. split; [apply Rmin_glb_lt; lra|]. split; [apply Rmin_l|apply Rmin_r]. }
  assert (Hs1 : (0 < src /\ shx - slx <= src /\ shy - sly <= src)%R).
  { unfold src. pose proof (Rmax_l (shx - slx) 1). pose proof (Rmax_r (shx - slx) 1).
    pose proof (Rmax_l (shy - sly) 1). pose proof (Rmax_r (shy - sly) 1).
    pose proof (Rmax_l (Rmax (shx - slx) 1) (Rmax (shy - sly) 1)). pose proof (Rmax_r (Rmax (shx - slx) 1) (Rmax (shy - sly) 1)). lra. }
  assert (Hk : (0 < dst / src)%R) by (apply Rdiv_lt_0_compat; lra).
  assert (Hks : (dst / src * src = dst)%R) by (field; lra).
  unfold transform_ab. cbn [a_offset scale b_offset vx vy sfin RS andb]. rsimp.
  set (k := (dst / src)%R) in *. split.
  - f_equal. apply V2_ext; unfold lerp; rsimp; field.
  - intros [px py] Hpx Hpy. eexists. split; [reflexivity|]. rsimp.
    assert (A : forall u lo hi e, (u - (lo + hi) / 2 <= e / 2)%R -> True) by auto. clear A.
    assert (Kx : (- (dst / 2) <= (px + - (slx + shx) / 2) * k <= dst / 2)%R).
    { rewrite <- Hks. split; nra. }
    assert (Ky : (- (dst / 2) <= (py + - (sly + shy) / 2) * k <= dst / 2)%R).
    { rewrite <- Hks. split; nra. }
    lra.
Qed.
Print Assumptions C26_affine_fit.
Example C26_example : transform_ab (S := F64_)
  (match affine_new (aabb2_with_points [P 0 0; P 10 20]) (aabb2_with_points [P 0 0; P 40 40]) with Val t => t | _ => affine_default end)
  (P 10 20) = Val (P 30 40).
Proof. apply (out_same_eq v2_same v2_same_eq). vm_compute. reflexivity. Qed.

(* C27: any scalar type, NaN and infinities included *)
Theorem C27_affine_finite : forall (S : Scalar),
  (forall t (p q : V2 S), transform_ab t p = Val q \/ transform_ba t p = Val q -> sfin (vx q) = true /\ sfin (vy q) = true) /\
  (forall t (r : car S * car S * car S * car S) x1 y1 x2 y2,
     transform_ab_a t r = Val (x1, y1, x2, y2) \/ transform_ba_a t r = Val (x1, y1, x2, y2) ->
     sfin x1 = true /\ sfin y1 = true /\ sfin x2 = true /\ sfin y2 = true) /\
  (forall (a b : Aabb2 S), affine_new a b = Fail AabbError <-> (a = None \/ b = None)) /\
  (forall (a b : Aabb2 S), a <> None -> b <> None -> exists t, affine_new a b = Val t).
Proof.
  intros S. split; [|split; [|split]].
  - intros t p q [H|H]; unfold transform_ab, transform_ba in H;
      match type of H with (if ?c then _ else _) = _ => destruct c eqn:E end; try discriminate;
      injection H as <-; cbn [vx vy]; apply andb_prop in E; tauto.
  - intros t [[[r0 r1] r2] r3] x1 y1 x2 y2 [H|H]; unfold transform_ab_a, transform_ba_a in H;
      match type of H with (if ?c then _ else _) = _ => destruct c eqn:E end; try discriminate;
      injection H as <- <- <- <-; apply andb_prop in E as [E ?]; apply andb_prop in E as [E ?]; apply andb_prop in E as [E ?]; auto.
  - intros [[? ?]|] [[? ?]|]; unfold affine_new; simpl; split; auto; try (intros [?|?]; congruence); congruence.
  - intros [[? ?]|] [[? ?]|] Ha Hb; try congruence. unfold affine_new; simpl. eauto.
Qed.
Print Assumptions C27_affine_finite.

(* C28: refuted. A destination smaller than one unit is treated as one unit wide. *)
Theorem C28_affine_tiny_refuted : exists (sl sh dl dh : pt) t (p q : pt),
  (vx dl <= vx dh)%R /\ (vy dl <= vy dh)%R /\
  affine_new (Some (sl, sh)) (Some (dl, dh)) = Val t /\
  (vx sl <= vx p <= vx sh)%R /\ (vy sl <= vy p <= vy sh)%R /\
  transform_ab t p = Val q /\ (vx dh < vx q)%R.
Proof.
  exists (@mkV2 RS 0 0)%R, (@mkV2 RS 10 10)%R, (@mkV2 RS 0 0)%R, (@mkV2 RS (1/2) (1/2))%R.
  eexists. exists (@mkV2 RS 10 10)%R. eexists. split; [rsimp; lra|]. split; [rsimp; lra|]. split; [reflexivity|].
  split; [rsimp; lra|]. split; [rsimp; lra|]. split.
  - unfold transform_ab. cbn [sfin RS andb]. reflexivity.
  - cbn [vx vy fst snd a_offset scale b_offset sadd ssub smul sdiv smin smax sneg s0 s1 s2 RS vadd vsub].
    rewrite (Rmax_right (1/2 - 0) 1) by lra. rewrite (Rmax_left (10 - 0) 1) by lra.
    rewrite (Rmax_left (10 - 0) (10 - 0)) by lra. rewrite (Rmin_left 1 1) by lra. lra.
Qed.
Print Assumptions C28_affine_tiny_refuted.
(* what does hold: the image of the source box fits a box around the destination's centre whose sides are
   the destination's sides, each taken as at least one *)
Theorem C28_affine_fit_partial : forall (sl sh dl dh : pt) t,
  (vx sl <= vx sh)%R -> (vy sl <= vy sh)%R ->
  affine_new (Some (sl, sh)) (Some (dl, dh)) = Val t ->
  forall p : pt, (vx sl <= vx p <= vx sh)%R -> (vy sl <= vy p <= vy sh)%R ->
  exists q, transform_ab t p = Val q /\
    (2 * Rabs (vx q - (vx dl + vx dh) / 2) <= Rmax (vx dh - vx dl) 1)%R /\
    (2 * Rabs (vy q - (vy dl + vy dh) / 2) <= Rmax (vy dh - vy dl) 1)%R.
Proof.
  intros [slx sly] [shx shy] [dlx dly] [dhx dhy] t Hx Hy. unfold affine_new.
  cbn [aabb2_low aabb2_high option_map fst snd]. intros E. injection E as <-. rsimp.
  set (dst := Rmin (Rmax (dhx - dlx) 1) (Rmax (dhy - dly) 1)).
  set (src := Rmax (Rmax (shx - slx) 1) (Rmax (shy - sly) 1)).
  assert (Hd1 : (0 < dst /\ dst <= Rmax (dhx - dlx) 1 /\ dst <= Rmax (dhy - dly) 1)%R).
  { unfold dst. pose proof (Rmax_r (dhx - dlx) 1). pose proof (Rmax_r (dhy - dly) 1).
    split; [apply Rmin_glb_lt; lra|]. split; [apply Rmin_l|apply Rmin_r]. }
  assert (Hs1 : (0 < src /\ shx - slx <= src /\ shy - sly <= src)%R).
  { unfold src. pose proof (Rmax_l (shx - slx) 1). pose proof (Rmax_r (shx - slx) 1).
    pose proof (Rmax_l (shy - sly) 1). pose proof (Rmax_r (shy - sly) 1).
    pose proof (Rmax_l (Rmax (shx - slx) 1) (Rmax (shy - sly) 1)). pose proof (Rmax_r (Rmax (shx - slx) 1) (Rmax (shy - sly) 1)). lra. }
  assert (Hk : (0 < dst / src)%R) by (apply Rdiv_lt_0_compat; lra).
  assert (Hks : (dst / src * src = dst)%R) by (field; lra).
  unfold transform_ab. cbn [a_offset scale b_offset vx vy sfin RS andb]. rsimp.
  set (k := (dst / src)%R) in *.
  intros [px py] Hpx Hpy. eexists. split; [reflexivity|]. rsimp.
  assert (Kx : (- (dst / 2) <= (px + - (slx + shx) / 2) * k <= dst / 2)%R).
  { rewrite <- Hks. split; nra. }
  assert (Ky : (- (dst / 2) <= (py + - (sly + shy) / 2) * k <= dst / 2)%R).
  { rewrite <- Hks. split; nra. }
  split.
  - apply Rle_trans with dst; [|lra]. unfold Rabs; destruct (Rcase_abs _); lra.
  - apply Rle_trans with dst; [|lra]. unfold Rabs; destruct (Rcase_abs _); lra.
Qed.
Print Assumptions C28_affine_fit_partial.

(* C41 *)
Theorem C41_iterators : forall (S : Scalar) (l : list (V2 S)),
  length (window_iter l) = length l - 1 /\
  (forall i a b, nth_error l i = Some a -> nth_error l (i + 1) = Some b -> nth_error (window_iter l) i = Some (mkL a b)) /\
  length (chunk_iter l) = Nat.div2 (length l) /\
  (forall i a b, nth_error l (2 * i) = Some a -> nth_error l (2 * i + 1) = Some b -> nth_error (chunk_iter l) i = Some (mkL a b)) /\
  (Nat.even (length l) = true -> chunk_remainder l = []) /\
  (forall m z, l = m ++ [z] -> Nat.even (length l) = false -> chunk_remainder l = [z]) /\
  flat_map (fun e => [lstart e; lend e]) (chunk_iter l) ++ chunk_remainder l = l.
Proof.
  intros S l. split; [|split; [|split; [|split]]].
  - unfold window_iter. rewrite map_length. apply windows_length.
  - unfold window_iter. induction l as [|x l IH]; intros [|i] a b Ha Hb; simpl in Ha, Hb; try discriminate.
    + injection Ha as ->. destruct l as [|y l]; simpl in Hb; [discriminate|]. injection Hb as ->. reflexivity.
    + destruct l as [|y l]; [destruct i; discriminate|]. simpl. apply IH; auto.
  - unfold chunk_iter. rewrite map_length. revert l. fix IH 1. intros [|x [|y l]]; simpl; auto.
  - unfold chunk_iter. revert l. fix IH 1. intros [|x [|y l]] i a b Ha Hb.
    + destruct (2 * i); discriminate.
    + destruct i as [|i]; [discriminate|]. replace (2 * Datatypes.S i) with (Datatypes.S (Datatypes.S (2 * i))) in Ha by lia. simpl in Ha. destruct (i + (i + 0)); discriminate.
    + destruct i as [|i].
      * simpl in *. injection Ha as ->. injection Hb as ->. auto.
      * replace (2 * Datatypes.S i) with (Datatypes.S (Datatypes.S (2 * i))) in * by lia. simpl (Datatypes.S _ + 1) in Hb. cbn [nth_error] in Ha, Hb. simpl. apply IH; auto.
  - assert (G : flat_map (fun e => [lstart e; lend e]) (chunk_iter l) ++ chunk_remainder l = l /\ length (chunk_remainder l) = Nat.b2n (Nat.odd (length l))).
    { unfold chunk_iter. revert l. fix IH 1. intros [|x [|y l]].
      - clear IH; split; reflexivity.
      - clear IH; split; reflexivity.
      - destruct (IH l) as [E1 E2]. split; [|simpl in *; exact E2]. simpl in *. f_equal. f_equal. exact E1. }
    destruct G as [G1 G2]. unfold Nat.odd in G2. repeat split; auto.
    + intros E. rewrite E in G2. destruct (chunk_remainder l); [auto|discriminate].
    + intros m z El E. rewrite E in G2. destruct (chunk_remainder l) as [|r [|? ?]] eqn:Er; try discriminate.
      rewrite El in G1 at 2. apply app_inj_tail in G1 as [_ ->]. auto.
Qed.
Print Assumptions C41_iterators.
Theorem C41_iterators_3d : forall (S : Scalar) (l : list (V3 S)),
  length (window_iter3 l) = length l - 1 /\
  (forall i a b, nth_error l i = Some a -> nth_error l (i + 1) = Some b -> nth_error (window_iter3 l) i = Some (mkL3 a b)) /\
  length (chunk_iter3 l) = Nat.div2 (length l) /\
  (forall i a b, nth_error l (2 * i) = Some a -> nth_error l (2 * i + 1) = Some b -> nth_error (chunk_iter3 l) i = Some (mkL3 a b)).
Proof.
  intros S l. split; [|split; [|split]].
  - unfold window_iter3. rewrite map_length. apply windows_length.
  - unfold window_iter3. induction l as [|x l IH]; intros [|i] a b Ha Hb; simpl in Ha, Hb; try discriminate.
    + injection Ha as ->. destruct l as [|y l]; simpl in Hb; [discriminate|]. injection Hb as ->. reflexivity.
    + destruct l as [|y l]; [destruct i; discriminate|]. simpl. apply IH; auto.
  - unfold chunk_iter3. rewrite map_length. revert l. fix IH 1. intros [|x [|y l]]; simpl; auto.
  - unfold chunk_iter3. revert l. fix IH 1. intros [|x [|y l]] i a b Ha Hb.
    + destruct (2 * i); discriminate.
    + destruct i as [|i]; [discriminate|]. replace (2 * Datatypes.S i) with (Datatypes.S (Datatypes.S (2 * i))) in Ha by lia. simpl in Ha. destruct (i + (i + 0)); discriminate.
    + destruct i as [|i].
      * simpl in *. injection Ha as ->. injection Hb as ->. auto.
      * replace (2 * Datatypes.S i) with (Datatypes.S (Datatypes.S (2 * i))) in * by lia. simpl (Datatypes.S _ + 1) in Hb. cbn [nth_error] in Ha, Hb. simpl. apply IH; auto.
Qed.
Print Assumptions C41_iterators_3d.

(* C42: equality of points is the scalar type's == on both coordinates; on the reals it is equality *)
Theorem C42_connected : forall (S : Scalar) (l : list (V2 S)),
  (is_connected l = true <-> l = [] \/ exists a b t, hd_error l = Some a /\ l = t ++ [b] /\ veqb a b = true) /\
  (length l <= 2 -> point_count l = length l) /\
  (2 < length l -> is_connected l = true -> point_count l = length l - 1) /\
  (is_connected l = false -> point_count l = length l).
Proof.
  intros S l. assert (G : forall x (t : list (V2 S)), exists t' b, x :: t = t' ++ [b] /\ last (x :: t) x = b).
  { intros x t. destruct (exists_last (l := x :: t)) as (t' & b & E); [congruence|]. exists t', b. split; auto.
    rewrite E. apply last_last. }
  split; [|split; [|split]].
  - unfold is_connected. destruct l as [|x t]; [split; auto|]. destruct (G x t) as (t' & b & E & El). rewrite El. split.
    + intros H. right. exists x, b, t'. auto.
    + intros [?|(a & b' & t2 & Ha & E' & H)]; [discriminate|]. injection Ha as <-.
      rewrite E in E'. apply app_inj_tail in E' as [_ ->]. auto.
  - intros H. unfold point_count. destruct (Nat.ltb_spec 2 (length l)); [lia|auto].
  - intros H1 H2. unfold point_count. rewrite H2. destruct (Nat.ltb_spec 2 (length l)); [auto|lia].
  - intros H. unfold point_count. rewrite H, andb_false_r. auto.
Qed.
Print Assumptions C42_connected.
Theorem C42_connected_exact : forall (l : list pt),
  is_connected l = true <-> hd_error l = hd_error (rev l).
Proof.
  intros l. destruct l as [|x t]; [simpl; tauto|].
  destruct (exists_last (l := x :: t)) as (t' & b & E); [congruence|].
  assert (El : last (x :: t) x = b) by (rewrite E; apply last_last).
  unfold is_connected. rewrite El, veqb_R. rewrite E, rev_app_distr, <- E. simpl.
  split; congruence.
Qed.
Print Assumptions C42_connected_exact.

(* C43 *)
Theorem C43_copies_reversible : forall (S : Scalar) (pl : Plane),
  (forall p : V2 S, point_to_2d pl (point_to_3d pl p) = p) /\
  (forall l : Line2 S, line_copy_to_2d (line_copy_to_3d l pl) pl = l) /\
  (forall l : list (V2 S), ls_copy_to_2d (ls_copy_to_3d l pl) pl = l /\ length (ls_copy_to_3d l pl) = length l) /\
  (forall (q : V3 S) l p, q = point_to_3d pl p \/ In q (ls_copy_to_3d l pl) ->
     match pl with XY => wz q = s0 | XZ => wy q = s0 | YZ => wx q = s0 end).
Proof.
  intros S pl. repeat split.
  - intros [x y]; destruct pl; auto.
  - intros [[x y] [z w]]; destruct pl; auto.
  - destruct pl; unfold ls_copy_to_2d, ls_copy_to_3d; rewrite map_map; rewrite <- (map_id l) at 2; apply map_ext; intros [x y]; auto.
  - destruct pl; apply map_length.
  - intros q l p [->|H]; [destruct pl; auto|].
    destruct pl; unfold ls_copy_to_3d in H; apply in_map_iff in H as (r & <- & _); auto.
Qed.
Print Assumptions C43_copies_reversible.

(* C44: refuted for the YZ plane, where the line string copy swaps the two axes *)
Theorem C44_line_vs_linestring_refuted : exists (l : list pt) (pl : Plane),
  window_iter3 (ls_copy_to_3d l pl) <> map (fun e => line_copy_to_3d e pl) (window_iter l).
Proof.
  exists [@mkV2 RS 0 1; @mkV2 RS 0 0]%R, YZ. unfold window_iter3, window_iter; simpl. intros E.
  apply (f_equal (fun l : list (Line3 RS) => match l with e :: _ => wz (wstart e) | _ => 0%R end)) in E. simpl in E. lra.
Qed.
Print Assumptions C44_line_vs_linestring_refuted.
Theorem C44_line_vs_linestring_partial : forall (S : Scalar) (l : list (V2 S)) (pl : Plane), pl <> YZ ->
  window_iter3 (ls_copy_to_3d l pl) = map (fun e => line_copy_to_3d e pl) (window_iter l) /\
  ls_copy_to_3d l pl = map (point_to_3d pl) l.
Proof.
  intros S l pl Hpl. assert (E : ls_copy_to_3d l pl = map (point_to_3d pl) l) by (destruct pl; congruence || auto).
  split; auto. rewrite E. unfold window_iter3, window_iter. rewrite map_map.
  assert (W : forall (f : V2 S -> V3 S) m, windows (map f m) = map (fun w => (f (fst w), f (snd w))) (windows m)).
  { intros f. induction m as [|a [|b m] IH]; auto. change (map f (a :: b :: m)) with (f a :: f b :: map f m).
    change (windows (f a :: f b :: map f m)) with ((f a, f b) :: windows (map f (b :: m))). rewrite IH. reflexivity. }
  rewrite W, map_map. apply map_ext. intros [a b]. reflexivity.
Qed.
Print Assumptions C44_line_vs_linestring_partial.

(* C45 *)
Theorem C45_plane_detection : forall (lo hi : pt3),
  (wx lo <= wx hi)%R -> (wy lo <= wy hi)%R -> (wz lo <= wz hi)%R ->
  (get_plane (Some (lo, hi)) = Some YZ <-> wx lo = wx hi /\ wy lo <> wy hi /\ wz lo <> wz hi) /\
  (get_plane (Some (lo, hi)) = Some XZ <-> wy lo = wy hi /\ wx lo <> wx hi /\ wz lo <> wz hi) /\
  (get_plane (Some (lo, hi)) = Some XY <-> wz lo = wz hi /\ wx lo <> wx hi /\ wy lo <> wy hi).
Proof.
  intros [lx ly lz] [hx hy hz] Hx Hy Hz. unfold get_plane, get_plane_relaxed.
  cbn [aabb3_low aabb3_high option_map fst snd]. rsimp.
  set (m := Rmax (Rmax (hx - lx) (hy - ly)) (hz - lz)).
  assert (Hm : (hx - lx <= m /\ hy - ly <= m /\ hz - lz <= m)%R).
  { unfold m. pose proof (Rmax_l (hx - lx) (hy - ly)). pose proof (Rmax_r (hx - lx) (hy - ly)).
    pose proof (Rmax_l (Rmax (hx - lx) (hy - ly)) (hz - lz)). pose proof (Rmax_r (Rmax (hx - lx) (hy - ly)) (hz - lz)). lra. }
  assert (Z : forall d, (0 <= d)%R -> (d <= m)%R -> Reqb 0 (d / m) = Reqb 0 d).
  { intros d H0 H1. destruct (Reqb_spec 0 d) as [<-|Hd].
    - apply Reqb_true. unfold Rdiv. ring.
    - apply Reqb_false. intros E. apply Hd. assert (m <> 0)%R by lra.
      apply Rmult_eq_reg_r with (/ m)%R; [|apply Rinv_neq_0_compat; auto]. unfold Rdiv in E. lra. }
  rewrite !Z by lra.
  destruct (Reqb_spec 0 (hx - lx)), (Reqb_spec 0 (hy - ly)), (Reqb_spec 0 (hz - lz)); cbn [andb negb];
    repeat split; intros; try discriminate; try lra; auto.
Qed.
Print Assumptions C45_plane_detection.
Theorem C45_plane_projection : forall (lo hi p : pt3) pl,
  get_plane (Some (lo, hi)) = Some pl ->
  aabb3_contains_point (Some (lo, hi)) p = true ->
  match pl with
  | XY => wz lo = 0%R /\ wz hi = 0%R | XZ => wy lo = 0%R /\ wy hi = 0%R | YZ => wx lo = 0%R /\ wx hi = 0%R
  end ->
  point_to_3d pl (point_to_2d pl p) = p.
Proof.
  intros [lx ly lz] [hx hy hz] [px py pz] pl _ H.
  cbn [aabb3_contains_point] in H. unfold aabb3_contains_ in H. cbn [fst snd] in H. rsimp.
  rewrite !andb_true_iff, !orb_true_iff, !Rltb_true, !Reqb_true in H.
  destruct pl; intros [E1 E2]; unfold point_to_3d, point_to_2d; apply V3_ext; rsimp; auto; lra.
Qed.
Print Assumptions C45_plane_projection.
Example C45_hypotheses_met : get_plane (S := F64_) (Some (P3 0 0 3, P3 2 5 3)) = Some XY.
Proof. vm_compute. reflexivity. Qed.

(* C79 *)
Theorem C79_approx_lines_refl_sym : forall (S : Scalar) (cmp : car S -> car S -> bool) (D : car S -> Prop),
  (forall x, D x -> cmp x x = true) -> (forall x y, cmp x y = cmp y x) ->
  (forall a : Line2 S, D (vx (lstart a)) -> D (vy (lstart a)) -> D (vx (lend a)) -> D (vy (lend a)) -> line_approx cmp a a = true) /\
  (forall a b : Line2 S, line_approx cmp a b = line_approx cmp b a) /\
  (forall a b : list (V2 S), ls_approx cmp a b = true -> length a = length b) /\
  (forall a b : list (V2 S), ls_approx cmp a b = ls_approx cmp b a).
Proof.
  intros S cmp D Hr Hs. split; [|split; [|split]].
  - intros [[a1 a2] [a3 a4]]; simpl; intros. unfold line_approx; simpl. rewrite !Hr by auto. auto.
  - intros [[a1 a2] [a3 a4]] [[b1 b2] [b3 b4]]. unfold line_approx; simpl.
    rewrite (Hs b1 a1), (Hs b2 a2), (Hs b3 a3), (Hs b4 a4), (Hs b1 a3), (Hs b2 a4), (Hs b3 a1), (Hs b4 a2).
    destruct (cmp a1 b1 && cmp a2 b2)%bool; auto.
    destruct (cmp a1 b3), (cmp a2 b4), (cmp a3 b1), (cmp a4 b2); auto.
  - intros a b H. unfold ls_approx in H. apply andb_prop in H as [H _]. apply Nat.eqb_eq; auto.
  - intros a. induction a as [|x a IH]; intros [|y b]; unfold ls_approx in *; simpl; auto.
    specialize (IH b). rewrite (Hs (vx x)), (Hs (vy x)).
    destruct (cmp (vx y) (vx x) && cmp (vy y) (vy x))%bool; simpl; [exact IH|rewrite !andb_false_r; auto].
Qed.
Print Assumptions C79_approx_lines_refl_sym.
(* with a tolerance the direction is not ignored: refuted *)
Theorem C79_approx_direction_refuted : exists (eps : R) (a b : Line2 RS),
  line_abs_diff_eq (S := RS) eps a b <> line_abs_diff_eq (S := RS) eps a (mkL (lend b) (lstart b)).
Proof.
  exists 1%R, (@mkL RS (@mkV2 RS 0 0) (@mkV2 RS 1 0))%R, (@mkL RS (@mkV2 RS 0 0) (@mkV2 RS (-1) 0))%R.
  unfold line_abs_diff_eq, line_approx. cbn [lstart lend vx vy sabsdiff RS].
  assert (A : forall x, (-1 <= x <= 1)%R -> Rleb (Rabs x) 1 = true).
  { intros x Hx. apply Rleb_true. unfold Rabs; destruct (Rcase_abs x); lra. }
  assert (B : Rleb (Rabs (1 - -1)) 1 = false).
  { apply Rleb_false. rewrite Rabs_right; lra. }
  rewrite B. rewrite !A by lra. simpl. discriminate.
Qed.
Print Assumptions C79_approx_direction_refuted.
(* it is ignored by exact comparison, and by the tolerant one when a line is longer than twice the tolerance
   along some axis *)
Theorem C79_approx_direction_partial :
  (forall (S : Scalar) (cmp : car S -> car S -> bool) (a b : Line2 S), (forall x y, cmp x y = true <-> x = y) ->
     line_approx cmp a b = line_approx cmp a (mkL (lend b) (lstart b))) /\
  (forall (eps : R) (a b : Line2 RS),
     (2 * eps < Rabs (vx (lstart b) - vx (lend b)) \/ 2 * eps < Rabs (vy (lstart b) - vy (lend b)))%R ->
     line_abs_diff_eq (S := RS) eps a b = line_abs_diff_eq (S := RS) eps a (mkL (lend b) (lstart b))).
Proof.
  assert (K : forall (S : Scalar) (cmp : car S -> car S -> bool) (a b : Line2 S),
     ((cmp (vx (lstart a)) (vx (lstart b)) && cmp (vy (lstart a)) (vy (lstart b)))%bool = true ->
      (cmp (vx (lstart a)) (vx (lend b)) && cmp (vy (lstart a)) (vy (lend b)))%bool = true ->
      line_approx cmp a b = line_approx cmp a (mkL (lend b) (lstart b))) ->
     line_approx cmp a b = line_approx cmp a (mkL (lend b) (lstart b))).
  { intros S cmp [[a1 a2] [a3 a4]] [[b1 b2] [b3 b4]]. unfold line_approx; simpl.
    destruct (cmp a1 b1), (cmp a2 b2), (cmp a1 b3), (cmp a2 b4); simpl; auto;
      destruct (cmp a3 b3), (cmp a4 b4), (cmp a3 b1), (cmp a4 b2); simpl; auto. }
  split.
  - intros S cmp a b Hc. apply K. intros H1 H2.
    apply andb_prop in H1 as [H1 H1'], H2 as [H2 H2']. apply Hc in H1, H1', H2, H2'.
    destruct a as [[a1 a2] [a3 a4]], b as [[b1 b2] [b3 b4]]; simpl in *. subst. auto.
  - intros eps a b H. apply K. cbn [sabsdiff RS]. rewrite !andb_true_iff, !Rleb_true. intros [H1 H1'] [H2 H2']. exfalso.
    assert (T : forall x y z, (Rabs (x - y) <= eps -> Rabs (x - z) <= eps -> Rabs (y - z) <= 2 * eps)%R).
    { intros x y z. unfold Rabs. destruct (Rcase_abs (x - y)), (Rcase_abs (x - z)), (Rcase_abs (y - z)); lra. }
    pose proof (T _ _ _ H1 H2). pose proof (T _ _ _ H1' H2'). lra.
Qed.
Print Assumptions C79_approx_direction_partial.
