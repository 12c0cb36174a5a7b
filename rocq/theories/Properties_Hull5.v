(* Convex hulls and point containment under every invertible affine map (C147, C148). Model: Hull.v; vocabulary: HullSpec.v, GeoSpec.v.
   [affine_map p q e s t g] maps (x, y) to (p x + q y + e, s x + t y + g); it is invertible when p t - q s <> 0, and keeps
   left turns left turns when p t - q s > 0. *)
From Coq Require Import Reals Lra Psatz Sorting.Permutation.
From Verif Require Import Prelude Scalar RInst Geo2 GeoSpec DistR HullSpec HullGeo Hull GrahamProofs3 HullUniq ContainProofs HullMisc HullMisc2 HullSim HullAff Properties_Hull Properties_Hull3.
Local Open Scope R_scope.

(* consecutive points of a list *)
Definition steps {A} (l : list A) : list (A * A) := combine l (tl l).
(* the hull vs' of the mapped points against the hull vs of the points: the same corners, mapped; the same number of entries; and
   the same sides, mapped, in the same direction when the map keeps turns and in the opposite direction when it mirrors them *)
Definition mapped_hull (f : pt -> pt) (keeps : Prop) (vs vs' : list pt) : Prop :=
  length vs' = length vs /\ (forall v, In v vs' <-> In v (map f vs)) /\
  (keeps -> forall a b, In (a, b) (steps vs) <-> In (f a, f b) (steps vs')) /\
  (~ keeps -> forall a b, In (a, b) (steps vs) <-> In (f b, f a) (steps vs')).

Lemma steps_edges {A} (v : A) vs : steps (v :: vs ++ [v]) = edges (v :: vs).
Proof.
  unfold steps, edges. cbn [tl]. change (v :: vs ++ [v]) with ((v :: vs) ++ [v]).
  assert (G : forall (l m : list A) x, length l = length m -> combine (l ++ [x]) m = combine l m).
  { induction l as [|y l IH]; intros [|z m] x H; cbn in H; try discriminate; [reflexivity|]. cbn. f_equal. apply IH. lia. }
  apply G. cbn. rewrite app_length. cbn. lia.
Qed.
Lemma seg_flat (a b x y z : pt) : on_segment x a b -> on_segment y a b -> on_segment z a b -> orient x y z = 0.
Proof. intros (i & _ & ->) (j & _ & ->) (k & _ & ->). unfold orient, lerp. cbn. rsimp. ring. Qed.
Lemma result_flat pts r a b c : hull_result pts r -> In a pts -> In b pts -> In c pts -> orient a b c <> 0 ->
  exists v vs, r = v :: vs ++ [v] /\ hull_of pts (v :: vs).
Proof.
  intros [v vs H _|x y _ _ _ H _|x _ H] Ha Hb Hc N; [eauto| |].
  - exfalso. apply N. eapply seg_flat; eauto.
  - exfalso. apply N. rewrite (H a Ha), (H b Hb), (H c Hc). unfold orient. rsimp. ring.
Qed.
Lemma three_of (vs : list pt) : convex_polygon vs -> exists a b c, In a vs /\ In b vs /\ In c vs /\ orient a b c <> 0.
Proof.
  intros (L & N & H). destruct vs as [|a [|b [|c t]]]; cbn in L; try lia. exists a, b, c.
  split; [left; auto|]. split; [right; left; auto|]. split; [right; right; left; auto|].
  assert (G : 0 < orient a b c); [|lra]. apply H; [left; auto|right; right; left; auto| |].
  - inversion_clear N as [|? ? Na _]. intros ->. apply Na. right; left; auto.
  - inversion_clear N as [|? ? _ N']. inversion_clear N' as [|? ? Na _]. intros ->. apply Na. left; auto.
Qed.

Section Maps.
  Variables p q e s t g : R.
  Hypothesis Hd : p * t - q * s <> 0.
  Notation f := (affine_map p q e s t g).
  Notation d := (p * t - q * s).
  Lemma steps_map (vs : list pt) a b : In (a, b) (edges vs) <-> In (f a, f b) (edges (map f vs)).
  Proof.
    rewrite edges_map_in. split; [intros H; exists a, b; auto|]. intros (a' & b' & Ea & Eb & H).
    apply (aff_inj p q e s t g Hd) in Ea, Eb. subst. auto.
  Qed.
  Lemma nodup_same (l m : list pt) : NoDup l -> NoDup m -> (forall v, In v m <-> In v l) -> length m = length l.
  Proof. intros Nl Nm H. apply Nat.le_antisymm; apply NoDup_incl_length; auto; intros v Hv; apply H; auto. Qed.
  Lemma results_map pts r r' : hull_result pts r -> hull_result (map f pts) r' -> mapped_hull f (0 < d) r r'.
  Proof.
    intros H H'. pose proof (aff_result p q e s t g Hd pts r r' H H') as Hin.
    destruct H as [v vs Hh Hl|x y Hxy Hx Hy Hs Hl|x Hx Hall].
    - destruct (three_of _ (proj1 (proj2 Hh))) as (a & b & c & Ha & Hb & Hc & No).
      destruct (result_flat (map f pts) r' (f a) (f b) (f c) H') as (v' & vs' & -> & Hh');
        [apply in_map, (proj1 Hh); auto|apply in_map, (proj1 Hh); auto|apply in_map, (proj1 Hh); auto| |].
      { rewrite aff_orient. apply Rmult_integral_contrapositive_currified; auto. }
      split; [|split; [exact Hin|]].
      + cbn [length]. rewrite !app_length. cbn [length].
        assert (E : length (v' :: vs') = length (map f (v :: vs))).
        { apply nodup_same; [apply FinFun.Injective_map_NoDup; [intros a' b'; apply aff_inj; auto|apply Hh]|apply Hh'|]. intros z. specialize (Hin z).
          assert (X : forall (w z' : pt) ws, In z' (w :: ws ++ [w]) <-> In z' (w :: ws)).
          { intros w z' ws. cbn [In]. rewrite in_app_iff. cbn [In]. tauto. }
          rewrite X in Hin. rewrite Hin. cbn [map]. rewrite map_app. cbn [map]. rewrite X. tauto. }
        rewrite map_length in E. cbn [length] in E. lia.
      + rewrite !steps_edges. split; intros Hk a' b'.
        * pose proof (aff_hull_pos p q e s t g pts (v :: vs) Hk Hh) as Hm. rewrite steps_map. split; intros G; [exact (hull_edges _ _ _ _ Hm Hh' G)|exact (hull_edges _ _ _ _ Hh' Hm G)].
        * assert (Hk' : d < 0) by lra. pose proof (aff_hull_neg p q e s t g pts (v :: vs) Hk' Hh) as Hm. rewrite steps_map, <- edges_rev.
          split; intros G; [exact (hull_edges _ _ _ _ Hm Hh' G)|exact (hull_edges _ _ _ _ Hh' Hm G)].
    - assert (Hi : forall u w, f u = f w -> u = w) by (intros u w; apply aff_inj; auto).
      assert (Hseg : forall z, In z (map f pts) -> on_segment z (f x) (f y) /\ on_segment z (f y) (f x)).
      { intros z Hz. apply in_map_iff in Hz as (w & <- & Hw). destruct (Hs w Hw) as (k & Hk & ->). split; [exists k|exists (1 - k)]; (split; [lra|]);
          unfold affine_map, lerp; cbn; rsimp; apply V2_ext; cbn; ring. }
      destruct H' as [v' vs' Hh' _|x' y' Hxy' Hx' Hy' Hs' Hl'|x' Hx' Hall'].
      + exfalso. destruct (three_of _ (proj1 (proj2 Hh'))) as (a & b & c & Ha & Hb & Hc & No). apply No.
        eapply seg_flat; apply Hseg; apply (proj1 Hh'); auto.
      + split; [reflexivity|]. split; [exact Hin|].
        assert (C : (x' = f x /\ y' = f y) \/ (x' = f y /\ y' = f x)).
        { pose proof (proj1 (Hin x') (or_introl eq_refl)) as A. pose proof (proj1 (Hin y') (or_intror (or_introl eq_refl))) as B. cbn in A, B.
          destruct A as [A|[A|[A|[]]]]; destruct B as [B|[B|[B|[]]]]; subst; try congruence; auto. }
        unfold steps; cbn [tl combine]. assert (D : forall a b : pt, In (a, b) [(x, y); (y, x)] <-> (a = x /\ b = y) \/ (a = y /\ b = x)).
        { intros a b. cbn. split; [intros [E|[E|[]]]; [left|right]; split; congruence|intros [[-> ->]|[-> ->]]; auto]. }
        assert (D' : forall a b : pt, In (f a, f b) [(x', y'); (y', x')] <-> (a = x /\ b = y) \/ (a = y /\ b = x)).
        { intros a b. cbn. split.
          - intros H. assert (K : (f a = f x /\ f b = f y) \/ (f a = f y /\ f b = f x)) by (destruct C as [[-> ->]|[-> ->]]; destruct H as [H|[H|[]]]; [left|right|right|left]; split; congruence).
            destruct K as [[K1 K2]|[K1 K2]]; apply Hi in K1, K2; auto.
          - intros [[-> ->]|[-> ->]]; destruct C as [[-> ->]|[-> ->]]; auto. }
        split; intros _ a b; rewrite D, D'; tauto.
      + exfalso. apply Hxy, Hi. rewrite (Hall' (f x)), (Hall' (f y)); auto; apply in_map; auto.
    - assert (Hall' : forall z, In z (map f pts) -> z = f x) by (intros z Hz; apply in_map_iff in Hz as (w & <- & Hw); f_equal; auto).
      assert (E : r' = [f x]) by (eapply hull_result_unique; [exact H'|]; apply hull_point; [apply in_map; auto|auto]). subst r'.
      split; [reflexivity|]. split; [cbn; tauto|]. cbn. tauto.
  Qed.
End Maps.

(* ---- C147 ---- *)
Theorem C147_hull_affine : forall p q e s t g (pts : list pt) r r', p * t - q * s <> 0 -> enough pts ->
  graham_scan pts r -> graham_scan (map (affine_map p q e s t g) pts) r' ->
  exists vs vs', r = Val vs /\ r' = Val vs' /\ mapped_hull (affine_map p q e s t g) (0 < p * t - q * s) vs vs'.
Proof.
  intros p q e s t g pts r r' Hd He H H'. destruct (C46_graham_scan_is_hull pts r He H) as (vs & -> & Hv).
  destruct (C46_graham_scan_is_hull (map (affine_map p q e s t g) pts) r') as (vs' & -> & Hv'); auto.
  - apply enough_map; auto. intros x y. apply aff_inj; auto.
  - exists vs, vs'. split; auto. split; auto. eapply results_map; eauto.
Qed.
Print Assumptions C147_hull_affine.
Theorem C147_gift_wrap_affine : forall p q e s t g fuel (pts opn : list pt), p * t - q * s <> 0 -> ring_of pts opn -> NoDup opn -> (4 <= length opn)%nat ->
  (length pts <= fuel)%nat ->
  exists vs vs', gift_wrap fuel pts = Val vs /\ gift_wrap fuel (map (affine_map p q e s t g) pts) = Val vs' /\
    mapped_hull (affine_map p q e s t g) (0 < p * t - q * s) vs vs'.
Proof.
  intros p q e s t g fuel pts opn Hd Hr Hn Hl Hf. set (f := affine_map p q e s t g).
  assert (Hinj : forall x y, f x = f y -> x = y) by (intros x y; apply aff_inj; auto).
  destruct (C51_gift_wrap_is_hull fuel pts opn Hr Hn Hl Hf) as (vs & E & Hv).
  destruct (C51_gift_wrap_is_hull fuel (map f pts) (map f opn)) as (vs' & E' & Hv').
  - destruct Hr as [->|(x & m & -> & ->)]; [left; auto|]. right. exists (f x), (map f m). split; auto. cbn. rewrite map_app. auto.
  - apply FinFun.Injective_map_NoDup; auto.
  - rewrite map_length. auto.
  - rewrite map_length. auto.
  - exists vs, vs'. split; auto. split; auto. eapply results_map; eauto.
Qed.
Print Assumptions C147_gift_wrap_affine.
(* a quarter turn followed by a shift, and a mirror, are such maps, and the square has enough points *)
Example C147_turned : enough square /\ 0 * 0 - (-1) * 1 <> 0 /\ 0 < 0 * 0 - (-1) * 1 /\ (-1) * 1 - 0 * 0 <> 0 /\ ~ 0 < (-1) * 1 - 0 * 0 /\
  map (affine_map 0 (-1) 5 1 0 0) [at_ 0 0; at_ 2 0; at_ 2 3] = [at_ 5 0; at_ 5 2; at_ 2 2].
Proof.
  split; [apply C46_input|]. split; [lra|]. split; [lra|]. split; [lra|]. split; [lra|]. cbn [map].
  replace (affine_map 0 (-1) 5 1 0 0 (at_ 0 0)) with (at_ 5 0) by (unfold affine_map; apply V2_ext; cbn; lra).
  replace (affine_map 0 (-1) 5 1 0 0 (at_ 2 0)) with (at_ 5 2) by (unfold affine_map; apply V2_ext; cbn; lra).
  replace (affine_map 0 (-1) 5 1 0 0 (at_ 2 3)) with (at_ 2 2) by (unfold affine_map; apply V2_ext; cbn; lra). reflexivity.
Qed.

(* ---- C148 ---- *)
Lemma bool_iff (b c : bool) : (b = true <-> c = true) -> b = c.
Proof. destruct b, c; intros [H1 H2]; try reflexivity; [symmetry; apply H1|apply H2]; reflexivity. Qed.
Section Turns.
  Variables p q e s t g : R.
  Hypothesis Hk : 0 < p * t - q * s.
  Notation f := (affine_map p q e s t g).
  Lemma map_veqb (a b : pt) : veqb (f a) (f b) = veqb a b.
  Proof. apply bool_iff. rewrite !veqb_R. split; [apply aff_inj; lra|congruence]. Qed.
  Lemma map_left (a b c : pt) : is_point_left (f a) (f b) (f c) = is_point_left a b c.
  Proof.
    apply bool_iff. rewrite !left_R, aff_orient. split; intros H; [|apply Rmult_lt_0_compat; auto].
    apply (Rmult_lt_reg_l (p * t - q * s)); auto. rewrite Rmult_0_r. auto.
  Qed.
  Lemma map_leftc (a b c : pt) : is_point_left_allow_collinear (f a) (f b) (f c) = is_point_left_allow_collinear a b c.
  Proof.
    apply bool_iff. rewrite !left_c_R, aff_orient. split; intros H; [|apply Rmult_le_pos; auto; lra].
    apply (Rmult_le_reg_l (p * t - q * s)); auto. rewrite Rmult_0_r. auto.
  Qed.
End Turns.
Lemma all_true {A} (l : list A) : Forall (fun _ => True) l.
Proof. induction l; auto. Qed.
(* maps that keep turns: no condition on the list at all *)
Theorem C148_contains_affine : forall p q e s t g (l m : list pt) (x : pt), 0 < p * t - q * s ->
  let f := affine_map p q e s t g in
  contains_point_inclusive (map f l) (f x) = contains_point_inclusive l x /\
  contains_point_exclusive (map f l) (f x) = contains_point_exclusive l x /\
  ls_contains_inclusive (map f l) (f x) = ls_contains_inclusive l x /\
  ls_contains_exclusive (map f l) (f x) = ls_contains_exclusive l x /\
  contains_convex_hull (map f l) (map f m) = contains_convex_hull l m.
Proof.
  intros p q e s t g l m x Hk f.
  assert (Q := fun (a b : pt) (_ _ : True) => map_veqb p q e s t g Hk a b).
  assert (L := fun (a b c : pt) (_ _ _ : True) => map_left p q e s t g Hk a b c).
  assert (C := fun (a b c : pt) (_ _ _ : True) => map_leftc p q e s t g Hk a b c).
  split; [apply (sim_inclusive f (fun _ => True)); auto using all_true|].
  split; [apply (sim_exclusive f (fun _ => True)); auto using all_true|].
  split; [apply (sim_ls_inclusive f (fun _ => True)); auto using all_true|].
  split; [apply (sim_ls_exclusive f (fun _ => True)); auto using all_true|].
  apply (sim_hull_in_hull f (fun _ => True)); auto using all_true.
Qed.
Print Assumptions C148_contains_affine.
(* every invertible map: the hull of the mapped points contains the mapped point exactly when the hull contains the point *)
Theorem C148_hull_contains_affine : forall p q e s t g (pts vs vs' : list pt) (x : pt), p * t - q * s <> 0 -> enough pts ->
  (exists a b c, In a pts /\ In b pts /\ In c pts /\ orient a b c <> 0) ->
  graham_scan pts (Val vs) -> graham_scan (map (affine_map p q e s t g) pts) (Val vs') ->
  exists r, ls_contains_inclusive vs x = Val r /\ ls_contains_inclusive vs' (affine_map p q e s t g x) = Val r /\
    contains_point_inclusive vs x = Val r /\ contains_point_inclusive vs' (affine_map p q e s t g x) = Val r.
Proof.
  intros p q e s t g pts vs vs' x Hd He (a & b & c & Ha & Hb & Hc & Ho) H H'.
  destruct (C46_graham_scan_is_hull _ _ He H) as (ws & E & Hv). injection E as <-.
  destruct (C46_graham_scan_is_hull (map (affine_map p q e s t g) pts) (Val vs')) as (ws' & E' & Hv'); auto.
  { apply enough_map; auto. intros u w. apply aff_inj; auto. }
  injection E' as <-. pose proof (aff_result p q e s t g Hd _ _ _ Hv Hv') as Hin.
  destruct (result_flat _ _ _ _ _ Hv Ha Hb Hc Ho) as (v & us & -> & Hh).
  destruct (result_flat (map (affine_map p q e s t g) pts) vs' (affine_map p q e s t g a) (affine_map p q e s t g b) (affine_map p q e s t g c) Hv') as (v' & us' & -> & Hh');
    [apply in_map; auto|apply in_map; auto|apply in_map; auto| |].
  { rewrite aff_orient. apply Rmult_integral_contrapositive_currified; auto. }
  assert (Rg : forall w ws, ring_of (w :: ws ++ [w]) (w :: ws : list pt)) by (intros w ws; right; exists w, ws; split; reflexivity).
  destruct (inclusive_spec (v :: us) (v :: us ++ [v]) x (proj1 (proj2 Hh)) (Rg v us)) as (r & E1 & S1).
  destruct (inclusive_spec (v' :: us') (v' :: us' ++ [v']) (affine_map p q e s t g x) (proj1 (proj2 Hh')) (Rg v' us')) as (r' & E2 & S2).
  assert (Er : r' = r).
  { apply bool_iff. rewrite S1, S2. apply aff_inside; auto; [apply Hh|apply Hh'|].
    assert (X : forall (w z : pt) ws, In z (w :: ws ++ [w]) <-> In z (w :: ws)) by (intros w z ws; cbn [In]; rewrite in_app_iff; cbn [In]; tauto).
    intros z. specialize (Hin z). rewrite X in Hin. rewrite Hin. cbn [map]. rewrite map_app. cbn [map]. rewrite X. tauto. }
  subst r'. assert (Ec : forall (w : pt) ws, is_connected (w :: ws ++ [w]) = true) by (intros w ws; unfold is_connected; rewrite last_cons_snoc; apply veqb_R; auto).
  exists r. unfold ls_contains_inclusive. rewrite !Ec. auto.
Qed.
Print Assumptions C148_hull_contains_affine.
(* where the outline starts, and whether it is closed, does not matter to the inclusive answer *)
Theorem C148_any_start : forall (l m : list pt) (i1 i2 : list pt) (x : pt), convex_polygon (l ++ m) ->
  ring_of i1 (l ++ m) -> ring_of i2 (m ++ l) -> contains_point_inclusive i2 x = contains_point_inclusive i1 x.
Proof.
  intros l m i1 i2 x Hc R1 R2.
  assert (G : forall l m : list pt, convex_polygon (l ++ m) -> convex_polygon (m ++ l) /\ (inside (m ++ l) x <-> inside (l ++ m) x)).
  { clear. induction l as [|v l IH]; intros m H; [rewrite app_nil_r; auto; tauto|]. cbn [app] in H.
    assert (N : l ++ m <> []) by (intros E; rewrite E in H; destruct H as [L _]; cbn in L; lia).
    pose proof (convex_rotate v (l ++ m) H) as H1. pose proof (inside_rotate v (l ++ m) x N) as I1.
    rewrite <- app_assoc in H1, I1. destruct (IH (m ++ [v]) H1) as [A B]. rewrite <- app_assoc in A, B. cbn [app] in A, B.
    split; [exact A|]. cbn [app]. tauto. }
  destruct (G l m Hc) as [Hc' Hi].
  destruct (inclusive_spec _ _ x Hc R1) as (r1 & -> & S1). destruct (inclusive_spec _ _ x Hc' R2) as (r2 & -> & S2).
  f_equal. apply bool_iff. rewrite S1, S2. exact Hi.
Qed.
Print Assumptions C148_any_start.
(* the unit-by-two rectangle and a point inside: a convex outline listed from two different corners, one of them closed *)
Example C148_two_starts : convex_polygon ([at_ 0 0; at_ 2 0] ++ [at_ 2 3; at_ 0 3]) /\
  ring_of [at_ 0 0; at_ 2 0; at_ 2 3; at_ 0 3] ([at_ 0 0; at_ 2 0] ++ [at_ 2 3; at_ 0 3]) /\
  ring_of [at_ 2 3; at_ 0 3; at_ 0 0; at_ 2 0; at_ 2 3] ([at_ 2 3; at_ 0 3] ++ [at_ 0 0; at_ 2 0]) /\
  inside ([at_ 0 0; at_ 2 0] ++ [at_ 2 3; at_ 0 3]) (at_ 1 1).
Proof.
  destruct (C23_aabb_outline (at_ 0 0) (at_ 2 3) (at_ 1 1)) as (o & _ & _ & _ & Hc & _); [cbn; lra|cbn; lra|].
  split; [exact Hc|]. split; [left; reflexivity|]. split; [right; eexists; eexists; split; reflexivity|].
  intros a b H. cbn in H. destruct H as [H|[H|[H|[H|[]]]]]; injection H as <- <-; unfold orient; cbn; lra.
Qed.
