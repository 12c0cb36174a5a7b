(* Convex hulls and containment under all invertible affine maps: the corners are the exposed points, insideness is an
   intersection of half planes. *)
From Coq Require Import Reals Lra Psatz.
From Verif Require Import Prelude Scalar RInst Geo2 GeoSpec DistR HullSpec HullGeo Hull GrahamProofs GrahamProofs2 GrahamProofs3 HullUniq ContainProofs HullMisc2.
Local Open Scope R_scope.

Definition exposed (pts : list pt) (v : pt) : Prop :=
  exists u w : R, forall q, In q pts -> q <> v -> 0 < u * (vx q - vx v) + w * (vy q - vy v).

Lemma orient_lin (a b q : pt) : orient a b q = (vx b - vx a) * (vy q - vy a) - (vy b - vy a) * (vx q - vx a).
Proof. unfold orient. ring. Qed.
Lemma two_lines (z b c q : pt) : 0 < orient z b c -> orient z b q = 0 -> orient b c q = 0 -> q = b.
Proof.
  destruct z as [zx zy], b as [bx by_], c as [cx cy], q as [qx qy]. unfold orient; cbn [vx vy]. intros H E1 E2.
  set (D := (bx - zx) * (cy - zy) - (by_ - zy) * (cx - zx)) in *.
  assert (X : D * (qx - bx) = 0).
  { unfold D. replace (((bx - zx) * (cy - zy) - (by_ - zy) * (cx - zx)) * (qx - bx)) with
      ((cx - bx) * ((bx - zx) * (qy - zy) - (by_ - zy) * (qx - zx)) - (bx - zx) * ((cx - bx) * (qy - by_) - (cy - by_) * (qx - bx))) by ring. rewrite E1, E2. ring. }
  assert (Y : D * (qy - by_) = 0).
  { unfold D. replace (((bx - zx) * (cy - zy) - (by_ - zy) * (cx - zx)) * (qy - by_)) with
      ((cy - by_) * ((bx - zx) * (qy - zy) - (by_ - zy) * (qx - zx)) - (by_ - zy) * ((cx - bx) * (qy - by_) - (cy - by_) * (qx - bx))) by ring. rewrite E1, E2. ring. }
  apply Rmult_integral in X, Y. apply V2_ext; cbn; lra.
Qed.
Lemma sumsq_pos (x y : R) : ~ (x = 0 /\ y = 0) -> 0 < x * x + y * y.
Proof.
  intros H. pose proof (Rle_0_sqr x) as X. pose proof (Rle_0_sqr y) as Y. unfold Rsqr in X, Y.
  destruct (Req_dec x 0) as [Ex|Nx]; [destruct (Req_dec y 0) as [Ey|Ny]; [tauto|]; pose proof (Rsqr_pos_lt y Ny) as Z|pose proof (Rsqr_pos_lt x Nx) as Z]; unfold Rsqr in Z; lra.
Qed.
Lemma hull_exposed pts vs v : hull_of pts vs -> In v vs -> In v pts /\ exposed pts v.
Proof.
  intros (Hi & Hc & Hin) Hv. split; [auto|].
  destruct (prev_edge vs v Hv) as (z & Hz). destruct (next_edge vs v Hv) as (c & Hn).
  pose proof (convex_next _ _ _ _ Hc Hz Hn) as Ht.
  exists (- (vy v - vy z) - (vy c - vy v)), ((vx v - vx z) + (vx c - vx v)). intros q Hq Hne.
  assert (A : 0 <= orient z v q) by (apply (Hin q Hq); auto). assert (B : 0 <= orient v c q) by (apply (Hin q Hq); auto).
  replace ((- (vy v - vy z) - (vy c - vy v)) * (vx q - vx v) + (vx v - vx z + (vx c - vx v)) * (vy q - vy v)) with (orient z v q + orient v c q) by (unfold orient; ring).
  destruct (Rle_lt_or_eq_dec 0 _ A) as [A'|A']; [lra|]. destruct (Rle_lt_or_eq_dec 0 _ B) as [B'|B']; [lra|].
  exfalso. apply Hne. eapply two_lines; eauto.
Qed.
(* the half plane where u dx + w dy is at least m *)
Lemma half_plane (u w m : R) (v : pt) : 0 < u * u + w * w -> exists a b : pt, forall q, orient a b q = u * (vx q - vx v) + w * (vy q - vy v) - m.
Proof.
  intros H. set (k := m / (u * u + w * w)). exists (@mkV2 RS (vx v + k * u) (vy v + k * w)), (@mkV2 RS (vx v + k * u + w) (vy v + k * w - u)).
  intros q. unfold orient; cbn [vx vy]. rsimp.
  transitivity (u * (vx q - vx v) + w * (vy q - vy v) - k * (u * u + w * w)); [ring|].
  unfold k. replace (m / (u * u + w * w) * (u * u + w * w)) with m by (field; lra). reflexivity.
Qed.
Lemma least (g : pt -> R) (l : list pt) : l <> [] -> (forall q, In q l -> 0 < g q) -> exists m, 0 < m /\ forall q, In q l -> m <= g q.
Proof.
  induction l as [|x l IH]; [congruence|]. intros _ H. destruct l as [|y l].
  - exists (g x). split; [apply H; left; auto|]. intros q [<-|[]]. lra.
  - destruct IH as (m & Hm & Hl); [congruence|intros; apply H; right; auto|]. exists (Rmin m (g x)). split.
    + apply Rmin_glb_lt; auto. apply H; left; auto.
    + intros q [<-|Hq]; [apply Rmin_r|]. eapply Rle_trans; [apply Rmin_l|auto].
Qed.
Lemma exposed_hull pts vs v : hull_of pts vs -> In v pts -> exposed pts v -> In v vs.
Proof.
  intros (Hi & Hc & Hin) Hv (u & w & He). destruct (in_dec pt_dec v vs) as [|Hn]; auto. exfalso.
  destruct vs as [|x vs]; [destruct Hc as [L _]; cbn in L; lia|].
  destruct (least (fun q => u * (vx q - vx v) + w * (vy q - vy v)) (x :: vs)) as (m & Hm & Hl); [congruence| |].
  { intros q Hq. apply He; auto. intros ->. auto. }
  assert (P : 0 < u * u + w * w).
  { assert (X : 0 < u * (vx x - vx v) + w * (vy x - vy v)) by (apply He; [apply Hi; left; auto|intros ->; apply Hn; left; auto]).
    apply sumsq_pos. intros [E1 E2]. rewrite E1, E2 in X. replace (0 * (vx x - vx v) + 0 * (vy x - vy v)) with 0 in X by rring. lra. }
  destruct (half_plane u w m v P) as (a & b & Hab).
  assert (C : 0 <= orient a b v) by (apply (inside_minimal (x :: vs)); auto; intros q Hq; rewrite Hab; specialize (Hl q Hq); cbv beta in Hl; lra).
  rewrite Hab in C. replace (u * (vx v - vx v) + w * (vy v - vy v) - m) with (- m) in C by ring. lra.
Qed.
Lemma lerp_mid (a b : pt) t : vx (lerp a b t) = vx a + t * (vx b - vx a) /\ vy (lerp a b t) = vy a + t * (vy b - vy a).
Proof. unfold lerp. cbn. split; ring. Qed.
Lemma segment_exposed pts (a b : pt) : a <> b -> In a pts -> In b pts -> (forall p, In p pts -> on_segment p a b) -> forall v, In v pts -> exposed pts v <-> v = a \/ v = b.
Proof.
  intros Hab Ha Hb Hs.
  assert (Hd : 0 < (vx b - vx a) * (vx b - vx a) + (vy b - vy a) * (vy b - vy a)).
  { apply sumsq_pos. intros [X Y]. apply Hab. apply V2_ext; symmetry; apply Rminus_diag_uniq; auto. }
  intros v Hv. split.
  - intros (u & w & H). destruct (pt_dec v a) as [|Na]; auto. destruct (pt_dec v b) as [|Nb]; auto. exfalso.
    destruct (Hs v Hv) as (t & Ht & E). pose proof (H a Ha ltac:(auto)) as X. pose proof (H b Hb ltac:(auto)) as Y.
    destruct (lerp_mid a b t) as [E1 E2]. rewrite <- E in E1, E2. rewrite E1, E2 in X, Y.
    set (g := u * (vx b - vx a) + w * (vy b - vy a)) in *.
    assert (X' : 0 < - t * g) by (unfold g; eapply Rlt_le_trans; [exact X|right; ring]).
    assert (Y' : 0 < (1 - t) * g) by (unfold g; eapply Rlt_le_trans; [exact Y|right; ring]).
    destruct (Rle_lt_dec g 0); nra.
  - assert (G : forall s : R, (s = 1 \/ s = -1) -> forall v0, (s = 1 /\ v0 = a) \/ (s = -1 /\ v0 = b) -> exposed pts v0).
    { intros s _ v0 Hc. exists (s * (vx b - vx a)), (s * (vy b - vy a)). intros q Hq Hne. destruct (Hs q Hq) as (t & Ht & E). destruct (lerp_mid a b t) as [E1 E2]. rewrite <- E in E1, E2.
      rewrite E1, E2. destruct Hc as [[-> ->]|[-> ->]].
      - assert (t <> 0). { intros ->. apply Hne. rewrite E. unfold lerp. apply V2_ext; cbn; ring. }
        replace (_ + _) with (t * ((vx b - vx a) * (vx b - vx a) + (vy b - vy a) * (vy b - vy a))) by ring. apply Rmult_lt_0_compat; lra.
      - assert (t <> 1). { intros ->. apply Hne. rewrite E. unfold lerp. apply V2_ext; cbn; ring. }
        replace (_ + _) with ((1 - t) * ((vx b - vx a) * (vx b - vx a) + (vy b - vy a) * (vy b - vy a))) by ring. apply Rmult_lt_0_compat; lra. }
    intros [-> | ->]; [apply (G 1); auto|apply (G (-1)); auto].
Qed.
(* whatever the shape of the result, it lists the exposed points *)
Theorem result_exposed pts r : hull_result pts r -> forall v, In v r <-> In v pts /\ exposed pts v.
Proof.
  intros [v0 vs Hh Hl|a b Hab Ha Hb Hs Hl|a Ha Hall] v.
  - transitivity (In v (v0 :: vs)).
    + cbn. rewrite in_app_iff. cbn. tauto.
    + split; [apply hull_exposed; auto|intros [H1 H2]; eapply exposed_hull; eauto].
  - pose proof (segment_exposed pts a b Hab Ha Hb Hs v) as X. split.
    + intros [<-|[<-|[<-|[]]]]; split; auto; apply (segment_exposed pts a b Hab Ha Hb Hs); auto.
    + intros [H1 H2]. apply X in H2; auto. destruct H2 as [-> | ->]; cbn; auto.
  - split.
    + intros [<-|[]]. split; auto. exists 0, 0. intros q Hq Hne. exfalso. apply Hne. auto.
    + intros [H _]. rewrite (Hall v H). left; auto.
Qed.

(* ---- affine maps ---- *)
(* (x, y) |-> (p x + q y + e, s x + t y + g) *)
Definition affine_map (p q e s t g : R) (v : pt) : pt := @mkV2 RS (p * vx v + q * vy v + e) (s * vx v + t * vy v + g).
Section Aff.
  Variables p q e s t g : R.
  Notation f := (affine_map p q e s t g).
  Notation det := (p * t - q * s).
  Lemma aff_orient a b c : orient (f a) (f b) (f c) = det * orient a b c.
  Proof. unfold orient, affine_map. cbn. ring. Qed.
  Hypothesis Hd : det <> 0.
  Lemma aff_inj a b : f a = f b -> a = b.
  Proof.
    destruct a as [ax ay], b as [bx by_]. unfold affine_map. cbn. intros H. injection H as H1 H2.
    assert (X : det * (ax - bx) = 0) by (replace (det * (ax - bx)) with (t * ((p * ax + q * ay + e) - (p * bx + q * by_ + e)) - q * ((s * ax + t * ay + g) - (s * bx + t * by_ + g))) by ring; rewrite H1, H2; ring).
    assert (Y : det * (ay - by_) = 0) by (replace (det * (ay - by_)) with (p * ((s * ax + t * ay + g) - (s * bx + t * by_ + g)) - s * ((p * ax + q * ay + e) - (p * bx + q * by_ + e))) by ring; rewrite H1, H2; ring).
    apply Rmult_integral in X, Y. apply V2_ext; cbn; lra.
  Qed.
  Lemma aff_onto y : exists x, f x = y.
  Proof.
    exists (@mkV2 RS ((t * (vx y - e) - q * (vy y - g)) / det) ((p * (vy y - g) - s * (vx y - e)) / det)).
    unfold affine_map. apply V2_ext; cbn; field; auto.
  Qed.
  Lemma aff_exposed pts v : exposed pts v <-> exposed (map f pts) (f v).
  Proof.
    split; intros (u & w & H).
    - exists ((u * t - w * s) / det), ((w * p - u * q) / det). intros x Hx Hne. apply in_map_iff in Hx as (x' & <- & Hx).
      specialize (H x' Hx ltac:(intros ->; auto)). unfold affine_map; cbn. eapply Rlt_le_trans; [exact H|]. right. field. auto.
    - exists (u * p + w * s), (u * q + w * t). intros x Hx Hne.
      specialize (H (f x) (in_map f pts x Hx) ltac:(intros E; apply Hne, aff_inj, E)). unfold affine_map in H; cbn in H. eapply Rlt_le_trans; [exact H|]. right. ring.
  Qed.
  Lemma aff_result pts r r' : hull_result pts r -> hull_result (map f pts) r' -> forall v, In v r' <-> In v (map f r).
  Proof.
    intros H H' v. rewrite (result_exposed _ _ H' v), !in_map_iff. split.
    - intros [(x & <- & Hx) He]. exists x. split; auto. apply (result_exposed _ _ H). split; auto. apply aff_exposed; auto.
    - intros (x & <- & Hx). apply (result_exposed _ _ H) in Hx as [Hx He]. split; [exists x; auto|]. apply -> aff_exposed; auto.
  Qed.
  (* insideness only depends on the set of corners *)
  Lemma inside_half_planes vs x : convex_polygon vs -> (inside vs x <-> forall a b, (forall v, In v vs -> 0 <= orient a b v) -> 0 <= orient a b x).
  Proof.
    intros Hc. split.
    - intros Hin a b Hv. eapply inside_minimal; eauto.
    - intros H a b He. apply H. intros v Hv. apply (polygon_left vs); auto.
  Qed.
  Lemma aff_inside vs vs' x : convex_polygon vs -> convex_polygon vs' -> (forall v, In v vs' <-> In v (map f vs)) -> (inside vs' (f x) <-> inside vs x).
  Proof.
    intros Hc Hc' Hset. rewrite !inside_half_planes by auto. split; intros H a b Hv.
    - destruct (Rlt_le_dec 0 det) as [P|N].
      + assert (0 <= orient (f a) (f b) (f x)).
        { apply H. intros v Hv'. apply Hset, in_map_iff in Hv' as (y & <- & Hy). rewrite aff_orient. specialize (Hv y Hy). nra. }
        rewrite aff_orient in H0. nra.
      + assert (0 <= orient (f b) (f a) (f x)).
        { apply H. intros v Hv'. apply Hset, in_map_iff in Hv' as (y & <- & Hy). rewrite aff_orient. specialize (Hv y Hy). pose proof (orient_swap a b y). nra. }
        rewrite aff_orient in H0. pose proof (orient_swap a b x). nra.
    - destruct (aff_onto a) as (a' & <-). destruct (aff_onto b) as (b' & <-). rewrite aff_orient. destruct (Rlt_le_dec 0 det) as [P|N].
      + assert (0 <= orient a' b' x); [|nra]. apply H. intros v Hv'. specialize (Hv (f v) ltac:(apply Hset; apply in_map; auto)). rewrite aff_orient in Hv. nra.
      + assert (0 <= orient b' a' x); [|pose proof (orient_swap a' b' x); nra]. apply H. intros v Hv'. specialize (Hv (f v) ltac:(apply Hset; apply in_map; auto)). rewrite aff_orient in Hv. pose proof (orient_swap a' b' v). nra.
  Qed.
End Aff.

(* ---- edges ---- *)
Lemma hull_edges pts vs1 vs2 e : hull_of pts vs1 -> hull_of pts vs2 -> In e (edges vs1) -> In e (edges vs2).
Proof.
  intros H1 H2 He. destruct e as [a b]. destruct (edges_In_vs _ _ _ He) as [Ha _].
  destruct (hull_exposed _ _ _ H1 Ha) as [Hp Hx]. pose proof (exposed_hull _ _ _ H2 Hp Hx) as Ha2.
  destruct (next_edge vs2 a Ha2) as (b2 & He2). rewrite (next_unique pts vs1 vs2 a b b2 H1 H2 He He2). exact He2.
Qed.
Lemma edges_rev1 {A} (l : list A) a b : In (a, b) (edges l) -> In (b, a) (edges (rev l)).
Proof.
  destruct l as [|v t]; [intros []|]. intros H. apply edges_In in H as [(X & Y & E)|[-> ->]].
  - rewrite E. assert (K : rev (X ++ a :: b :: Y) = rev Y ++ b :: a :: rev X) by (rewrite rev_app_distr; cbn [rev]; repeat (rewrite <- app_assoc; cbn [app]); reflexivity).
    rewrite K. destruct (rev Y ++ b :: a :: rev X) as [|w u] eqn:F; [destruct (rev Y); discriminate|]. eapply edges_adj. rewrite <- F. reflexivity.
  - destruct t as [|u t]; [left; reflexivity|]. destruct (@exists_last _ (u :: t)) as (m & z & E); [congruence|]. rewrite E.
    replace (last (v :: m ++ [z]) v) with z by (change (v :: m ++ [z]) with ((v :: m) ++ [z]); rewrite last_last; reflexivity).
    cbn [rev]. rewrite rev_app_distr. cbn [rev app]. pose proof (edges_close (rev m ++ [v]) z) as K. 
    change (z :: rev m ++ [v]) with ((z :: rev m) ++ [v]) in K at 1. rewrite last_last in K. exact K.
Qed.
Lemma edges_rev {A} (l : list A) a b : In (a, b) (edges (rev l)) <-> In (b, a) (edges l).
Proof. split; intros H; apply edges_rev1 in H; [rewrite rev_involutive in H|]; exact H. Qed.
Lemma edges_map_in {A B} (h : A -> B) vs x y : In (x, y) (edges (map h vs)) <-> exists a b, x = h a /\ y = h b /\ In (a, b) (edges vs).
Proof.
  assert (E : edges (map h vs) = map (fun e => (h (fst e), h (snd e))) (edges vs)).
  { destruct vs as [|v t]; [reflexivity|]. unfold edges. cbn [map].
    assert (G : forall l m, combine (map h l) (map h m) = map (fun e => (h (fst e), h (snd e))) (combine l m)) by (induction l as [|? l IH]; intros [|? m]; cbn; congruence).
    replace (map h t ++ [h v]) with (map h (t ++ [v])) by (rewrite map_app; reflexivity). exact (G (v :: t) (t ++ [v])). }
  rewrite E, in_map_iff. split.
  - intros ([a b] & Ee & H). injection Ee as <- <-. exists a, b. auto.
  - intros (a & b & -> & -> & H). exists (a, b). auto.
Qed.
Section Aff2.
  Variables p q e s t g : R.
  Notation f := (affine_map p q e s t g).
  Notation det := (p * t - q * s).
  Lemma aff_hull_pos pts vs : 0 < det -> hull_of pts vs -> hull_of (map f pts) (map f vs).
  Proof.
    intros Hd (Hi & (Hl & Hn & Hs) & Hin). split; [|split; [split; [|split]|]].
    - intros x Hx. apply in_map_iff in Hx as (y & <- & Hy). apply in_map. auto.
    - rewrite map_length. auto.
    - apply FinFun.Injective_map_NoDup; auto. intros x y. apply aff_inj. lra.
    - intros a b c He Hc Ha Hb. apply edges_map_in in He as (a' & b' & -> & -> & He). apply in_map_iff in Hc as (c' & <- & Hc).
      rewrite aff_orient. apply Rmult_lt_0_compat; auto. apply Hs; auto; congruence.
    - intros x Hx a b He. apply in_map_iff in Hx as (x' & <- & Hx). apply edges_map_in in He as (a' & b' & -> & -> & He).
      rewrite aff_orient. apply Rmult_le_pos; [lra|]. apply (Hin x' Hx); auto.
  Qed.
  Lemma aff_hull_neg pts vs : det < 0 -> hull_of pts vs -> hull_of (map f pts) (rev (map f vs)).
  Proof.
    intros Hd (Hi & (Hl & Hn & Hs) & Hin). split; [|split; [split; [|split]|]].
    - intros x Hx. apply in_rev in Hx. apply in_map_iff in Hx as (y & <- & Hy). apply in_map. auto.
    - rewrite rev_length, map_length. auto.
    - apply NoDup_rev. apply FinFun.Injective_map_NoDup; auto. intros x y. apply aff_inj. lra.
    - intros a b c He Hc Ha Hb. apply (proj1 (edges_rev _ _ _)) in He. apply edges_map_in in He as (b' & a' & -> & -> & He). apply in_rev in Hc. apply in_map_iff in Hc as (c' & <- & Hc).
      rewrite aff_orient. pose proof (Hs b' a' c' He Hc ltac:(congruence) ltac:(congruence)) as K. pose proof (orient_swap a' b' c'). nra.
    - intros x Hx a b He. apply in_map_iff in Hx as (x' & <- & Hx). apply (proj1 (edges_rev _ _ _)) in He. apply edges_map_in in He as (b' & a' & -> & -> & He).
      rewrite aff_orient. pose proof (Hin x' Hx b' a' He) as K. pose proof (orient_swap a' b' x'). nra.
  Qed.
End Aff2.
