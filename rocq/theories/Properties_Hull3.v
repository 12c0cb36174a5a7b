(* Convex hulls of moved, extended and repeated inputs (C111 - C114). Model: Hull.v; vocabulary: HullSpec.v, GeoSpec.v. *)
From Coq Require Import Reals Lra Psatz Sorting.Permutation.
From Verif Require Import Prelude Scalar RInst Geo2 GeoSpec DistR HullSpec HullGeo Hull HullAny GrahamProofs GrahamProofs2 GrahamProofs3 HullUniq GiftProofs GiftProofs2 IndexedProofs WoProofs ContainProofs ContainExact HullMisc HullMisc2 Properties_Hull.
Local Open Scope R_scope.

(* ---- C111: moving, scaling and shearing upwards ---- *)
(* (x, y) |-> (a x + e, c x + d y + g) *)
Definition shear (a c d e g : R) (p : pt) : pt := @mkV2 RS (a * vx p + e) (c * vx p + d * vy p + g).
Section Shear.
  Variables a c d e g : R.
  Hypothesis Ha : 0 < a.
  Hypothesis Hd : 0 < d.
  Notation f := (shear a c d e g).
  Lemma shear_orient p q r : orient (f p) (f q) (f r) = a * d * orient p q r.
  Proof. unfold orient, shear. cbn. ring. Qed.
  Lemma shear_inj p q : f p = f q -> p = q.
  Proof.
    destruct p as [px py], q as [qx qy]. unfold shear. cbn. intros H. injection H as H1 H2. assert (E1 : px = qx) by nra. subst qx.
    assert (E2 : py = qy) by nra. subst. reflexivity.
  Qed.
  Lemma shear_lex p q : lex_le p q -> lex_le (f p) (f q).
  Proof.
    unfold lex_le, shear. cbn. intros [H|[H1 H2]]; [left; nra|right]. rewrite H1. split; [auto|nra].
  Qed.
  Lemma shear_lerp p q t : f (lerp p q t) = lerp (f p) (f q) t.
  Proof. unfold shear, lerp. cbn. apply V2_ext; cbn; ring. Qed.
  Lemma edges_map {A B} (h : A -> B) vs x y : In (x, y) (edges (map h vs)) -> exists p q, x = h p /\ y = h q /\ In (p, q) (edges vs).
  Proof.
    destruct vs as [|v t]; [intros []|]. unfold edges. cbn [map].
    assert (G : forall l m, In (x, y) (combine (map h l) (map h m)) -> exists p q, x = h p /\ y = h q /\ In (p, q) (combine l m)).
    { induction l as [|p l IH]; intros [|q m] H; cbn in H; [contradiction|contradiction|contradiction|]. destruct H as [H|H].
      - injection H as <- <-. exists p, q. split; auto. split; auto. left; auto.
      - destruct (IH m H) as (p' & q' & E1 & E2 & H'). exists p', q'. split; auto. split; auto. right; auto. }
    intros H. apply (G (v :: t) (t ++ [v])). rewrite map_app. exact H.
  Qed.
  Lemma shear_result pts vs : hull_result pts vs -> hull_result (map f pts) (map f vs).
  Proof.
    assert (Hlow : forall v, (forall p, In p pts -> lex_le v p) -> forall p, In p (map f pts) -> lex_le (f v) p).
    { intros v H p Hp. apply in_map_iff in Hp as (p' & <- & Hp'). apply shear_lex. auto. }
    assert (Had : 0 < a * d) by (apply Rmult_lt_0_compat; auto).
    intros [v ws (Hi & (Hc1 & Hc2 & Hc3) & Hin) Hl|x y Hxy Hx Hy Hs Hl|x Hx Hall].
    - cbn [map]. rewrite map_app. cbn [map]. apply hull_proper; [|apply Hlow; auto].
      change (f v :: map f ws) with (map f (v :: ws)). split; [intros p Hp; apply in_map_iff in Hp as (p' & <- & Hp'); apply in_map; auto|]. split.
      + split; [rewrite map_length; auto|]. split; [apply FinFun.Injective_map_NoDup; auto; intros p q; apply shear_inj|].
        intros p q r He Hr Hp Hq. apply edges_map in He as (p' & q' & -> & -> & He). apply in_map_iff in Hr as (r' & <- & Hr').
        rewrite shear_orient. apply Rmult_lt_0_compat; auto. apply Hc3; auto; congruence.
      + intros p Hp q r He. apply in_map_iff in Hp as (p' & <- & Hp'). apply edges_map in He as (q' & r' & -> & -> & He).
        rewrite shear_orient. apply Rmult_le_pos; [lra|]. apply (Hin p' Hp'); auto.
    - cbn [map]. apply hull_segment; [intros E; apply Hxy, shear_inj; auto|apply in_map; auto|apply in_map; auto| |apply Hlow; auto].
      intros p Hp. apply in_map_iff in Hp as (p' & <- & Hp'). destruct (Hs p' Hp') as (t & Ht & ->). exists t. split; auto. apply shear_lerp.
    - cbn [map]. apply hull_point; [apply in_map; auto|]. intros p Hp. apply in_map_iff in Hp as (p' & <- & Hp'). f_equal. auto.
  Qed.
  Lemma enough_map {A B} (h : A -> B) l : (forall x y, h x = h y -> x = y) -> enough l -> enough (map h l).
  Proof.
    intros Hi (x & m & y & -> & H). exists (h x), (map h m), (h y). split; [cbn; rewrite map_app; auto|]. rewrite map_length.
    destruct H as [[H1 H2]|[H1 H2]]; [left|right]; split; auto; congruence.
  Qed.
End Shear.
Theorem C111_hull_moves_along : forall a c d e g (pts : list pt) r r', 0 < a -> 0 < d -> enough pts ->
  graham_scan pts r -> graham_scan (map (shear a c d e g) pts) r' -> exists vs, r = Val vs /\ r' = Val (map (shear a c d e g) vs).
Proof.
  intros a c d e g pts r r' Ha Hd He H H'. destruct (C46_graham_scan_is_hull pts r He H) as (vs & -> & Hv). exists vs. split; auto.
  destruct (C46_graham_scan_is_hull (map (shear a c d e g) pts) r') as (vs' & -> & Hv'); auto.
  - apply enough_map; auto. intros x y. apply shear_inj; auto.
  - f_equal. eapply hull_result_unique; [exact Hv'|]. apply shear_result; auto.
Qed.
Print Assumptions C111_hull_moves_along.
(* gift wrapping too, for pairwise different points *)
Theorem C111_gift_wrap_moves_along : forall a c d e g fuel (pts opn : list pt), 0 < a -> 0 < d -> ring_of pts opn -> NoDup opn -> (4 <= length opn)%nat ->
  (length pts <= fuel)%nat -> gift_wrap fuel (map (shear a c d e g) pts) = omap (map (shear a c d e g)) (gift_wrap fuel pts).
Proof.
  intros a c d e g fuel pts opn Ha Hd Hr Hn Hl Hf. set (f := shear a c d e g).
  assert (Hinj : forall x y, f x = f y -> x = y) by (intros x y; apply shear_inj; auto).
  destruct (C51_gift_wrap_is_hull fuel pts opn Hr Hn Hl Hf) as (vs & E & Hv).
  destruct (C51_gift_wrap_is_hull fuel (map f pts) (map f opn)) as (vs' & E' & Hv').
  - destruct Hr as [->|(x & m & -> & ->)]; [left; auto|]. right. exists (f x), (map f m). split; auto. cbn. rewrite map_app. auto.
  - apply FinFun.Injective_map_NoDup; auto.
  - rewrite map_length. auto.
  - rewrite map_length. auto.
  - rewrite E, E'. cbn. f_equal. eapply hull_result_unique; [exact Hv'|].
    apply (shear_result a c d e g Ha Hd) in Hv. auto.
Qed.
Print Assumptions C111_gift_wrap_moves_along.
Example C111_doubled : enough square /\ map (shear 2 0 3 5 (-1)) square = [at_ 5 (-1); at_ 9 (-1); at_ 7 2; at_ 9 5; at_ 5 5].
Proof. split; [apply C46_input|]. unfold square, shear. cbn [map vx vy]. repeat (f_equal; [apply V2_ext; cbn; lra|]). f_equal. apply V2_ext; cbn; lra. Qed.

(* ---- C112: points between other points make no difference ---- *)
(* q is in the (possibly flat) triangle of three points of the list *)
Definition spanned (pts : list pt) (q : pt) : Prop :=
  exists a b c u v w, In a pts /\ In b pts /\ In c pts /\ 0 <= u /\ 0 <= v /\ 0 <= w /\ u + v + w = 1 /\
    vx q = u * vx a + v * vx b + w * vx c /\ vy q = u * vy a + v * vy b + w * vy c.
Lemma spanned_In pts q : In q pts -> spanned pts q.
Proof. intros H. exists q, q, q, 1, 0, 0. repeat (split; [try assumption; lra|]). lra. Qed.
Lemma spanned_lex pts q v : (forall p, In p pts -> lex_le v p) -> spanned pts q -> lex_le v q.
Proof.
  intros Hl (a & b & c & t & u & w & Ha & Hb & Hc & Ht & Hu & Hw & Hs & Ex & Ey). apply Hl in Ha, Hb, Hc. unfold lex_le in *. rewrite Ex, Ey. clear Ex Ey.
  assert (Hw' : t = 1 - u - w) by lra. subst t.
  assert (Ka : vx v <= vx a) by lra. assert (Kb : vx v <= vx b) by lra. assert (Kc : vx v <= vx c) by lra.
  set (X := (1 - u - w) * vx a + u * vx b + w * vx c).
  assert (HX : X - vx v = (1 - u - w) * (vx a - vx v) + u * (vx b - vx v) + w * (vx c - vx v)) by (unfold X; ring).
  assert (P1 : 0 <= (1 - u - w) * (vx a - vx v)) by (apply Rmult_le_pos; lra).
  assert (P2 : 0 <= u * (vx b - vx v)) by (apply Rmult_le_pos; lra).
  assert (P3 : 0 <= w * (vx c - vx v)) by (apply Rmult_le_pos; lra).
  destruct (Rle_lt_or_eq_dec (vx v) X) as [|E]; [lra|left; auto|right]. split; auto.
  assert (Q : forall k (p : pt), 0 <= k -> k * (vx p - vx v) = 0 -> vx v < vx p \/ vx v = vx p /\ vy v <= vy p -> 0 <= k * (vy p - vy v)).
  { intros k p Hk H0 [H|[H H1]]; [|apply Rmult_le_pos; lra]. assert (k = 0) by nra. subst k. lra. }
  assert (Q1 := Q _ a Ht ltac:(lra) Ha). assert (Q2 := Q _ b Hu ltac:(lra) Hb). assert (Q3 := Q _ c Hw ltac:(lra) Hc). lra.
Qed.
Lemma spanned_orient pts q x y : (forall p, In p pts -> 0 <= orient x y p) -> spanned pts q -> 0 <= orient x y q.
Proof.
  intros Hl (a & b & c & t & u & w & Ha & Hb & Hc & Ht & Hu & Hw & Hs & Ex & Ey). apply Hl in Ha, Hb, Hc.
  assert (E : orient x y q = t * orient x y a + u * orient x y b + w * orient x y c).
  { unfold orient in *. rewrite Ex, Ey. assert (t = 1 - u - w) by lra. subst t. ring. }
  rewrite E. assert (0 <= t * orient x y a) by (apply Rmult_le_pos; auto). assert (0 <= u * orient x y b) by (apply Rmult_le_pos; auto).
  assert (0 <= w * orient x y c) by (apply Rmult_le_pos; auto). lra.
Qed.
Lemma spanned_result pts more vs : incl pts more -> (forall q, In q more -> spanned pts q) -> hull_result pts vs -> hull_result more vs.
Proof.
  intros Hi Hm [v ws (Hj & Hc & Hin) Hl|x y Hxy Hx Hy Hs Hl|x Hx Hall].
  - apply hull_proper; [|intros p Hp; apply (spanned_lex pts); auto]. split; [intros p Hp; auto|]. split; auto.
    intros p Hp a b Hab. apply (spanned_orient pts); auto. intros q Hq. apply (Hin q Hq); auto.
  - apply hull_segment; auto; [|intros p Hp; apply (spanned_lex pts); auto].
    intros p Hp. destruct (Hm p Hp) as (a & b & c & t & u & w & Ha & Hb & Hc & Ht & Hu & Hw & Hsm & Ex & Ey).
    destruct (Hs a Ha) as (ta & Hta & ->), (Hs b Hb) as (tb & Htb & ->), (Hs c Hc) as (tc & Htc & ->).
    exists (t * ta + u * tb + w * tc). split.
    + assert (0 <= t * ta <= t) by nra. assert (0 <= u * tb <= u) by nra. assert (0 <= w * tc <= w) by nra. lra.
    + assert (t = 1 - u - w) by lra. subst t. unfold lerp in *. cbn in Ex, Ey. apply V2_ext; cbn; [rewrite Ex|rewrite Ey]; ring.
  - apply hull_point; auto. intros p Hp. destruct (Hm p Hp) as (a & b & c & t & u & w & Ha & Hb & Hc & Ht & Hu & Hw & Hsm & Ex & Ey).
    apply Hall in Ha, Hb, Hc. subst a b c. assert (t = 1 - u - w) by lra. subst t. apply V2_ext; [rewrite Ex|rewrite Ey]; cbn; ring.
Qed.
Theorem C112_inner_points_irrelevant : forall (pts more : list pt) r r', enough pts -> enough more -> incl pts more -> (forall q, In q more -> spanned pts q) ->
  graham_scan pts r -> graham_scan more r' -> r = r'.
Proof.
  intros pts more r r' He He' Hi Hm H H'. destruct (C46_graham_scan_is_hull pts r He H) as (vs & -> & Hv).
  destruct (C46_graham_scan_is_hull more r' He' H') as (vs' & -> & Hv'). f_equal. eapply hull_result_unique; [|exact Hv']. apply (spanned_result pts); auto.
Qed.
Print Assumptions C112_inner_points_irrelevant.
Example C112_center : let corners := [at_ 0 0; at_ 2 0; at_ 2 2; at_ 0 2] in enough corners /\ enough square /\ incl corners square /\ forall q, In q square -> spanned corners q.
Proof.
  cbn zeta. split; [|split; [apply C46_input|split]].
  - exists (at_ 0 0), [at_ 2 0; at_ 2 2], (at_ 0 2). split; auto. left. split; [ptne|cbn; lia].
  - intros p. cbn. tauto.
  - intros q Hq. cbn in Hq. destruct Hq as [<-|[<-|[<-|[<-|[<-|[]]]]]]; try (apply spanned_In; cbn; tauto).
    exists (at_ 0 0), (at_ 2 2), (at_ 2 2), (1/2), (1/4), (1/4). cbn. repeat (split; [try tauto; lra|]). lra.
Qed.

(* ---- C113: the hull of a hull ---- *)
Lemma polygon_inside_self vs p : convex_polygon vs -> In p vs -> inside vs p.
Proof.
  intros (_ & _ & Hc) Hp a b He. destruct (pt_dec p a) as [->|Ha]; [unfold orient; lra|]. destruct (pt_dec p b) as [->|Hb]; [unfold orient; lra|].
  left. apply Hc; auto.
Qed.
Lemma convex_ring_result v ws : convex_polygon (v :: ws) -> (forall p, In p (v :: ws) -> lex_le v p) -> hull_result (v :: ws) (v :: ws ++ [v]).
Proof. intros H Hl. apply hull_proper; auto. split; [apply incl_refl|]. split; auto. intros p Hp. apply polygon_inside_self; auto. Qed.
(* a closing point is dropped by removing the FIRST point of the list *)
Lemma drop_closed (v : pt) t : drop_loop_point (v :: t ++ [v]) = t ++ [v].
Proof. unfold drop_loop_point. rewrite last_cons_snoc. assert (Ev : veqb v v = true) by (apply veqb_R; auto). rewrite Ev. auto. Qed.
(* REFUTED for small hulls: the hull of a single point (as returned for four equal points) is empty *)
Theorem C113_hull_of_hull_refuted : forall a : pt, graham_scan [a; a; a; a; a] (Val [a]) /\ graham_scan [a] (Val []) /\ forall r, graham_scan [a] r -> r = Val [].
Proof.
  intros a. assert (Ev : veqb a a = true) by (apply veqb_R; auto). assert (Ed : drop_loop_point [a] = []) by (unfold drop_loop_point; cbn [last]; rewrite Ev; auto).
  split; [|split].
  - destruct (C46_some_result RS [a; a; a; a; a]) as [(r & H) _]. destruct (C46_graham_scan_is_hull [a; a; a; a; a] r) as (vs & -> & Hv); auto.
    + exists a, [a; a; a], a. split; [reflexivity|]. right. split; [reflexivity|cbn; lia].
    + assert (vs = [a]) by (eapply hull_result_unique; [exact Hv|]; apply hull_point; [cbn; auto|cbn; intuition auto]). subst; auto.
  - rewrite <- Ed at 2. apply gs_small; [discriminate|rewrite Ed; cbn; lia].
  - intros r H. inversion H as [K|K1 K2|a' b' c' K|? K|? ? ? K]; subst; try discriminate; rewrite Ed in *; cbn in *; auto; try lia; discriminate.
Qed.
Print Assumptions C113_hull_of_hull_refuted.
(* what holds: a hull with four or more corners is its own hull; a triangle and a segment come back open and starting
   at their second corner *)
Theorem C113_hull_of_hull_partial : forall (pts vs : list pt) r, enough pts -> graham_scan pts (Val vs) -> graham_scan vs r ->
  ((5 <= length vs)%nat -> r = Val vs) /\ (forall a b c, vs = [a; b; c; a] -> r = Val [b; c; a]) /\ (forall a b, vs = [a; b; a] -> r = Val [b; a]).
Proof.
  intros pts vs r He H H'. destruct (C46_graham_scan_is_hull pts _ He H) as (vs0 & E & Hv). injection E as <-.
  split; [|split].
  - intros Hl5. inversion Hv as [v ws (Hi & Hc & Hin) Hl E|x y Hxy Hx Hy Hs Hl E|x Hx Hall E]; subst vs; [|cbn in Hl5; lia|cbn in Hl5; lia].
    assert (Hself : hull_result (v :: ws ++ [v]) (v :: ws ++ [v])).
    { eapply hull_result_ext; [|apply convex_ring_result; auto]. intros x. cbn. rewrite in_app_iff. cbn. tauto. }
    destruct (graham_scan_hull (v :: ws ++ [v]) r) as (us & -> & Hu); [rewrite drop_closed; cbn in Hl5; lia|auto|].
    f_equal. eapply hull_result_unique; eauto.
  - intros a b c E0. subst vs. remember [a; b; c; a] as L0 eqn:E in Hv. destruct Hv as [v ws (Hi & (Hc1 & Hc2 & Hc3) & Hin) Hl|x y Hxy Hx Hy Hs Hl|x Hx Hall]; [|discriminate|discriminate].
    assert (Ew : v = a /\ ws = [b; c]).
    { injection E as <- E. split; auto. change [b; c; v] with ([b; c] ++ [v]) in E. apply app_inj_tail in E. tauto. }
    destruct Ew as [-> ->]. clear E.
    assert (L : is_point_left b c a = true).
    { apply left_R. inversion Hc2 as [|? ? N1 N2]; subst. apply Hc3; cbn; try tauto; intros ->; apply N1; cbn; tauto. }
    assert (Ed := drop_closed a [b; c]). cbn [app] in Ed.
    inversion H' as [K|K1 K2|a' b' c' K E1|? K|? ? ? K]; subst; try discriminate; try (rewrite Ed in *; cbn in *; lia).
    rewrite Ed in K. injection K as <- <- <-. rewrite L. auto.
  - intros a b ->. assert (Ed := drop_closed a [b]). cbn [app] in Ed.
    inversion H' as [K|K1 K2|a' b' c' K E1|? K|? ? ? K]; subst; try discriminate; try (rewrite Ed in *; cbn in *; lia); try (rewrite Ed in K; discriminate).
    rewrite Ed. auto.
Qed.
Print Assumptions C113_hull_of_hull_partial.
Example C113_square : graham_scan square (Val [at_ 0 0; at_ 2 0; at_ 2 2; at_ 0 2; at_ 0 0]).
Proof.
  destruct (C46_some_result RS square) as [(r & H) _]. destruct (C46_graham_scan_is_hull square r C46_input H) as (vs & -> & Hv).
  assert (E : vs = [at_ 0 0; at_ 2 0; at_ 2 2; at_ 0 2; at_ 0 0]).
  { eapply hull_result_unique; [exact Hv|]. apply (hull_proper square (at_ 0 0) [at_ 2 0; at_ 2 2; at_ 0 2]).
    - split; [intros p; cbn; tauto|]. split; [apply rectangle_convex; lra|]. intros p Hp. apply rectangle_inside; [lra|lra|].
      cbn in Hp. destruct Hp as [<-|[<-|[<-|[<-|[<-|[]]]]]]; cbn [vx vy]; lra.
    - intros p Hp. unfold lex_le. cbn in Hp. destruct Hp as [<-|[<-|[<-|[<-|[<-|[]]]]]]; cbn [vx vy]; lra. }
  subst; auto.
Qed.

(* ---- C114: more points, a larger hull ---- *)
Theorem C114_hulls_are_nested : forall (pts more vs ws order : list pt), enough pts -> enough more -> incl pts more ->
  (exists a b c, In a more /\ In b more /\ In c more /\ orient a b c <> 0) ->
  graham_scan pts (Val vs) -> graham_scan more (Val ws) -> Permutation vs order ->
  contains_convex_hull ws vs = Val true /\ contains_convex_hull_par ws vs order = Val true.
Proof.
  intros pts more vs ws order He He' Hi (a & b & c & Ha & Hb & Hc & Ho) H H' Hp. destruct (C46_graham_scan_is_hull pts _ He H) as (vs0 & E & Hv). injection E as <-.
  destruct (C46_graham_scan_is_hull more _ He' H') as (ws0 & E & Hw). injection E as <-.
  assert (Hsub : incl vs pts).
  { inversion Hv as [v t (Hj & _ & _) Hl E|x y Hxy Hx Hy Hs Hl E|x Hx Hall E]; subst; intros p Hin.
    - apply Hj. cbn in *. rewrite in_app_iff in Hin. cbn in Hin. tauto.
    - cbn in Hin. destruct Hin as [<-|[<-|[<-|[]]]]; auto.
    - cbn in Hin. destruct Hin as [<-|[]]; auto. }
  inversion Hw as [v t (Hj & Hcv & Hin) Hl E|x y Hxy Hx Hy Hs Hl E|x Hx Hall E]; subst.
  - destruct (C60_hull_in_hull (v :: t) (v :: t ++ [v]) vs order Hcv) as (r & E1 & E2 & Hr); auto; [right; exists v, t; auto|].
    assert (Er : r = true) by (apply Hr; intros p Hq; apply Hin; auto). subst r. auto.
  - exfalso. destruct (Hs a Ha) as (t1 & _ & ->), (Hs b Hb) as (t2 & _ & ->), (Hs c Hc) as (t3 & _ & ->). apply Ho. unfold orient, lerp. cbn. ring.
  - exfalso. rewrite (Hall a Ha), (Hall b Hb), (Hall c Hc) in Ho. rewrite orient_aab in Ho. lra.
Qed.
Print Assumptions C114_hulls_are_nested.
Example C114_input : let corners := [at_ 0 0; at_ 2 0; at_ 2 2; at_ 0 2] in enough corners /\ incl corners square /\ exists a b c, In a square /\ In b square /\ In c square /\ orient a b c <> 0.
Proof.
  cbn zeta. split; [apply C112_center|]. split; [apply C112_center|]. exists (at_ 0 0), (at_ 2 0), (at_ 0 2). cbn [square In].
  repeat (split; [tauto|]). unfold orient; cbn [vx vy]; lra.
Qed.
