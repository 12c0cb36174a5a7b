(* Ramer-Douglas-Peucker on a line with additional points on its edges, in exact arithmetic. *)
From Coq Require Import Reals Lra Psatz.
From Verif Require Import Prelude Scalar RInst Geo2 Geo3 GeoSpec DistR DiscSpec Simplify Rdp1 Rdp2 RdpRev FltOrd.
Local Open Scope R_scope.

Section Denser.
  Context {T : Type} (along : T -> T -> R -> T).
  Lemma denser_hd a l m : denser along (a :: l) m -> exists m', m = a :: m'.
  Proof. intros H; inversion H; subst; eauto. Qed.
  Lemma denser_app l1 p l2 m : denser along (l1 ++ p :: l2) m ->
    exists m1 m2, m = m1 ++ p :: m2 /\ denser along (l1 ++ [p]) (m1 ++ [p]) /\ denser along (p :: l2) (p :: m2).
  Proof.
    revert m; induction l1 as [|a l1 IH]; cbn [app]; intros m H.
    - destruct (denser_hd _ _ _ H) as (m' & ->). exists [], m'. cbn [app]. split; [auto|]. split; [constructor|auto].
    - destruct (l1 ++ p :: l2) as [|b rest] eqn:E; [destruct l1; discriminate|]. inversion H; subst.
      destruct (IH _ H5) as (m1 & m2 & -> & D1 & D2). exists (a :: ins ++ m1), m2. split; [|split; auto].
      + cbn [app]. rewrite <- app_assoc. reflexivity.
      + cbn [app]. rewrite <- app_assoc. assert (exists r, l1 ++ [p] = b :: r) as (r & Er) by (destruct l1; cbn in E; injection E as <- _; cbn; eauto).
        rewrite Er in *. constructor; auto.
  Qed.
  Lemma denser_last l b m : denser along (l ++ [b]) m -> exists m1, m = m1 ++ [b] /\ denser along (l ++ [b]) (m1 ++ [b]).
  Proof. intros H. destruct (denser_app _ _ _ _ H) as (m1 & m2 & -> & D1 & D2). inversion D2; subst. eauto. Qed.
  Lemma denser_length l m : denser along l m -> (length l <= length m)%nat.
  Proof. induction 1; cbn [length]; auto. rewrite app_length. cbn [length] in *. lia. Qed.
  Lemma denser_ends a l b m : denser along (a :: l ++ [b]) m -> exists mid, m = a :: mid ++ [b] /\ (l <> [] -> mid <> []).
  Proof.
    remember (l ++ [b]) as lb eqn:E. intros H. inversion H as [|x|x b0 rest ins m' Hi Hd]; [subst; destruct l; discriminate|]. subst x. assert (E0 : b0 :: rest = l ++ [b]) by congruence. clear H E. subst.
    rewrite E0 in Hd. destruct (denser_last _ _ _ Hd) as (m1 & -> & D). exists (ins ++ m1). rewrite app_assoc. split; auto.
    intros Hl E2. apply app_eq_nil in E2 as [_ ->]. apply denser_length in D. destruct l; [congruence|]. cbn [app length] in D. rewrite app_length in D. cbn in D. lia.
  Qed.
  Lemma subdivided_denser dist d pts out : (forall a b, along a b 0 = a) -> subdivided along dist d pts out -> denser along pts out.
  Proof.
    intros A0. induction 1 as [|a|a b rest n out H1 H2 H3 H4 IH]; try constructor. destruct n as [|n]; [lia|]. cbn [seq map app].
    replace (INR 0 / INR (S n)) with 0 by (cbn [INR]; unfold Rdiv; ring). rewrite A0. constructor; auto.
    apply Forall_forall. intros x Hx. apply in_map_iff in Hx as (k & <- & Hk). apply in_seq in Hk. exists (INR k / INR (S n)). split; auto.
    assert (0 < INR k) by (apply lt_0_INR; lia). assert (INR k < INR (S n)) by (apply lt_INR; lia).
    split; [apply Rdiv_lt_0_compat; lra|]. apply Rmult_lt_reg_r with (INR (S n)); [lra|]. unfold Rdiv. rewrite Rmult_assoc, Rinv_l by lra. lra.
  Qed.
End Denser.

Section Refine.
  Context {T : Type} (along : T -> T -> R -> T) (dist : T -> T -> T -> R).
  Context (convex : forall a b p q t, 0 <= t <= 1 -> dist a b (along p q t) <= (1 - t) * dist a b p + t * dist a b q).
  Context (nonneg : forall a b p, 0 <= dist a b p) (at_a : forall a b, dist a b a = 0) (at_b : forall a b, dist a b b = 0).

  Lemma denser_le a b M l m : denser along l m -> Forall (fun x => dist a b x <= M) l -> Forall (fun x => dist a b x <= M) m.
  Proof.
    induction 1 as [|x|x y rest ins m Hi Hd IH]; intros F; auto. apply Forall_cons_iff in F as [Fx F]. constructor; auto. apply Forall_app. split; auto.
    apply Forall_cons_iff in F as [Fy F]. eapply Forall_impl; [|exact Hi]. intros z (t & Ht & ->). eapply Rle_trans; [apply convex; lra|].
    assert (0 <= (1 - t) * (M - dist a b x)) by (apply Rmult_le_pos; lra). assert (0 <= t * (M - dist a b y)) by (apply Rmult_le_pos; lra). lra.
  Qed.
  Lemma denser_lt a b M p l m : denser along (p :: l) (p :: m) -> dist a b p <= M -> Forall (fun x => dist a b x < M) l -> Forall (fun x => dist a b x < M) m.
  Proof.
    revert p m. induction l as [|y l IH]; intros p m Hd Hp F; inversion Hd as [|x|x y' rest ins m0 Hi Hd']; subst; [constructor|]. apply Forall_cons_iff in F as [Fy F].
    destruct (denser_hd _ _ _ _ Hd') as (m' & ->). apply Forall_app. split; [|constructor; [auto|apply (IH y); auto; apply Rlt_le; auto]].
    eapply Forall_impl; [|exact Hi]. intros z (t & Ht & ->). eapply Rle_lt_trans; [apply convex; lra|].
    assert (0 <= (1 - t) * (M - dist a b p)) by (apply Rmult_le_pos; lra). assert (0 < t * (M - dist a b y)) by (apply Rmult_lt_0_compat; lra). lra.
  Qed.
  Lemma all_within d2 a mid b : mid <> [] -> Forall (fun x => dist a b x <= d2) mid -> Rdp (S := RS) dist d2 (a :: mid ++ [b]) [b].
  Proof.
    intros Hm F. apply R_drop; auto. destruct (farthest (S := RS) dist (a :: mid ++ [b]) a b) as [v i] eqn:Ef.
    destruct (farthest_split (S := RS) dist a mid b v i Hm Ef) as (n1 & p & n2 & En & -> & _). apply Rleb_true. cbn [fst].
    exact (proj1 (Forall_forall _ _) F p ltac:(rewrite En; apply in_or_app; right; left; auto)).
  Qed.
  Lemma Rdp_denser d2 l out : 0 <= d2 -> Rdp (S := RS) dist d2 l out -> forall m, denser along l m -> Rdp (S := RS) dist d2 m out.
  Proof.
    intros Hd2 H; induction H as [a|a b|a mid b Hm Hs|a m1 p m2 b l r Hf Hs Hl IHl Hr IHr]; intros m D.
    - inversion D; subst. constructor.
    - inversion D as [|x|x y' rest ins m0 Hi Hd']; subst. inversion Hd'; subst. destruct ins as [|i ins]; [constructor|]. apply (all_within d2 a (i :: ins) b); [discriminate|].
      eapply Forall_impl; [|exact Hi]. intros z (t & Ht & ->). eapply Rle_trans; [apply convex; lra|]. rewrite at_a, at_b. lra.
    - destruct (denser_ends _ _ _ _ _ D) as (mid' & -> & N). apply all_within; auto.
      assert (F : Forall (fun x => dist a b x <= d2) (a :: mid' ++ [b])).
      { apply (denser_le _ _ _ _ _ D). apply Rleb_true in Hs. constructor; [rewrite at_a; auto|]. apply Forall_app. split; [|constructor; [rewrite at_b; auto|auto]].
        destruct (farthest_max (S := RS) dist (fun _ => True) OrdOn_R a mid b Hm (fun _ _ => I)) as [_ F]. apply Forall_forall. intros q Hq.
        specialize (F q Hq). apply Rltb_false in F. eapply Rle_trans; [exact F|exact Hs]. }
      apply Forall_cons_iff in F as [_ F]. apply Forall_app in F. tauto.
    - apply Rleb_false in Hs. destruct (farthest_split_ord (S := RS) dist (fun _ => True) OrdOn_R a m1 p m2 b (fun _ _ => I) Hf) as [F1 F2].
      assert (Hp : 0 < dist a b p) by (eapply Rle_lt_trans; [exact Hd2|exact Hs]).
      assert (D' : denser along ((a :: m1) ++ p :: (m2 ++ [b])) m) by (cbn [app] in *; rewrite <- app_assoc in D; exact D).
      destruct (denser_app _ _ _ _ _ D') as (n1 & n2 & -> & D1 & D2). cbn [app] in D1.
      destruct (denser_ends _ _ _ _ _ D1) as (u & E1 & _). assert (n1 = a :: u) as -> by (change (a :: u ++ [p]) with ((a :: u) ++ [p]) in E1; apply app_inj_tail in E1; tauto).
      destruct (denser_ends _ _ _ _ _ D2) as (v & E2 & _). injection E2 as ->.
      replace ((a :: u) ++ p :: v ++ [b]) with (a :: (u ++ p :: v) ++ [b]) by (cbn [app]; rewrite <- app_assoc; reflexivity).
      apply R_split; auto.
      + apply (farthest_uniq (S := RS) dist (fun _ => True) OrdOn_R); auto.
        * assert (F : Forall (fun x => dist a b x <= dist a b p) (a :: u ++ [p])).
          { apply (denser_le _ _ _ _ _ D1). constructor; [rewrite at_a; lra|]. apply Forall_app. split; [|constructor; [lra|auto]].
            apply Forall_forall. intros q Hq. specialize (F1 q Hq). apply Rltb_false in F1. exact F1. }
          intros q Hq. apply Rltb_false. apply Forall_cons_iff in F as [_ F]. apply Forall_app in F as [F _]. exact (proj1 (Forall_forall _ _) F q Hq).
        * assert (F : Forall (fun x => dist a b x < dist a b p) (v ++ [b])).
          { apply (denser_lt _ _ _ _ _ _ D2); [lra|]. apply Forall_app. split; [|constructor; [rewrite at_b; auto|auto]].
            apply Forall_forall. intros q Hq. specialize (F2 q Hq). apply Rltb_true in F2. exact F2. }
          intros q Hq. apply Rltb_true. apply Forall_app in F as [F _]. exact (proj1 (Forall_forall _ _) F q Hq).
      + apply Rleb_false. exact Hs.
  Qed.
  Theorem rdp_denser l m d : denser along l m -> simplify_rdp (S := RS) dist m d = simplify_rdp (S := RS) dist l d.
  Proof.
    intros D. assert (Hdd : 0 <= d * d) by nra. pose proof (denser_length _ _ _ D) as L. destruct (le_lt_dec (length m) 2) as [H|H].
    - (* nothing inserted *) assert (m = l) as ->; [|reflexivity].
      inversion D as [|a|a b rest ins m' Hi Dm]; subst; auto. cbn [length] in *. rewrite app_length in *. pose proof (denser_length _ _ _ Dm) as L'. cbn [length] in L'.
      destruct ins; cbn [length] in *; [|lia]. inversion Dm as [|x|x y' rest' ins' m1 Hi' Dm']; subst; auto. cbn [length] in *. rewrite app_length in *. pose proof (denser_length _ _ _ Dm') as L2. cbn [length] in L2. lia.
    - destruct (simplify_rdp_rel (S := RS) dist m d H) as (a & t & out & Ep & Rp & E). rewrite E.
      destruct (le_lt_dec (length l) 2) as [Hl|Hl].
      + assert (exists b, l = [a; b]) as (b & ->).
        { subst m. inversion D as [|x|x b rest ins m' Hi Dm]; subst; [cbn [length] in *; lia|]. cbn [length] in *. destruct rest; [eauto|cbn [length] in *; lia]. }
        pose proof (Rdp_denser (d * d) [a; b] [b] Hdd (R_two (S := RS) dist (d * d) a b) m D) as R2.
        pose proof (Rdp_rdp_rec (S := RS) dist _ _ _ Rp _ (le_n _)) as X. pose proof (Rdp_rdp_rec (S := RS) dist _ _ _ R2 _ (le_n _)) as Y.
        assert (Z : Val out = Val [b]) by (etransitivity; [symmetry; exact X|exact Y]). injection Z as ->. reflexivity.
      + destruct (simplify_rdp_rel (S := RS) dist l d Hl) as (a' & t' & out' & Ep' & Rp' & E'). rewrite E'.
        pose proof (Rdp_denser (d * d) l out' Hdd Rp' m D) as R2.
        pose proof (Rdp_rdp_rec (S := RS) dist _ _ _ Rp _ (le_n _)) as X. pose proof (Rdp_rdp_rec (S := RS) dist _ _ _ R2 _ (le_n _)) as Y.
        assert (Z : Val out = Val out') by (etransitivity; [symmetry; exact X|exact Y]). injection Z as ->.
        subst l m. destruct (denser_hd _ _ _ _ D) as (m' & Em). injection Em as -> _. reflexivity.
  Qed.
End Refine.

(* the two distances are convex *)
Lemma convex_sq (u v : R) t : 0 <= t <= 1 -> ((1 - t) * u + t * v) * ((1 - t) * u + t * v) <= (1 - t) * (u * u) + t * (v * v).
Proof. intros Ht. assert (0 <= t * (1 - t) * ((u - v) * (u - v))) by (apply Rmult_le_pos; [apply Rmult_le_pos; lra|apply Rle_0_sqr]). lra. Qed.
Lemma convex_line (p q x y t : R) : 0 <= t <= 1 ->
  (p + t * (q - p) - (x + t * (y - x))) * (p + t * (q - p) - (x + t * (y - x))) <= (1 - t) * ((p - x) * (p - x)) + t * ((q - y) * (q - y)).
Proof. intros Ht. pose proof (convex_sq (p - x) (q - y) t Ht). replace (p + t * (q - p) - (x + t * (y - x))) with ((1 - t) * (p - x) + t * (q - y)) by ring. auto. Qed.
Lemma sqdist_convex (p q x y : pt) t : 0 <= t <= 1 -> sqdist (lerp p q t) (lerp x y t) <= (1 - t) * sqdist p x + t * sqdist q y.
Proof.
  intros Ht. pose proof (Rplus_le_compat _ _ _ _ (convex_line (vx p) (vx q) (vx x) (vx y) t Ht) (convex_line (vy p) (vy q) (vy x) (vy y) t Ht)) as H.
  eapply Rle_trans; [exact H|]. right. unfold sqdist. ring.
Qed.
Lemma sqdist3_convex (p q x y : pt3) t : 0 <= t <= 1 -> sqdist3 (lerp3 p q t) (lerp3 x y t) <= (1 - t) * sqdist3 p x + t * sqdist3 q y.
Proof.
  intros Ht. pose proof (Rplus_le_compat _ _ _ _ (Rplus_le_compat _ _ _ _ (convex_line (wx p) (wx q) (wx x) (wx y) t Ht) (convex_line (wy p) (wy q) (wy x) (wy y) t Ht)) (convex_line (wz p) (wz q) (wz x) (wz y) t Ht)) as H.
  eapply Rle_trans; [exact H|]. right. unfold sqdist3. ring.
Qed.
Lemma lerp_lerp (a b : pt) s r t : lerp (lerp a b s) (lerp a b r) t = lerp a b (s + t * (r - s)).
Proof. unfold lerp. apply V2_ext; cbn; ring. Qed.
Lemma lerp3_lerp3 (a b : pt3) s r t : lerp3 (lerp3 a b s) (lerp3 a b r) t = lerp3 a b (s + t * (r - s)).
Proof. unfold lerp3. apply V3_ext; cbn; ring. Qed.
Lemma sq0 (p : pt) : sqdist p p = 0. Proof. unfold sqdist. ring. Qed.
Lemma sq30 (p : pt3) : sqdist3 p p = 0. Proof. unfold sqdist3. ring. Qed.
Lemma sq_nn (p q : pt) : 0 <= sqdist p q.
Proof. unfold sqdist. pose proof (Rle_0_sqr (vx p - vx q)). pose proof (Rle_0_sqr (vy p - vy q)). unfold Rsqr in *. lra. Qed.
Lemma sq3_nn (p q : pt3) : 0 <= sqdist3 p q.
Proof. unfold sqdist3. pose proof (Rle_0_sqr (wx p - wx q)). pose proof (Rle_0_sqr (wy p - wy q)). pose proof (Rle_0_sqr (wz p - wz q)). unfold Rsqr in *. lra. Qed.
Lemma lerp_ends (a b : pt) : lerp a b 0 = a /\ lerp a b 1 = b.
Proof. split; unfold lerp; apply V2_ext; rsimp; rring. Qed.
Lemma lerp3_ends (a b : pt3) : lerp3 a b 0 = a /\ lerp3 a b 1 = b.
Proof. split; unfold lerp3; apply V3_ext; rsimp; rring. Qed.
Lemma lerp3_same (a : pt3) t : lerp3 a a t = a.
Proof. unfold lerp3; apply V3_ext; rsimp; rring. Qed.
Lemma dist2_convex (a b p q : pt) t : 0 <= t <= 1 ->
  dist_line2_safe (S := RS) a b (lerp p q t) <= (1 - t) * dist_line2_safe (S := RS) a b p + t * dist_line2_safe (S := RS) a b q.
Proof.
  intros Ht. destruct (dist_line2_safe_R a b p) as [(s & Hs & ->) _]. destruct (dist_line2_safe_R a b q) as [(r & Hr & ->) _].
  destruct (dist_line2_safe_R a b (lerp p q t)) as [_ M]. eapply Rle_trans; [apply (M (s + t * (r - s)))|rewrite <- lerp_lerp; apply sqdist_convex; auto].
  assert (0 <= (1 - t) * s <= 1 - t) by (split; [apply Rmult_le_pos; lra|rewrite <- (Rmult_1_r (1 - t)) at 2; apply Rmult_le_compat_l; lra]).
  assert (0 <= t * r <= t) by (split; [apply Rmult_le_pos; lra|rewrite <- (Rmult_1_r t) at 2; apply Rmult_le_compat_l; lra]). lra.
Qed.
Lemma dist2_at (a b : pt) : (dist_line2_safe (S := RS) a b a : R) = 0 /\ (dist_line2_safe (S := RS) a b b : R) = 0.
Proof.
  split; [destruct (dist_line2_safe_R a b a) as [(s & Hs & E) M]; specialize (M 0 ltac:(lra))|destruct (dist_line2_safe_R a b b) as [(s & Hs & E) M]; specialize (M 1 ltac:(lra))].
  - rewrite (proj1 (lerp_ends a b)) in M. rewrite sq0 in M. apply Rle_antisym; auto. rewrite E. apply sq_nn.
  - rewrite (proj2 (lerp_ends a b)) in M. rewrite sq0 in M. apply Rle_antisym; auto. rewrite E. apply sq_nn.
Qed.
Lemma dist3_convex (a b p q : pt3) t : 0 <= t <= 1 ->
  dist_line3_safe (S := RS) a b (lerp3 p q t) <= (1 - t) * dist_line3_safe (S := RS) a b p + t * dist_line3_safe (S := RS) a b q.
Proof.
  intros Ht. destruct (wulps (S := RS) a b) eqn:D.
  - apply wulps_R in D; subst. rewrite !dist_line3_safe_point. eapply Rle_trans; [|apply (sqdist3_convex p q b b t); auto]. rewrite lerp3_same. apply Rle_refl.
  - assert (N : a <> b) by (intros Z; apply wulps_R in Z; congruence).
    destruct (dist_line3_safe_R a b p N) as [(s & ->) _]. destruct (dist_line3_safe_R a b q N) as [(r & ->) _].
    destruct (dist_line3_safe_R a b (lerp3 p q t) N) as [_ M]. eapply Rle_trans; [apply (M (s + t * (r - s)))|rewrite <- lerp3_lerp3; apply sqdist3_convex; auto].
Qed.
Lemma dist3_at (a b : pt3) : (dist_line3_safe (S := RS) a b a : R) = 0 /\ (dist_line3_safe (S := RS) a b b : R) = 0.
Proof.
  destruct (wulps (S := RS) a b) eqn:D.
  - apply wulps_R in D; subst. rewrite !dist_line3_safe_point. split; apply sq30.
  - assert (N : a <> b) by (intros Z; apply wulps_R in Z; congruence).
    split; [destruct (dist_line3_safe_R a b a N) as [(s & E) M]; specialize (M 0)|destruct (dist_line3_safe_R a b b N) as [(s & E) M]; specialize (M 1)].
    + rewrite (proj1 (lerp3_ends a b)) in M. rewrite sq30 in M. apply Rle_antisym; auto. rewrite E. apply sq3_nn.
    + rewrite (proj2 (lerp3_ends a b)) in M. rewrite sq30 in M. apply Rle_antisym; auto. rewrite E. apply sq3_nn.
Qed.
