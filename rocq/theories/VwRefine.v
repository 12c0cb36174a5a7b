(* Visvalingam-Whyatt on a line with additional points on its edges, in exact arithmetic. *)
From Coq Require Import Reals Lra Psatz.
From Verif Require Import Prelude Scalar RInst Geo2 Geo3 GeoSpec DistR DiscSpec VwSpec RdpRefine FltOrd.
Local Open Scope R_scope.

(* every inner corner of l spans a triangle of non-zero area with its neighbours *)
Definition real_corners {A} (area : A -> A -> A -> R) (l : list A) : Prop := forall l1 a b c l2, l = l1 ++ a :: b :: c :: l2 -> area a b c <> 0.

Section VwRefine.
  Context {T : Type} (along : T -> T -> R -> T) (area : T -> T -> T -> R).
  Context (area_nonneg : forall a b c, 0 <= area a b c).
  Context (along_0 : forall a b, along a b 0 = a) (along_1 : forall a b, along a b 1 = b).
  Context (flat : forall a b s r t, area (along a b s) (along a b r) (along a b t) = 0).
  Context (part : forall a b c s t, area (along a b s) b (along b c t) = ((1 - s) * t) * ((1 - s) * t) * area a b c).

  (* the points of one edge: its first corner and those inserted *)
  Definition on_edge (a b x : T) : Prop := exists t, 0 <= t < 1 /\ x = along a b t.
  Lemma flat_edge a b x y z : on_edge a b x -> on_edge a b y -> on_edge a b z \/ z = b -> area x y z = 0.
  Proof. intros (s & _ & ->) (r & _ & ->) [(t & _ & ->)| ->]; [apply flat|rewrite <- (along_1 a b) at 3; apply flat]. Qed.
  Lemma real_tl a l : real_corners area (a :: l) -> real_corners area l.
  Proof. intros H l1 x b c l2 E. apply (H (a :: l1) x b c l2). rewrite E. reflexivity. Qed.

  (* the first inserted point: there is a triangle of area zero *)
  Lemma some_flat l m : denser along l m -> (length l < length m)%nat -> exists l1 x y z l2, m = l1 ++ x :: y :: z :: l2 /\ area x y z = 0.
  Proof.
    induction 1 as [|a|a b rest ins m Hi Hd IH]; intros L; cbn [length] in *; try lia.
    destruct ins as [|i ins].
    - destruct IH as (l1 & x & y & z & l2 & -> & E); [cbn [length app] in *; lia|]. exists (a :: l1), x, y, z, l2. auto.
    - destruct (denser_hd _ _ _ _ Hd) as (m' & ->). apply Forall_cons_iff in Hi as [(t & Ht & Ei) Hi].
      assert (A : on_edge a b a) by (exists 0; split; [lra|auto]). assert (B : on_edge a b i) by (exists t; split; [lra|auto]).
      destruct ins as [|j ins]; cbn [app].
      + exists [], a, i, b, m'. split; auto. apply (flat_edge a b); auto.
      + apply Forall_cons_iff in Hi as [(t' & Ht' & Ej) Hi]. exists [], a, i, j, (ins ++ b :: m'). split; auto. apply (flat_edge a b); auto. left. exists t'. split; [lra|auto].
  Qed.
  (* an inner point is a corner, with a triangle of non-zero area, or can be taken out *)
  Lemma triple l m : denser along l m -> real_corners area l -> forall l1 x y z l2, m = l1 ++ x :: y :: z :: l2 ->
    area x y z <> 0 \/ denser along l (l1 ++ x :: z :: l2).
  Proof.
    induction 1 as [|a|a b rest ins m Hi Hd IH]; intros Hr l1 x y z l2 E; [destruct l1; discriminate|destruct l1; [discriminate|destruct l1; discriminate]|].
    specialize (IH (real_tl _ _ Hr)).
    (* the position of y: among the inserted points, the corner b, or later *)
    assert (G : forall ins0 pre, Forall (fun x => exists t, 0 < t < 1 /\ x = along a b t) ins0 -> a :: ins0 ++ m = (a :: pre) ++ x :: y :: z :: l2 ->
      (exists ia ib, ins0 = ia ++ y :: ib /\ pre ++ x :: z :: l2 = (ia ++ ib) ++ m) \/ (exists m', m = b :: m' /\ y = b /\ on_edge a b x /\ m' = z :: l2) \/
      (exists k, m = k ++ x :: y :: z :: l2 /\ pre = ins0 ++ k)).
    { induction ins0 as [|i ins0 IHi]; intros pre F K.
      - right. right. exists pre. cbn [app] in *. injection K as K. auto.
      - apply Forall_cons_iff in F as [(t & Ht & Ei) F]. cbn [app] in K. injection K as K. destruct pre as [|p pre]; cbn [app] in *.
        + injection K as <- K. destruct ins0 as [|j ins0]; cbn [app] in K.
          * right. left. destruct (denser_hd _ _ _ _ Hd) as (m' & Em). exists m'. rewrite Em in K. injection K as -> K. split; [auto|]. split; [auto|]. split; [exists t; split; [lra|auto]|auto].
          * injection K as -> K. left. exists [i], ins0. split; auto. cbn [app]. rewrite K. reflexivity.
        + injection K as <- K. destruct (IHi pre F) as [(ia & ib & -> & E1)|[H1|(k & E1 & ->)]]; [cbn [app]; congruence| | |].
          * left. exists (i :: ia), ib. split; auto. cbn [app]. rewrite E1. reflexivity.
          * right. left. exact H1.
          * right. right. exists k. auto. }
    destruct l1 as [|a' l1]; cbn [app] in E; injection E as -> E.
    - (* x = a *) destruct ins as [|i ins]; cbn [app] in E.
      + destruct (denser_hd _ _ _ _ Hd) as (m' & Em). rewrite Em in E. injection E as -> E. subst m. left.
        inversion Hd as [|q|q c rest' ins' m0 Hi' Hd']; subst; [discriminate|]. destruct (denser_hd _ _ _ _ Hd') as (m1 & ->).
        assert (exists t, 0 < t <= 1 /\ z = along y c t) as (t & Ht & ->).
        { destruct ins' as [|i' ins']; cbn [app] in *; [exists 1; split; [lra|]; rewrite along_1; congruence|].
          apply Forall_cons_iff in Hi' as [(t & Ht & Et) _]. exists t. split; [lra|congruence]. }
        rewrite <- (along_0 x y) at 1. rewrite part. specialize (Hr [] x y c rest' eq_refl).
        replace ((1 - 0) * t * ((1 - 0) * t)) with (t * t) by ring. repeat apply Rmult_integral_contrapositive_currified; auto; lra.
      + injection E as -> E. right. cbn [app]. apply Forall_cons_iff in Hi as [_ Hi]. rewrite <- E. constructor; auto.
    - destruct (G ins l1 Hi) as [(ia & ib & -> & E1)|[(m' & Em & -> & Hx & E1)|(k & E1 & ->)]]; [cbn [app]; congruence| | |].
      + right. cbn [app]. rewrite E1. constructor; auto. apply Forall_app in Hi as [H1 H2]. apply Forall_cons_iff in H2 as [_ H2]. apply Forall_app. auto.
      + left. subst m m'. inversion Hd as [|q|q c rest' ins' m0 Hi' Hd']; subst. destruct (denser_hd _ _ _ _ Hd') as (m1 & ->).
        assert (exists t, 0 < t <= 1 /\ z = along b c t) as (t & Ht & ->).
        { destruct ins' as [|i' ins']; cbn [app] in *; [exists 1; split; [lra|]; rewrite along_1; congruence|].
          apply Forall_cons_iff in Hi' as [(t & Ht & Et) _]. exists t. split; [lra|congruence]. }
        destruct Hx as (s & Hs & ->). rewrite part. specialize (Hr [] _ b c rest' eq_refl).
        repeat apply Rmult_integral_contrapositive_currified; auto; lra.
      + destruct (IH k x y z l2 E1) as [H1|H1]; [left; auto|right]. cbn [app]. rewrite <- app_assoc. constructor; auto.
  Qed.
  Lemma vw_step_denser l m q : denser along l m -> real_corners area l -> (length l < length m)%nat -> vw_step (S := RS) area m q -> denser along l q.
  Proof.
    intros D Hr L (l1 & a & b & c & l2 & Em & -> & Hmin). destruct (some_flat l m D L) as (k1 & x & y & z & k2 & Ek & E0).
    specialize (Hmin _ _ _ _ _ Ek). apply Rltb_false in Hmin. destruct (triple l m D Hr _ _ _ _ _ Em) as [N|N]; auto.
    exfalso. apply N. apply Rle_antisym; [|apply area_nonneg]. rewrite <- E0. exact Hmin.
  Qed.
  Lemma denser_same l m : denser along l m -> length m = length l -> m = l.
  Proof.
    induction 1 as [|a|a b rest ins m Hi Hd IH]; intros L; auto. cbn [length] in L. rewrite app_length in L.
    pose proof (denser_length _ _ _ Hd) as L'. cbn [length] in L'. destruct ins; [|cbn [length] in L; lia]. cbn [app length] in *. f_equal. apply IH. lia.
  Qed.
  Lemma step_length (m q : list T) : vw_step (S := RS) area m q -> length m = S (length q).
  Proof. intros (l1 & a & b & c & l2 & -> & -> & _). rewrite !app_length. cbn [length]. lia. Qed.
  (* the first deletions take the inserted points only; then the line itself is left *)
  Lemma vw_steps_denser l : real_corners area l -> forall n m q, denser along l m -> vw_steps (S := RS) area n m q ->
    ((n <= length m - length l)%nat -> denser along l q) /\ ((length m - length l <= n)%nat -> vw_steps (S := RS) area (n - (length m - length l)) l q).
  Proof.
    intros Hr n. induction n as [|n IH]; intros m q D H; inversion H as [p E1 E2|n' p q' r St Sts]; subst.
    - split; [auto|]. pose proof (denser_length _ _ _ D). intros L. rewrite (denser_same l q D) by lia. replace (0 - (length l - length l))%nat with 0%nat by lia. constructor.
    - destruct (le_lt_dec (length m) (length l)) as [L|L].
      + pose proof (denser_length _ _ _ D). assert (m = l) as -> by (apply denser_same; auto; lia). split; [intros; lia|]. intros _. replace (S n - (length l - length l))%nat with (S n) by lia. exact H.
      + pose proof (vw_step_denser l m q' D Hr L St) as D'. pose proof (step_length _ _ St) as Lq. destruct (IH q' q D' Sts) as [I1 I2]. split.
        * intros Hn. apply I1. lia.
        * intros Hn. replace (S n - (length m - length l))%nat with (n - (length q' - length l))%nat by lia. apply I2. lia.
  Qed.
End VwRefine.

Lemma area2_flat (a b : pt) s r t : (area2 (S := RS) (lerp a b s) (lerp a b r) (lerp a b t) : R) = 0.
Proof. destruct a as [a1 a2], b as [b1 b2]. unfold area2, lerp. cbn. ring. Qed.
Lemma area2_part (a b c : pt) s t : (area2 (S := RS) (lerp a b s) b (lerp b c t) : R) = ((1 - s) * t) * ((1 - s) * t) * area2 (S := RS) a b c.
Proof. destruct a as [a1 a2], b as [b1 b2], c as [c1 c2]. unfold area2, lerp. cbn. ring. Qed.
Lemma area3_flat (a b : pt3) s r t : (area3 (S := RS) (lerp3 a b s) (lerp3 a b r) (lerp3 a b t) : R) = 0.
Proof. destruct a as [a1 a2 a3], b as [b1 b2 b3]. unfold area3, lerp3. cbn. ring. Qed.
Lemma area3_part (a b c : pt3) s t : (area3 (S := RS) (lerp3 a b s) b (lerp3 b c t) : R) = ((1 - s) * t) * ((1 - s) * t) * area3 (S := RS) a b c.
Proof. destruct a as [a1 a2 a3], b as [b1 b2 b3], c as [c1 c2 c3]. unfold area3, lerp3. cbn. ring. Qed.
Lemma area2_nn (a b c : pt) : 0 <= (area2 (S := RS) a b c : R).
Proof. replace (area2 (S := RS) a b c : R) with (Rsqr (orient a b c)); [apply Rle_0_sqr|]. destruct a as [a1 a2], b as [b1 b2], c as [c1 c2]. unfold area2, orient, Rsqr. cbn. ring. Qed.
Lemma area3_nn (a b c : pt3) : 0 <= (area3 (S := RS) a b c : R).
Proof. unfold area3; cbn. apply Rplus_le_le_0_compat; [apply Rplus_le_le_0_compat|]; apply Rle_0_sqr. Qed.
