(* A point set has only one convex hull (as a list starting at the lowest point). *)
From Coq Require Import Reals Lra Psatz.
From Verif Require Import Prelude Scalar RInst Geo2 GeoSpec DistR HullSpec HullGeo Hull GrahamProofs GrahamProofs2 GrahamProofs3.
Local Open Scope R_scope.

Lemma orient_lerp_end a b z k : orient z a (lerp a b k) = k * orient z a b.
Proof. unfold lerp. flat. ring. Qed.
Lemma orient_lerp_next a b c k : orient b c (lerp a b k) = (1 - k) * orient a b c.
Proof. unfold lerp. flat. ring. Qed.
Lemma line_param (a b c : pt) : b <> a -> orient a b c = 0 -> exists k, c = lerp a b k.
Proof.
  intros Hn H. pose proof (sqdist_pos a b Hn) as Hd.
  exists (((vx c - vx a) * (vx b - vx a) + (vy c - vy a) * (vy b - vy a)) / sqdist a b).
  revert Hd H. unfold sqdist, orient. destruct a as [ax ay], b as [bx by_], c as [cx cy]. rsimp. intros Hd H.
  set (N := (ax - bx) * (ax - bx) + (ay - by_) * (ay - by_)) in *.
  apply V2_ext; unfold lerp; cbn [vx vy]; apply Rminus_diag_uniq; rsimp.
  - apply Rmult_eq_reg_r with N; [|lra]. rewrite Rmult_0_l.
    replace ((cx - (ax + ((cx - ax) * (bx - ax) + (cy - ay) * (by_ - ay)) / N * (bx - ax))) * N)
      with ((cx - ax) * N - ((cx - ax) * (bx - ax) + (cy - ay) * (by_ - ay)) * (bx - ax)) by (field; lra).
    replace ((cx - ax) * N - ((cx - ax) * (bx - ax) + (cy - ay) * (by_ - ay)) * (bx - ax))
      with (- (by_ - ay) * ((bx - ax) * (cy - ay) - (by_ - ay) * (cx - ax))) by (unfold N; ring). rewrite H. ring.
  - apply Rmult_eq_reg_r with N; [|lra]. rewrite Rmult_0_l.
    replace ((cy - (ay + ((cx - ax) * (bx - ax) + (cy - ay) * (by_ - ay)) / N * (by_ - ay))) * N)
      with ((cy - ay) * N - ((cx - ax) * (bx - ax) + (cy - ay) * (by_ - ay)) * (by_ - ay)) by (field; lra).
    replace ((cy - ay) * N - ((cx - ax) * (bx - ax) + (cy - ay) * (by_ - ay)) * (by_ - ay))
      with ((bx - ax) * ((bx - ax) * (cy - ay) - (by_ - ay) * (cx - ax))) by (unfold N; ring). rewrite H. ring.
Qed.

(* ---- neighbours in a convex polygon ---- *)
Lemma next_edge {A} (vs : list A) b : In b vs -> exists c, In (b, c) (edges vs).
Proof.
  destruct vs as [|v t]; [intros []|]. intros H. apply in_split in H as (X & Y & E). destruct Y as [|c Y].
  - exists v. pose proof (edges_close t v) as Hc. rewrite E in Hc at 1. rewrite last_app_one in Hc. auto.
  - exists c. eapply edges_adj; eauto.
Qed.
Lemma prev_edge {A} (vs : list A) b : In b vs -> exists z, In (z, b) (edges vs).
Proof.
  destruct vs as [|v t]; [intros []|]. intros H. apply in_split in H as (X & Y & E).
  destruct X as [|x X].
  - injection E as -> ->. exists (last (b :: Y) b). apply edges_close.
  - destruct (@exists_last _ (x :: X)) as (X' & z & EX); [congruence|]. rewrite EX, <- app_assoc in E. cbn [app] in E.
    exists z. eapply edges_adj; eauto.
Qed.
Lemma edge_ne {A} (vs : list A) a b : NoDup vs -> (2 <= length vs)%nat -> In (a, b) (edges vs) -> a <> b.
Proof.
  destruct vs as [|v t]; [cbn; lia|]. intros Hn Hl H ->. apply edges_In in H as [(X & Y & E)|[E1 E2]].
  - rewrite E in Hn. apply NoDup_app_inv in Hn as (_ & Hn & _). inversion Hn as [|? ? Hb _]; subst. apply Hb. left; auto.
  - destruct t as [|u t]; [cbn in Hl; lia|]. change (last (v :: u :: t) v) with (last (u :: t) v) in E1.
    destruct (@exists_last _ (u :: t)) as (y & z & Ey); [congruence|]. rewrite Ey, last_app_one in E1.
    inversion Hn as [|? ? Hb _]; subst. apply Hb. rewrite Ey. apply in_or_app. right; left; auto.
Qed.
Lemma third {A} (dec : forall x y : A, {x = y} + {x <> y}) (vs : list A) a b : NoDup vs -> (3 <= length vs)%nat -> exists c, In c vs /\ c <> a /\ c <> b.
Proof.
  intros Hn Hl. destruct vs as [|x [|y [|z t]]]; try (cbn in Hl; lia).
  assert (Hxy : x <> y /\ x <> z /\ y <> z).
  { inversion Hn as [|? ? H1 H2]; subst. inversion H2 as [|? ? H3 H4]; subst. cbn in *. repeat split; intros ->; intuition. }
  destruct Hxy as (? & ? & ?).
  destruct (dec x a), (dec x b), (dec y a), (dec y b), (dec z a), (dec z b); subst; try congruence;
    first [exists x; split; [cbn; auto|split; congruence] | exists y; split; [cbn; auto|split; congruence] | exists z; split; [cbn; auto|split; congruence]].
Qed.
Lemma pt_dec (p q : pt) : {p = q} + {p <> q}.
Proof.
  destruct p as [px py], q as [qx qy].
  destruct (Req_EM_T px qx) as [->|]; [destruct (Req_EM_T py qy) as [->|]|]; [left; auto|right; congruence|right; congruence].
Qed.

Lemma convex_next vs a b c : convex_polygon vs -> In (a, b) (edges vs) -> In (b, c) (edges vs) -> 0 < orient a b c.
Proof.
  intros (Hl & Hn & Hs) Hab Hbc. destruct (edges_In_vs _ _ _ Hbc) as [Hb Hc].
  assert (b <> c) by (eapply edge_ne; eauto; lia). assert (a <> b) by (eapply edge_ne; eauto; lia).
  apply Hs; auto. intros ->.
  destruct (third pt_dec vs a b Hn Hl) as (d & Hd & Hda & Hdb).
  assert (0 < orient a b d) by (apply Hs; auto). assert (0 < orient b a d) by (apply Hs; auto).
  pose proof (orient_swap a b d). lra.
Qed.

Lemma next_unique pts vs1 vs2 a b1 b2 : hull_of pts vs1 -> hull_of pts vs2 ->
  In (a, b1) (edges vs1) -> In (a, b2) (edges vs2) -> b1 = b2.
Proof.
  intros (Hi1 & Hc1 & Hin1) (Hi2 & Hc2 & Hin2) He1 He2.
  destruct (edges_In_vs _ _ _ He1) as [Ha1 Hb1]. destruct (edges_In_vs _ _ _ He2) as [Ha2 Hb2].
  assert (Hn1 : a <> b1) by (destruct Hc1 as (L & N & _); eapply edge_ne; eauto; lia).
  assert (Hn2 : a <> b2) by (destruct Hc2 as (L & N & _); eapply edge_ne; eauto; lia).
  assert (H12 : 0 <= orient a b1 b2) by (apply (Hin1 b2); auto).
  assert (H21 : 0 <= orient a b2 b1) by (apply (Hin2 b1); auto).
  pose proof (orient_acb a b1 b2) as Hsw.
  destruct (line_param a b1 b2) as (k & Ek); [congruence|lra|].
  destruct (prev_edge vs1 a Ha1) as (z & Hz). pose proof (convex_next _ _ _ _ Hc1 Hz He1) as Htz.
  destruct (next_edge vs1 b1 Hb1) as (c1 & Hc). pose proof (convex_next _ _ _ _ Hc1 He1 Hc) as Htc.
  assert (Q1 : 0 <= orient z a b2) by (apply (Hin1 b2); auto).
  assert (Q2 : 0 <= orient b1 c1 b2) by (apply (Hin1 b2); auto).
  rewrite Ek, orient_lerp_end in Q1. rewrite Ek, orient_lerp_next in Q2.
  assert (Hk0 : 0 <= k). { apply Rmult_le_reg_r with (orient z a b1); auto. lra. }
  assert (Hk1 : k <= 1). { assert (0 <= 1 - k); [|lra]. apply Rmult_le_reg_r with (orient a b1 c1); auto. lra. }
  (* the other way round *)
  destruct (next_edge vs2 b2 Hb2) as (c2 & Hc'). pose proof (convex_next _ _ _ _ Hc2 He2 Hc') as Htc2.
  assert (Q3 : 0 <= orient b2 c2 b1) by (apply (Hin2 b1); auto).
  assert (Hkne : k <> 0). { intros ->. apply Hn2. rewrite Ek. unfold lerp. apply V2_ext; cbn [vx vy]; rring. }
  assert (Eb : b1 = lerp a b2 (/ k)).
  { rewrite Ek. apply V2_ext; unfold lerp; cbn [vx vy]; (match goal with |- @eq _ ?a ?b => apply (Rminus_diag_uniq a b) end); rsimp; field; auto. }
  rewrite Eb, orient_lerp_next in Q3.
  assert (Hik : / k <= 1). { assert (0 <= 1 - / k); [|lra]. apply Rmult_le_reg_r with (orient a b2 c2); auto. lra. }
  assert (k = 1). { assert (1 <= k); [|lra]. replace k with (/ / k) by (field; auto). rewrite <- Rinv_1. apply Rinv_le_contravar; auto. apply Rinv_0_lt_compat. lra. }
  subst k. rewrite Ek. unfold lerp. apply V2_ext; cbn [vx vy]; rring.
Qed.

Lemma hull_unique pts v vs1 vs2 : hull_of pts (v :: vs1) -> hull_of pts (v :: vs2) -> vs1 = vs2.
Proof.
  intros H1 H2.
  assert (G : forall Y1 Y2 X a, v :: vs1 = X ++ a :: Y1 -> v :: vs2 = X ++ a :: Y2 -> Y1 = Y2).
  { assert (Hd1 : NoDup (v :: vs1)) by apply H1. assert (Hd2 : NoDup (v :: vs2)) by apply H2.
    induction Y1 as [|b1 Y1 IH]; intros Y2 X a E1 E2.
    - destruct Y2 as [|b2 Y2]; auto. exfalso.
      assert (Ha1 : In (a, v) (edges (v :: vs1))).
      { pose proof (edges_close vs1 v) as Hc. rewrite E1 in Hc at 1. rewrite last_app_one in Hc. auto. }
      assert (Ha2 := edges_adj _ _ _ _ _ _ E2).
      assert (v = b2) by (eapply next_unique; [exact H1|exact H2| |]; eauto). subst b2.
      destruct X as [|x X].
      + injection E2 as <- ->. inversion Hd2 as [|? ? Hb _]; subst. apply Hb. left; auto.
      + injection E2 as <- E2. rewrite E2 in Hd2. inversion Hd2 as [|? ? Hb _]; subst. apply Hb. apply in_or_app. right; right; left; auto.
    - assert (Ha1 := edges_adj _ _ _ _ _ _ E1). destruct Y2 as [|b2 Y2].
      + exfalso. assert (Ha2 : In (a, v) (edges (v :: vs2))).
        { pose proof (edges_close vs2 v) as Hc. rewrite E2 in Hc at 1. rewrite last_app_one in Hc. auto. }
        assert (b1 = v) by (eapply next_unique; [exact H1|exact H2| |]; eauto). subst b1.
        destruct X as [|x X].
        * injection E1 as <- ->. inversion Hd1 as [|? ? Hb _]; subst. apply Hb. left; auto.
        * injection E1 as <- E1. rewrite E1 in Hd1. inversion Hd1 as [|? ? Hb _]; subst. apply Hb. apply in_or_app. right; right; left; auto.
      + assert (Ha2 := edges_adj _ _ _ _ _ _ E2).
        assert (b1 = b2) by (eapply next_unique; [exact H1|exact H2| |]; eauto). subst b2. f_equal.
        apply (IH Y2 (X ++ [a]) b1); rewrite <- app_assoc; auto. }
  apply (G vs1 vs2 [] v); auto.
Qed.

Lemma hull_of_not_seg pts v vs a b : hull_of pts (v :: vs) -> (forall p, In p pts -> on_segment p a b) -> False.
Proof.
  intros (Hi & (Hl & Hn & Hs) & _) Hseg.
  destruct vs as [|u [|w t]]; try (cbn in Hl; lia).
  assert (He : In (v, u) (edges (v :: u :: w :: t))) by (left; auto).
  assert (Hd : w <> v /\ w <> u).
  { inversion Hn as [|? ? H1 H2]; subst. inversion H2 as [|? ? H3 H4]; subst. cbn in *. split; intros ->; intuition. }
  assert (H : 0 < orient v u w) by (apply Hs; try tauto; right; right; left; auto).
  destruct (Hseg v) as (t1 & _ & E1); [apply Hi; left; auto|].
  destruct (Hseg u) as (t2 & _ & E2); [apply Hi; right; left; auto|].
  destruct (Hseg w) as (t3 & _ & E3); [apply Hi; right; right; left; auto|].
  rewrite E1, E2, E3 in H. revert H. unfold lerp. clear. flat. intros H.
  match goal with H : 0 < ?x |- _ => replace x with 0 in H by ring end. lra.
Qed.
Lemma point_seg (p a : pt) : p = a -> on_segment p a a.
Proof. intros ->. exists 0. split; [lra|]. unfold lerp. apply V2_ext; cbn [vx vy]; rring. Qed.

Theorem hull_result_unique pts r1 r2 : hull_result pts r1 -> hull_result pts r2 -> r1 = r2.
Proof.
  intros H1 H2.
  destruct H1 as [v vs Hh Hl|a b Hab Ha Hb Hs Hl|a Ha Hs], H2 as [v' vs' Hh' Hl'|a' b' Hab' Ha' Hb' Hs' Hl'|a' Ha' Hs'].
  - assert (v = v') by (apply lex_le_antisym; [apply Hl, Hh'|apply Hl', Hh]; left; auto). subst v'.
    f_equal. f_equal. eapply hull_unique; eauto.
  - exfalso. eapply hull_of_not_seg; eauto.
  - exfalso. eapply (hull_of_not_seg _ _ _ a' a'); eauto. intros p Hp. apply point_seg. auto.
  - exfalso. eapply hull_of_not_seg; eauto.
  - assert (a = a') by (apply lex_le_antisym; auto). subst a'.
    destruct (Hs b' Hb') as (t & Ht & E). destruct (Hs' b Hb) as (t' & Ht' & E').
    assert (Et : (t * t' - 1) * (vx b - vx a) = 0 /\ (t * t' - 1) * (vy b - vy a) = 0).
    { rewrite E in E'. apply (f_equal vx) in E' as Ex. apply (f_equal vy) in E' as Ey. unfold lerp in Ex, Ey. rsimp. split; nra. }
    assert (Htt : t * t' = 1).
    { destruct (Req_dec (t * t' - 1) 0) as [|Hne]; [lra|]. exfalso. apply Hab. destruct Et as [Ex Ey].
      apply Rmult_integral in Ex as [Ex|Ex]; [lra|]. apply Rmult_integral in Ey as [Ey|Ey]; [lra|]. apply V2_ext; rsimp; lra. }
    assert (t = 1) by nra. subst t. assert (b' = b); [|congruence].
    rewrite E. unfold lerp. apply V2_ext; cbn [vx vy]; rring.
  - exfalso. apply Hab. rewrite (Hs' a Ha), (Hs' b Hb). auto.
  - exfalso. eapply (hull_of_not_seg _ _ _ a a); eauto. intros p Hp. apply point_seg. auto.
  - exfalso. apply Hab'. rewrite (Hs a' Ha'), (Hs b' Hb'). auto.
  - f_equal. auto.
Qed.
