(* Ramer-Douglas-Peucker on a line given backwards, in exact arithmetic. *)
From Coq Require Import Reals Lra Psatz.
From Verif Require Import Prelude Scalar RInst Geo2 Geo3 GeoSpec DistR Simplify Rdp1 Rdp2 FltOrd.
Local Open Scope R_scope.

Section Rev.
  Context {T : Type} (dist : T -> T -> T -> R) (sym : forall a b p, dist b a p = dist a b p).

  (* between two points of the line: two points equally far from the chord are both within tolerance or nearer than a third *)
  Definition one_farthest (d2 : R) (pts : list T) : Prop := forall l1 a m1 p m2 q m3 b l2,
    pts = l1 ++ a :: (m1 ++ p :: m2 ++ q :: m3) ++ b :: l2 -> dist a b p = dist a b q ->
    dist a b p <= d2 \/ exists r, In r (m1 ++ p :: m2 ++ q :: m3) /\ dist a b p < dist a b r.

  Lemma one_farthest_part d2 u v w : one_farthest d2 (u ++ v ++ w) -> one_farthest d2 v.
  Proof.
    intros H l1 a m1 p m2 q m3 b l2 E. apply (H (u ++ l1) a m1 p m2 q m3 b (l2 ++ w)). rewrite E. repeat (rewrite <- app_assoc; cbn [app]). reflexivity.
  Qed.

  Lemma Rdp_rev d2 pts out : Rdp (S := RS) dist d2 pts out -> one_farthest d2 pts -> forall a t, pts = a :: t ->
    exists b out', Rdp (S := RS) dist d2 (rev pts) out' /\ rev (a :: out) = b :: out' /\ hd_error (rev pts) = Some b.
  Proof.
    intros H; induction H as [a|a b|a mid b Hm Hs|a m1 p m2 b l r Hf Hs Hl IHl Hr IHr]; intros Ho a' t' E; injection E as <- <-.
    - exists a, [a]. split; [constructor|]. auto.
    - exists b, [a]. split; [apply R_two|]. auto.
    - exists b, [a]. split; [|split; [reflexivity|]].
      + cbn [rev]. rewrite rev_app_distr. cbn [rev app]. apply R_drop; [intros Z; apply Hm; rewrite <- (rev_involutive mid), Z; reflexivity|].
        assert (Hm' : rev mid <> []) by (intros Z; apply Hm; rewrite <- (rev_involutive mid), Z; reflexivity).
        destruct (farthest (S := RS) dist (b :: rev mid ++ [a]) b a) as [v i] eqn:Ef.
        destruct (farthest_split (S := RS) dist b (rev mid) a v i Hm' Ef) as (n1 & p & n2 & En & -> & _).
        apply Rleb_true in Hs. apply Rleb_true. cbn [fst]. rewrite sym. eapply Rle_trans; [|exact Hs].
        destruct (farthest_max (S := RS) dist (fun _ => True) OrdOn_R a mid b Hm (fun _ _ => I)) as [_ F].
        apply Rltb_false. apply F. apply in_rev. rewrite En. apply in_or_app. right. left. auto.
      + cbn [rev]. rewrite rev_app_distr. reflexivity.
    - apply Rleb_false in Hs.
      destruct (farthest_split_ord (S := RS) dist (fun _ => True) OrdOn_R a m1 p m2 b (fun _ _ => I) Hf) as [F1 F2].
      assert (Fm : forall q, In q (m1 ++ p :: m2) -> dist a b q <= dist a b p).
      { intros q Hq. apply in_app_or in Hq as [Hq|[<-|Hq]]; [|lra|]; [specialize (F1 q Hq); apply Rltb_false in F1; exact F1|specialize (F2 q Hq); apply Rltb_true in F2; apply Rlt_le; exact F2]. }
      assert (F1' : forall q, In q m1 -> dist a b q < dist a b p).
      { intros q Hq. apply in_split in Hq as (x & y & Em). destruct (Rle_lt_or_eq_dec (dist a b q) (dist a b p)) as [?|Eq]; [apply Fm; rewrite Em, <- app_assoc; apply in_or_app; right; left; auto|auto|].
        exfalso. destruct (Ho [] a x q y p m2 b []) as [C|(r' & Hr' & C)]; auto.
        - rewrite Em. repeat (rewrite <- app_assoc; cbn [app]). reflexivity.
        - rewrite Eq in C. lra.
        - specialize (Fm r'). rewrite Em, <- app_assoc in Fm. cbn [app] in Fm. specialize (Fm Hr'). lra. }
      assert (O1 : one_farthest d2 (a :: m1 ++ [p])).
      { apply (one_farthest_part d2 [] (a :: m1 ++ [p]) (m2 ++ [b])). cbn [app]. rewrite <- !app_assoc in *. cbn [app] in *. exact Ho. }
      assert (O2 : one_farthest d2 (p :: m2 ++ [b])).
      { apply (one_farthest_part d2 (a :: m1) (p :: m2 ++ [b]) []). cbn [app]. rewrite app_nil_r. rewrite <- !app_assoc in *. cbn [app] in *. exact Ho. }
      destruct (IHl O1 a (m1 ++ [p]) eq_refl) as (b1 & l' & R1 & E1 & H1). destruct (IHr O2 p (m2 ++ [b]) eq_refl) as (b2 & r' & R2 & E2 & H2).
      cbn [rev] in H1. rewrite rev_app_distr in H1. cbn [rev app hd_error] in H1. injection H1 as <-.
      cbn [rev] in H2. rewrite rev_app_distr in H2. cbn [rev app hd_error] in H2. injection H2 as <-.
      exists b, (r' ++ l'). split; [|split].
      + replace (rev (a :: (m1 ++ p :: m2) ++ [b])) with (b :: (rev m2 ++ p :: rev m1) ++ [a]) by (cbn [rev]; rewrite !rev_app_distr; cbn [rev app]; repeat (rewrite <- app_assoc; cbn [app]); reflexivity).
        apply R_split.
        * apply (farthest_uniq (S := RS) dist (fun _ => True) OrdOn_R); auto; intros q Hq; apply in_rev in Hq; rewrite (sym a b q), (sym a b p).
          -- apply Rltb_false. apply Fm. apply in_or_app; right; right; auto.
          -- apply Rltb_true. apply F1'; auto.
        * apply Rleb_false. rewrite sym. exact Hs.
        * cbn [rev] in R2. rewrite rev_app_distr in R2. exact R2.
        * cbn [rev] in R1. rewrite rev_app_distr in R1. exact R1.
      + cbn [rev] in *. rewrite rev_app_distr, <- app_assoc, E1. change (b :: r' ++ l') with ((b :: r') ++ l'). rewrite <- E2, <- app_assoc. reflexivity.
      + cbn [rev]. rewrite rev_app_distr. reflexivity.
  Qed.

  Theorem rdp_rev pts d : one_farthest (d * d) pts -> simplify_rdp (S := RS) dist (rev pts) d = omap (@rev T) (simplify_rdp (S := RS) dist pts d).
  Proof.
    intros Ho. destruct (le_lt_dec (length pts) 2) as [H|H].
    - unfold simplify_rdp. rewrite rev_length. replace (Nat.leb (length pts) 2) with true by (symmetry; apply Nat.leb_le; auto). reflexivity.
    - destruct (simplify_rdp_rel (S := RS) dist pts d H) as (a & t & out & Ep & Rp & E). rewrite E.
      destruct (simplify_rdp_rel (S := RS) dist (rev pts) d) as (a' & t' & out' & Ep' & Rp' & E'); [rewrite rev_length; auto|]. rewrite E'. cbn [omap obind].
      destruct (Rdp_rev _ pts out Rp Ho a t Ep) as (b & out2 & R2 & E2 & H2). rewrite Ep' in H2. injection H2 as <-. rewrite E2. f_equal. f_equal.
      pose proof (Rdp_rdp_rec (S := RS) dist _ _ _ Rp' _ (le_n _)) as X. pose proof (Rdp_rdp_rec (S := RS) dist _ _ _ R2 _ (le_n _)) as Y. 
      assert (Z : Val out' = Val out2) by (etransitivity; [symmetry; exact X|exact Y]). injection Z as Z. exact Z.
  Qed.
End Rev.

Lemma lerp_flip (a b : pt) t : lerp b a t = lerp a b (1 - t).
Proof. unfold lerp. apply V2_ext; rsimp; rring. Qed.
Lemma dist2_sym (a b p : pt) : dist_line2_safe (S := RS) b a p = dist_line2_safe a b p.
Proof.
  destruct (dist_line2_safe_R a b p) as [(t & Ht & E) M]. destruct (dist_line2_safe_R b a p) as [(t' & Ht' & E') M'].
  apply Rle_antisym; [rewrite E|rewrite E', lerp_flip; apply M; lra].
  replace (lerp a b t) with (lerp b a (1 - t)) by (rewrite lerp_flip; f_equal; ring). apply M'. lra.
Qed.
Lemma lerp3_flip (a b : pt3) t : lerp3 b a t = lerp3 a b (1 - t).
Proof. unfold lerp3. apply V3_ext; rsimp; rring. Qed.
Lemma dist3_sym (a b p : pt3) : dist_line3_safe (S := RS) b a p = dist_line3_safe a b p.
Proof.
  destruct (wulps (S := RS) a b) eqn:D; [apply wulps_R in D; subst; auto|].
  assert (N : a <> b) by (intros Z; apply wulps_R in Z; congruence).
  destruct (dist_line3_safe_R a b p N) as [(t & E) M]. destruct (dist_line3_safe_R b a p ltac:(auto)) as [(t' & E') M'].
  apply Rle_antisym; [rewrite E|rewrite E', lerp3_flip; apply M].
  replace (lerp3 a b t) with (lerp3 b a (1 - t)) by (rewrite lerp3_flip; f_equal; ring). apply M'.
Qed.
