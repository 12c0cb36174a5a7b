(* Ramer-Douglas-Peucker: nested results for growing tolerances; similarity invariance in exact arithmetic. *)
From Coq Require Import Reals Lra Psatz.
From Verif Require Import Prelude Scalar RInst Geo2 Geo3 Simplify GeoSpec DistR Rdp1 Rdp2.

Section Nested.
  Context {S : Scalar} {T : Type} (dist : T -> T -> T -> car S).

  Lemma subseq_last {A} (l r : list A) b : subseq [b] (l ++ r ++ [b]).
  Proof. rewrite app_assoc. apply (subseq_app_l (l ++ r) [b] [b]). apply subseq_refl. Qed.

  Lemma mid_length {A} (a : A) mid b : length (a :: mid ++ [b]) = 2 + length mid.
  Proof. simpl. rewrite app_length. simpl. lia. Qed.

  Lemma Rdp_nested e1 e2 : (forall v : car S, sleb v e1 = true -> sleb v e2 = true) ->
    forall pts o1, Rdp dist e1 pts o1 -> forall o2, Rdp dist e2 pts o2 -> subseq o2 o1.
  Proof.
    intros Hle pts o1 H1. induction H1 as [a|a b|a mid b Hm Hs|a m1 p m2 b l r Hf Hs Hl IHl Hr IHr]; intros o2 H2.
    - remember [a] as q eqn:Eq. destruct H2 as [c|c d|c mid d Hm Hs|c m1 p m2 d l r Hf Hs Hl Hr]; try discriminate.
      + injection Eq as <-. apply subseq_refl.
      + injection Eq as _ E. destruct mid; discriminate.
      + injection Eq as _ E. destruct m1; discriminate.
    - remember [a; b] as q eqn:Eq. destruct H2 as [c|c d|c mid d Hm Hs|c m1 p m2 d l r Hf Hs Hl Hr]; try discriminate.
      + injection Eq as <- <-. apply subseq_refl.
      + apply (f_equal (@length T)) in Eq. rewrite mid_length in Eq. destruct mid; [congruence|simpl in Eq; lia].
      + apply (f_equal (@length T)) in Eq. rewrite mid_length, app_length in Eq. simpl in Eq. lia.
    - remember (a :: mid ++ [b]) as q eqn:Eq. destruct H2 as [c|c d|c mid' d Hm' Hs'|c m1 p m2 d l r Hf Hs' Hl Hr].
      + injection Eq as _ E. destruct mid; discriminate.
      + apply (f_equal (@length T)) in Eq. rewrite mid_length in Eq. destruct mid; [congruence|simpl in Eq; lia].
      + injection Eq as -> E. apply app_inj_tail in E as [-> ->]. apply subseq_refl.
      + injection Eq as -> E. apply app_inj_tail in E as [<- ->]. rewrite Hf in Hs. simpl in Hs.
        apply Hle in Hs. congruence.
    - remember (a :: (m1 ++ p :: m2) ++ [b]) as q eqn:Eq.
      destruct (Rdp_last dist e1 _ _ Hr) as (o & z & -> & Ez).
      rewrite app_comm_cons, last_last in Ez. subst z.
      destruct H2 as [c|c d|c mid' d Hm' Hs'|c m1' p' m2' d l' r' Hf' Hs' Hl' Hr'].
      + injection Eq as _ E. destruct m1; discriminate.
      + apply (f_equal (@length T)) in Eq. rewrite mid_length, app_length in Eq. simpl in Eq. lia.
      + injection Eq as -> E. apply app_inj_tail in E as [-> ->]. apply subseq_last.
      + injection Eq as -> E. apply app_inj_tail in E as [E ->]. rewrite Hf in Hf'.
        assert (L : length m1' = length m1) by (injection Hf'; intros; lia).
        assert (m1' = m1 /\ p' :: m2' = p :: m2) as [-> E2].
        { clear -E L. revert m1' L E. induction m1 as [|x m1 IH]; intros [|y m1'] L E; simpl in *; try discriminate; auto.
          injection E as -> E. injection L as L. destruct (IH m1' L E) as [-> ->]. auto. }
        injection E2 as -> ->. apply subseq_app; [apply IHl; auto|apply IHr; auto].
  Qed.

  Lemma simplify_rdp_nested (d1 d2 : car S) pts o1 o2 : (forall v : car S, sleb v (smul d1 d1) = true -> sleb v (smul d2 d2) = true) ->
    simplify_rdp dist pts d1 = Val o1 -> simplify_rdp dist pts d2 = Val o2 -> subseq o2 o1.
  Proof.
    intros Hle E1 E2. destruct (le_lt_dec (length pts) 2) as [H2|H2].
    - unfold simplify_rdp in *. replace (Nat.leb (length pts) 2) with true in * by (symmetry; apply Nat.leb_le; auto).
      injection E1 as <-. injection E2 as <-. apply subseq_refl.
    - destruct (simplify_rdp_rel dist pts d1 H2) as (a & t & q1 & Ep & R1 & F1).
      destruct (simplify_rdp_rel dist pts d2 H2) as (a' & t' & q2 & Ep' & R2 & F2).
      rewrite E1 in F1. rewrite E2 in F2. injection F1 as ->. injection F2 as ->. rewrite Ep in Ep'. injection Ep' as <- <-.
      constructor. eapply Rdp_nested; eauto.
  Qed.
End Nested.

Local Open Scope R_scope.

(* scaling all distances and the tolerance by k > 0 changes nothing *)
Section Scale.
  Context {T : Type} (dist : T -> T -> T -> car RS) (k : R) (Hk : 0 < k).
  Let dist' a b p : car RS := k * dist a b p.

  Lemma spcmp_scale (x y : R) : spcmp (S := RS) (k * x) (k * y) = spcmp (S := RS) x y.
  Proof.
    unfold spcmp. rsimp.
    destruct (Rltb_spec x y).
    - replace (Rltb (k * x) (k * y)) with true by (symmetry; apply Rltb_true; nra). auto.
    - replace (Rltb (k * x) (k * y)) with false by (symmetry; apply Rltb_false; nra).
      destruct (Reqb_spec x y).
      + replace (Reqb (k * x) (k * y)) with true by (symmetry; apply Reqb_true; subst; auto). auto.
      + replace (Reqb (k * x) (k * y)) with false by (symmetry; apply Reqb_false; nra).
        destruct (Rltb_spec y x).
        * replace (Rltb (k * y) (k * x)) with true by (symmetry; apply Rltb_true; nra). auto.
        * replace (Rltb (k * y) (k * x)) with false by (symmetry; apply Rltb_false; nra). auto.
  Qed.

  Lemma max_by_scale (l : list (car RS * nat)) :
    max_by (S := RS) (map (fun x : car RS * nat => (k * fst x : car RS, snd x)) l) = option_map (fun x : car RS * nat => (k * fst x : car RS, snd x)) (max_by (S := RS) l).
  Proof.
    destruct l as [|a l]; [reflexivity|]. cbn [map max_by option_map]. f_equal. revert a.
    induction l as [|b l IH]; intros a; [reflexivity|]. cbn [map fold_left].
    assert (E : max_step (S := RS) (k * fst a : car RS, snd a) (k * fst b : car RS, snd b) =
                (k * fst (max_step (S := RS) a b) : car RS, snd (max_step (S := RS) a b))).
    { destruct a as [x i], b as [y j]. unfold max_step. cbn [fst snd]. rewrite spcmp_scale. destruct (spcmp (S := RS) x y) as [[]|]; reflexivity. }
    rewrite E. apply IH.
  Qed.

  Lemma farthest_scale l a b : (2 < length l)%nat ->
    farthest (S := RS) dist' l a b = (k * fst (farthest (S := RS) dist l a b), snd (farthest (S := RS) dist l a b)).
  Proof.
    intros Hl. unfold farthest.
    set (L := firstn (length l - 2) (skipn 1 (enumerate l))).
    assert (E : max_by (S := RS) (map (fun ip : nat * T => (dist' a b (snd ip), fst ip)) L) =
                option_map (fun x : car RS * nat => (k * fst x : car RS, snd x)) (max_by (S := RS) (map (fun ip : nat * T => (dist a b (snd ip), fst ip)) L))).
    { etransitivity; [|apply max_by_scale]. f_equal. symmetry. apply map_map. }
    match goal with |- match ?m with _ => _ end = _ => replace m with (option_map (fun x : car RS * nat => (k * fst x : car RS, snd x)) (max_by (S := RS) (map (fun ip : nat * T => (dist a b (snd ip), fst ip)) L))) by (symmetry; exact E) end.
    destruct (max_by (S := RS) (map (fun ip : nat * T => (dist a b (snd ip), fst ip)) L)) eqn:Em; [reflexivity|].
    exfalso. assert (X : map (fun ip : nat * T => (dist a b (snd ip), fst ip)) L <> []).
    { intros N. apply map_eq_nil in N. apply (f_equal (@length _)) in N. unfold L in N.
      rewrite firstn_length, skipn_length in N. unfold enumerate in N. rewrite combine_length, seq_length in N. simpl length in N. lia. }
    destruct (max_by_some (S := RS) _ X) as [m Em']. rewrite Em in Em'. discriminate Em'.
  Qed.

  Lemma Rdp_scale e pts out : Rdp (S := RS) dist e pts out -> Rdp (S := RS) dist' (k * e) pts out.
  Proof.
    intros H; induction H as [a|a b|a mid b Hm Hs|a m1 p m2 b l r Hf Hs Hl IHl Hr IHr].
    - constructor.
    - constructor.
    - apply R_drop; auto. rewrite farthest_scale by (rewrite mid_length; destruct mid; [congruence|simpl; lia]).
      cbn [fst]. apply Rleb_true in Hs. apply Rleb_true. rsimp. nra.
    - apply R_split; auto.
      + rewrite farthest_scale by (rewrite mid_length, app_length; simpl; lia). rewrite Hf. reflexivity.
      + apply Rleb_false in Hs. apply Rleb_false. rsimp. unfold dist'. nra.
  Qed.
End Scale.

(* a map that multiplies the tested distances by k > 0 *)
Lemma simplify_rdp_similar {A B : Type} (f : A -> B) (distA : A -> A -> A -> car RS) (distB : B -> B -> B -> car RS) (c : R) :
  0 < c -> (forall a b p, distB (f a) (f b) (f p) = c * c * distA a b p) ->
  forall pts d, simplify_rdp (S := RS) distB (map f pts) (c * d) = omap (map f) (simplify_rdp (S := RS) distA pts d).
Proof.
  intros Hc Hd pts d. destruct (le_lt_dec (length pts) 2) as [H2|H2].
  - unfold simplify_rdp. rewrite map_length. replace (Nat.leb (length pts) 2) with true by (symmetry; apply Nat.leb_le; auto). reflexivity.
  - destruct (simplify_rdp_rel (S := RS) distA pts d H2) as (a & t & out & Ep & HR & ->).
    apply (Rdp_scale distA (c * c) ltac:(nra)) in HR.
    assert (HR' : Rdp (S := RS) (fun a b p => distB (f a) (f b) (f p)) (c * c * (d * d)) pts out).
    { clear -HR Hd. set (dd := fun (a b p : A) => (c * c * distA a b p : car RS)) in HR.
      assert (Ef : forall l a b, farthest (S := RS) (fun a b p => distB (f a) (f b) (f p)) l a b = farthest (S := RS) dd l a b).
      { intros. unfold farthest.
        erewrite (map_ext (fun ip : nat * A => (distB (f a) (f b) (f (snd ip)), fst ip))); [reflexivity|].
        intros [i p]. cbn [fst snd]. rewrite Hd. reflexivity. }
      change (smul (s := RS) d d) with (d * d) in HR.
      induction HR as [a|a b|a mid b Hm Hs|a m1 p m2 b l r Hf Hs Hl IHl Hr IHr]; [constructor|constructor| |].
      - apply R_drop; auto. rewrite Ef. exact Hs.
      - apply R_split; auto. + rewrite Ef, Hf. unfold dd. rewrite Hd. reflexivity. + rewrite Hd. exact Hs. }
    apply (Rdp_map (S := RS) f distB) in HR'. cbn [omap obind].
    unfold simplify_rdp. rewrite map_length. replace (Nat.leb (length pts) 2) with false by (symmetry; apply Nat.leb_gt; auto).
    rewrite Ep at 1. cbn [map]. unfold idx at 1. cbn [nth_error obind].
    replace (smul (s := RS) (c * d) (c * d)) with (c * c * (d * d)) by (rsimp; ring).
    rewrite (Rdp_rdp_rec (S := RS) distB _ _ _ HR') by (rewrite map_length; lia). reflexivity.
Qed.

(* Stewart: the distance to a point of the line through a and b from the three distances *)
Lemma stewart a b p t : sqdist p (lerp a b t) = (1 - t) * sqdist p a + t * sqdist p b - t * (1 - t) * sqdist a b.
Proof. unfold sqdist, lerp; cbn [vx vy]. destruct a as [a1 a2], b as [b1 b2], p as [p1 p2]; cbn [vx vy]. ring. Qed.
Lemma stewart3 a b p t : sqdist3 p (lerp3 a b t) = (1 - t) * sqdist3 p a + t * sqdist3 p b - t * (1 - t) * sqdist3 a b.
Proof. unfold sqdist3, lerp3; cbn [wx wy wz]. destruct a as [a1 a2 a3], b as [b1 b2 b3], p as [p1 p2 p3]; cbn [wx wy wz]. ring. Qed.

Lemma dist_similar2 (f : pt -> pt) k : 0 < k -> (forall a b, sqdist (f a) (f b) = k * sqdist a b) ->
  forall a b p, dist_line2_safe (S := RS) (f a) (f b) (f p) = k * dist_line2_safe (S := RS) a b p.
Proof.
  intros Hk Hf a b p.
  destruct (dist_line2_safe_R a b p) as [(t & Ht & E) M]. destruct (dist_line2_safe_R (f a) (f b) (f p)) as [(s & Hs & E') M'].
  assert (X : forall u, sqdist (f p) (lerp (f a) (f b) u) = k * sqdist p (lerp a b u)) by (intros; rewrite !stewart, !Hf; ring).
  apply Rle_antisym.
  - rewrite E, <- X. apply M'; auto.
  - rewrite E', X. apply Rmult_le_compat_l; [lra|]. apply M; auto.
Qed.
Lemma sum3sq_0 (x y z : R) : x * x + y * y + z * z = 0 -> x = 0 /\ y = 0 /\ z = 0.
Proof. intros E. repeat split; nra. Qed.
Lemma sqdist3_eq0 a b : sqdist3 a b = 0 -> a = b.
Proof. unfold sqdist3. intros E. apply sum3sq_0 in E as (E1 & E2 & E3). apply V3_ext; apply Rminus_diag_uniq; auto. Qed.
Lemma sqdist3_refl a : sqdist3 a a = 0.
Proof. unfold sqdist3. ring. Qed.
Lemma dist_similar3 (f : pt3 -> pt3) k : 0 < k -> (forall a b, sqdist3 (f a) (f b) = k * sqdist3 a b) ->
  forall a b p, dist_line3_safe (S := RS) (f a) (f b) (f p) = k * dist_line3_safe (S := RS) a b p.
Proof.
  intros Hk Hf a b p.
  assert (X : forall u, sqdist3 (f p) (lerp3 (f a) (f b) u) = k * sqdist3 p (lerp3 a b u)) by (intros; rewrite !stewart3, !Hf; ring).
  destruct (Req_EM_T (sqdist3 a b) 0) as [E0|E0].
  - apply sqdist3_eq0 in E0. subst b. rewrite !dist_line3_safe_point. apply Hf.
  - assert (Hab : a <> b) by (intros ->; apply E0, sqdist3_refl).
    assert (Hfab : f a <> f b). { intros E. apply E0. pose proof (Hf a b) as G. rewrite E, sqdist3_refl in G. nra. }
    destruct (dist_line3_safe_R a b p Hab) as [(t & E) M]. destruct (dist_line3_safe_R (f a) (f b) (f p) Hfab) as [(s & E') M'].
    apply Rle_antisym.
    + rewrite E, <- X. apply M'; auto.
    + rewrite E', X. apply Rmult_le_compat_l; [lra|]. apply M; auto.
Qed.
