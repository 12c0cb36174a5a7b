(* The candidates around an event as sets, exactly: they do not depend on the order in which the hash set is iterated. *)
From Coq Require Import Reals Lra Permutation.
From Verif Require Import Prelude Scalar RInst Geo2 GeoSpec DistR IsectProofs Sweep SweepMap SweepCand.
Local Open Scope R_scope.

Section Exact.
  Variable inf : R.
  Notation MS := (MinMaxSlope (S := RS)).
  Notation MM := (MinMax (S := RS)).
  Variable get_line : nat -> outcome (Line2 RS).

  (* P: the samples (x, slope, index) seen so far *)
  Definition lefts (pivot : R) (P : list (R * R * nat)) (m : MM) : Prop :=
    (mm_left m = None /\ best_left (mm_slope m) = None /\ cand_left (mm_slope m) = [] /\ (forall x s i, In (x, s, i) P -> ~ x < pivot)) \/
    (exists x s, mm_left m = Some x /\ best_left (mm_slope m) = Some s /\ x < pivot /\ (exists i, In (x, s, i) P) /\
      (forall x' s' i, In (x', s', i) P -> x' < pivot -> x' <= x /\ (x' = x -> s <= s')) /\
      forall i, In i (cand_left (mm_slope m)) <-> In (x, s, i) P).
  Definition rights (pivot : R) (P : list (R * R * nat)) (m : MM) : Prop :=
    (mm_right m = None /\ best_right (mm_slope m) = None /\ cand_right (mm_slope m) = [] /\ (forall x s i, In (x, s, i) P -> ~ pivot < x)) \/
    (exists x s, mm_right m = Some x /\ best_right (mm_slope m) = Some s /\ pivot < x /\ (exists i, In (x, s, i) P) /\
      (forall x' s' i, In (x', s', i) P -> pivot < x' -> x <= x' /\ (x' = x -> s' <= s)) /\
      forall i, In i (cand_right (mm_slope m)) <-> In (x, s, i) P).

  Lemma snoc (P : list (R * R * nat)) x s i y t j : In (y, t, j) (P ++ [(x, s, i)]) <-> In (y, t, j) P \/ (y = x /\ t = s /\ j = i).
  Proof. rewrite in_app_iff. cbn. split; [intros [|[[= <- <- <-]|[]]]; auto|intros [|(-> & -> & ->)]; auto]. Qed.

  Lemma lefts_same pivot P m x s i : ~ x < pivot -> lefts pivot P m -> lefts pivot (P ++ [(x, s, i)]) m.
  Proof.
    intros Hx [(H1 & H2 & H3 & H4)|(cx & cs & H1 & H2 & H3 & (i0 & H4) & H5 & H6)].
    - left. repeat split; auto. intros y t j Hj. apply snoc in Hj as [Hj|(-> & _)]; eauto.
    - right. exists cx, cs. split; auto. split; auto. split; auto. split; [exists i0; apply snoc; auto|]. split.
      + intros y t j Hj. apply snoc in Hj as [Hj|(-> & _)]; [eauto|tauto].
      + intros j. rewrite H6, snoc. split; auto. intros [|(-> & _)]; auto. contradiction.
  Qed.
  Lemma rights_same pivot P m x s i : ~ pivot < x -> rights pivot P m -> rights pivot (P ++ [(x, s, i)]) m.
  Proof.
    intros Hx [(H1 & H2 & H3 & H4)|(cx & cs & H1 & H2 & H3 & (i0 & H4) & H5 & H6)].
    - left. repeat split; auto. intros y t j Hj. apply snoc in Hj as [Hj|(-> & _)]; eauto.
    - right. exists cx, cs. split; auto. split; auto. split; auto. split; [exists i0; apply snoc; auto|]. split.
      + intros y t j Hj. apply snoc in Hj as [Hj|(-> & _)]; [eauto|tauto].
      + intros j. rewrite H6, snoc. split; auto. intros [|(-> & _)]; auto. contradiction.
  Qed.

  Lemma lefts_step pivot P m (x s : R) i : lefts pivot P m -> lefts pivot (P ++ [(x, s, i)]) (minmax_update (S := RS) m pivot x s i).
  Proof.
    intros H. unfold minmax_update. cbn [sltb sulps RS].
    destruct (Rltb_spec x pivot) as [Hx|Hx].
    - destruct H as [(H1 & H2 & H3 & H4)|(cx & cs & H1 & H2 & H3 & (i0 & H4) & H5 & H6)]; rewrite H1.
      + right. exists x, s. unfold update_left. cbn [mm_left mm_slope]. rewrite H2, H3. cbn [best_left cand_left app].
        split; auto. split; auto. split; auto. split; [exists i; apply snoc; auto|]. split.
        * intros y t j Hj Hy. apply snoc in Hj as [Hj|(-> & -> & _)]; [exfalso; eapply H4; eauto|]. split; intros; lra.
        * intros j. rewrite snoc. cbn. split; [intros [<-|[]]; auto|]. intros [Hj|(_ & _ & ->)]; auto. exfalso; eapply H4; eauto.
      + destruct (Reqb_spec cx x) as [->|Hc].
        * unfold update_left. cbn [mm_left mm_slope]. rewrite H2. cbn [sulps sltb RS]. destruct (Reqb_spec cs s) as [->|Hs].
          -- right. exists x, s. cbn [mm_left mm_slope best_left cand_left]. split; auto. split; auto. split; auto. split; [exists i; apply snoc; auto|]. split.
             ++ intros y t j Hj Hy. apply snoc in Hj as [Hj|(-> & -> & _)]; [eauto|split; intros; lra].
             ++ intros j. rewrite snoc, in_app_iff, H6. cbn. intuition.
          -- destruct (Rltb_spec s cs) as [Hl|Hl].
             ++ right. exists x, s. cbn [mm_left mm_slope best_left cand_left]. split; auto. split; auto. split; auto. split; [exists i; apply snoc; auto|]. split.
                ** intros y t j Hj Hy. apply snoc in Hj as [Hj|(-> & -> & _)]; [|split; intros; lra]. destruct (H5 _ _ _ Hj Hy) as [K1 K2]. split; auto. intros K. specialize (K2 K). lra.
                ** intros j. rewrite snoc. cbn. split; [intros [<-|[]]; auto|]. intros [Hj|(_ & _ & ->)]; auto. destruct (H5 _ _ _ Hj H3) as [_ K]. specialize (K eq_refl). lra.
             ++ right. exists x, cs. cbn [mm_left mm_slope best_left cand_left]. split; auto. split; auto. split; auto. split; [exists i0; apply snoc; auto|]. split.
                ** intros y t j Hj Hy. apply snoc in Hj as [Hj|(-> & -> & _)]; [eauto|split; intros; lra].
                ** intros j. rewrite snoc, H6. split; auto. intros [|(_ & E & _)]; auto. lra.
        * destruct (Rltb_spec cx x) as [Hl|Hl].
          -- right. exists x, s. unfold update_left. cbn [mm_left mm_slope best_left cand_left app]. split; auto. split; auto. split; auto. split; [exists i; apply snoc; auto|]. split.
             ++ intros y t j Hj Hy. apply snoc in Hj as [Hj|(-> & -> & _)]; [|split; intros; lra]. destruct (H5 _ _ _ Hj Hy) as [K1 _]. split; intros; lra.
             ++ intros j. rewrite snoc. cbn. split; [intros [<-|[]]; auto|]. intros [Hj|(_ & _ & ->)]; auto. destruct (H5 _ _ _ Hj Hx) as [K _]. lra.
          -- right. exists cx, cs. split; auto. split; auto. split; auto. split; [exists i0; apply snoc; auto|]. split.
             ++ intros y t j Hj Hy. apply snoc in Hj as [Hj|(-> & -> & _)]; [eauto|]. split; intros; lra.
             ++ intros j. rewrite snoc, H6. split; auto. intros [|(E & _)]; auto. lra.
    - assert (Hinv := lefts_same pivot P m x s i Hx H).
      destruct (Rltb_spec pivot x) as [Hp|Hp]; auto.
      destruct (mm_right m) as [cur|]; [destruct (Reqb cur x); [|destruct (Rltb x cur); auto]|]; unfold lefts in *; cbn [mm_left mm_slope];
        match goal with |- context [update_right ?a ?b ?c ?d] => destruct (ur_left a b c d) as [-> ->] end; auto.
  Qed.
  Lemma rights_step pivot P m (x s : R) i : rights pivot P m -> rights pivot (P ++ [(x, s, i)]) (minmax_update (S := RS) m pivot x s i).
  Proof.
    intros H. unfold minmax_update. cbn [sltb sulps RS].
    destruct (Rltb_spec x pivot) as [Hx|Hx].
    - assert (Hinv : rights pivot (P ++ [(x, s, i)]) m) by (apply rights_same; auto; lra).
      destruct (mm_left m) as [cur|]; [destruct (Reqb cur x); [|destruct (Rltb cur x); auto]|]; unfold rights in *; cbn [mm_right mm_slope];
        match goal with |- context [update_left ?a ?b ?c ?d] => destruct (ul_right a b c d) as [-> ->] end; auto.
    - destruct (Rltb_spec pivot x) as [Hp|Hp]; [|apply rights_same; auto].
      destruct H as [(H1 & H2 & H3 & H4)|(cx & cs & H1 & H2 & H3 & (i0 & H4) & H5 & H6)]; rewrite H1.
      + right. exists x, s. unfold update_right. cbn [mm_right mm_slope]. rewrite H2, H3. cbn [best_right cand_right app].
        split; auto. split; auto. split; auto. split; [exists i; apply snoc; auto|]. split.
        * intros y t j Hj Hy. apply snoc in Hj as [Hj|(-> & -> & _)]; [exfalso; eapply H4; eauto|]. split; intros; lra.
        * intros j. rewrite snoc. cbn. split; [intros [<-|[]]; auto|]. intros [Hj|(_ & _ & ->)]; auto. exfalso; eapply H4; eauto.
      + destruct (Reqb_spec cx x) as [->|Hc].
        * unfold update_right. cbn [mm_right mm_slope]. rewrite H2. cbn [sulps sltb RS]. destruct (Reqb_spec cs s) as [->|Hs].
          -- right. exists x, s. cbn [mm_right mm_slope best_right cand_right]. split; auto. split; auto. split; auto. split; [exists i; apply snoc; auto|]. split.
             ++ intros y t j Hj Hy. apply snoc in Hj as [Hj|(-> & -> & _)]; [eauto|split; intros; lra].
             ++ intros j. rewrite snoc, in_app_iff, H6. cbn. intuition.
          -- destruct (Rltb_spec cs s) as [Hl|Hl].
             ++ right. exists x, s. cbn [mm_right mm_slope best_right cand_right]. split; auto. split; auto. split; auto. split; [exists i; apply snoc; auto|]. split.
                ** intros y t j Hj Hy. apply snoc in Hj as [Hj|(-> & -> & _)]; [|split; intros; lra]. destruct (H5 _ _ _ Hj Hy) as [K1 K2]. split; auto. intros K. specialize (K2 K). lra.
                ** intros j. rewrite snoc. cbn. split; [intros [<-|[]]; auto|]. intros [Hj|(_ & _ & ->)]; auto. destruct (H5 _ _ _ Hj H3) as [_ K]. specialize (K eq_refl). lra.
             ++ right. exists x, cs. cbn [mm_right mm_slope best_right cand_right]. split; auto. split; auto. split; auto. split; [exists i0; apply snoc; auto|]. split.
                ** intros y t j Hj Hy. apply snoc in Hj as [Hj|(-> & -> & _)]; [eauto|split; intros; lra].
                ** intros j. rewrite snoc, H6. split; auto. intros [|(_ & E & _)]; auto. lra.
        * destruct (Rltb_spec x cx) as [Hl|Hl].
          -- right. exists x, s. unfold update_right. cbn [mm_right mm_slope best_right cand_right app]. split; auto. split; auto. split; auto. split; [exists i; apply snoc; auto|]. split.
             ++ intros y t j Hj Hy. apply snoc in Hj as [Hj|(-> & -> & _)]; [|split; intros; lra]. destruct (H5 _ _ _ Hj Hy) as [K1 _]. split; intros; lra.
             ++ intros j. rewrite snoc. cbn. split; [intros [<-|[]]; auto|]. intros [Hj|(_ & _ & ->)]; auto. destruct (H5 _ _ _ Hj Hp) as [K _]. lra.
          -- right. exists cx, cs. split; auto. split; auto. split; auto. split; [exists i0; apply snoc; auto|]. split.
             ++ intros y t j Hj Hy. apply snoc in Hj as [Hj|(-> & -> & _)]; [eauto|]. split; intros; lra.
             ++ intros j. rewrite snoc, H6. split; auto. intros [|(E & _)]; auto. lra.
  Qed.

  Definition sampled (pos : pt) (inter order : list nat) (x s : R) (i : nat) : Prop :=
    In i order /\ ~ In i inter /\ exists l, get_line i = Val l /\ sweepline_intersection (S := RS) inf pos l = Some (x, s).
  Lemma neighbours_sets (pos : pt) inter : forall order m P,
    (forall i, In i order -> ~ In i inter -> exists l, get_line i = Val l) ->
    lefts (vx pos) P m -> rights (vx pos) P m ->
    exists m' P', neighbours (S := RS) inf get_line pos inter order m = Val m' /\ lefts (vx pos) P' m' /\ rights (vx pos) P' m' /\
      forall x s i, In (x, s, i) P' <-> In (x, s, i) P \/ sampled pos inter order x s i.
  Proof.
    unfold sampled. induction order as [|j order IH]; intros m P Hg HL HR; cbn [neighbours].
    { exists m, P. split; auto. split; auto. split; auto. intros x s i. cbn. tauto. }
    destruct (nmem j inter) eqn:Ej.
    - apply nmem_In in Ej. destruct (IH m P) as (m' & P' & H1 & H2 & H3 & H4); auto. { intros i Hi. apply Hg. right; auto. }
      exists m', P'. split; auto. split; auto. split; auto. intros x s i. rewrite H4. cbn [In]. split; [intuition|].
      intros [|([<-|Hi] & Hn & H)]; auto. contradiction.
    - assert (Hn : ~ In j inter) by (intros H; apply nmem_In in H; congruence).
      destruct (Hg j (or_introl eq_refl) Hn) as (l & El). rewrite El. cbn [obind].
      destruct (sweepline_intersection (S := RS) inf pos l) as [[x sl]|] eqn:Es.
      + destruct (IH (minmax_update (S := RS) m (vx pos) x sl j) (P ++ [(x, sl, j)])) as (m' & P' & H1 & H2 & H3 & H4).
        { intros i Hi. apply Hg. right; auto. }
        { apply lefts_step; auto. }
        { apply rights_step; auto. }
        exists m', P'. split; [exact H1|]. split; auto. split; auto. intros y t i. rewrite H4, snoc. cbn [In]. split.
        * intros [[|(-> & -> & ->)]|(Hi & H)]; auto. right. split; auto. split; auto. exists l. auto.
        * intros [|([<-|Hi] & Hni & l' & El' & Es')]; auto.
          -- rewrite El in El'. injection El' as <-. rewrite Es in Es'. injection Es' as <- <-. auto.
          -- right. split; auto. split; auto. exists l'. auto.
      + destruct (IH m P) as (m' & P' & H1 & H2 & H3 & H4); auto. { intros i Hi. apply Hg. right; auto. }
        exists m', P'. split; [exact H1|]. split; auto. split; auto. intros y t i. rewrite H4. cbn [In]. split; [intuition|].
        intros [|([<-|Hi] & Hni & l' & El' & Es')]; auto.
        * rewrite El in El'. injection El' as <-. congruence.
        * right. split; auto. split; auto. exists l'. auto.
  Qed.
  (* i is a nearest line on the left with the least slope among these *)
  Definition nearest_left (pos : pt) (smp : R -> R -> nat -> Prop) (i : nat) : Prop :=
    exists x s, smp x s i /\ x < vx pos /\ forall x' s' j, smp x' s' j -> x' < vx pos -> x' <= x /\ (x' = x -> s <= s').
  Definition nearest_right (pos : pt) (smp : R -> R -> nat -> Prop) (i : nat) : Prop :=
    exists x s, smp x s i /\ vx pos < x /\ forall x' s' j, smp x' s' j -> vx pos < x' -> x <= x' /\ (x' = x -> s' <= s).
  Lemma neighbours_exact (pos : pt) inter order :
    (forall i, In i order -> ~ In i inter -> exists l, get_line i = Val l) ->
    exists m, neighbours (S := RS) inf get_line pos inter order (minmax_new (S := RS)) = Val m /\
      (forall i, In i (cand_left (mm_slope m)) <-> nearest_left pos (sampled pos inter order) i) /\
      (forall i, In i (cand_right (mm_slope m)) <-> nearest_right pos (sampled pos inter order) i).
  Proof.
    intros Hg. destruct (neighbours_sets pos inter order (minmax_new (S := RS)) []) as (m & P & Hm & HL & HR & HP); auto.
    { left. repeat split; auto. } { left. repeat split; auto. }
    exists m. split; auto. unfold nearest_left, nearest_right. assert (HP' : forall x s i, In (x, s, i) P <-> sampled pos inter order x s i) by (intros; rewrite HP; cbn; tauto). clear HP.
    split; intros i.
    - destruct HL as [(_ & _ & E & N)|(x & s & _ & _ & Hx & (i0 & H0) & Hmax & Hc)].
      + rewrite E. split; [intros []|]. intros (x & s & Hs & Hx & _). apply HP' in Hs. exfalso. eapply N; eauto.
      + rewrite Hc. split.
        * intros Hi. exists x, s. rewrite <- HP'. split; auto. split; auto. intros x' s' j Hj. apply HP' in Hj. eauto.
        * intros (x1 & s1 & Hs & Hx1 & Hm1). apply HP' in Hs. destruct (Hmax _ _ _ Hs Hx1) as [K1 K2].
          destruct (Hm1 x s i0 (proj1 (HP' _ _ _) H0) Hx) as [K3 K4]. assert (x1 = x) by lra. subst x1. specialize (K2 eq_refl). specialize (K4 eq_refl). assert (s1 = s) by lra. subst. auto.
    - destruct HR as [(_ & _ & E & N)|(x & s & _ & _ & Hx & (i0 & H0) & Hmax & Hc)].
      + rewrite E. split; [intros []|]. intros (x & s & Hs & Hx & _). apply HP' in Hs. exfalso. eapply N; eauto.
      + rewrite Hc. split.
        * intros Hi. exists x, s. rewrite <- HP'. split; auto. split; auto. intros x' s' j Hj. apply HP' in Hj. eauto.
        * intros (x1 & s1 & Hs & Hx1 & Hm1). apply HP' in Hs. destruct (Hmax _ _ _ Hs Hx1) as [K1 K2].
          destruct (Hm1 x s i0 (proj1 (HP' _ _ _) H0) Hx) as [K3 K4]. assert (x1 = x) by lra. subst x1. specialize (K2 eq_refl). specialize (K4 eq_refl). assert (s1 = s) by lra. subst. auto.
  Qed.

  (* ---- connected ---- *)
  Definition cons_ (P : list (R * nat)) (m : MS) : Prop :=
    (P = [] /\ m = slope_new (S := RS)) \/
    (exists sl sr, best_left m = Some sl /\ best_right m = Some sr /\ (exists i, In (sl, i) P) /\ (exists i, In (sr, i) P) /\
       (forall i, In i (cand_left m) <-> In (sl, i) P) /\ (forall i, In i (cand_right m) <-> In (sr, i) P) /\
       forall s i, In (s, i) P -> sl <= s <= sr).
  Lemma cons_step P m i l : cons_ P m -> cons_ (P ++ [(cslope inf l, i)]) (update_both (S := RS) inf m i l).
  Proof.
    intros H. change (update_both (S := RS) inf m i l) with (update_right (S := RS) (update_left (S := RS) m false (cslope inf l) i) false (cslope inf l) i). set (s := cslope inf l). right.
    assert (Snoc : forall y j, In (y, j) (P ++ [(s, i)]) <-> In (y, j) P \/ (y = s /\ j = i)).
    { intros y j. rewrite in_app_iff. cbn. split; [intros [|[[= <- <-]|[]]]; auto|intros [|[-> ->]]; auto]. }
    destruct H as [[-> ->]|(sl & sr & H1 & H2 & (j1 & H3) & (j2 & H4) & H5 & H6 & H7)].
    - exists s, s. cbn. split; auto. split; auto. split; [exists i; auto|]. split; [exists i; auto|].
      split; [intros j; split; [intros [<-|[]]; auto|intros [[= <-]|[]]; auto]|]. split; [intros j; split; [intros [<-|[]]; auto|intros [[= <-]|[]]; auto]|].
      intros y j [[= <- _]|[]]. lra.
    - set (m1 := update_left m false s i). destruct (ul_right m false s i) as [R1 R2]. fold m1 in R1, R2.
      destruct (ur_left m1 false s i) as [L1 L2]. set (m2 := update_right m1 false s i) in *.
      assert (A : exists s1, best_left m1 = Some s1 /\ (exists j, In (s1, j) (P ++ [(s, i)])) /\ (forall j, In j (cand_left m1) <-> In (s1, j) (P ++ [(s, i)])) /\ s1 <= s /\ s1 <= sl).
      { unfold m1, update_left. rewrite H1. cbn [sulps sltb RS]. destruct (Reqb_spec sl s) as [E|E].
        - exists sl. cbn. split; auto. split; [exists j1; apply Snoc; auto|]. split; [|lra].
          intros j. rewrite Snoc, in_app_iff, H5. cbn. split; [intros [|[<-|[]]]; auto|intros [|[_ ->]]; auto].
        - destruct (Rltb_spec s sl).
          + exists s. cbn. split; auto. split; [exists i; apply Snoc; auto|]. split; [|lra]. intros j. rewrite Snoc. split; [intros [<-|[]]; auto|intros [K|[_ ->]]; auto]. apply H7 in K. lra.
          + exists sl. cbn. split; auto. split; [exists j1; apply Snoc; auto|]. split; [|lra]. intros j. rewrite Snoc, H5. split; auto. intros [|[? _]]; auto. lra. }
      assert (B : exists s2, best_right m2 = Some s2 /\ (exists j, In (s2, j) (P ++ [(s, i)])) /\ (forall j, In j (cand_right m2) <-> In (s2, j) (P ++ [(s, i)])) /\ s <= s2 /\ sr <= s2).
      { unfold m2, update_right. rewrite R1, R2, H2. cbn [sulps sltb RS]. destruct (Reqb_spec sr s) as [E|E].
        - exists sr. cbn. split; auto. split; [exists j2; apply Snoc; auto|]. split; [|lra].
          intros j. rewrite Snoc, in_app_iff, H6. cbn. split; [intros [|[<-|[]]]; auto|intros [|[_ ->]]; auto].
        - destruct (Rltb_spec sr s).
          + exists s. cbn. split; auto. split; [exists i; apply Snoc; auto|]. split; [|lra]. intros j. rewrite Snoc. split; [intros [<-|[]]; auto|intros [K|[_ ->]]; auto]. apply H7 in K. lra.
          + exists sr. cbn. split; auto. split; [exists j2; apply Snoc; auto|]. split; [|lra]. intros j. rewrite Snoc, H6. split; auto. intros [|[? _]]; auto. lra. }
      destruct A as (s1 & A1 & A2 & A3 & A4 & A5). destruct B as (s2 & B1 & B2 & B3 & B4 & B5).
      exists s1, s2. rewrite L1, L2. split; auto. split; auto. split; auto. split; auto. split; auto. split; auto.
      intros y j Hj. apply Snoc in Hj as [Hs|[-> _]]; [apply H7 in Hs|]; lra.
  Qed.
  Lemma connected_sets : forall ls m P, (forall i, In i ls -> exists l, get_line i = Val l) -> cons_ P m ->
    exists m' P', connected (S := RS) inf get_line ls m = Val m' /\ cons_ P' m' /\
      forall s i, In (s, i) P' <-> In (s, i) P \/ (In i ls /\ exists l, get_line i = Val l /\ s = cslope inf l).
  Proof.
    induction ls as [|j ls IH]; intros m P Hg HI; cbn [connected].
    { exists m, P. split; auto. split; auto. intros. cbn. tauto. }
    destruct (Hg j (or_introl eq_refl)) as (l & El). rewrite El. cbn [obind].
    destruct (IH (update_both (S := RS) inf m j l) (P ++ [(cslope inf l, j)])) as (m' & P' & H1 & H2 & H3).
    { intros i Hi. apply Hg. right; auto. } { apply cons_step; auto. }
    exists m', P'. split; [exact H1|]. split; auto. intros s i. rewrite H3, in_app_iff. cbn [In]. split.
    - intros [[|[[= <- <-]|[]]]|(Hi & H)]; auto. right. split; auto. exists l. auto.
    - intros [|([<-|Hi] & l' & El' & ->)]; auto.
      + rewrite El in El'. injection El' as <-. auto.
      + right. split; auto. exists l'. auto.
  Qed.
  (* the slopes of the lines connected to the event *)
  Definition conn (e : SiteEvent) (s : R) (i : nat) : Prop :=
    (In i (e_add e) \/ In i (e_inter e)) /\ exists l, get_line i = Val l /\ s = cslope inf l.
  Definition flattest (e : SiteEvent) (i : nat) : Prop := exists s, conn e s i /\ forall s' j, conn e s' j -> s <= s'.
  Definition steepest (e : SiteEvent) (i : nat) : Prop := exists s, conn e s i /\ forall s' j, conn e s' j -> s' <= s.
  Lemma candidate_lists_exact e (nb : MS) :
    (forall i, In i (e_add e) \/ In i (e_inter e) -> exists l, get_line i = Val l) ->
    exists cs, candidate_lists (S := RS) inf get_line e nb = Val cs /\
      forall a b, In (a, b) (flat_map pairs_of cs) <->
        ((e_add e = [] /\ e_inter e = []) /\ In a (cand_left nb) /\ In b (cand_right nb)) \/
        ((In a (cand_left nb) /\ flattest e b) \/ (In a (cand_right nb) /\ steepest e b)).
  Proof.
    intros Hg. unfold candidate_lists. destruct (Nat.eqb_spec (length (e_inter e) + length (e_add e)) 0) as [E|E].
    - assert (E1 : e_add e = []) by (destruct (e_add e); cbn in E; [auto|lia]). assert (E2 : e_inter e = []) by (destruct (e_inter e); cbn in E; [auto|lia]).
      assert (P : forall l r (a b : nat), In (a, b) (flat_map pairs_of [(l, r)]) <-> In a l /\ In b r).
      { intros l r a b. cbn [flat_map]. rewrite app_nil_r. unfold pairs_of. cbn [fst snd]. rewrite in_flat_map. split.
        - intros (x & Hx & H). apply in_map_iff in H as (y & [= <- <-] & Hy). auto.
        - intros [Ha Hb]. exists a. split; auto. apply in_map_iff. exists b. auto. }
      assert (Hcs : exists cs, match cand_left nb, cand_right nb with [], _ => Val [] | _, [] => Val [] | l, r => Val [(l, r)] end = Val cs /\
                forall a b, In (a, b) (flat_map pairs_of cs) <-> In a (cand_left nb) /\ In b (cand_right nb)).
      { destruct (cand_left nb) as [|c0 c1]; [exists []; split; auto; cbn; tauto|].
        destruct (cand_right nb) as [|c2 c3]; [exists []; split; auto; cbn; tauto|]. exists [(c0 :: c1, c2 :: c3)]. split; auto. }
      destruct Hcs as (cs & Ecs & Hcs). exists cs. split; [exact Ecs|].
      assert (N : forall s i, ~ conn e s i). { intros s i [[H|H] _]; [rewrite E1 in H|rewrite E2 in H]; destruct H. }
      intros a b. rewrite Hcs, E1, E2. split; [tauto|]. intros [|[[_ (s & K & _)]|[_ (s & K & _)]]]; [tauto| |]; destruct (N _ _ K).
    - destruct (connected_sets (e_add e) (slope_new (S := RS)) []) as (m1 & P1 & -> & I1 & H1); auto. { left; auto. }
      cbn [obind]. destruct (connected_sets (e_inter e) m1 P1) as (m2 & P2 & -> & I2 & H2); auto.
      cbn [obind].
      assert (HP : forall s i, In (s, i) P2 <-> conn e s i).
      { intros s i. unfold conn. rewrite H2, H1. cbn. tauto. }
      assert (Hne : ~ (e_add e = [] /\ e_inter e = [])) by (intros [E1 E2]; rewrite E1, E2 in E; cbn in E; lia).
      destruct I2 as [[EP ->]|(sl & sr & K1 & K2 & (j1 & K3) & (j2 & K4) & K5 & K6 & K7)].
      { exfalso. apply Hne. split.
        - destruct (e_add e) as [|i t] eqn:Ea; auto. destruct (Hg i) as (l & El); [left; left; auto|]. assert (K : In (cslope inf l, i) P2) by (apply HP; split; [rewrite Ea; left; left; auto|exists l; auto]). rewrite EP in K. destruct K.
        - destruct (e_inter e) as [|i t] eqn:Ea; auto. destruct (Hg i) as (l & El); [right; left; auto|]. assert (K : In (cslope inf l, i) P2) by (apply HP; split; [rewrite Ea; right; left; auto|exists l; auto]). rewrite EP in K. destruct K. }
      eexists. split; [reflexivity|].
      assert (P : forall l r (a b : nat), In (a, b) (flat_map pairs_of (match l with [] => [] | _ => [(l, r)] end)) <-> In a l /\ In b r).
      { intros l r a b. destruct l as [|x t]; [cbn; tauto|]. cbn [flat_map]. rewrite app_nil_r. unfold pairs_of. cbn [fst snd]. rewrite in_flat_map. split.
        - intros (z & Hx & H). apply in_map_iff in H as (y & [= <- <-] & Hy). auto.
        - intros [Ha Hb]. exists a. split; auto. apply in_map_iff. exists b. auto. }
      assert (CL : forall b, In b (cand_left m2) <-> flattest e b).
      { intros b. rewrite K5. unfold flattest. split.
        - intros H. exists sl. split; [apply HP; auto|]. intros s' j Hj. apply HP in Hj. apply (K7 _ _ Hj).
        - intros (s & Hs & Hm). apply HP in Hs. pose proof (K7 _ _ Hs). pose proof (Hm sl j1 (proj1 (HP _ _) K3)). assert (s = sl) by lra. subst. auto. }
      assert (CR : forall b, In b (cand_right m2) <-> steepest e b).
      { intros b. rewrite K6. unfold steepest. split.
        - intros H. exists sr. split; [apply HP; auto|]. intros s' j Hj. apply HP in Hj. apply (K7 _ _ Hj).
        - intros (s & Hs & Hm). apply HP in Hs. pose proof (K7 _ _ Hs). pose proof (Hm sr j2 (proj1 (HP _ _) K4)). assert (s = sr) by lra. subst. auto. }
      intros a b. rewrite flat_map_app, in_app_iff.
      assert (X : forall (l r : list nat), match l with [] => [] | n :: l0 => [(n :: l0, r)] end = match l with [] => [] | _ => [(l, r)] end) by (intros [|? ?] r; reflexivity).
      rewrite !X, !P, CL, CR. split; [intros K; right; auto|]. intros [[K _]|K]; [contradiction|exact K].
  Qed.
End Exact.
