(* The candidates chosen around an event: the nearest lines on both sides and the extreme slopes at the point. *)
From Coq Require Import Reals Lra Permutation.
From Verif Require Import Prelude Scalar RInst Geo2 GeoSpec DistR IsectProofs Sweep SweepMap.
Local Open Scope R_scope.

Section Cand.
  Variable inf : R.
  Notation MS := (MinMaxSlope (S := RS)).
  Notation MM := (MinMax (S := RS)).
  Variable get_line : nat -> outcome (Line2 RS).

  (* update_left *)
  Lemma ul_right (m : MS) c (s : R) i : best_right (update_left m c s i) = best_right m /\ cand_right (update_left m c s i) = cand_right m.
  Proof. unfold update_left. destruct c; cbn; auto. destruct (best_left m); cbn; auto. destruct (Reqb _ _); cbn; auto. destruct (Rltb _ _); cbn; auto. Qed.
  Lemma ur_left (m : MS) c (s : R) i : best_left (update_right m c s i) = best_left m /\ cand_left (update_right m c s i) = cand_left m.
  Proof. unfold update_right. destruct c; cbn; auto. destruct (best_right m); cbn; auto. destruct (Reqb _ _); cbn; auto. destruct (Rltb _ _); cbn; auto. Qed.
  Lemma ul_incl (m : MS) c (s : R) i : incl (cand_left (update_left m c s i)) ((if c then [] else cand_left m) ++ [i]).
  Proof.
    unfold update_left. destruct c; cbn; [apply incl_refl|]. destruct (best_left m); cbn; [|apply incl_refl].
    destruct (Reqb _ _); cbn; [apply incl_refl|]. destruct (Rltb _ _); cbn; [apply incl_appr, incl_refl|apply incl_appl, incl_refl].
  Qed.
  Lemma ur_incl (m : MS) c (s : R) i : incl (cand_right (update_right m c s i)) ((if c then [] else cand_right m) ++ [i]).
  Proof.
    unfold update_right. destruct c; cbn; [apply incl_refl|]. destruct (best_right m); cbn; [|apply incl_refl].
    destruct (Reqb _ _); cbn; [apply incl_refl|]. destruct (Rltb _ _); cbn; [apply incl_appr, incl_refl|apply incl_appl, incl_refl].
  Qed.
  Lemma ul_ne (m : MS) c (s : R) i : (c = true \/ best_left m = None \/ cand_left m <> []) -> cand_left (update_left m c s i) <> [].
  Proof.
    unfold update_left. destruct c; cbn; [discriminate|]. intros [|H]; [discriminate|]. destruct (best_left m); cbn; [|destruct (cand_left m); discriminate].
    destruct H as [|H]; [discriminate|]. destruct (Reqb _ _); cbn; [destruct (cand_left m); discriminate|]. destruct (Rltb _ _); cbn; [discriminate|auto].
  Qed.
  Lemma ur_ne (m : MS) c (s : R) i : (c = true \/ best_right m = None \/ cand_right m <> []) -> cand_right (update_right m c s i) <> [].
  Proof.
    unfold update_right. destruct c; cbn; [discriminate|]. intros [|H]; [discriminate|]. destruct (best_right m); cbn; [|destruct (cand_right m); discriminate].
    destruct H as [|H]; [discriminate|]. destruct (Reqb _ _); cbn; [destruct (cand_right m); discriminate|]. destruct (Rltb _ _); cbn; [discriminate|auto].
  Qed.

  (* ---- neighbours ---- *)
  (* P: the samples (x, index) seen so far *)
  Definition left_inv (pivot : R) (P : list (R * nat)) (m : MM) : Prop :=
    (mm_left m = None /\ best_left (mm_slope m) = None /\ cand_left (mm_slope m) = [] /\ (forall x i, In (x, i) P -> ~ x < pivot)) \/
    (exists x, mm_left m = Some x /\ x < pivot /\ cand_left (mm_slope m) <> [] /\ (forall i, In i (cand_left (mm_slope m)) -> In (x, i) P) /\
      forall x' i, In (x', i) P -> x' < pivot -> x' <= x).
  Definition right_inv (pivot : R) (P : list (R * nat)) (m : MM) : Prop :=
    (mm_right m = None /\ best_right (mm_slope m) = None /\ cand_right (mm_slope m) = [] /\ (forall x i, In (x, i) P -> ~ pivot < x)) \/
    (exists x, mm_right m = Some x /\ pivot < x /\ cand_right (mm_slope m) <> [] /\ (forall i, In i (cand_right (mm_slope m)) -> In (x, i) P) /\
      forall x' i, In (x', i) P -> pivot < x' -> x <= x').

  Lemma update_left_inv pivot P m (x s : R) i : left_inv pivot P m -> left_inv pivot (P ++ [(x, i)]) (minmax_update (S := RS) m pivot x s i).
  Proof.
    intros H. unfold minmax_update. cbn [sltb sulps RS].
    assert (Snoc : forall y j, In (y, j) (P ++ [(x, i)]) <-> In (y, j) P \/ (y = x /\ j = i)).
    { intros y j. rewrite in_app_iff. cbn. split; [intros [|[[= <- <-]|[]]]; auto|intros [|[-> ->]]; auto]. }
    destruct (Rltb_spec x pivot) as [Hx|Hx].
    - destruct H as [(H1 & H2 & H3 & H4)|(cur & H1 & H2 & H3 & H4 & H5)].
      + rewrite H1. right. exists x. cbn [mm_left mm_slope]. split; auto. split; auto. split; [apply ul_ne; auto|]. split.
        * intros j Hj. apply ul_incl in Hj. rewrite H3 in Hj. cbn in Hj. destruct Hj as [<-|[]]. apply Snoc. auto.
        * intros y j Hy Hlt. apply Snoc in Hy as [Hy|[-> _]]; [|lra]. exfalso. eapply H4; eauto.
      + rewrite H1. destruct (Reqb_spec cur x) as [->|Hc].
        * right. exists x. cbn [mm_left mm_slope]. split; auto. split; auto. split; [apply ul_ne; auto|]. split.
          -- intros j Hj. apply ul_incl in Hj. apply in_app_iff in Hj as [Hj|[<-|[]]]; apply Snoc; auto.
          -- intros y j Hy Hlt. apply Snoc in Hy as [Hy|[-> _]]; [|lra]. eauto.
        * destruct (Rltb_spec cur x) as [Hl|Hl].
          -- right. exists x. cbn [mm_left mm_slope]. split; auto. split; auto. split; [apply ul_ne; auto|]. split.
             ++ intros j Hj. apply ul_incl in Hj. destruct Hj as [<-|[]]. apply Snoc; auto.
             ++ intros y j Hy Hlt. apply Snoc in Hy as [Hy|[-> _]]; [|lra]. specialize (H5 _ _ Hy Hlt). lra.
          -- right. exists cur. split; auto. split; auto. split; auto. split.
             ++ intros j Hj. apply Snoc. auto.
             ++ intros y j Hy Hlt. apply Snoc in Hy as [Hy|[-> _]]; eauto. lra.
    - assert (Hinv : left_inv pivot (P ++ [(x, i)]) m).
      { destruct H as [(H1 & H2 & H3 & H4)|(cur & H1 & H2 & H3 & H4 & H5)].
        - left. repeat split; auto. intros y j Hy. apply Snoc in Hy as [Hy|[-> _]]; eauto.
        - right. exists cur. repeat split; auto.
          + intros j Hj. apply Snoc. auto.
          + intros y j Hy Hlt. apply Snoc in Hy as [Hy|[-> _]]; eauto. lra. }
      destruct (Rltb_spec pivot x) as [Hp|Hp]; auto.
      destruct (mm_right m) as [cur|]; [destruct (Reqb cur x); [|destruct (Rltb x cur); auto]|]; unfold left_inv in *; cbn [mm_left mm_slope];
        match goal with |- context [update_right ?a ?b ?c ?d] => destruct (ur_left a b c d) as [-> ->] end; auto.
  Qed.
  Lemma update_right_inv pivot P m (x s : R) i : right_inv pivot P m -> right_inv pivot (P ++ [(x, i)]) (minmax_update (S := RS) m pivot x s i).
  Proof.
    intros H. unfold minmax_update. cbn [sltb sulps RS].
    assert (Snoc : forall y j, In (y, j) (P ++ [(x, i)]) <-> In (y, j) P \/ (y = x /\ j = i)).
    { intros y j. rewrite in_app_iff. cbn. split; [intros [|[[= <- <-]|[]]]; auto|intros [|[-> ->]]; auto]. }
    destruct (Rltb_spec x pivot) as [Hx|Hx].
    - assert (Hinv : right_inv pivot (P ++ [(x, i)]) m).
      { destruct H as [(H1 & H2 & H3 & H4)|(cur & H1 & H2 & H3 & H4 & H5)].
        - left. repeat split; auto. intros y j Hy. apply Snoc in Hy as [Hy|[-> _]]; eauto. lra.
        - right. exists cur. repeat split; auto.
          + intros j Hj. apply Snoc. auto.
          + intros y j Hy Hlt. apply Snoc in Hy as [Hy|[-> _]]; eauto. lra. }
      destruct (mm_left m) as [cur|]; [destruct (Reqb cur x); [|destruct (Rltb cur x); auto]|]; unfold right_inv in *; cbn [mm_right mm_slope];
        match goal with |- context [update_left ?a ?b ?c ?d] => destruct (ul_right a b c d) as [-> ->] end; auto.
    - destruct (Rltb_spec pivot x) as [Hp|Hp].
      + destruct H as [(H1 & H2 & H3 & H4)|(cur & H1 & H2 & H3 & H4 & H5)].
        * rewrite H1. right. exists x. cbn [mm_right mm_slope]. split; auto. split; auto. split; [apply ur_ne; auto|]. split.
          -- intros j Hj. apply ur_incl in Hj. rewrite H3 in Hj. cbn in Hj. destruct Hj as [<-|[]]. apply Snoc. auto.
          -- intros y j Hy Hlt. apply Snoc in Hy as [Hy|[-> _]]; [|lra]. exfalso. eapply H4; eauto.
        * rewrite H1. destruct (Reqb_spec cur x) as [->|Hc].
          -- right. exists x. cbn [mm_right mm_slope]. split; auto. split; auto. split; [apply ur_ne; auto|]. split.
             ++ intros j Hj. apply ur_incl in Hj. apply in_app_iff in Hj as [Hj|[<-|[]]]; apply Snoc; auto.
             ++ intros y j Hy Hlt. apply Snoc in Hy as [Hy|[-> _]]; [|lra]. eauto.
          -- destruct (Rltb_spec x cur) as [Hl|Hl].
             ++ right. exists x. cbn [mm_right mm_slope]. split; auto. split; auto. split; [apply ur_ne; auto|]. split.
                ** intros j Hj. apply ur_incl in Hj. destruct Hj as [<-|[]]. apply Snoc; auto.
                ** intros y j Hy Hlt. apply Snoc in Hy as [Hy|[-> _]]; [|lra]. specialize (H5 _ _ Hy Hlt). lra.
             ++ right. exists cur. split; auto. split; auto. split; auto. split.
                ** intros j Hj. apply Snoc. auto.
                ** intros y j Hy Hlt. apply Snoc in Hy as [Hy|[-> _]]; eauto. lra.
      + destruct H as [(H1 & H2 & H3 & H4)|(cur & H1 & H2 & H3 & H4 & H5)].
        * left. repeat split; auto. intros y j Hy. apply Snoc in Hy as [Hy|[-> _]]; eauto.
        * right. exists cur. repeat split; auto.
          -- intros j Hj. apply Snoc. auto.
          -- intros y j Hy Hlt. apply Snoc in Hy as [Hy|[-> _]]; eauto. lra.
  Qed.

  Lemma neighbours_inv (pos : pt) inter : forall order m P,
    (forall i, In i order -> ~ In i inter -> exists l, get_line i = Val l) ->
    left_inv (vx pos) P m -> right_inv (vx pos) P m ->
    exists m' P', neighbours (S := RS) inf get_line pos inter order m = Val m' /\ left_inv (vx pos) P' m' /\ right_inv (vx pos) P' m' /\
      forall x i, In (x, i) P' <-> In (x, i) P \/ (In i order /\ ~ In i inter /\ exists l sl, get_line i = Val l /\ sweepline_intersection (S := RS) inf pos l = Some (x, sl)).
  Proof.
    induction order as [|j order IH]; intros m P Hg HL HR; cbn [neighbours].
    { exists m, P. split; auto. split; auto. split; auto. intros x i. cbn. tauto. }
    destruct (nmem j inter) eqn:Ej.
    - apply nmem_In in Ej. destruct (IH m P) as (m' & P' & H1 & H2 & H3 & H4); auto. { intros i Hi. apply Hg. right; auto. }
      exists m', P'. split; auto. split; auto. split; auto. intros x i. rewrite H4. cbn [In]. split; [intuition|].
      intros [|([<-|Hi] & Hn & H)]; auto. contradiction.
    - assert (Hn : ~ In j inter) by (intros H; apply nmem_In in H; congruence).
      destruct (Hg j (or_introl eq_refl) Hn) as (l & El). rewrite El. cbn [obind].
      destruct (sweepline_intersection (S := RS) inf pos l) as [[x sl]|] eqn:Es.
      + destruct (IH (minmax_update (S := RS) m (vx pos) x sl j) (P ++ [(x, j)])) as (m' & P' & H1 & H2 & H3 & H4).
        { intros i Hi. apply Hg. right; auto. }
        { apply update_left_inv; auto. }
        { apply update_right_inv; auto. }
        exists m', P'. split; [exact H1|]. split; auto. split; auto. intros y i. rewrite H4, in_app_iff. cbn [In]. split.
        * intros [[|[[= <- <-]|[]]]|(Hi & H)]; auto. right. split; auto. split; auto. exists l, sl. auto.
        * intros [|([<-|Hi] & Hni & l' & sl' & El' & Es')]; auto.
          -- rewrite El in El'. injection El' as <-. rewrite Es in Es'. injection Es' as <- <-. auto.
          -- right. split; auto. split; auto. exists l', sl'. auto.
      + destruct (IH m P) as (m' & P' & H1 & H2 & H3 & H4); auto. { intros i Hi. apply Hg. right; auto. }
        exists m', P'. split; [exact H1|]. split; auto. split; auto. intros y i. rewrite H4. cbn [In]. split; [intuition|].
        intros [|([<-|Hi] & Hni & l' & sl' & El' & Es')]; auto.
        * rewrite El in El'. injection El' as <-. congruence.
        * right. split; auto. split; auto. exists l', sl'. auto.
  Qed.

  (* where a line that may be a neighbour meets the sweep line *)
  Definition sample (pos : pt) (inter order : list nat) (x : R) (i : nat) : Prop :=
    In i order /\ ~ In i inter /\ exists l sl, get_line i = Val l /\ sweepline_intersection (S := RS) inf pos l = Some (x, sl).

  Lemma neighbours_spec (pos : pt) inter order :
    (forall i, In i order -> ~ In i inter -> exists l, get_line i = Val l) ->
    exists m, neighbours (S := RS) inf get_line pos inter order (minmax_new (S := RS)) = Val m /\
      (forall i, In i (cand_left (mm_slope m)) -> exists x, sample pos inter order x i /\ x < vx pos /\
         forall x' j, sample pos inter order x' j -> x' < vx pos -> x' <= x) /\
      ((exists x i, sample pos inter order x i /\ x < vx pos) -> cand_left (mm_slope m) <> []) /\
      (forall i, In i (cand_right (mm_slope m)) -> exists x, sample pos inter order x i /\ vx pos < x /\
         forall x' j, sample pos inter order x' j -> vx pos < x' -> x <= x') /\
      ((exists x i, sample pos inter order x i /\ vx pos < x) -> cand_right (mm_slope m) <> []).
  Proof.
    intros Hg. destruct (neighbours_inv pos inter order (minmax_new (S := RS)) []) as (m & P & Hm & HL & HR & HP); auto.
    { left. repeat split; auto. }
    { left. repeat split; auto. }
    exists m. split; auto.
    assert (HP' : forall x i, In (x, i) P <-> sample pos inter order x i).
    { intros x i. rewrite HP. unfold sample. cbn. tauto. }
    split; [|split; [|split]].
    - intros i Hi. destruct HL as [(_ & _ & E & _)|(x & _ & Hx & _ & Hc & Hmax)]; [rewrite E in Hi; destruct Hi|].
      exists x. split; [apply HP'; auto|]. split; auto. intros x' j Hj. apply HP' in Hj. eauto.
    - intros (x & i & Hs & Hx). apply HP' in Hs. destruct HL as [(_ & _ & _ & E)|(x0 & _ & _ & Hc & _)]; auto. exfalso. eapply E; eauto.
    - intros i Hi. destruct HR as [(_ & _ & E & _)|(x & _ & Hx & _ & Hc & Hmax)]; [rewrite E in Hi; destruct Hi|].
      exists x. split; [apply HP'; auto|]. split; auto. intros x' j Hj. apply HP' in Hj. eauto.
    - intros (x & i & Hs & Hx). apply HP' in Hs. destruct HR as [(_ & _ & _ & E)|(x0 & _ & _ & Hc & _)]; auto. exfalso. eapply E; eauto.
  Qed.

  (* ---- connected ---- *)
  Definition cslope (l : Line2 RS) : R :=
    if Reqb (vy (lend l)) (vy (lstart l)) then inf else (vx (lend l) - vx (lstart l)) / (vy (lend l) - vy (lstart l)).
  Definition conn_inv (P : list (R * nat)) (m : MS) : Prop :=
    (P = [] /\ m = slope_new (S := RS)) \/
    (exists sl sr, best_left m = Some sl /\ best_right m = Some sr /\ cand_left m <> [] /\ cand_right m <> [] /\
       (forall i, In i (cand_left m) -> In (sl, i) P) /\ (forall i, In i (cand_right m) -> In (sr, i) P) /\
       forall s i, In (s, i) P -> sl <= s <= sr).
  Lemma update_both_inv P m i l : conn_inv P m -> conn_inv (P ++ [(cslope l, i)]) (update_both (S := RS) inf m i l).
  Proof.
    intros H. change (update_both (S := RS) inf m i l) with (update_right (S := RS) (update_left (S := RS) m false (cslope l) i) false (cslope l) i). set (s := cslope l). right.
    assert (Snoc : forall y j, In (y, j) (P ++ [(s, i)]) <-> In (y, j) P \/ (y = s /\ j = i)).
    { intros y j. rewrite in_app_iff. cbn. split; [intros [|[[= <- <-]|[]]]; auto|intros [|[-> ->]]; auto]. }
    destruct H as [[-> ->]|(sl & sr & H1 & H2 & H3 & H4 & H5 & H6 & H7)].
    - exists s, s. cbn. repeat split; auto; try discriminate.
      + intros j [<-|[]]. auto.
      + intros j [<-|[]]. auto.
      + destruct H as [[= <- _]|[]]. lra.
      + destruct H as [[= <- _]|[]]. lra.
    - set (m1 := update_left m false s i). destruct (ul_right m false s i) as [R1 R2]. fold m1 in R1, R2.
      destruct (ur_left m1 false s i) as [L1 L2]. set (m2 := update_right m1 false s i) in *.
      assert (A : exists s1, best_left m1 = Some s1 /\ cand_left m1 <> [] /\ (forall j, In j (cand_left m1) -> In (s1, j) (P ++ [(s, i)])) /\ s1 <= s /\ s1 <= sl).
      { unfold m1, update_left. rewrite H1. cbn [sulps sltb RS]. destruct (Reqb_spec sl s) as [E|E].
        - exists sl. cbn. split; auto. split; [destruct (cand_left m); discriminate|]. split; [|lra].
          intros j Hj. apply Snoc. apply in_app_iff in Hj as [Hj|[<-|[]]]; auto.
        - destruct (Rltb_spec s sl).
          + exists s. cbn. split; auto. split; [discriminate|]. split; [|lra]. intros j [<-|[]]. apply Snoc; auto.
          + exists sl. cbn. split; auto. split; auto. split; [|lra]. intros j Hj. apply Snoc. auto. }
      assert (B : exists s2, best_right m2 = Some s2 /\ cand_right m2 <> [] /\ (forall j, In j (cand_right m2) -> In (s2, j) (P ++ [(s, i)])) /\ s <= s2 /\ sr <= s2).
      { unfold m2, update_right. rewrite R1, R2, H2. cbn [sulps sltb RS]. destruct (Reqb_spec sr s) as [E|E].
        - exists sr. cbn. split; auto. split; [destruct (cand_right m); discriminate|]. split; [|lra].
          intros j Hj. apply Snoc. apply in_app_iff in Hj as [Hj|[<-|[]]]; auto.
        - destruct (Rltb_spec sr s).
          + exists s. cbn. split; auto. split; [discriminate|]. split; [|lra]. intros j [<-|[]]. apply Snoc; auto.
          + exists sr. cbn. split; auto. split; auto. split; [|lra]. intros j Hj. apply Snoc. auto. }
      destruct A as (s1 & A1 & A2 & A3 & A4 & A5). destruct B as (s2 & B1 & B2 & B3 & B4 & B5).
      exists s1, s2. rewrite L1, L2. repeat split; auto; apply Snoc in H as [Hs|[-> _]]; auto; apply H7 in Hs; lra.
  Qed.
  Lemma connected_inv : forall ls m P, (forall i, In i ls -> exists l, get_line i = Val l) -> conn_inv P m ->
    exists m' P', connected (S := RS) inf get_line ls m = Val m' /\ conn_inv P' m' /\
      forall s i, In (s, i) P' <-> In (s, i) P \/ (In i ls /\ exists l, get_line i = Val l /\ s = cslope l).
  Proof.
    induction ls as [|j ls IH]; intros m P Hg HI; cbn [connected].
    { exists m, P. split; auto. split; auto. intros. cbn. tauto. }
    destruct (Hg j (or_introl eq_refl)) as (l & El). rewrite El. cbn [obind].
    destruct (IH (update_both (S := RS) inf m j l) (P ++ [(cslope l, j)])) as (m' & P' & H1 & H2 & H3).
    { intros i Hi. apply Hg. right; auto. } { apply update_both_inv; auto. }
    exists m', P'. split; [exact H1|]. split; auto. intros s i. rewrite H3, in_app_iff. cbn [In]. split.
    - intros [[|[[= <- <-]|[]]]|(Hi & H)]; auto. right. split; auto. exists l. auto.
    - intros [|([<-|Hi] & l' & El' & ->)]; auto.
      + rewrite El in El'. injection El' as <-. auto.
      + right. split; auto. exists l'. auto.
  Qed.

  (* the pairs of candidate lists: [nl], [nr] are the neighbours' lists *)
  Lemma candidate_lists_spec e (nb : MS) :
    (forall i, In i (e_add e) \/ In i (e_inter e) -> exists l, get_line i = Val l) ->
    exists cl cr cs, candidate_lists (S := RS) inf get_line e nb = Val cs /\
      (forall i, In i cl -> (In i (e_add e) \/ In i (e_inter e)) /\ forall l j lj, get_line i = Val l -> In j (e_add e) \/ In j (e_inter e) -> get_line j = Val lj -> cslope l <= cslope lj) /\
      (forall i, In i cr -> (In i (e_add e) \/ In i (e_inter e)) /\ forall l j lj, get_line i = Val l -> In j (e_add e) \/ In j (e_inter e) -> get_line j = Val lj -> cslope lj <= cslope l) /\
      ((e_add e <> [] \/ e_inter e <> []) -> cl <> [] /\ cr <> []) /\
      forall a b, In (a, b) (flat_map pairs_of cs) <->
        ((e_add e = [] /\ e_inter e = []) /\ In a (cand_left nb) /\ In b (cand_right nb)) \/
        (~ (e_add e = [] /\ e_inter e = []) /\ ((In a (cand_left nb) /\ In b cl) \/ (In a (cand_right nb) /\ In b cr))).
  Proof.
    intros Hg. unfold candidate_lists. destruct (Nat.eqb_spec (length (e_inter e) + length (e_add e)) 0) as [E|E].
    - assert (E1 : e_add e = []) by (destruct (e_add e); cbn in E; [auto|lia]). assert (E2 : e_inter e = []) by (destruct (e_inter e); cbn in E; [auto|lia]).
      assert (P : forall l r (a b : nat), In (a, b) (flat_map pairs_of [(l, r)]) <-> In a l /\ In b r).
      { intros l r a b. cbn [flat_map]. rewrite app_nil_r. unfold pairs_of. cbn [fst snd]. rewrite in_flat_map. split.
        - intros (x & Hx & H). apply in_map_iff in H as (y & [= <- <-] & Hy). auto.
        - intros [Ha Hb]. exists a. split; auto. apply in_map_iff. exists b. auto. }
      assert (Hcs : exists cs, match cand_left nb, cand_right nb with [], _ => Val [] | _, [] => Val [] | l, r => Val [(l, r)] end = Val cs /\
                forall a b, In (a, b) (flat_map pairs_of cs) <-> In a (cand_left nb) /\ In b (cand_right nb)).
      { destruct (cand_left nb) as [|c0 c1]; [exists []; split; auto; cbn; tauto|].
        destruct (cand_right nb) as [|c2 c3]; [exists []; split; auto; cbn; tauto|]. exists [(c0 :: c1, c2 :: c3)]. split; auto. }
      destruct Hcs as (cs & Ecs & Hcs). exists [], [], cs. split; [exact Ecs|].
      rewrite E1, E2. split; [intros i []|]. split; [intros i []|]. split; [tauto|].
      intros a b. rewrite Hcs. tauto.
    - destruct (connected_inv (e_add e) (slope_new (S := RS)) []) as (m1 & P1 & -> & I1 & H1); auto. { left; auto. }
      cbn [obind]. destruct (connected_inv (e_inter e) m1 P1) as (m2 & P2 & -> & I2 & H2); auto.
      cbn [obind].
      assert (HP : forall s i, In (s, i) P2 <-> (In i (e_add e) \/ In i (e_inter e)) /\ exists l, get_line i = Val l /\ s = cslope l).
      { intros s i. rewrite H2, H1. cbn. tauto. }
      assert (Hne : ~ (e_add e = [] /\ e_inter e = [])) by (intros [E1 E2]; rewrite E1, E2 in E; cbn in E; lia).
      destruct I2 as [[EP ->]|(sl & sr & K1 & K2 & K3 & K4 & K5 & K6 & K7)].
      { exfalso. apply Hne. split.
        - destruct (e_add e) as [|i t]; auto. destruct (Hg i) as (l & El); [left; left; auto|]. assert (K : In (cslope l, i) P2) by (apply HP; split; [left; left; auto|exists l; auto]). rewrite EP in K. destruct K.
        - destruct (e_inter e) as [|i t]; auto. destruct (Hg i) as (l & El); [right; left; auto|]. assert (K : In (cslope l, i) P2) by (apply HP; split; [right; left; auto|exists l; auto]). rewrite EP in K. destruct K. }
      exists (cand_left m2), (cand_right m2). eexists. split; [reflexivity|].
      split; [|split; [|split]].
      + intros i Hi. apply K5 in Hi. pose proof Hi as Hi'. apply HP in Hi' as (Hm & l0 & El & Es). split; auto.
        intros l j lj El' Hj Elj. assert (l = l0) by congruence. subst l0. rewrite <- Es.
        apply (K7 (cslope lj) j). apply HP. split; auto. exists lj. auto.
      + intros i Hi. apply K6 in Hi. pose proof Hi as Hi'. apply HP in Hi' as (Hm & l0 & El & Es). split; auto.
        intros l j lj El' Hj Elj. assert (l = l0) by congruence. subst l0. rewrite <- Es.
        apply (K7 (cslope lj) j). apply HP. split; auto. exists lj. auto.
      + auto.
      + assert (P : forall l r (a b : nat), In (a, b) (flat_map pairs_of (match l with [] => [] | _ => [(l, r)] end)) <-> In a l /\ In b r).
        { intros l r a b. destruct l as [|x t]; [cbn; tauto|]. cbn [flat_map]. rewrite app_nil_r. unfold pairs_of. cbn [fst snd]. rewrite in_flat_map. split.
          - intros (z & Hx & H). apply in_map_iff in H as (y & [= <- <-] & Hy). auto.
          - intros [Ha Hb]. exists a. split; auto. apply in_map_iff. exists b. auto. }
        intros a b. rewrite flat_map_app, in_app_iff.
        assert (X : forall (l r : list nat), match l with [] => [] | n :: l0 => [(n :: l0, r)] end = match l with [] => [] | _ => [(l, r)] end) by (intros [|? ?] r; reflexivity).
        rewrite !X, !P. split; [intros K; right; split; auto|]. intros [[K _]|[_ K]]; [contradiction|exact K].
  Qed.
End Cand.
