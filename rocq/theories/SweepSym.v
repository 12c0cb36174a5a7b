(* Two runs of the sweep side by side: lines renumbered by f and moved by T, different iteration orders of the hash set. *)
From Coq Require Import Reals Lra Permutation Sorting.Sorted.
From Verif Require Import Prelude Scalar RInst Geo2 GeoSpec DistR IsectProofs Sweep SweepMap SweepProofs SweepCand SweepLoop SweepLoop2 SweepExact.
Local Open Scope R_scope.

Section Hits.
  Variable lines : list line.
  (* one of the pairs has a computed intersection at k ahead of the sweep, with line i of the pair passing through k *)
  Definition hit (sweep : pt) (prs : nat -> nat -> Prop) (k : pt) (i : nat) : Prop :=
    exists a b la lb it, prs a b /\ ln lines a la /\ ln lines b lb /\ lend la <> lend lb /\ intersection_point la lb = Some it /\
      k = isingle it /\ klt sweep k /\ ((i = a /\ ~ ends_of k la) \/ (i = b /\ ~ ends_of k lb)).
  Definition queued (q : list (pt * SiteEvent)) (k : pt) (i : nat) : Prop := exists e, get q k = Some e /\ In i (e_inter e).
  (* the queue q' has the events of q, with the hits of the pairs added *)
  Definition extends (sweep : pt) (prs : nat -> nat -> Prop) (q q' : list (pt * SiteEvent)) : Prop := forall k,
    (get q' k <> None <-> get q k <> None \/ exists i, hit sweep prs k i) /\
    forall i, queued q' k i <-> queued q k i \/ hit sweep prs k i.

  Lemma vulps_ends (p : pt) l : vulps p (lstart l) || vulps p (lend l) = true <-> ends_of p l.
  Proof. rewrite orb_true_iff, !vulps_R. unfold ends_of. tauto. Qed.
  Lemma pair_event_exact (sweep : pt) a b la lb q : q_ok lines (Some sweep) q -> ln lines a la -> ln lines b lb -> a <> b ->
    forall q', pair_event lines sweep a b q = Val q' -> extends sweep (fun x y => x = a /\ y = b) q q'.
  Proof.
    intros Hq Ha Hb Hab q'. unfold pair_event. unfold idx. rewrite Ha, Hb. cbn [obind].
    assert (Same : (forall k i, ~ hit sweep (fun x y => x = a /\ y = b) k i) -> Val q = Val q' -> extends sweep (fun x y => x = a /\ y = b) q q').
    { intros N [= <-] k. split; [|intros i; split; auto; intros [|H]; auto; destruct (N _ _ H)]. split; auto. intros [|(i & H)]; auto. destruct (N _ _ H). }
    assert (Inv : forall k i, hit sweep (fun x y => x = a /\ y = b) k i -> lend la <> lend lb /\ exists it, intersection_point la lb = Some it /\
              k = isingle it /\ klt sweep k /\ ((i = a /\ ~ ends_of k la) \/ (i = b /\ ~ ends_of k lb))).
    { intros k i (a' & b' & la' & lb' & it & [-> ->] & H1 & H2 & H3 & H4 & H5 & H6 & H7). assert (la' = la) by (eapply ln_fun; eauto). assert (lb' = lb) by (eapply ln_fun; eauto). subst. eauto 10. }
    destruct (vulps (lend la) (lend lb)) eqn:Ev.
    { apply vulps_R in Ev. apply Same. intros k i H. destruct (Inv _ _ H) as [K _]. contradiction. }
    assert (Ne : lend la <> lend lb) by (intros E; apply vulps_R in E; congruence).
    destruct (intersection_point la lb) as [it|] eqn:Ei.
    2: { apply Same. intros k i H. destruct (Inv _ _ H) as [_ (it & K & _)]. congruence. }
    cbn [sfin RS andb]. set (p := isingle it).
    destruct (ahead sweep p) eqn:Eh.
    2: { apply Same. intros k i H. destruct (Inv _ _ H) as [_ (it' & K1 & K2 & K3 & _)]. injection K1 as <-. subst k. apply ahead_R in K3. unfold p in Eh. congruence. }
    apply ahead_R in Eh.
    destruct (bt_update_R q p (merge_intersection p [(a, la); (b, lb)]) (q_sorted _ _ _ Hq)) as (q2 & Hu & Hs & Hg).
    intros E. assert (q' = q2) by congruence. subst q2. clear E Hu Hs.
    set (fresh := map fst (filter (fun il => negb (vulps p (lstart (snd il)) || vulps p (lend (snd il)))) [(a, la); (b, lb)])).
    assert (Hf : forall i, In i fresh <-> (i = a /\ ~ ends_of p la) \/ (i = b /\ ~ ends_of p lb)).
    { intros i. unfold fresh. rewrite in_map_iff. split.
      - intros ((j & l) & <- & H). apply filter_In in H as [Hi Hn]. cbn [fst snd] in *.
        apply negb_true_iff in Hn. rewrite <- not_true_iff_false, vulps_ends in Hn.
        destruct Hi as [[= <- <-]|[[= <- <-]|[]]]; auto.
      - intros H. exists (i, if Nat.eqb i a then la else lb). split; auto. apply filter_In. cbn [snd].
        destruct (Nat.eqb_spec i a) as [->|N]; (split; [|apply negb_true_iff, not_true_iff_false; rewrite vulps_ends; destruct H as [[? ?]|[? ?]]; congruence || auto]).
        + left; auto.
        + destruct H as [[? ?]|[-> ?]]; [congruence|right; left; auto]. }
    assert (Hhit : forall k i, hit sweep (fun x y => x = a /\ y = b) k i <-> k = p /\ In i fresh).
    { intros k i. rewrite Hf. split.
      - intros H. destruct (Inv _ _ H) as [_ (it' & K1 & K2 & K3 & K4)]. injection K1 as <-. subst k. auto.
      - intros [-> H]. exists a, b, la, lb, it. repeat (split; auto). }
    intros k. rewrite Hg. destruct (pt_dec p k) as [<-|Hn].
    2: { split.
         - split; auto. intros [|(i & H)]; auto. apply Hhit in H as [? _]. congruence.
         - intros i. rewrite Hhit. unfold queued. rewrite Hg. destruct (pt_dec p k); [contradiction|]. split; auto. intros [|[? _]]; auto. congruence. }
    split.
    - split; [|congruence]. intros _. destruct (get q p) eqn:G; [left; congruence|]. right. exists a. apply Hhit. split; auto. apply Hf. left. split; auto.
      intros K. apply end_cases in K as [K|K]; [apply (q_lo _ _ _ Hq _ _ Ha)|apply (q_hi _ _ _ Hq _ _ Ha)]; rewrite <- K; auto.
    - intros i. rewrite Hhit. unfold queued. rewrite Hg. destruct (pt_dec p p) as [_|]; [|congruence].
      destruct (get q p) as [e|] eqn:G; cbn [merge_intersection].
      + fold fresh. assert (HI : In i (e_inter (match fresh with [] => e | _ => mkE (e_drop e) (e_add e) (dedup (nsort (e_inter e ++ fresh))) end)) <-> In i (e_inter e) \/ In i fresh).
        { destruct fresh as [|x fr] eqn:Efr; [cbn; tauto|]. cbn [e_inter]. rewrite dedup_In, nsort_In, in_app_iff. tauto. }
        split.
        * intros (e0 & [= <-] & H). apply HI in H as [H|H]; [left; eauto|auto].
        * intros [(e0 & [= <-] & H)|[_ H]]; eexists; (split; [reflexivity|]); apply HI; auto.
      + assert (N : forall l j, ln lines j l -> ~ ends_of p l).
        { intros l j Hl K. apply end_cases in K as [K|K]; [apply (q_lo _ _ _ Hq _ _ Hl)|apply (q_hi _ _ _ Hq _ _ Hl)]; rewrite <- K; auto. }
        rewrite Hf. cbn [with_intersection map fst]. split.
        * intros (e0 & [= <-] & [<-|[<-|[]]]); right; split; auto; [left|right]; split; eauto.
        * intros [(e0 & ? & _)|[_ [[-> _]|[-> _]]]]; [discriminate| |]; eexists; (split; [reflexivity|]); cbn; auto.
  Qed.

  Lemma hit_or sweep p1 p2 k i : hit sweep (fun a b => p1 a b \/ p2 a b) k i <-> hit sweep p1 k i \/ hit sweep p2 k i.
  Proof.
    split.
    - intros (a & b & la & lb & it & [H|H] & K); [left|right]; exists a, b, la, lb, it; auto.
    - intros [(a & b & la & lb & it & H & K)|(a & b & la & lb & it & H & K)]; exists a, b, la, lb, it; auto.
  Qed.
  Lemma hit_iff sweep p1 p2 k i : (forall a b, p1 a b <-> p2 a b) -> hit sweep p1 k i <-> hit sweep p2 k i.
  Proof. intros H. split; intros (a & b & la & lb & it & K & R); exists a, b, la, lb, it; (split; [apply H; auto|auto]). Qed.
  Lemma extends_trans sweep p1 p2 q q1 q2 : extends sweep p1 q q1 -> extends sweep p2 q1 q2 -> extends sweep (fun a b => p1 a b \/ p2 a b) q q2.
  Proof.
    intros H1 H2 k. destruct (H1 k) as [A1 B1]. destruct (H2 k) as [A2 B2]. split.
    - rewrite A2, A1. split.
      + intros [[|(i & K)]|(i & K)]; auto; right; exists i; apply hit_or; auto.
      + intros [|(i & K)]; auto. apply hit_or in K as [K|K]; eauto.
    - intros i. rewrite B2, B1, hit_or. tauto.
  Qed.
  Lemma extends_iff sweep p1 p2 q q' : (forall a b, p1 a b <-> p2 a b) -> extends sweep p1 q q' -> extends sweep p2 q q'.
  Proof.
    intros H E k. destruct (E k) as [A B]. split.
    - rewrite A. split; (intros [|(i & K)]; [auto|right; exists i; eapply hit_iff; [|exact K]; intros; rewrite H; tauto]).
    - intros i. rewrite B, (hit_iff sweep p1 p2 k i H). tauto.
  Qed.
  Lemma find_new_exact (sweep : pt) prs : forall q q', q_ok lines (Some sweep) q ->
    (forall a b, In (a, b) prs -> a <> b /\ (exists la, ln lines a la) /\ (exists lb, ln lines b lb)) ->
    find_new_events lines sweep prs q = Val q' -> extends sweep (fun a b => In (a, b) prs) q q'.
  Proof.
    induction prs as [|[a b] prs IH]; intros q q' Hq Hp; cbn [find_new_events].
    - intros [= <-] k. assert (N : forall i, ~ hit sweep (fun a b => In (a, b) []) k i) by (intros i (a & b & la & lb & it & [] & _)).
      split; [split; auto; intros [|(i & H)]; auto; destruct (N _ H)|intros i; split; auto; intros [|H]; auto; destruct (N _ H)].
    - destruct (Hp a b (or_introl eq_refl)) as (Hab & (la & Ha) & (lb & Hb)).
      destruct (pair_event_ok lines sweep a b la lb q Hq Ha Hb Hab) as (q1 & E1 & Hq1 & _).
      pose proof (pair_event_exact sweep a b la lb q Hq Ha Hb Hab q1 E1) as X1. rewrite E1. cbn [obind]. intros E.
      assert (X2 : extends sweep (fun a b => In (a, b) prs) q1 q') by (apply IH; auto; intros; apply Hp; right; auto).
      eapply extends_iff; [|eapply extends_trans; eauto]. intros x y. cbn [In]. split; [intros [[-> ->]|]; auto|intros [[= <- <-]|]; auto].
  Qed.
End Hits.

(* ---- one event, exactly ---- *)
Section Step.
  Variable inf : R.
  Variable lines : list line.
  Variable ign : bool.
  Definition smp (key : pt) (e : SiteEvent) (act : list nat) (x s : R) (i : nat) : Prop :=
    In i act /\ ~ In i (e_drop e) /\ ~ In i (e_inter e) /\ exists l, ln lines i l /\ sweepline_intersection (S := RS) inf key l = Some (x, s).
  Definition cn (e : SiteEvent) (s : R) (i : nat) : Prop := (In i (e_add e) \/ In i (e_inter e)) /\ exists l, ln lines i l /\ s = cslope inf l.
  Definition prs_of (key : pt) (e : SiteEvent) (act : list nat) (a b : nat) : Prop :=
    ((e_add e = [] /\ e_inter e = []) /\ nearest_left key (smp key e act) a /\ nearest_right key (smp key e act) b) \/
    (nearest_left key (smp key e act) a /\ exists s, cn e s b /\ forall s' j, cn e s' j -> s <= s') \/
    (nearest_right key (smp key e act) a /\ exists s, cn e s b /\ forall s' j, cn e s' j -> s' <= s).

  Lemma nearest_left_iff pos p1 p2 i : (forall x s j, p1 x s j <-> p2 x s j) -> nearest_left pos p1 i <-> nearest_left pos p2 i.
  Proof. intros H. unfold nearest_left. split; intros (x & s & K1 & K2 & K3); exists x, s; (split; [apply H; auto|]); (split; [auto|]); intros x' s' j K; apply (K3 x' s' j), H, K. Qed.
  Lemma nearest_right_iff pos p1 p2 i : (forall x s j, p1 x s j <-> p2 x s j) -> nearest_right pos p1 i <-> nearest_right pos p2 i.
  Proof. intros H. unfold nearest_right. split; intros (x & s & K1 & K2 & K3); exists x, s; (split; [apply H; auto|]); (split; [auto|]); intros x' s' j K; apply (K3 x' s' j), H, K. Qed.

  Lemma handle_exact pos key e q act res order st' : Inv lines ign pos (mkSt act ((key, e) :: q) res) -> (forall l, Permutation (order l) l) ->
    handle_event (S := RS) inf lines ign order key e (mkSt act q res) = Val st' -> extends lines key (prs_of key e act) q (st_queue st').
  Proof.
    intros HI Hord. destruct HI as [HQ HA HN HRS HR HM]. cbn [st_queue st_active st_result] in *.
    destruct (head_ev _ _ _ _ _ HQ) as [Hev Hafter]. pose proof (pop_ok _ _ _ _ _ HQ) as HQ'.
    unfold handle_event. cbn [st_result st_active st_queue].
    destruct (report_ok key (to_report ign e) res HRS) as (res' & Er & _). rewrite Er. cbn [obind].
    set (act1 := set_remove act (e_drop e)).
    assert (Hact1 : forall i, In i act1 <-> In i act /\ ~ In i (e_drop e)) by (intros; apply set_remove_In).
    assert (Hidx : forall i l, ln lines i l <-> idx lines i = Val l) by (intros; symmetry; apply idx_val).
    destruct (neighbours_exact inf (idx lines) key (e_inter e) (order act1)) as (nb & En & N1 & N2).
    { intros i Hi _. apply (Permutation_in _ (Hord act1)), Hact1 in Hi as [Hi _]. apply HA in Hi as (l & Hl & _). exists l. apply Hidx; auto. }
    rewrite En. cbn [obind].
    assert (Hsm : forall x s i, sampled inf (idx lines) key (e_inter e) (order act1) x s i <-> smp key e act x s i).
    { intros x s i. unfold sampled, smp. assert (P : In i (order act1) <-> In i act /\ ~ In i (e_drop e)).
      { rewrite <- Hact1. split; apply Permutation_in; [|symmetry]; apply Hord. }
      rewrite P. split.
      - intros ([H1 H2] & H3 & l & H4 & H5). repeat (split; auto). exists l. split; auto. apply Hidx; auto.
      - intros (H1 & H2 & H3 & l & H4 & H5). repeat (split; auto). exists l. split; auto. apply Hidx; auto. }
    assert (Hconv : forall i, In i (e_add e) \/ In i (e_inter e) -> exists l, ln lines i l).
    { intros i [Hi|Hi]; [apply (ok_add _ _ _ Hev) in Hi as (l & Hl & _)|apply (ok_inter _ _ _ Hev) in Hi as (l & Hl & _)]; eauto. }
    destruct (candidate_lists_exact inf (idx lines) e (mm_slope nb)) as (cs & Ec & C4).
    { intros i Hi. destruct (Hconv i Hi) as (l & Hl). exists l. apply Hidx; auto. }
    rewrite Ec. cbn [obind].
    assert (Hcn : forall s i, conn inf (idx lines) e s i <-> cn e s i).
    { intros s i. unfold conn, cn. split; intros (H & l & H1 & H2); (split; [auto|]); exists l; (split; [apply Hidx; auto|auto]). }
    assert (C5 : forall a b, In (a, b) (flat_map pairs_of cs) <-> prs_of key e act a b).
    { intros a b. rewrite C4, !N1, !N2. rewrite (nearest_left_iff key _ _ a Hsm), (nearest_right_iff key _ _ a Hsm), (nearest_right_iff key _ _ b Hsm). unfold prs_of, flattest, steepest.
      assert (F : (exists s, conn inf (idx lines) e s b /\ forall s' j, conn inf (idx lines) e s' j -> s <= s') <-> exists s, cn e s b /\ forall s' j, cn e s' j -> s <= s').
      { split; intros (s & K1 & K2); exists s; (split; [apply Hcn; auto|]); intros s' j K; apply (K2 s' j), Hcn, K. }
      assert (G : (exists s, conn inf (idx lines) e s b /\ forall s' j, conn inf (idx lines) e s' j -> s' <= s) <-> exists s, cn e s b /\ forall s' j, cn e s' j -> s' <= s).
      { split; intros (s & K1 & K2); exists s; (split; [apply Hcn; auto|]); intros s' j K; apply (K2 s' j), Hcn, K. }
      rewrite F, G. tauto. }
    assert (Hnb : forall x s i, smp key e act x s i -> (exists l, ln lines i l) /\ ~ In i (e_add e) /\ ~ In i (e_inter e)).
    { intros x s i (H1 & H2 & H3 & l & H4 & _). split; [eauto|]. split; auto.
      intros Hadd. apply (ok_add _ _ _ Hev) in Hadd as (l' & Hl' & Elo). assert (l' = l) by (eapply ln_fun; eauto). subst l'.
      apply HA in H1 as (l' & Hl'' & Hna & _). assert (l' = l) by (eapply ln_fun; eauto). subst l'. rewrite Elo in Hna. contradiction. }
    assert (Hprs : forall a b, In (a, b) (flat_map pairs_of cs) -> a <> b /\ (exists la, ln lines a la) /\ (exists lb, ln lines b lb)).
    { intros a b Hab. apply C5 in Hab as [(_ & (x & s & Ha & Hx & _) & (x' & s' & Hb & Hx' & _))|[((x & s & Ha & Hx & _) & s' & [Hb _] & _)|((x & s & Ha & Hx & _) & s' & [Hb _] & _)]].
      - destruct (Hnb _ _ _ Ha) as [Ka _]. destruct (Hnb _ _ _ Hb) as [Kb _]. split; auto. intros <-.
        destruct Ha as (_ & _ & _ & l & Hl & E1). destruct Hb as (_ & _ & _ & l' & Hl' & E2). assert (l' = l) by (eapply ln_fun; eauto). subst l'. rewrite E1 in E2. injection E2 as <- <-. lra.
      - destruct (Hnb _ _ _ Ha) as (Ka & K1 & K2). split; [|split; auto]. intros <-. tauto.
      - destruct (Hnb _ _ _ Ha) as (Ka & K1 & K2). split; [|split; auto]. intros <-. tauto. }
    destruct (find_new_ok lines key (flat_map pairs_of cs) q HQ' Hprs) as (q' & Eq & _). rewrite Eq. cbn [obind]. intros [= <-]. cbn [st_queue].
    eapply extends_iff; [exact C5|]. apply find_new_exact; auto.
  Qed.
End Step.
