(* The sweep line in exact arithmetic: what holds for every set of lines (no general position). *)
From Coq Require Import Reals Lra Permutation Sorting.Sorted.
From Verif Require Import Prelude Scalar RInst Geo2 GeoSpec DistR IsectProofs Sweep SweepMap.

Notation line := (Line2 RS).
(* the end points of a line in sweep order *)
Definition lo (l : line) : pt := lstart (arrange l).
Definition hi (l : line) : pt := lend (arrange l).
Definition on_line (p : pt) (l : line) : Prop := on_segment p (lstart l) (lend l).

Lemma lohi l : (lo l = lstart l /\ hi l = lend l) \/ (lo l = lend l /\ hi l = lstart l).
Proof. unfold lo, hi, arrange. destruct (key_lt _ _); auto. Qed.
Lemma lo_hi l : klt (lo l) (hi l) \/ lo l = hi l.
Proof.
  unfold lo, hi, arrange. destruct (key_lt (lstart l) (lend l)) eqn:E.
  - apply key_lt_R in E. auto.
  - cbn. destruct (klt_total (lstart l) (lend l)) as [H|[H|H]]; auto. apply key_lt_R in H. congruence.
Qed.
Lemma arrange_idem (l : line) : arrange (arrange l) = arrange l.
Proof.
  destruct (lo_hi l) as [H|H]; unfold lo, hi in H.
  - apply key_lt_R in H. unfold arrange at 1. rewrite H. auto.
  - unfold arrange at 1. destruct (key_lt _ _); auto. destruct (arrange l); cbn in *. congruence.
Qed.
Lemma lo_arrange l : lo (arrange l) = lo l.
Proof. unfold lo. rewrite arrange_idem. auto. Qed.
Lemma hi_arrange l : hi (arrange l) = hi l.
Proof. unfold hi. rewrite arrange_idem. auto. Qed.
Lemma on_line_lohi p l : on_line p l <-> on_segment p (lo l) (hi l).
Proof. unfold on_line. destruct (lohi l) as [[-> ->]|[-> ->]]; [tauto|apply on_segment_sym]. Qed.
Lemma on_line_arrange p l : on_line p (arrange l) <-> on_line p l.
Proof. rewrite !on_line_lohi, lo_arrange, hi_arrange. tauto. Qed.
Lemma on_lo l : on_line (lo l) l.
Proof. apply on_line_lohi, on_segment_start. Qed.
Lemma on_hi l : on_line (hi l) l.
Proof. apply on_line_lohi, on_segment_end. Qed.
Lemma end_cases p l : (p = lstart l \/ p = lend l) <-> (p = lo l \/ p = hi l).
Proof. destruct (lohi l) as [[-> ->]|[-> ->]]; tauto. Qed.

Lemma common_sym a b q : common a b q <-> common b a q.
Proof. unfold common. tauto. Qed.
Lemma isingle_common a b it : intersection_point a b = Some it -> on_line (isingle it) a /\ on_line (isingle it) b.
Proof.
  intros H. pose proof (intersection_correct a b) as C. rewrite H in C. destruct it as [p|s]; cbn [correct isingle] in *.
  - apply C. reflexivity.
  - destruct C as [_ C]. apply C. apply on_segment_start.
Qed.
Lemma ahead_R (s p : pt) : ahead s p = true <-> klt s p.
Proof.
  unfold ahead, klt. cbn [sleb seqb sltb RS]. rewrite !andb_true_iff, !negb_true_iff, andb_false_iff, Rleb_true, Reqb_false, Rltb_false.
  assert (E : vulps p s = false <-> p <> s).
  { rewrite <- not_true_iff_false, vulps_R. tauto. }
  rewrite E. split.
  - intros [[H1 H2] H3]. destruct (Rtotal_order (vy s) (vy p)) as [K|[K|K]]; [auto| |lra]. right. split; auto.
    destruct H2 as [H2|H2]; [congruence|]. destruct (Rtotal_order (vx s) (vx p)) as [J|[J|J]]; auto; [|lra].
    exfalso. apply H3. apply V2_ext; auto.
  - intros [H|[H1 H2]].
    + split; [split; [lra|left; intros K; lra]|]. intros ->. lra.
    + split; [split; [lra|right; lra]|]. intros ->. lra.
Qed.
Lemma klt_dec p q : {klt p q} + {~ klt p q}.
Proof. destruct (key_lt p q) eqn:E; [left; apply key_lt_R; auto|right; intros H; apply key_lt_R in H; congruence]. Qed.

(* positions not yet reached; None before the first event *)
Definition after (pos : option pt) (k : pt) : Prop := match pos with None => True | Some p => klt p k end.
Definition after_dec pos k : {after pos k} + {~ after pos k}.
Proof. destruct pos as [p|]; [apply klt_dec|left; exact I]. Defined.

(* the possible event points: end points and computed pairwise intersections *)
Definition cands (lines : list line) : list pt :=
  flat_map (fun l => [lstart l; lend l]) lines ++
  flat_map (fun a => flat_map (fun b => match intersection_point a b with Some it => [isingle it] | None => [] end) lines) lines.
Definition ends_of (k : pt) (l : line) : Prop := k = lstart l \/ k = lend l.

Lemma in_cands_end lines l k : In l lines -> ends_of k l -> In k (cands lines).
Proof. intros Hl He. unfold cands. apply in_app_iff. left. apply in_flat_map. exists l. split; auto. cbn. destruct He; auto. Qed.
Lemma in_cands_pair lines a b it : In a lines -> In b lines -> intersection_point a b = Some it -> In (isingle it) (cands lines).
Proof.
  intros Ha Hb H. unfold cands. apply in_app_iff. right. apply in_flat_map. exists a. split; auto.
  apply in_flat_map. exists b. split; auto. rewrite H. left; auto.
Qed.
Lemma cands_app l1 l2 k : In k (cands l1) -> In k (cands (l1 ++ l2)).
Proof.
  unfold cands. rewrite !in_app_iff, !in_flat_map. intros [(l & Hl & Hk)|(a & Ha & Hk)].
  - left. exists l. rewrite in_app_iff. auto.
  - right. apply in_flat_map in Hk as (b & Hb & Hk). exists a. split; [apply in_app_iff; auto|].
    apply in_flat_map. exists b. split; auto. apply in_app_iff; auto.
Qed.
Lemma cands_length lines : (length (cands lines) <= length lines * (length lines + 2))%nat.
Proof.
  unfold cands. rewrite app_length.
  assert (H1 : forall (ls : list line), length (flat_map (fun l => [lstart l; lend l]) ls) = (2 * length ls)%nat).
  { induction ls; cbn [flat_map length app]; auto. rewrite IHls. lia. }
  rewrite H1.
  assert (H2 : forall a (ls : list line), (length (flat_map (fun b => match intersection_point a b with Some it => [isingle it] | None => [] end) ls) <= length ls)%nat).
  { intros a. induction ls as [|b ls IH]; cbn [flat_map length]; auto. rewrite app_length. destruct (intersection_point a b); cbn [length]; lia. }
  assert (H3 : forall xs ls : list line, (length (flat_map (fun a => flat_map (fun b => match intersection_point a b with Some it => [isingle it] | None => [] end) ls) xs) <= length xs * length ls)%nat).
  { induction xs as [|a xs IH]; intros ls; cbn [flat_map length]; auto. rewrite app_length. specialize (H2 a ls). specialize (IH ls). cbn. lia. }
  specialize (H3 lines lines). lia.
Qed.

Section Inv.
  Variable lines : list line.
  Definition ln (i : nat) (l : line) : Prop := nth_error lines i = Some l.
  Lemma ln_In i l : ln i l -> In l lines.
  Proof. apply nth_error_In. Qed.
  Lemma ln_fun i l l' : ln i l -> ln i l' -> l = l'.
  Proof. unfold ln. congruence. Qed.

  Record ev_ok (k : pt) (e : SiteEvent) : Prop := {
    ok_drop : forall i, In i (e_drop e) <-> exists l, ln i l /\ hi l = k;
    ok_add : forall i, In i (e_add e) <-> exists l, ln i l /\ lo l = k;
    ok_drop_nd : NoDup (e_drop e);
    ok_add_nd : NoDup (e_add e);
    ok_inter_nd : NoDup (e_inter e);
    ok_inter : forall i, In i (e_inter e) -> exists l, ln i l /\ on_line k l /\ k <> lo l /\ k <> hi l;
    ok_cand : In k (cands lines);
    ok_some : e_drop e = [] -> e_add e = [] -> (2 <= length (e_inter e))%nat
  }.
  Record q_ok (pos : option pt) (q : list (pt * SiteEvent)) : Prop := {
    q_sorted : ksorted q;
    q_ev : forall k e, get q k = Some e -> ev_ok k e;
    q_after : forall k e, get q k = Some e -> after pos k;
    q_hi : forall i l, ln i l -> after pos (hi l) -> get q (hi l) <> None;
    q_lo : forall i l, ln i l -> after pos (lo l) -> get q (lo l) <> None
  }.
  Definition mono (q q' : list (pt * SiteEvent)) : Prop := forall k e, get q k = Some e ->
    exists e', get q' k = Some e' /\ e_drop e' = e_drop e /\ e_add e' = e_add e /\ incl (e_inter e) (e_inter e').
  Lemma mono_refl q : mono q q.
  Proof. intros k e H. exists e. repeat split; auto. apply incl_refl. Qed.
  Lemma mono_trans q1 q2 q3 : mono q1 q2 -> mono q2 q3 -> mono q1 q3.
  Proof.
    intros H1 H2 k e H. destruct (H1 k e H) as (e1 & G1 & D1 & A1 & I1). destruct (H2 k e1 G1) as (e2 & G2 & D2 & A2 & I2).
    exists e2. split; auto. split; [congruence|]. split; [congruence|]. eapply incl_tran; eauto.
  Qed.
  (* line i passes through the queued event at k, by its end or by a found intersection *)
  Definition covered (q : list (pt * SiteEvent)) (k : pt) (i : nat) : Prop :=
    exists e, get q k = Some e /\ (In i (e_drop e) \/ In i (e_inter e)).
  Lemma covered_mono q q' k i : mono q q' -> covered q k i -> covered q' k i.
  Proof.
    intros H (e & G & Hi). destruct (H k e G) as (e' & G' & D & _ & I). exists e'. split; auto. rewrite D.
    destruct Hi; auto.
  Qed.

  Lemma pair_event_ok (sweep : pt) a b la lb q : q_ok (Some sweep) q -> ln a la -> ln b lb -> a <> b ->
    exists q', pair_event lines sweep a b q = Val q' /\ q_ok (Some sweep) q' /\ mono q q' /\
      (lend la <> lend lb -> forall it, intersection_point la lb = Some it -> klt sweep (isingle it) ->
       forall i l, (i = a /\ l = la) \/ (i = b /\ l = lb) -> isingle it <> lo l -> covered q' (isingle it) i).
  Proof.
    intros Hq Ha Hb Hab. unfold pair_event. unfold idx. rewrite Ha, Hb. cbn [obind].
    destruct (vulps (lend la) (lend lb)) eqn:Ev.
    { apply vulps_R in Ev. exists q. split; auto. split; auto. split; [apply mono_refl|]. intros H; contradiction. }
    destruct (intersection_point la lb) as [it|] eqn:Ei.
    2: { exists q. split; auto. split; auto. split; [apply mono_refl|]. intros _ it; discriminate. }
    cbn [sfin RS andb]. set (p := isingle it).
    destruct (ahead sweep p) eqn:Eh.
    2: { exists q. split; auto. split; auto. split; [apply mono_refl|]. intros _ it' [= <-] Hk. apply ahead_R in Hk. unfold p in Eh. congruence. }
    apply ahead_R in Eh.
    destruct (bt_update_R q p (merge_intersection p [(a, la); (b, lb)]) (q_sorted _ _ Hq)) as (q' & Hu & Hs & Hg).
    exists q'. split; [exact Hu|]. destruct (isingle_common _ _ _ Ei) as [Oa Ob]. fold p in Oa, Ob.
    assert (Hend : forall l, vulps p (lstart l) || vulps p (lend l) = true <-> p = lo l \/ p = hi l).
    { intros l. rewrite orb_true_iff, !vulps_R, <- end_cases. split; intros [H|H]; auto. }
    assert (Hfresh : forall i l, (i = a /\ l = la) \/ (i = b /\ l = lb) -> ln i l /\ on_line p l).
    { intros i l [[-> ->]|[-> ->]]; auto. }
    set (fresh := map fst (filter (fun il => negb (vulps p (lstart (snd il)) || vulps p (lend (snd il)))) [(a, la); (b, lb)])).
    assert (Hf : forall i, In i fresh <-> exists l, ((i = a /\ l = la) \/ (i = b /\ l = lb)) /\ p <> lo l /\ p <> hi l).
    { intros i. unfold fresh. rewrite in_map_iff. split.
      - intros ((j & l) & <- & H). apply filter_In in H as [Hi Hn]. cbn [fst snd] in *. exists l. split.
        + destruct Hi as [[= <- <-]|[[= <- <-]|[]]]; auto.
        + apply negb_true_iff in Hn. rewrite <- not_true_iff_false, Hend in Hn. tauto.
      - intros (l & Hi & H1 & H2). exists (i, l). split; auto. apply filter_In. split.
        + destruct Hi as [[-> ->]|[-> ->]]; cbn; auto.
        + cbn [snd]. apply negb_true_iff, not_true_iff_false. rewrite Hend. tauto. }
    assert (Hnew : exists e', get q' p = Some e' /\ ev_ok p e' /\
              (forall e, get q p = Some e -> e_drop e' = e_drop e /\ e_add e' = e_add e /\ incl (e_inter e) (e_inter e')) /\
              forall i, In i fresh -> In i (e_inter e')).
    { rewrite Hg. destruct (pt_dec p p) as [_|]; [|congruence]. eexists. split; [reflexivity|].
      destruct (get q p) as [e|] eqn:G; cbn [merge_intersection].
      - pose proof (q_ev _ _ Hq _ _ G) as Hok. fold fresh. destruct fresh as [|x fr] eqn:Efr.
        + split; auto. split; [intros e0 [= <-]; repeat split; auto; apply incl_refl|]. intros i [].
        + assert (HI : forall i, In i (dedup (nsort (e_inter e ++ x :: fr))) <-> In i (e_inter e) \/ In i (x :: fr)).
          { intros i. rewrite dedup_In, nsort_In, in_app_iff. tauto. }
          destruct Hok as [K1 K2 K3 K4 K5 K6 K7 K8]. split; [|split].
          * constructor; cbn [e_drop e_add e_inter]; auto.
            -- apply dedup_NoDup, nsort_sorted.
            -- intros i Hi. apply HI in Hi as [Hi|Hi]; auto. apply Hf in Hi as (l & Hl & H1 & H2).
               exists l. destruct (Hfresh _ _ Hl). auto.
            -- intros D A. specialize (K8 D A). assert (Hincl : incl (e_inter e) (dedup (nsort (e_inter e ++ x :: fr)))) by (intros i Hi; apply HI; auto).
               apply NoDup_incl_length in Hincl; auto. lia.
          * intros e0 [= <-]. cbn [e_drop e_add e_inter]. repeat split; auto. intros i Hi. apply HI. auto.
          * intros i Hi. cbn [e_inter]. apply HI. auto.
      - assert (Hnl : forall i l, ln i l -> p <> lo l /\ p <> hi l).
        { intros i l Hl. split; intros E.
          - apply (q_lo _ _ Hq _ _ Hl); rewrite <- E; auto.
          - apply (q_hi _ _ Hq _ _ Hl); rewrite <- E; auto. }
        cbn [map fst with_intersection]. split; [|split].
        + constructor; cbn [e_drop e_add e_inter with_intersection].
          * intros i. split; [intros []|]. intros (l & Hl & E). destruct (Hnl _ _ Hl). congruence.
          * intros i. split; [intros []|]. intros (l & Hl & E). destruct (Hnl _ _ Hl). congruence.
          * constructor.
          * constructor.
          * constructor; [intros [H|[]]; congruence|]. constructor; [intros []|constructor].
          * intros i [<-|[<-|[]]]; [exists la|exists lb]; split; auto; split; auto; eapply Hnl; eauto.
          * apply (in_cands_pair lines la lb it); [apply (ln_In a); exact Ha|apply (ln_In b); exact Hb|exact Ei].
          * intros _ _. cbn. lia.
        + intros e H. discriminate.
        + intros i Hi. cbn [e_inter with_intersection]. apply Hf in Hi as (l & Hl & _). destruct Hl as [[-> _]|[-> _]]; cbn; auto. }
    destruct Hnew as (e' & Ge & Hok & Hm & Hfi).
    assert (Hother : forall k, k <> p -> get q' k = get q k).
    { intros k Hk. rewrite Hg. destruct (pt_dec p k); [congruence|auto]. }
    split; [|split].
    - constructor; auto.
      + intros k e G. destruct (pt_dec k p) as [->|Hn]; [congruence|]. rewrite Hother in G by auto. eapply q_ev; eauto.
      + intros k e G. destruct (pt_dec k p) as [->|Hn]; [exact Eh|]. rewrite Hother in G by auto. eapply q_after; eauto.
      + intros i l Hl Hafter. destruct (pt_dec (hi l) p) as [->|Hn]; [congruence|]. rewrite Hother by auto. eapply q_hi; eauto.
      + intros i l Hl Hafter. destruct (pt_dec (lo l) p) as [->|Hn]; [congruence|]. rewrite Hother by auto. eapply q_lo; eauto.
    - intros k e G. destruct (pt_dec k p) as [->|Hn].
      + exists e'. destruct (Hm e G) as (H1 & H2 & H3). auto.
      + exists e. rewrite Hother by auto. repeat split; auto. apply incl_refl.
    - intros _ it' [= <-] _ i l Hl Hlo. fold p in Hlo |- *. exists e'. split; auto. destruct (Hfresh _ _ Hl) as [L1 L2].
      destruct (pt_dec p (hi l)) as [E|Hn].
      + left. apply (ok_drop _ _ Hok). exists l. auto.
      + right. apply Hfi, Hf. exists l. auto.
  Qed.

  Lemma find_new_ok (sweep : pt) prs : forall q, q_ok (Some sweep) q ->
    (forall a b, In (a, b) prs -> a <> b /\ (exists la, ln a la) /\ (exists lb, ln b lb)) ->
    exists q', find_new_events lines sweep prs q = Val q' /\ q_ok (Some sweep) q' /\ mono q q' /\
      (forall a b la lb, In (a, b) prs -> ln a la -> ln b lb -> lend la <> lend lb ->
       forall it, intersection_point la lb = Some it -> klt sweep (isingle it) ->
       forall i l, (i = a /\ l = la) \/ (i = b /\ l = lb) -> isingle it <> lo l -> covered q' (isingle it) i).
  Proof.
    induction prs as [|[a b] prs IH]; intros q Hq Hp; cbn [find_new_events].
    - exists q. split; auto. split; auto. split; [apply mono_refl|]. intros a b la lb [].
    - destruct (Hp a b (or_introl eq_refl)) as (Hab & (la & Ha) & (lb & Hb)).
      destruct (pair_event_ok sweep a b la lb q Hq Ha Hb Hab) as (q1 & -> & Hq1 & Hm1 & Hc1). cbn [obind].
      destruct (IH q1 Hq1) as (q' & -> & Hq' & Hm' & Hc'); [intros; apply Hp; right; auto|].
      exists q'. split; auto. split; auto. split; [eapply mono_trans; eauto|].
      intros a' b' la' lb' [[= <- <-]|Hi] Ha' Hb' He it Hit Hk i l Hl Hlo.
      + assert (la' = la) by (eapply ln_fun; eauto). assert (lb' = lb) by (eapply ln_fun; eauto). subst.
        eapply covered_mono; eauto.
      + eapply Hc'; eauto.
  Qed.
End Inv.
