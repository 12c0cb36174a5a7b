(* One event of the sweep and the loop, in exact arithmetic, for every set of lines. *)
From Coq Require Import Reals Lra Permutation Sorting.Sorted.
From Verif Require Import Prelude Scalar RInst Geo2 GeoSpec DistR IsectProofs Sweep SweepMap SweepProofs SweepCand.

Lemma report_ok (key : pt) : forall lists r, ksorted r ->
  exists r', report key lists r = Val r' /\ ksorted r' /\ (forall k, k <> key -> get r' k = get r k) /\
    (lists = [] -> r' = r) /\
    (lists <> [] -> exists ls, get r' key = Some ls /\ StronglySorted le ls /\ Permutation ls (match get r key with Some v => v | None => [] end ++ concat lists)).
Proof.
  induction lists as [|l lists IH]; intros r Hs; cbn [report].
  - exists r. repeat split; auto. congruence.
  - destruct (bt_update_R r key (push_report l) Hs) as (r1 & E & Hs1 & Hg). rewrite E. cbn [obind].
    destruct (IH r1 Hs1) as (r' & E' & Hs' & Ho & Hn & Hc). exists r'. split; auto. split; auto. split; [|split; [discriminate|]].
    + intros k Hk. rewrite Ho, Hg by auto. destruct (pt_dec key k); congruence.
    + intros _. assert (G1 : get r1 key = Some (push_report l (get r key))) by (rewrite Hg; destruct (pt_dec key key); congruence).
      assert (Pr : StronglySorted le (push_report l (get r key)) /\ Permutation (push_report l (get r key)) (match get r key with Some v => v | None => [] end ++ l)).
      { unfold push_report. split; [apply nsort_sorted|]. rewrite nsort_perm. destruct (get r key); auto. }
      destruct Pr as [P1 P2]. destruct lists as [|l2 lists].
      * rewrite (Hn eq_refl). exists (push_report l (get r key)). split; auto. split; auto. cbn [concat]. rewrite app_nil_r. auto.
      * destruct Hc as (ls & G & Sl & P); [discriminate|]. exists ls. split; auto. split; auto. rewrite G1 in P.
        rewrite P, P2. cbn [concat]. rewrite !app_assoc. auto.
Qed.

Definition reports (ign : bool) (e : SiteEvent) : bool :=
  if ign then Nat.ltb 0 (length (e_inter e)) else Nat.ltb 1 (length (e_drop e) + length (e_add e) + length (e_inter e)).
Lemma to_report_spec ign e : (reports ign e = false -> to_report ign e = []) /\
  (reports ign e = true -> to_report ign e <> [] /\ concat (to_report ign e) = e_drop e ++ e_add e ++ e_inter e).
Proof.
  unfold reports, to_report.
  assert (O : forall l : list nat, concat (if Nat.ltb 0 (length l) then [l] else []) = l).
  { intros [|x t]; auto. cbn [length Nat.ltb Nat.leb concat]. apply app_nil_r. }
  destruct ign.
  - destruct (Nat.ltb 0 (length (e_inter e))); split; intros; try discriminate; auto. split.
    + intros E. apply app_eq_nil in E as [_ E]. apply app_eq_nil in E as [_ E]. discriminate.
    + rewrite !concat_app, !O. cbn [concat]. rewrite app_nil_r. auto.
  - destruct (Nat.ltb_spec 1 (length (e_drop e) + length (e_add e) + length (e_inter e))); split; intros; try discriminate; auto. split.
    + intros E. apply app_eq_nil in E as [E1 E]. apply app_eq_nil in E as [E2 E3].
      destruct (e_drop e); [|discriminate]. destruct (e_add e); [|discriminate]. destruct (e_inter e); [|discriminate]. cbn in H. lia.
    + rewrite !concat_app, !O. auto.
Qed.

Section Loop.
  Variable inf : R.
  Variable lines : list line.
  Variable ign : bool.
  Notation ln := (ln lines).
  Notation ev_ok := (ev_ok lines).
  Notation q_ok := (q_ok lines).

  Definition nondegenerate : Prop := forall i l, ln i l -> lstart l <> lend l.
  Record res_ok (k : pt) (ls : list nat) : Prop := {
    r_sorted : StronglySorted le ls;
    r_on : forall i, In i ls -> exists l, ln i l /\ on_line k l;
    r_ends : forall i l, ln i l -> ends_of k l -> In i ls;
    r_two : (2 <= length ls)%nat;
    r_nodup : nondegenerate -> NoDup ls;
    r_ign : ign = true -> exists i j l, i <> j /\ In i ls /\ In j ls /\ ln i l /\ on_line k l /\ ~ ends_of k l
  }.
  Record Inv (pos : option pt) (st : State (S := RS)) : Prop := {
    i_q : q_ok pos (st_queue st);
    i_act : forall i, In i (st_active st) <-> exists l, ln i l /\ ~ after pos (lo l) /\ (after pos (hi l) \/ lo l = hi l);
    i_nd : NoDup (st_active st);
    i_rs : ksorted (st_result st);
    i_res : forall k ls, get (st_result st) k = Some ls -> ~ after pos k /\ res_ok k ls;
    i_miss : ign = false -> forall k i j li lj, ~ after pos k -> i <> j -> ln i li -> ln j lj -> ends_of k li -> ends_of k lj -> get (st_result st) k <> None
  }.

  Lemma ends_lohi k l : ends_of k l <-> k = lo l \/ k = hi l.
  Proof. apply end_cases. Qed.
  Lemma pop_ok pos k e q : q_ok pos ((k, e) :: q) -> q_ok (Some k) q.
  Proof.
    intros H. pose proof (q_sorted _ _ _ H) as Hs. destruct (ksorted_head _ _ _ Hs) as [Hs' Hh].
    assert (G : forall k', get q k' <> None <-> k' <> k /\ get ((k, e) :: q) k' <> None).
    { intros k'. rewrite (get_tail k e q k' Hs). destruct (pt_dec k k') as [->|Hn]; intuition. }
    assert (Hk : after pos k). { apply (q_after _ _ _ H k e). rewrite get_cons. destruct (pt_dec k k); congruence. }
    assert (Haft : forall k', klt k k' -> after pos k'). { intros k' Hlt. destruct pos; cbn in *; auto. eapply klt_trans; eauto. }
    constructor; auto.
    - intros k' e' Hg. apply (q_ev _ _ _ H). rewrite (get_tail k e q k' Hs) in Hg. destruct (pt_dec k k'); congruence.
    - intros i l Hl Ha. apply G. split; [intros E; apply (klt_irrefl k); cbn in Ha; congruence|]. eapply q_hi; eauto.
    - intros i l Hl Ha. apply G. split; [intros E; apply (klt_irrefl k); cbn in Ha; congruence|]. eapply q_lo; eauto.
  Qed.
  Lemma head_min pos k e q k' : q_ok pos ((k, e) :: q) -> get ((k, e) :: q) k' <> None -> k' = k \/ klt k k'.
  Proof.
    intros H G. destruct (ksorted_head _ _ _ (q_sorted _ _ _ H)) as [_ Hh]. rewrite get_cons in G. destruct (pt_dec k k'); auto.
    right. destruct (get q k') eqn:E; [|congruence]. eauto.
  Qed.
  Lemma head_ev pos k e q : q_ok pos ((k, e) :: q) -> ev_ok k e /\ after pos k.
  Proof. intros H. assert (G : get ((k, e) :: q) k = Some e) by (rewrite get_cons; destruct (pt_dec k k); congruence). split; [eapply q_ev; eauto|eapply q_after; eauto]. Qed.

  (* the facts about one event, besides the invariant *)
  Record step_spec (key : pt) (e : SiteEvent) (act : list nat) (q : list (pt * SiteEvent)) (res : list (pt * list nat)) (st' : State (S := RS)) : Prop := {
    s_mono : mono q (st_queue st');
    s_other : forall k, k <> key -> get (st_result st') k = get res k;
    s_key : get (st_result st') key = None <-> reports ign e = false;
    s_list : forall ls, get (st_result st') key = Some ls -> Permutation ls (e_drop e ++ e_add e ++ e_inter e);
    (* candidate lists: nl, nr nearest neighbours; cl, cr extreme slopes *)
    s_cover : exists nl nr cl cr,
      let nb i l x := In i act /\ ~ In i (e_drop e) /\ ~ In i (e_inter e) /\ ln i l /\ exists sl, sweepline_intersection (S := RS) inf key l = Some (x, sl) in
      let con i l := (In i (e_add e) \/ In i (e_inter e)) /\ ln i l in
      (forall i, In i nl -> exists l x, nb i l x /\ (x < vx key)%R /\ forall j l' x', nb j l' x' -> (x' < vx key)%R -> (x' <= x)%R) /\
      ((exists i l x, nb i l x /\ (x < vx key)%R) -> nl <> []) /\
      (forall i, In i nr -> exists l x, nb i l x /\ (vx key < x)%R /\ forall j l' x', nb j l' x' -> (vx key < x')%R -> (x <= x')%R) /\
      ((exists i l x, nb i l x /\ (vx key < x)%R) -> nr <> []) /\
      (forall i, In i cl -> exists l, con i l /\ forall j lj, con j lj -> (cslope inf l <= cslope inf lj)%R) /\
      (forall i, In i cr -> exists l, con i l /\ forall j lj, con j lj -> (cslope inf lj <= cslope inf l)%R) /\
      ((exists i l, con i l) -> cl <> [] /\ cr <> []) /\
      forall a b la lb, ln a la -> ln b lb ->
        (((~ exists i l, con i l) /\ In a nl /\ In b nr) \/ (In a nl /\ In b cl) \/ (In a nr /\ In b cr)) ->
        lend la <> lend lb -> forall it, intersection_point la lb = Some it -> klt key (isingle it) ->
        forall i l, (i = a /\ l = la) \/ (i = b /\ l = lb) -> isingle it <> lo l -> covered (st_queue st') (isingle it) i
  }.

  Lemma handle_ok pos key e q act res order : Inv pos (mkSt act ((key, e) :: q) res) -> (forall l, Permutation (order l) l) ->
    exists st', handle_event (S := RS) inf lines ign order key e (mkSt act q res) = Val st' /\ Inv (Some key) st' /\ step_spec key e act q res st'.
  Proof.
    intros HI Hord. destruct HI as [HQ HA HN HRS HR HM]. cbn [st_queue st_active st_result] in *.
    destruct (head_ev _ _ _ _ HQ) as [Hev Hafter]. pose proof (pop_ok _ _ _ _ HQ) as HQ'.
    assert (Hmin : forall k', after pos k' -> (exists i l, ln i l /\ (k' = lo l \/ k' = hi l)) -> k' = key \/ klt key k').
    { intros k' Ha (i & l & Hl & [->| ->]); apply (head_min _ _ _ _ _ HQ); [eapply q_lo|eapply q_hi]; eauto. }
    assert (Hnot : forall k', ~ after (Some key) k' -> k' = key \/ klt k' key).
    { intros k' H. destruct (klt_total k' key) as [|[|]]; auto. contradiction. }
    assert (Hpast : forall k', ~ after pos k' -> klt k' key).
    { intros k' H. destruct pos as [p|]; cbn in *; [|tauto]. destruct (klt_total k' key) as [|[->|K]]; auto; [contradiction|]. destruct H. eapply klt_trans; eauto. }
    unfold handle_event. cbn [st_result st_active st_queue].
    destruct (report_ok key (to_report ign e) res HRS) as (res' & Er & Hrs' & Hoth & Hnil & Hcons). rewrite Er. cbn [obind].
    assert (Gres : get res key = None). { destruct (get res key) eqn:G; auto. apply HR in G as [G _]. contradiction. }
    set (act1 := set_remove act (e_drop e)).
    assert (Hact1 : forall i, In i act1 <-> In i act /\ ~ In i (e_drop e)) by (intros; apply set_remove_In).
    assert (Hidx : forall i l, ln i l <-> idx lines i = Val l) by (intros; symmetry; apply idx_val).
    destruct (neighbours_spec inf (idx lines) key (e_inter e) (order act1)) as (nb & En & N1 & N2 & N3 & N4).
    { intros i Hi _. apply (Permutation_in _ (Hord act1)), Hact1 in Hi as [Hi _]. apply HA in Hi as (l & Hl & _). exists l. apply Hidx; auto. }
    rewrite En. cbn [obind].
    assert (Hsm : forall x i, sample inf (idx lines) key (e_inter e) (order act1) x i <->
              exists l, In i act /\ ~ In i (e_drop e) /\ ~ In i (e_inter e) /\ ln i l /\ exists sl, sweepline_intersection (S := RS) inf key l = Some (x, sl)).
    { intros x i. unfold sample. assert (P : In i (order act1) <-> In i act /\ ~ In i (e_drop e)).
      { rewrite <- Hact1. split; apply Permutation_in; [|symmetry]; apply Hord. }
      rewrite P. split.
      - intros ([H1 H2] & H3 & l & sl & H4 & H5). exists l. repeat (split; auto). apply Hidx; auto. exists sl; auto.
      - intros (l & H1 & H2 & H3 & H4 & sl & H5). repeat (split; auto). exists l, sl. split; auto. apply Hidx; auto. }
    assert (Hconv : forall i, In i (e_add e) \/ In i (e_inter e) -> exists l, ln i l).
    { intros i [Hi|Hi]; [apply (ok_add _ _ _ Hev) in Hi as (l & Hl & _)|apply (ok_inter _ _ _ Hev) in Hi as (l & Hl & _)]; eauto. }
    destruct (candidate_lists_spec inf (idx lines) e (mm_slope nb)) as (cl & cr & cs & Ec & C1 & C2 & C3 & C4).
    { intros i Hi. destruct (Hconv i Hi) as (l & Hl). exists l. apply Hidx; auto. }
    rewrite Ec. cbn [obind].
    set (nl := cand_left (mm_slope nb)) in *. set (nr := cand_right (mm_slope nb)) in *.
    (* neighbours are valid and not connected *)
    assert (Hnb : forall i, In i nl \/ In i nr -> (exists l, ln i l) /\ ~ In i (e_add e) /\ ~ In i (e_inter e)).
    { assert (Z : forall x i, sample inf (idx lines) key (e_inter e) (order act1) x i -> (exists l, ln i l) /\ ~ In i (e_add e) /\ ~ In i (e_inter e)).
      { intros x i Hs. apply Hsm in Hs as (l & H1 & H2 & H3 & H4 & _). split; [eauto|]. split; auto.
        intros Hadd. apply (ok_add _ _ _ Hev) in Hadd as (l' & Hl' & Elo). assert (l' = l) by (eapply ln_fun; eauto). subst l'.
        apply HA in H1 as (l' & Hl'' & Hna & _). assert (l' = l) by (eapply ln_fun; eauto). subst l'. rewrite Elo in Hna. contradiction. }
      intros i [Hi|Hi]; [apply N1 in Hi as (x & Hs & _)|apply N3 in Hi as (x & Hs & _)]; eapply Z; eauto. }
    destruct (find_new_ok lines key (flat_map pairs_of cs) q HQ') as (q' & Eq & HQ2 & Hmono & Hcov).
    { intros a b Hab. apply C4 in Hab as [(_ & Ha & Hb)|(_ & [[Ha Hb]|[Ha Hb]])].
      - split; [|split; apply Hnb; auto]. intros <-. apply N1 in Ha as (x & Hs & Hx & _). apply N3 in Hb as (x' & Hs' & Hx' & _).
        apply Hsm in Hs as (l & _ & _ & _ & Hl & sl & E1). apply Hsm in Hs' as (l' & _ & _ & _ & Hl' & sl' & E2).
        assert (l' = l) by (eapply ln_fun; eauto). subst l'. rewrite E1 in E2. injection E2 as <- <-. lra.
      - destruct (Hnb a (or_introl Ha)) as (K1 & K2 & K3). destruct (C1 b Hb) as [Hm _]. split; [|split; auto].
        intros <-. tauto.
      - destruct (Hnb a (or_intror Ha)) as (K1 & K2 & K3). destruct (C2 b Hb) as [Hm _]. split; [|split; auto].
        intros <-. tauto. }
    rewrite Eq. cbn [obind]. eexists. split; [reflexivity|].
    destruct (to_report_spec ign e) as [T1 T2].
    assert (Hrep : forall ls, get res' key = Some ls -> reports ign e = true /\ StronglySorted le ls /\ Permutation ls (e_drop e ++ e_add e ++ e_inter e)).
    { intros ls G. destruct (reports ign e) eqn:Rp.
      - destruct (T2 eq_refl) as [T3 T4]. destruct (Hcons T3) as (ls' & G' & S' & P'). assert (ls' = ls) by congruence. subst ls'.
        rewrite Gres, T4 in P'. auto.
      - rewrite (Hnil (T1 eq_refl)) in G. congruence. }
    assert (Hrep2 : reports ign e = true -> get res' key <> None).
    { intros Rp. destruct (T2 Rp) as [T3 _]. destruct (Hcons T3) as (ls' & G' & _). congruence. }
    split.
    - constructor; cbn [st_queue st_active st_result]; auto.
      + intros i. rewrite set_inserts_In, Hact1, HA, (ok_drop _ _ _ Hev), (ok_add _ _ _ Hev). split.
        * intros [[(l & Hl & Hna & Hh) Hnd]|(l & Hl & E)].
          -- exists l. split; auto. split.
             ++ intros K. apply Hpast in Hna. exact (klt_asym _ _ K Hna).
             ++ destruct Hh as [Hh|Hh]; auto. left. destruct (Hmin (hi l) Hh) as [E|E]; [eauto| |exact E].
                exfalso. apply Hnd. exists l. auto.
          -- exists l. split; auto. split; [rewrite E; apply klt_irrefl|]. destruct (lo_hi l) as [K|K]; auto. left. rewrite E in K. exact K.
        * intros (l & Hl & Hna & Hh). destruct (pt_dec (lo l) key) as [E|E]; [right; eauto|]. left.
          destruct (Hnot _ Hna) as [|Hlt]; [contradiction|].
          assert (Hnp : ~ after pos (lo l)). { intros K. destruct (Hmin (lo l) K) as [|K2]; [eauto|contradiction|exact (klt_asym _ _ K2 Hlt)]. }
          split.
          -- exists l. split; auto. split; auto. destruct Hh as [Hh|]; auto. left. destruct pos as [p|]; cbn in *; auto. eapply klt_trans; eauto.
          -- intros (l' & Hl' & Eh). assert (l' = l) by (eapply ln_fun; eauto). subst l'.
             destruct Hh as [Hh|Hh]; [rewrite Eh in Hh; exact (klt_irrefl _ Hh)|congruence].
      + apply set_inserts_NoDup. apply set_remove_NoDup; auto.
      + intros k ls G. destruct (pt_dec k key) as [->|Hn].
        * split; [apply klt_irrefl|]. destruct (Hrep _ G) as (Rp & Ss & Pm).
          assert (Hin : forall i, In i ls <-> In i (e_drop e) \/ In i (e_add e) \/ In i (e_inter e)).
          { intros i. rewrite <- !in_app_iff. split; apply Permutation_in; auto. symmetry; auto. }
          assert (Hlen : length ls = (length (e_drop e) + length (e_add e) + length (e_inter e))%nat) by (rewrite (Permutation_length Pm), !app_length; lia).
          constructor; auto.
          -- intros i Hi. apply Hin in Hi as [Hi|[Hi|Hi]].
             ++ apply (ok_drop _ _ _ Hev) in Hi as (l & Hl & <-). exists l. split; auto. apply on_hi.
             ++ apply (ok_add _ _ _ Hev) in Hi as (l & Hl & <-). exists l. split; auto. apply on_lo.
             ++ apply (ok_inter _ _ _ Hev) in Hi as (l & Hl & Ho & _). eauto.
          -- intros i l Hl He. apply ends_lohi in He as [->| ->]; apply Hin.
             ++ right; left. apply (ok_add _ _ _ Hev). eauto.
             ++ left. apply (ok_drop _ _ _ Hev). eauto.
          -- rewrite Hlen. unfold reports in Rp. destruct ign.
             ++ apply Nat.ltb_lt in Rp. destruct (e_drop e) eqn:Ed; [|cbn [length]; lia]. destruct (e_add e) eqn:Ea; [|cbn [length]; lia].
                pose proof (ok_some _ _ _ Hev Ed Ea). cbn [length]. lia.
             ++ apply Nat.ltb_lt in Rp. lia.
          -- intros Hnd. eapply Permutation_NoDup; [symmetry; exact Pm|].
             assert (Hne : forall i l, ln i l -> lo l <> hi l). { intros i l Hl E. apply (Hnd _ _ Hl). destruct (lohi l) as [[E1 E2]|[E1 E2]]; congruence. }
             apply NoDup_app_intro; [apply (ok_drop_nd _ _ _ Hev)| |].
             ++ apply NoDup_app_intro; [apply (ok_add_nd _ _ _ Hev)|apply (ok_inter_nd _ _ _ Hev)|].
                intros i Hi Hj. apply (ok_add _ _ _ Hev) in Hi as (l & Hl & E). apply (ok_inter _ _ _ Hev) in Hj as (l' & Hl' & _ & E' & _).
                assert (l' = l) by (eapply ln_fun; eauto). subst l'. congruence.
             ++ intros i Hi Hj. apply (ok_drop _ _ _ Hev) in Hi as (l & Hl & E). apply in_app_iff in Hj as [Hj|Hj].
                ** apply (ok_add _ _ _ Hev) in Hj as (l' & Hl' & E'). assert (l' = l) by (eapply ln_fun; eauto). subst l'. apply (Hne _ _ Hl). congruence.
                ** apply (ok_inter _ _ _ Hev) in Hj as (l' & Hl' & _ & _ & E'). assert (l' = l) by (eapply ln_fun; eauto). subst l'. congruence.
          -- intros Ei. unfold reports in Rp. rewrite Ei in Rp. apply Nat.ltb_lt in Rp. destruct (e_inter e) as [|i t] eqn:Eint; [cbn in Rp; lia|].
             destruct (ok_inter _ _ _ Hev i) as (l & Hl & Ho & H1 & H2); [rewrite Eint; left; auto|].
             assert (Hj : exists j, i <> j /\ In j ls).
             { destruct (e_drop e) as [|j t1] eqn:Ed; [destruct (e_add e) as [|j t2] eqn:Ea|].
               - pose proof (ok_some _ _ _ Hev Ed Ea) as H3. pose proof (ok_inter_nd _ _ _ Hev) as H4. rewrite Eint in H3, H4. destruct t as [|j t]; [cbn in H3; lia|].
                 exists j. split; [|apply Hin; right; right; right; left; auto]. intros ->. inversion H4 as [|? ? H5 _]. apply H5. left; auto.
               - exists j. split; [|apply Hin; right; left; left; auto]. intros <-. destruct (proj1 (ok_add _ _ _ Hev i)) as (l' & Hl' & E'); [rewrite Ea; left; auto|].
                 assert (l' = l) by (eapply ln_fun; eauto). congruence.
               - exists j. split; [|apply Hin; left; left; auto]. intros <-. destruct (proj1 (ok_drop _ _ _ Hev i)) as (l' & Hl' & E'); [rewrite Ed; left; auto|].
                 assert (l' = l) by (eapply ln_fun; eauto). congruence. }
             destruct Hj as (j & Hij & Hj). exists i, j, l. split; auto. split; [apply Hin; right; right; rewrite ?Eint; left; auto|]. split; auto. split; auto. split; auto. rewrite ends_lohi. tauto.
        * rewrite Hoth in G by auto. apply HR in G as [G1 G2]. split; auto. intros K. apply Hpast in G1. exact (klt_asym _ _ K G1).
      + intros Eign k i j li lj Hk Hij Hi Hj He1 He2. apply ends_lohi in He1. apply ends_lohi in He2.
        destruct (pt_dec k key) as [->|Hn].
        * apply Hrep2. unfold reports. rewrite Eign. apply Nat.ltb_lt.
          assert (Z : forall i l, ln i l -> (key = lo l \/ key = hi l) -> In i (e_drop e ++ e_add e)).
          { intros i0 l0 Hl0 [E|E]; apply in_app_iff; [right; apply (ok_add _ _ _ Hev)|left; apply (ok_drop _ _ _ Hev)]; eauto. }
          pose proof (Z _ _ Hi He1) as Z1. pose proof (Z _ _ Hj He2) as Z2. rewrite <- app_length.
          destruct (e_drop e ++ e_add e) as [|x [|y t]]; [destruct Z1| |cbn; lia].
          destruct Z1 as [<-|[]]. destruct Z2 as [<-|[]]. congruence.
        * rewrite Hoth by auto. destruct (Hnot _ Hk) as [|Hlt]; [contradiction|].
          assert (Hnp : ~ after pos k). { intros K. destruct (Hmin k K) as [|K2]; [eauto|contradiction|exact (klt_asym _ _ K2 Hlt)]. }
          eapply HM; eauto; apply ends_lohi; auto.
    - constructor; cbn [st_queue st_active st_result]; auto.
      + split.
        * intros G. destruct (reports ign e) eqn:Rp; auto. destruct (Hrep2 eq_refl G).
        * intros Rp. rewrite (Hnil (T1 Rp)). auto.
      + intros ls G. apply (Hrep _ G).
      + exists nl, nr, cl, cr. cbv zeta.
        assert (Hcon : (exists i l, (In i (e_add e) \/ In i (e_inter e)) /\ ln i l) <-> ~ (e_add e = [] /\ e_inter e = [])).
        { split.
          - intros (i & l & Hm & _) [E1 E2]. rewrite E1, E2 in Hm. destruct Hm as [[]|[]].
          - intros H. destruct (e_add e) as [|x t] eqn:Ea.
            + destruct (e_inter e) as [|x t] eqn:Eb; [tauto|]. destruct (Hconv x) as (l & Hl); [right; left; auto|]. exists x, l. split; auto. right; left; auto.
            + destruct (Hconv x) as (l & Hl); [left; left; auto|]. exists x, l. split; auto. left; left; auto. }
        split; [|split; [|split; [|split; [|split; [|split; [|split]]]]]].
        * intros i Hi. apply N1 in Hi as (x & Hs & Hx & Hmax). apply Hsm in Hs as (l & H1). exists l, x. split; auto. split; auto.
          intros j l' x' Hj Hx'. apply (Hmax x' j); auto. apply Hsm. exists l'. auto.
        * intros (i & l & x & H & Hx). apply N2. exists x, i. split; auto. apply Hsm. exists l. auto.
        * intros i Hi. apply N3 in Hi as (x & Hs & Hx & Hmax). apply Hsm in Hs as (l & H1). exists l, x. split; auto. split; auto.
          intros j l' x' Hj Hx'. apply (Hmax x' j); auto. apply Hsm. exists l'. auto.
        * intros (i & l & x & H & Hx). apply N4. exists x, i. split; auto. apply Hsm. exists l. auto.
        * intros i Hi. destruct (C1 i Hi) as [Hm Hs]. destruct (Hconv i Hm) as (l & Hl). exists l. split; auto.
          intros j lj [Hj Hlj]. apply (Hs l j lj); auto; apply Hidx; auto.
        * intros i Hi. destruct (C2 i Hi) as [Hm Hs]. destruct (Hconv i Hm) as (l & Hl). exists l. split; auto.
          intros j lj [Hj Hlj]. apply (Hs l j lj); auto; apply Hidx; auto.
        * intros H. apply Hcon in H. apply C3. destruct (e_add e); [|left; discriminate]. right. intros E. tauto.
        * intros a b la lb Ha Hb Hpair. apply (Hcov a b la lb); auto. apply C4. destruct Hpair as [(Hno & K)|K].
          -- left. split; auto. destruct (e_add e) as [|x t]; [destruct (e_inter e) as [|x t]; auto|].
             ++ exfalso. apply Hno. apply Hcon. intros [_ ?]; discriminate.
             ++ exfalso. apply Hno. apply Hcon. intros [? _]; discriminate.
          -- right. split; auto. apply Hcon. destruct K as [[_ K]|[_ K]]; [destruct (C1 b K)|destruct (C2 b K)]; eauto.
  Qed.
End Loop.
