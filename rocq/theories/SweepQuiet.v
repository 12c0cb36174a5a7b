(* The sweep line in floating point on a grid: when the exact lines meet only in common end points, every comparison of
   positions is exact and nothing is reported as an intersection. *)
From Coq Require Import ZArith Reals Lra Lia Psatz Permutation Sorting.Sorted Floats.SpecFloat.
From Flocq Require Import Core BinarySingleNaN.
From Verif Require Import Prelude Scalar RInst Flt FloatSpec FloatLink FloatGrid FloatRound Geo2 GeoSpec DistR IsectProofs FloatRdp FloatIsect FloatPoint FloatSelf
  Sweep SweepMap SweepProofs SweepCand SweepLoop SweepLoop2 SweepIdx SweepRun SweepFin SweepAny SweepGrid.
Local Open Scope R_scope.

Section Quiet.
  Context (prec emax epsexp : Z) (at2 : spec_float -> spec_float -> spec_float) (Hprec : Prec_gt_0 prec) (Hmax : Prec_lt_emax prec emax).
  Notation FS := (FloatS prec emax epsexp at2).
  Notation emin := (SpecFloat.emin prec emax).
  Notation good := (finite_float prec emax).
  Notation rv := fvalue.
  Context (s K : Z) (OK : isect_ok prec emax epsexp s K).
  Notation n := (2 ^ K)%Z.
  Notation onp := (@grid_point prec emax epsexp at2 s n).
  Notation val := (@point_value prec emax epsexp at2).
  Notation lval := (lval prec emax epsexp at2).
  Notation grid_line := (grid_line prec emax epsexp at2 s K).
  Notation gridq := (gridq prec emax epsexp at2 s K).
  Notation vq := (vq prec emax epsexp at2).
  Context (HK7 : (K + 7 <= prec)%Z) (Hee : (emin + 2 <= epsexp)%Z) (Hes : (epsexp + 2 < s)%Z) (Hh : (epsexp + 1 <= K + s + 4 - prec)%Z).
  Notation V := (V2 FS).
  Notation L := (Line2 FS).
  Variable lines : list L.
  Hypothesis Hg : Forall grid_line lines.
  (* no line has an interior point on another line *)
  Hypothesis Hquiet : forall i j l l' x, i <> j -> nth_error lines i = Some l -> nth_error lines j = Some l' ->
    on_segment x (val (lstart l)) (val (lend l)) -> on_segment x (val (lstart l')) (val (lend l')) -> x = val (lstart l) \/ x = val (lend l).

  Lemma grid_nth i l : nth_error lines i = Some l -> grid_line l.
  Proof. intros H. rewrite Forall_forall in Hg. apply Hg. eapply nth_error_In; eauto. Qed.
  Lemma ahead_grid k p : onp k -> onp p -> ahead k p = ahead (val k) (val p).
  Proof.
    intros Hk Hp. destruct (Hk) as [Kx Ky], (Hp) as [Px Py]. unfold ahead. rewrite (vulps_ex prec emax epsexp at2 Hprec Hmax s K OK) by auto. cbn [sleb seqb sltb FloatS RS].
    rewrite (leb_R prec emax at2), (eqb_R prec emax at2), (ltb_R prec emax at2) by first [apply Kx|apply Ky|apply Px|apply Py]. reflexivity.
  Qed.
  Lemma pair_quiet k a b q : onp k -> inr lines a -> inr lines b -> gridq q -> q_ok (map lval lines) (Some (val k)) (vq q) ->
    exists q', pair_event (S := FS) lines k a b q = Val q' /\ gridq q' /\ q_ok (map lval lines) (Some (val k)) (vq q').
  Proof.
    intros Hk (la & Ha) (lb & Hb) Hq Hqo. unfold pair_event. rewrite (idx_ok _ _ _ Ha), (idx_ok _ _ _ Hb). cbn [obind].
    destruct (grid_nth a la Ha) as (A0 & A1 & Na). destruct (grid_nth b lb Hb) as (B0 & B1 & Nb).
    destruct (Nat.eq_dec a b) as [->|Nab].
    { assert (lb = la) by congruence. subst lb. rewrite (vulps_ex prec emax epsexp at2 Hprec Hmax s K OK) by auto. replace (vulps (val (lend la)) (val (lend la))) with true by (symmetry; apply vulps_R; auto). eauto. }
    assert (La : ln (map lval lines) a (lval la)) by (unfold ln; rewrite nth_error_map, Ha; auto). assert (Lb : ln (map lval lines) b (lval lb)) by (unfold ln; rewrite nth_error_map, Hb; auto).
    destruct (pair_event_ok (map lval lines) (val k) a b (lval la) (lval lb) (vq q) Hqo La Lb Nab) as (qr & Er & Hqr & _).
    unfold pair_event in Er. unfold idx in Er. unfold ln in La, Lb. rewrite La, Lb in Er. cbn [obind] in Er. change (lend (lval la)) with (val (lend la)) in Er. change (lend (lval lb)) with (val (lend lb)) in Er.
    rewrite <- (vulps_ex prec emax epsexp at2 Hprec Hmax s K OK) in Er by auto. destruct (vulps (lend la) (lend lb)); [eauto|].
    pose proof (intersection_like prec emax epsexp at2 Hprec Hmax s K OK la lb A0 A1 B0 B1 Na Nb) as H.
    pose proof (intersection_correct (lval la) (lval lb)) as C.
    assert (Sharp : forall (p : V) (x : pt), sharp prec emax epsexp at2 la p x -> common (lval la) (lval lb) x -> onp p /\ val p = x).
    { intros p x (Gx & Gy & Sh) [Ca Cb]. cbn [lstart lend FloatIsect.lval] in Ca, Cb. assert (X := Hquiet a b la lb x Nab Ha Hb Ca Cb). assert (E := Sh X). split; auto.
      assert (Grid : forall e, onp e -> x = val e -> onp p).
      { intros e [[_ (m & Hm & Em)] [_ (m' & Hm' & Em')]] Ee. rewrite Ee in E. injection E as E1 E2. split; (split; [auto|]); [exists m|exists m']; (split; [auto|congruence]). }
      destruct X as [X|X]; [apply (Grid (lstart la))|apply (Grid (lend la))]; auto. }
    assert (Core : forall p x, onp p -> val p = x -> (if (sfin (vx x) && sfin (vy x))%bool then if ahead (val k) x then bt_update (fun v : pt => v) x (merge_intersection x [(a, lval la); (b, lval lb)]) (vq q) else Val (vq q) else Fail InvalidData) = Val qr ->
      exists q', (if (@sfin FS (vx p) && @sfin FS (vy p))%bool then if ahead k p then bt_update (fun v : V => v) p (merge_intersection p [(a, la); (b, lb)]) q else Val q else Fail InvalidData) = Val q' /\ gridq q' /\ q_ok (map lval lines) (Some (val k)) (vq q')).
    { intros p x Hp Ex E. rewrite !fin_good by first [apply Hp|apply Hmax|auto]. cbn [andb]. change (sfin (vx x) && sfin (vy x))%bool with true in E. cbv iota in E.
      rewrite (ahead_grid k p Hk Hp), Ex. destruct (ahead (val k) x); [|eauto].
      destruct (bt_grid prec emax epsexp at2 Hprec Hmax s K OK p (merge_intersection p [(a, la); (b, lb)]) Hp q Hq) as (q' & E' & G' & V').
      assert (Em : forall o, merge_intersection p [(a, la); (b, lb)] o = merge_intersection x [(a, lval la); (b, lval lb)] o).
      { intros [e|]; [|reflexivity]. cbn [merge_intersection filter map snd fst]. cbn [lstart lend FloatIsect.lval].
        rewrite !(vulps_ex prec emax epsexp at2 Hprec Hmax s K OK) by auto. rewrite Ex.
        destruct (vulps x (val (lstart la)) || vulps x (val (lend la)))%bool, (vulps x (val (lstart lb)) || vulps x (val (lend lb)))%bool; reflexivity. }
      exists q'. split; auto. split; auto.
      assert (Ext : forall m, bt_update (fun v : pt => v) (val p) (merge_intersection p [(a, la); (b, lb)]) m = bt_update (fun v : pt => v) x (merge_intersection x [(a, lval la); (b, lval lb)]) m).
      { rewrite Ex. induction m as [|[k0 e0] m IH]; cbn [bt_update]; rewrite ?Em; auto. destruct (key_cmp x k0) as [[]|]; auto. rewrite IH. auto. }
      rewrite Ext, E in V'. injection V' as <-. exact Hqr. }
    destruct (intersection_point la lb) as [it|], (intersection_point (lval la) (lval lb)) as [it'|] eqn:Ei; cbn [like correct] in *; try tauto; [|destruct it; tauto|injection Er as <-; eauto].
    assert (X : onp (isingle it) /\ val (isingle it) = isingle it').
    { destruct it as [p|l], it' as [x|m]; cbn [like correct isingle] in *; try tauto.
      - destruct H as [_ H]. apply Sharp; auto. apply C. auto.
      - destruct H as (_ & _ & H), C as [_ C]. apply Sharp; auto. apply C, on_segment_start. }
    destruct X as [X1 X2]. apply (Core _ _ X1 X2 Er).
  Qed.
  Lemma find_quiet k : onp k -> forall prs q, Forall (pair_in lines) prs -> gridq q -> q_ok (map lval lines) (Some (val k)) (vq q) ->
    exists q', find_new_events (S := FS) lines k prs q = Val q' /\ gridq q' /\ q_ok (map lval lines) (Some (val k)) (vq q').
  Proof.
    intros Hk. induction prs as [|[a b] prs IH]; intros q Hp Hq Hqo; cbn [find_new_events]; [eauto|]. inversion_clear Hp as [|? ? [H1 H2] Hp']. cbn [fst snd] in *.
    destruct (pair_quiet k a b q Hk H1 H2 Hq Hqo) as (q1 & E1 & G1 & O1). rewrite E1. cbn [obind]. auto.
  Qed.
  Lemma quiet_event k e : ev_ok (map lval lines) k e -> e_inter e = [].
  Proof.
    intros Ok. destruct (e_inter e) as [|i t] eqn:E; auto. exfalso.
    assert (Lv : forall j l, ln (map lval lines) j l -> exists l0, nth_error lines j = Some l0 /\ l = lval l0).
    { intros j l H. unfold ln in H. rewrite nth_error_map in H. destruct (nth_error lines j) as [l0|]; [|discriminate]. injection H as <-. eauto. }
    destruct (ok_inter _ _ _ Ok i) as (l & Hl & On & N1 & N2); [rewrite E; left; auto|]. apply Lv in Hl as (l0 & Hl0 & ->).
    assert (Other : exists j l', j <> i /\ ln (map lval lines) j l' /\ on_line k l').
    { destruct (e_drop e) as [|j d] eqn:D.
      - destruct (e_add e) as [|j d'] eqn:A.
        + pose proof (ok_some _ _ _ Ok D A) as Ln. rewrite E in Ln. destruct t as [|j t]; [cbn in Ln; lia|]. pose proof (ok_inter_nd _ _ _ Ok) as Nd. rewrite E in Nd. inversion_clear Nd as [|? ? Ni _].
          destruct (ok_inter _ _ _ Ok j) as (l' & Hl' & On' & _); [rewrite E; cbn; auto|]. exists j, l'. split; auto. intros ->. apply Ni. left; auto.
        + destruct (proj1 (ok_add _ _ _ Ok j)) as (l' & Hl' & El'); [rewrite A; left; auto|]. exists j, l'. split; [|split; auto].
          * intros ->. apply Lv in Hl' as (l1 & Hl1 & ->). assert (l1 = l0) by congruence. subst l1. congruence.
          * unfold on_line. destruct (lohi l') as [[X1 X2]|[X1 X2]]; rewrite <- El', X1; [apply on_segment_start|apply on_segment_end].
      - destruct (proj1 (ok_drop _ _ _ Ok j)) as (l' & Hl' & El'); [rewrite D; left; auto|]. exists j, l'. split; [|split; auto].
        * intros ->. apply Lv in Hl' as (l1 & Hl1 & ->). assert (l1 = l0) by congruence. subst l1. congruence.
        * unfold on_line. destruct (lohi l') as [[X1 X2]|[X1 X2]]; rewrite <- El', X2; [apply on_segment_end|apply on_segment_start]. }
    destruct Other as (j & l' & Nij & Hl' & On'). apply Lv in Hl' as (l1 & Hl1 & ->).
    destruct (Hquiet i j l0 l1 k) as [X|X]; auto; destruct (lohi (lval l0)) as [[X1 X2]|[X1 X2]]; cbn [lstart lend FloatIsect.lval] in X1, X2; congruence.
  Qed.
  Lemma loop_quiet inf ord stop : (forall m l, Permutation (ord m l) l) -> forall fuel m active pos q, Forall (inr lines) active -> gridq q -> q_ok (map lval lines) pos (vq q) ->
    match event_loop (S := FS) inf lines true stop ord fuel m (mkSt active q []) with Val r => r = [] | NoFuel => True | _ => False end.
  Proof.
    intros Ho. induction fuel as [|fuel IH]; intros m active pos q Ha Hq Hqo; cbn [event_loop st_queue st_result]; destruct q as [|[k e] q]; auto.
    inversion_clear Hq as [|? ? Hk Hq']. cbn [fst] in Hk. cbn [SweepGrid.vq map fst snd] in Hqo. fold (vq q) in Hqo.
    destruct (head_ev (map lval lines) pos (val k) e (vq q) Hqo) as [Ok _]. pose proof (quiet_event _ _ Ok) as Ni. pose proof (pop_ok (map lval lines) pos (val k) e (vq q) Hqo) as Hpop.
    unfold handle_event. cbn [st_active st_queue st_result]. replace (to_report true e) with (@nil (list nat)) by (unfold to_report; rewrite Ni; reflexivity). cbn [report obind].
    assert (Hact : Forall (inr lines) (set_remove active (e_drop e))).
    { rewrite Forall_forall in Ha |- *. intros i Hi. apply set_remove_In in Hi as [Hi _]. auto. }
    assert (Ea : Forall (inr lines) (e_add e)).
    { apply Forall_forall. intros i Hi. apply (ok_add _ _ _ Ok) in Hi as (l & Hl & _). unfold ln in Hl. rewrite nth_error_map in Hl. destruct (nth_error lines i) as [l0|] eqn:El; [|discriminate]. exists l0. auto. }
    destruct (neighbours_any inf lines k (e_inter e) (ord m (set_remove active (e_drop e))) minmax_new) as (nb & En & Hnb).
    { rewrite Forall_forall in Hact |- *. intros i Hi. apply Hact. apply (Permutation_in i (Ho m _) Hi). }  { apply slope_new_in. }
    rewrite En. cbn [obind]. destruct (candidates_any inf lines e (mm_slope nb) Ea ltac:(rewrite Ni; constructor) Hnb) as (c & Ec & Hc). rewrite Ec. cbn [obind].
    destruct (find_quiet k Hk (flat_map pairs_of c) q Hc Hq' Hpop) as (q' & Ef & G' & O'). rewrite Ef. cbn [obind st_result].
    apply (IH (Datatypes.S m) _ (Some (val k)) q'); auto.
    rewrite Forall_forall in *. intros i Hi. apply set_inserts_In in Hi as [Hi|Hi]; auto.
  Qed.
End Quiet.

Section Calls.
  Context (prec emax epsexp : Z) (at2 : spec_float -> spec_float -> spec_float) (Hprec : Prec_gt_0 prec) (Hmax : Prec_lt_emax prec emax).
  Notation FS := (FloatS prec emax epsexp at2).
  Context (s K : Z) (OK : isect_ok prec emax epsexp s K).
  Notation val := (@point_value prec emax epsexp at2).
  Notation lval := (lval prec emax epsexp at2).
  Notation grid_line := (grid_line prec emax epsexp at2 s K).
  Definition quiet (lines : list (Line2 FS)) : Prop := forall i j l l' x, i <> j -> nth_error lines i = Some l -> nth_error lines j = Some l' ->
    on_segment x (val (lstart l)) (val (lend l)) -> on_segment x (val (lstart l')) (val (lend l')) -> x = val (lstart l) \/ x = val (lend l).
  Lemma plain_quiet inf ord fuel stop (input : list (Line2 FS)) : Forall grid_line input -> (forall m l, Permutation (ord m l) l) -> quiet input ->
    match intersections (S := FS) inf ord fuel stop true input with Val r => r = [] | NoFuel => True | _ => False end.
  Proof.
    intros Hi Ho Hq. unfold intersections, with_lines, compute. cbn [d_events d_lines d_stop d_ign default_data with_ignore_end_point_intersections with_stop_at_first_intersection].
    destruct (with_lines_grid prec emax epsexp at2 Hprec Hmax s K OK input 0 [] [] [] Hi (Forall_nil _)) as (q & E & G & ls & W). rewrite E. cbn [obind d_events d_lines d_stop d_ign app].
    destruct (with_lines_loop_ok (@arrange RS)) with (input := map lval input) (lines := @nil line) (acc := @nil line) (q := @nil (pt * SiteEvent)) as (q' & E' & Hqo).
    { intros l. split; [apply lo_arrange|apply hi_arrange]. } { apply q_ok_nil. } { intros k e; discriminate. }
    cbn [length] in E'. change (vq prec emax epsexp at2 []) with (@nil (pt * SiteEvent)) in W. rewrite W in E'. injection E' as <- _. cbn [app] in Hqo.
    assert (Ar : map (@arrange RS) (map lval input) = map lval (map arrange input)).
    { rewrite !map_map. apply map_ext_in. intros l Hl. rewrite Forall_forall in Hi. destruct (Hi l Hl) as (H0 & H1 & _). symmetry. apply (arrange_grid prec emax epsexp at2 Hprec Hmax s K OK); auto. }
    rewrite Ar in Hqo. apply (loop_quiet prec emax epsexp at2 Hprec Hmax s K OK) with (pos := None); auto.
    - apply Forall_forall. intros l Hl. apply in_map_iff in Hl as (l0 & <- & Hl0). rewrite Forall_forall in Hi. apply arrange_grid_line; auto.
    - intros i j l l' x Nij Hl Hl'. rewrite nth_error_map in Hl, Hl'. destruct (nth_error input i) as [li|] eqn:Li; [|discriminate]. destruct (nth_error input j) as [lj|] eqn:Lj; [|discriminate].
      injection Hl as <-. injection Hl' as <-. intros O1 O2. pose proof (Hq i j li lj x Nij Li Lj) as Q.
      assert (Sw : forall l, on_segment x (val (lstart (arrange l))) (val (lend (arrange l))) -> on_segment x (val (lstart l)) (val (lend l))).
      { intros l. unfold arrange. destruct (key_lt _ _); auto. cbn [lstart lend]. apply on_segment_sym. }
      specialize (Q (Sw _ O1) (Sw _ O2)). unfold arrange. destruct (key_lt _ _); cbn [lstart lend]; tauto.
  Qed.
End Calls.
