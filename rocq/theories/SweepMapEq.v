(* When the keys are consistent, every map gives the run of Sweep.v. *)
From Coq Require Import Sorting.Sorted.
From Verif Require Import Prelude Scalar Geo2 Sweep SweepIdx SweepRun SweepTree.

Section Eq.
  Context {S : Scalar} (inf : car S).
  Notation V := (V2 S).
  Notation L := (Line2 S).
  Variable P : V -> Prop.
  Hypothesis HC : consistent P.
  Notation lt := (fun a b : V => key_cmp a b = Some Lt).
  Definition sorted (ks : list V) : Prop := StronglySorted lt ks /\ Forall P ks.

  Lemma cmp_self a : P a -> key_cmp a a = Some Eq.
  Proof.
    intros H. destruct (key_cmp a a) as [c|] eqn:E; [|destruct (c_total P HC a a H H E)]. pose proof (c_sym P HC a a c H H E) as E2. rewrite E in E2. destruct c; cbn in E2; congruence.
  Qed.
  Lemma above k k0 t : P k -> sorted (k0 :: t) -> key_cmp k k0 <> Some Gt -> forall k', In k' t -> key_cmp k k' = Some Lt.
  Proof.
    intros Hk [Hs Hp] Hc k' Hin. inversion_clear Hs as [|? ? _ Hl]. inversion_clear Hp as [|? ? H0 Ht]. rewrite Forall_forall in Hl, Ht.
    specialize (Hl k' Hin). specialize (Ht k' Hin). cbn beta in Hl. destruct (key_cmp k k0) as [[]|] eqn:E; [| |congruence|destruct (c_total P HC k k0 Hk H0 E)].
    - rewrite (c_equal P HC k k0 k'); auto.
    - apply (c_trans P HC k k0 k'); auto.
  Qed.
  Lemma sorted_tl k t : sorted (k :: t) -> sorted t.
  Proof. intros [H1 H2]. inversion_clear H1. inversion_clear H2. split; auto. Qed.
  Lemma spot_unique k : P k -> forall keys s, sorted keys -> valid_spot keys k s -> s = front keys k.
  Proof.
    intros Hk. induction keys as [|k0 t IH]; intros s Hs Hv; cbn [front].
    - destruct s as [i|i|]; cbn in Hv; [destruct Hv as (? & H & _); destruct i; discriminate|f_equal; lia|destruct Hv as (? & [] & _)].
    - assert (H0 : P k0) by (destruct Hs as [_ H]; inversion_clear H; auto).
      assert (Total : forall k', In k' (k0 :: t) -> key_cmp k k' <> None) by (intros k' Hin; destruct Hs as [_ H]; rewrite Forall_forall in H; apply (c_total P HC); auto).
      destruct (key_cmp k k0) as [c|] eqn:E; [|destruct (Total k0 (or_introl eq_refl) E)]. destruct c.
      + pose proof (above k k0 t Hk Hs ltac:(congruence)) as A. destruct s as [[|i]|[|i]|]; cbn [valid_spot nth_error] in Hv; auto.
        * destruct Hv as (k' & H1 & H2). rewrite (A k') in H2 by (eapply nth_error_In; eauto). discriminate.
        * destruct Hv as (_ & _ & H). rewrite (H k0 eq_refl) in E. discriminate.
        * destruct Hv as (Hl & H & _). destruct (nth_error (k0 :: t) i) as [k'|] eqn:En; [|apply nth_error_None in En; cbn in *; lia]. specialize (H i k' eq_refl En).
          destruct i as [|i]; cbn in En; [injection En as <-; congruence|]. rewrite (A k') in H by (eapply nth_error_In; eauto). discriminate.
        * destruct Hv as (k' & H1 & H2). destruct (Total k' H1 H2).
      + pose proof (above k k0 t Hk Hs ltac:(congruence)) as A. destruct s as [[|i]|[|i]|]; cbn [valid_spot nth_error] in Hv; auto.
        * destruct Hv as (k' & [= <-] & H2). congruence.
        * destruct Hv as (k' & H1 & H2). rewrite (A k') in H2 by (eapply nth_error_In; eauto). discriminate.
        * destruct Hv as (Hl & H & _). destruct (nth_error (k0 :: t) i) as [k'|] eqn:En; [|apply nth_error_None in En; cbn in *; lia]. specialize (H i k' eq_refl En).
          destruct i as [|i]; cbn in En; [injection En as <-; congruence|]. rewrite (A k') in H by (eapply nth_error_In; eauto). discriminate.
        * destruct Hv as (k' & H1 & H2). destruct (Total k' H1 H2).
      + assert (Hs' := sorted_tl _ _ Hs). destruct s as [[|i]|[|i]|]; cbn [valid_spot nth_error] in Hv.
        * destruct Hv as (k' & [= <-] & H2). congruence.
        * rewrite <- (IH (Found i) Hs' Hv). auto.
        * destruct Hv as (_ & _ & H). rewrite (H k0 eq_refl) in E. discriminate.
        * rewrite <- (IH (Gap i) Hs'); auto. destruct Hv as (H1 & H2 & H3). split; [cbn in H1; lia|]. split; auto. intros j k' -> En. apply (H2 (Datatypes.S j) k'); auto.
        * destruct Hv as (k' & H1 & H2). destruct (Total k' H1 H2).
  Qed.

  Section Ops.
    Context {K E : Type} (pos : K -> V) {M : Map V K E} (ok : store M -> Prop).
    Hypothesis HM : lawful_on pos M ok.
    Definition keys (m : list (K * E)) : list V := map (fun ke => pos (fst ke)) m.
    Lemma search_front m k : ok m -> sorted (keys (m_list m)) -> P k -> m_search m k = front (keys (m_list m)) k.
    Proof. intros Ho Hs Hk. apply spot_unique; auto. apply (law_search _ _ _ HM). auto. Qed.
    Lemma front_spot m k : valid_spot (keys m) k (front (keys m) k).
    Proof. apply front_valid. Qed.
    Lemma nth_keys (m : list (K * E)) i : nth_error (keys m) i = option_map (fun ke => pos (fst ke)) (nth_error m i).
    Proof. apply nth_error_map. Qed.
    Lemma keys_set (m : list (K * E)) i k e e' : nth_error m i = Some (k, e) -> keys (firstn i m ++ (k, e') :: skipn (Datatypes.S i) m) = keys m.
    Proof.
      revert m. induction i as [|i IH]; intros [|[k0 e0] m] H; try discriminate; cbn in *; [injection H as <- <-; reflexivity|]. f_equal. apply IH. auto.
    Qed.
    Lemma keys_insert (m : list (K * E)) i k e : keys (firstn i m ++ (k, e) :: skipn i m) = firstn i (keys m) ++ pos k :: skipn i (keys m).
    Proof. unfold keys. rewrite map_app, firstn_map, skipn_map. reflexivity. Qed.
    Lemma gap_sorted : forall (ks : list V) k i, P k -> sorted ks -> front ks k = Gap i -> sorted (firstn i ks ++ k :: skipn i ks) /\ i <= length ks /\ front (firstn i ks ++ k :: skipn i ks) k = Found i.
    Proof.
      induction ks as [|k0 t IH]; intros k i Hk Hs Eg; cbn [front] in Eg.
      - injection Eg as <-. cbn [firstn skipn app front length]. rewrite cmp_self by auto. repeat split; auto; repeat constructor; auto.
      - assert (H0 : P k0) by (destruct Hs as [_ H]; inversion_clear H; auto). destruct (key_cmp k k0) as [[]|] eqn:Ec; try discriminate.
        + injection Eg as <-. cbn [firstn skipn app front length]. rewrite cmp_self by auto. split; [|split; [lia|auto]]. destruct Hs as [H1 H2]. split; [|constructor; auto].
          constructor; auto. constructor; auto. apply Forall_forall. intros k' Hin. apply (above k k0 t); auto; [split; auto|congruence].
        + destruct (front t k) as [j|j|] eqn:Ef; try discriminate. injection Eg as <-. destruct (IH k j Hk (sorted_tl _ _ Hs) Ef) as (I1 & I2 & I3).
          cbn [firstn skipn app front length]. rewrite Ec, I3. split; [|split; [lia|auto]]. destruct Hs as [H1 H2]. inversion_clear H1 as [|? ? H3 H4]. inversion_clear H2 as [|? ? _ H5]. destruct I1 as [J1 J2].
          split; [|constructor; auto]. constructor; auto. rewrite Forall_forall in *. intros k' Hin. apply in_app_iff in Hin as [Hin|[<-|Hin]].
          * apply H4. rewrite <- (firstn_skipn j t). apply in_app_iff; auto.
          * apply (c_sym P HC k k0 Gt) in Ec; auto.
          * apply H4. rewrite <- (firstn_skipn j t). apply in_app_iff; auto.
    Qed.
    (* the list a store stands for, with sorted keys *)
    Definition rep (m : store M) (l : list (K * E)) : Prop := ok m /\ m_list m = l /\ sorted (keys l).
    Definition same (o : outcome (store M)) (o' : outcome (list (K * E))) : Prop :=
      match o, o' with Val m, Val l => rep m l | Panic, Panic => True | _, _ => False end.
    Lemma update_same m l k upd : rep m l -> P (pos k) -> exists m' l', map_update pos k upd m = Val m' /\ bt_update pos k upd l = Val l' /\ rep m' l'.
    Proof.
      intros (Ho & <- & Hs) Hk. rewrite front_update. unfold map_update. fold (keys (m_list m)). rewrite (search_front m (pos k) Ho Hs Hk).
      pose proof (front_spot (m_list m) (pos k)) as Hv. destruct (front (keys (m_list m)) (pos k)) as [i|i|] eqn:Ef; cbn [valid_spot] in Hv.
      - destruct Hv as (k' & H1 & _). rewrite nth_keys in H1. unfold idx. destruct (nth_error (m_list m) i) as [[k0 e0]|] eqn:En; [|discriminate]. cbn [obind snd].
        eexists _, _. split; [reflexivity|]. split; [reflexivity|]. assert (Hi : i < length (m_list m)) by (apply nth_error_Some; congruence).
        split; [apply (ok_set _ _ _ HM); auto|]. rewrite (keys_set _ _ _ _ _ En). split; auto. apply (law_set _ _ _ HM) with e0; auto.
      - destruct (gap_sorted (keys (m_list m)) (pos k) i Hk Hs Ef) as (G1 & G2 & _). unfold keys in G2. rewrite map_length in G2.
        eexists _, _. split; [reflexivity|]. split; [reflexivity|]. split; [apply (ok_insert _ _ _ HM); auto|]. rewrite keys_insert. split; auto. apply (law_insert _ _ _ HM); auto.
      - destruct Hv as (k' & H1 & H2). destruct Hs as [_ Hp]. rewrite Forall_forall in Hp. destruct (c_total P HC (pos k) k'); auto.
    Qed.
    Lemma pop_same m l : rep m l -> match l with
      | [] => map_pop pos m = Val None
      | (k, e) :: t => exists m', map_pop pos m = Val (Some ((k, e), m')) /\ rep m' t
      end.
    Proof.
      intros (Ho & El & Hs). unfold map_pop. rewrite El. destruct l as [|[k e] t]; auto.
      assert (Hk : P (pos k)) by (destruct Hs as [_ H]; inversion_clear H; auto).
      rewrite (search_front m (pos k) Ho) by (rewrite ?El; auto). rewrite El. cbn [keys map fst front]. rewrite cmp_self by auto. cbn [idx nth_error obind snd].
      exists (m_remove m 0). split; [reflexivity|]. assert (Hi : 0 < length (m_list m)) by (rewrite El; cbn; lia).
      split; [apply (ok_remove _ _ _ HM); auto|]. split; [rewrite (law_remove _ _ _ HM), El by auto; reflexivity|]. apply sorted_tl in Hs. exact Hs.
    Qed.
  End Ops.
  Lemma report_same {K} (pos : K -> V) {M : Map V K (list nat)} ok : lawful_on pos M ok -> forall m l k is, rep pos ok m l -> P (pos k) ->
    exists m' l', map_report pos k is m = Val m' /\ bt_update pos k (push_report is) l = Val l' /\ rep pos ok m' l'.
  Proof.
    intros HM m l k is (Ho & <- & Hs) Hk. rewrite front_update. unfold map_report. change (map (fun ke => pos (fst ke)) (m_list m)) with (keys pos (m_list m)). rewrite (search_front pos ok HM m (pos k) Ho Hs Hk).
    pose proof (front_spot pos (m_list m) (pos k)) as Hv. destruct (front (keys pos (m_list m)) (pos k)) as [i|i|] eqn:Ef; cbn [valid_spot obind] in Hv |- *.
    - rewrite (search_front pos ok HM m (pos k) Ho Hs Hk), Ef. destruct Hv as (k' & H1 & _). rewrite nth_keys in H1. unfold idx. destruct (nth_error (m_list m) i) as [[k0 e0]|] eqn:En; [|discriminate]. cbn [obind snd].
      eexists _, _. split; [reflexivity|]. split; [reflexivity|]. assert (Hi : i < length (m_list m)) by (apply nth_error_Some; congruence).
      split; [apply (ok_set _ _ _ HM); auto|]. rewrite (keys_set pos _ _ _ _ _ En). split; auto. apply (law_set _ _ _ HM) with e0; auto.
    - destruct (gap_sorted (keys pos (m_list m)) (pos k) i Hk Hs Ef) as (G1 & G2 & G3). unfold keys in G2. rewrite map_length in G2.
      assert (Ho' : ok (m_insert m i k [])) by (apply (ok_insert _ _ _ HM); auto).
      assert (El : m_list (m_insert m i k []) = firstn i (m_list m) ++ (k, []) :: skipn i (m_list m)) by (apply (law_insert _ _ _ HM); auto).
      rewrite <- (keys_insert pos _ i k []) in G1, G3. rewrite <- El in G1, G3. rewrite (search_front pos ok HM _ (pos k) Ho' G1 Hk), G3.
      assert (En : nth_error (m_list (m_insert m i k [])) i = Some (k, [])).
      { rewrite El, nth_error_app2, firstn_length, Nat.min_l, Nat.sub_diag by (rewrite ?firstn_length; lia). reflexivity. }
      unfold idx. rewrite En. cbn [obind snd]. eexists _, _. split; [reflexivity|]. split; [reflexivity|].
      assert (Hi : i < length (m_list (m_insert m i k []))) by (apply nth_error_Some; congruence).
      split; [apply (ok_set _ _ _ HM); auto|]. rewrite (law_set _ _ _ HM _ _ _ _ _ Ho' En). pose proof (keys_set pos _ _ _ _ (push_report is (Some [])) En) as Ks. split; [|rewrite keys_insert; rewrite El, keys_insert in G1; exact G1].
      rewrite El. rewrite firstn_app, firstn_firstn, firstn_length, Nat.min_l, Nat.min_l, Nat.sub_diag by lia. cbn [firstn]. rewrite app_nil_r. f_equal. f_equal.
      rewrite skipn_app, firstn_length, Nat.min_l by lia. rewrite skipn_all2 by (rewrite firstn_length; lia). replace (Datatypes.S i - i) with 1 by lia. reflexivity.
    - destruct Hv as (k' & H1 & H2). destruct Hs as [_ Hp]. rewrite Forall_forall in Hp. destruct (c_total P HC (pos k) k'); auto.
  Qed.

  (* ---- the run over lines ---- *)
  Section Plain.
    Variables (QM : Map V V SiteEvent) (RM : Map V V (list nat)) (okq : store QM -> Prop) (okr : store RM -> Prop).
    Notation idk := (fun v : V => v).
    Hypothesis HQ : lawful_on idk QM okq.
    Hypothesis HR : lawful_on idk RM okr.
    Notation repq := (rep idk okq).
    Notation repr := (rep idk okr).
    Lemma queue_line_same i s e m l : repq m l -> P s -> P e -> sim repq (tree_queue_line QM i s e m) (queue_line i s e l).
    Proof.
      intros Hr Hs He. unfold tree_queue_line, queue_line. destruct (update_same idk okq HQ m l s (push_add i) Hr Hs) as (m1 & l1 & -> & -> & R1). cbn [obind].
      destruct (update_same idk okq HQ m1 l1 e (push_drop i) R1 He) as (m2 & l2 & -> & -> & R2). exact R2.
    Qed.
    Lemma with_lines_same : forall input i m l acc, repq m l -> (forall x, In x input -> line_finite (lstart x) (lend x) = true -> P (lstart (arrange x)) /\ P (lend (arrange x))) ->
      sim (fun a b => repq (fst a) (fst b) /\ snd a = snd b) (tree_with_lines QM i input m acc) (with_lines_loop i input l acc).
    Proof.
      induction input as [|x t IH]; intros i m l acc Hr Hp; cbn [tree_with_lines with_lines_loop]; [cbn; auto|].
      destruct (line_finite (lstart x) (lend x)) eqn:Ef; [|cbn; auto]. destruct (Hp x (or_introl eq_refl) Ef) as [P1 P2].
      eapply sim_bind; [apply queue_line_same; eauto|]. intros a b Hab. apply IH; auto. intros y Hy. apply Hp. right; auto.
    Qed.
    Variable lines : list L.
    Hypothesis HP : forall i j l r it, nth_error lines i = Some l -> nth_error lines j = Some r -> vulps (lend l) (lend r) = false -> intersection_point l r = Some it ->
      (sfin (vx (isingle it)) && sfin (vy (isingle it)))%bool = true -> P (isingle it).
    Lemma pair_same sweep i j m l : repq m l -> sim repq (tree_pair QM lines sweep i j m) (pair_event lines sweep i j l).
    Proof.
      intros Hr. unfold tree_pair, pair_event, idx. destruct (nth_error lines i) as [li|] eqn:Ei; [|exact I]. cbn [obind]. destruct (nth_error lines j) as [lj|] eqn:Ej; [|exact I]. cbn [obind].
      destruct (vulps (lend li) (lend lj)) eqn:Ev; [exact Hr|]. destruct (intersection_point li lj) as [it|] eqn:Ep; [|exact Hr]. cbv zeta.
      destruct (sfin (vx (isingle it)) && sfin (vy (isingle it)))%bool eqn:Ef; [|reflexivity]. destruct (ahead sweep (isingle it)); [|exact Hr].
      destruct (update_same idk okq HQ m l (isingle it) (merge_intersection (isingle it) [(i, li); (j, lj)]) Hr (HP _ _ _ _ _ Ei Ej Ev Ep Ef)) as (m1 & l1 & E1 & E2 & R1).
      rewrite E1, E2. exact R1.
    Qed.
    Lemma find_same sweep : forall prs m l, repq m l -> sim repq (tree_find QM lines sweep prs m) (find_new_events lines sweep prs l).
    Proof.
      induction prs as [|[a b] t IH]; intros m l Hr; cbn [tree_find find_new_events]; [exact Hr|]. eapply sim_bind; [apply pair_same; eauto|]. intros; apply IH; auto.
    Qed.
    Lemma reports_same key : P key -> forall lists m l, repr m l -> sim repr (tree_report RM key lists m) (report key lists l).
    Proof.
      intros Hk. induction lists as [|is t IH]; intros m l Hr; cbn [tree_report report]; [exact Hr|].
      destruct (report_same idk okr HR m l key is Hr Hk) as (m1 & l1 & E1 & E2 & R1). rewrite E1, E2. cbn [obind]. apply IH; auto.
    Qed.
    Definition srel (t : TState QM RM) (s : State (S := S)) : Prop := ts_active _ _ t = st_active s /\ repq (ts_queue _ _ t) (st_queue s) /\ repr (ts_result _ _ t) (st_result s).
    Lemma handle_same ign order key e t s : srel t s -> P key -> sim srel (tree_handle inf QM RM lines ign order key e t) (handle_event inf lines ign order key e s).
    Proof.
      intros (Ea & Rq & Rr) Hk. unfold tree_handle, handle_event. rewrite Ea.
      eapply sim_bind; [apply reports_same; eauto|]. intros r r' Hr. cbn beta zeta.
      eapply sim_bind; [apply sim_eq; reflexivity|]. intros nb ? <-. eapply sim_bind; [apply sim_eq; reflexivity|]. intros cs ? <-.
      eapply sim_bind; [apply find_same; eauto|]. intros q q' Hq'. cbn. split; auto.
    Qed.
    Lemma loop_same ign stop ord : forall fuel n t s, srel t s -> tree_loop inf QM RM lines ign stop ord fuel n t = event_loop inf lines ign stop ord fuel n s.
    Proof.
      induction fuel as [|fuel IH]; intros n t s (Ea & Rq & Rr); cbn [tree_loop event_loop]; pose proof (pop_same idk okq HQ _ _ Rq) as Hp.
      - destruct (st_queue s) as [|[k e] q] eqn:Eq'.
        + rewrite Hp. cbn [obind]. destruct Rr as (_ & -> & _). reflexivity.
        + destruct Hp as (m' & -> & _). reflexivity.
      - assert (Hk : forall k e q, st_queue s = (k, e) :: q -> P k).
        { intros k e q E0. destruct Rq as (_ & _ & _ & F). rewrite E0 in F. inversion F; auto. }
        destruct (st_queue s) as [|[k e] q] eqn:Eq'.
        + rewrite Hp. cbn [obind]. destruct Rr as (_ & -> & _). reflexivity.
        + destruct Hp as (m' & -> & Rm). cbn [obind].
          assert (HS : sim srel (tree_handle inf QM RM lines ign (ord n) k e (mkTS QM RM (ts_active _ _ t) m' (ts_result _ _ t))) (handle_event inf lines ign (ord n) k e (mkSt (st_active s) q (st_result s)))).
          { apply handle_same; [|eapply Hk; eauto]. split; auto. }
          destruct (tree_handle _ _ _ _ _ _ _ _ _) as [t'|?| |], (handle_event _ _ _ _ _ _ _) as [s'|?| |]; cbn in HS; try contradiction; cbn [obind]; try congruence.
          pose proof HS as (_ & _ & _ & El & _). rewrite El. rewrite (IH _ _ _ HS). destruct (st_result s'); auto.
    Qed.
    Lemma loop_sorted ign stop ord : forall fuel n t s, srel t s -> forall r, event_loop inf lines ign stop ord fuel n s = Val r -> sorted (keys idk r).
    Proof.
      induction fuel as [|fuel IH]; intros n t s H r Er; pose proof H as (Ea & Rq & Rr); cbn [event_loop] in Er; pose proof (pop_same idk okq HQ _ _ Rq) as Hp.
      - destruct (st_queue s) as [|[k e] q] eqn:Eq'; [|discriminate]. injection Er as <-. apply Rr.
      - assert (Hk : forall k e q, st_queue s = (k, e) :: q -> P k).
        { intros k e q E0. destruct Rq as (_ & _ & _ & F). rewrite E0 in F. inversion F; auto. }
        destruct (st_queue s) as [|[k e] q] eqn:Eq'; [injection Er as <-; apply Rr|].
        destruct Hp as (m' & _ & Rm).
        assert (HS : sim srel (tree_handle inf QM RM lines ign (ord n) k e (mkTS QM RM (ts_active _ _ t) m' (ts_result _ _ t))) (handle_event inf lines ign (ord n) k e (mkSt (st_active s) q (st_result s)))).
        { apply handle_same; [|eapply Hk; eauto]. split; auto. }
        destruct (tree_handle _ _ _ _ _ _ _ _ _) as [t'|?| |], (handle_event _ _ _ _ _ _ _) as [s'|?| |]; cbn in HS; try contradiction; cbn [obind] in Er; try discriminate.
        pose proof HS as (_ & _ & _ & _ & Hs). specialize (IH (Datatypes.S n) _ _ HS r). destruct (st_result s') as [|x l]; auto. destruct stop; auto. injection Er as <-. exact Hs.
    Qed.
  End Plain.

  (* ---- the run over edges ---- *)
  Section Indexed.
    Variables (QM : Map V (IKey (S := S)) SiteEvent) (RM : Map V (IKey (S := S)) (list nat)) (okq : store QM -> Prop) (okr : store RM -> Prop).
    Hypothesis HQ : lawful_on fst QM okq.
    Hypothesis HR : lawful_on fst RM okr.
    Notation repq := (rep fst okq).
    Notation repr := (rep fst okr).
    Lemma bt_keys_ok {E} (vs : list V) k i (upd : option E -> E) m m' : keys_ok vs m -> key_ok vs (k, Some i) -> bt_update fst (k, Some i) upd m = Val m' -> keys_ok vs m'.
    Proof.
      intros Hm Hk Eu. pose proof (bt_update_sim vs k i upd m Hm Hk) as B. rewrite Eu in B. destruct (bt_update _ k upd (plain m)); cbn in B; tauto.
    Qed.
    Definition krep (vs : list V) (m : store QM) (l : IQueue (S := S)) : Prop := repq m l /\ keys_ok vs l.
    Lemma iqueue_line_same vs i si s ei e m l : krep vs m l -> nth_error vs si = Some s -> nth_error vs ei = Some e -> P s -> P e ->
      sim (krep vs) (tree_iqueue_line QM i si s ei e m) (iqueue_line i si s ei e l).
    Proof.
      intros [Hr Hk] Es Ee Hs He. unfold tree_iqueue_line, iqueue_line.
      assert (Step : forall a pa b pb m l, repq m l -> keys_ok vs l -> nth_error vs a = Some pa -> nth_error vs b = Some pb -> P pa -> P pb ->
        sim (krep vs) (let* q1 := map_update fst (pa, Some a) (push_add i) m in map_update fst (pb, Some b) (push_drop i) q1)
          (let* q1 := bt_update fst (pa, Some a) (push_add i) l in bt_update fst (pb, Some b) (push_drop i) q1)).
      { clear m l Hr Hk. intros a pa b pb m l Hr Hk Ha Hb Pa Pb. destruct (update_same fst okq HQ m l (pa, Some a) (push_add i) Hr Pa) as (m1 & l1 & -> & E1 & R1). rewrite E1. cbn [obind].
        apply bt_keys_ok with (vs := vs) in E1; [|auto|exists a; auto].
        destruct (update_same fst okq HQ m1 l1 (pb, Some b) (push_drop i) R1 Pb) as (m2 & l2 & -> & E2 & R2). rewrite E2. apply bt_keys_ok with (vs := vs) in E2; [|auto|exists b; auto]. split; auto. }
      destruct (key_lt s e); apply Step; auto.
    Qed.
    Lemma with_edges_same vs : forall input i m l acc, krep vs m l ->
      (forall a b p q, In (a, b) input -> nth_error vs a = Some p -> nth_error vs b = Some q -> line_finite p q = true -> P p /\ P q) ->
      sim (fun a b => krep vs (fst a) (fst b) /\ snd a = snd b) (tree_with_edges QM vs i input m acc) (with_edges_loop vs i input l acc).
    Proof.
      induction input as [|[a b] t IH]; intros i m l acc Hr Hp; cbn [tree_with_edges with_edges_loop]; [cbn; auto|].
      unfold idx. destruct (nth_error vs a) as [p|] eqn:Ea; [|exact I]. cbn [obind]. destruct (nth_error vs b) as [q|] eqn:Eb; [|exact I]. cbn [obind].
      destruct (line_finite p q) eqn:Ef; [|cbn; auto]. destruct (Hp a b p q (or_introl eq_refl) Ea Eb Ef) as [P1 P2].
      eapply sim_bind; [apply iqueue_line_same; eauto|]. intros x y Hxy. apply IH; auto. intros a' b' p' q' Hy. apply Hp. right; auto.
    Qed.
    Variables (edges : list (nat * nat)) (vs0 : list V) (ls : list L).
    Hypothesis Hlines : edge_lines edges vs0 ls.
    Hypothesis HP : forall i j l r it, nth_error ls i = Some l -> nth_error ls j = Some r -> vulps (lend l) (lend r) = false -> intersection_point l r = Some it ->
      (sfin (vx (isingle it)) && sfin (vy (isingle it)))%bool = true -> P (isingle it).
    Notation grown := (grown vs0).
    Definition vrep (a : list V * store QM) (b : list V * IQueue (S := S)) : Prop := fst a = fst b /\ grown (fst b) /\ krep (fst b) (snd a) (snd b).
    Lemma ipair_same sweep i j a b : vrep a b -> sim (fun a' b' => vrep a' b' /\ exists w, fst b' = fst b ++ w) (tree_ipair QM edges sweep i j a) (ipair_event edges sweep i j b).
    Proof.
      destruct a as [va m], b as [vs l]. intros (Ea & Hg & Hr & Hk). cbn [fst snd] in *. subst va. unfold tree_ipair, ipair_event.
      rewrite !(edge_line_idx edges vs ls) by (eapply grown_lines; eauto).
      assert (Stay : sim (fun a' b' => vrep a' b' /\ exists w, fst b' = vs ++ w) (Val (vs, m)) (Val (vs, l))).
      { cbn. split; [split; auto; split; auto; split; auto|]. exists []. rewrite app_nil_r; auto. }
      unfold idx. destruct (nth_error ls i) as [li|] eqn:Ei; [|exact I]. cbn [obind]. destruct (nth_error ls j) as [lj|] eqn:Ej; [|exact I]. cbn [obind].
      destruct (vulps (lend li) (lend lj)) eqn:Ev; [exact Stay|]. destruct (intersection_point li lj) as [it|] eqn:Ep; [|exact Stay]. cbv zeta.
      destruct (sfin (vx (isingle it)) && sfin (vy (isingle it)))%bool eqn:Ef; [|reflexivity]. destruct (ahead sweep (isingle it)); [|exact Stay].
      destruct (update_same fst okq HQ m l (isingle it, Some (length vs)) (merge_intersection (isingle it) [(i, li); (j, lj)]) Hr (HP _ _ _ _ _ Ei Ej Ev Ep Ef)) as (m1 & l1 & E1 & E2 & R1).
      rewrite E1, E2. cbn [obind]. cbn. split; [|exists [isingle it]; auto]. split; auto. split; [destruct Hg as (ws & ->); exists (ws ++ [isingle it]); rewrite app_assoc; auto|].
      split; auto. apply bt_keys_ok with (3 := E2); [apply keys_ok_app; auto|]. exists (length vs). split; auto. cbn. rewrite nth_error_app2, Nat.sub_diag; auto.
    Qed.
    Lemma ifind_same sweep : forall prs a b, vrep a b -> sim (fun a' b' => vrep a' b' /\ exists w, fst b' = fst b ++ w) (tree_ifind QM edges sweep prs a) (ifind_new_events edges sweep prs b).
    Proof.
      induction prs as [|[x y] t IH]; intros a b Hr; cbn [tree_ifind ifind_new_events].
      - cbn. split; auto. exists []. rewrite app_nil_r; auto.
      - eapply sim_bind; [apply ipair_same; eauto|]. intros a' b' [H' (w & Ew)]. cbn beta. specialize (IH a' b' H').
        destruct (tree_ifind QM edges sweep t a'), (ifind_new_events edges sweep t b'); cbn in *; auto. destruct IH as [I1 (w' & I2)]. split; auto. exists (w ++ w'). rewrite I2, Ew, app_assoc. auto.
    Qed.
    Lemma ireports_same vs key : P (fst key) -> key_ok vs key -> forall lists m l, repr m l -> keys_ok vs l ->
      sim (fun a b => repr a b /\ keys_ok vs b) (tree_ireport RM vs key lists m) (ireport vs key lists l).
    Proof.
      intros Hp Hkey. pose proof Hkey as (i & Ei & Hi). destruct key as [p o]. cbn [fst snd] in *. subst o.
      induction lists as [|is t IH]; intros m l Hr Hk; cbn [tree_ireport ireport snd]; [cbn; auto|]. unfold idx. rewrite Hi. cbn [obind].
      destruct (report_same fst okr HR m l (p, Some i) is Hr Hp) as (m1 & l1 & E1 & E2 & R1). rewrite E1, E2. cbn [obind]. apply IH; auto. apply bt_keys_ok with (3 := E2); auto.
    Qed.
    Definition isrel (t : TIState QM RM) (s : IState (S := S)) : Prop := ti_active _ _ t = is_active s /\ ti_vertices _ _ t = is_vertices s /\ grown (is_vertices s) /\
      krep (is_vertices s) (ti_queue _ _ t) (is_queue s) /\ repr (ti_result _ _ t) (is_result s) /\ keys_ok (is_vertices s) (is_result s).
    Lemma ihandle_same ign order key e t s : isrel t s -> P (fst key) -> key_ok (is_vertices s) key ->
      sim isrel (tree_ihandle inf QM RM edges ign order key e t) (ihandle_event inf edges ign order key e s).
    Proof.
      intros (Ea & Ev & Hg & Rq & Rr & Kr) Hk Kk. unfold tree_ihandle, ihandle_event. rewrite Ea, Ev. cbv zeta.
      eapply sim_bind; [apply ireports_same; eauto|]. intros r r' [Hr Hr']. cbn beta.
      eapply sim_bind; [apply sim_eq; reflexivity|]. intros nb ? <-. eapply sim_bind; [apply sim_eq; reflexivity|]. intros cs ? <-.
      eapply sim_bind; [apply (ifind_same _ _ (is_vertices s, ti_queue _ _ t) (is_vertices s, is_queue s)); split; auto|].
      intros [v1 q1] [v2 q2] [(Ev2 & Hg2 & Rq2) (w & Ew)]. cbn [fst snd] in *. subst v1. cbn [sim].
      split; [reflexivity|]. split; [reflexivity|]. split; [exact Hg2|]. split; [exact Rq2|]. split; [exact Hr|]. cbn. rewrite Ew. apply keys_ok_app; auto.
    Qed.
    Lemma iloop_same ign stop ord : forall fuel n t s, isrel t s -> tree_iloop inf QM RM edges ign stop ord fuel n t = ievent_loop inf edges ign stop ord fuel n s.
    Proof.
      induction fuel as [|fuel IH]; intros n t s H; pose proof H as (Ea & Ev & Hg & [Rq Kq] & Rr & Kr); cbn [tree_iloop ievent_loop]; pose proof (pop_same fst okq HQ _ _ Rq) as Hp.
      - destruct (is_queue s) as [|[k e] q] eqn:Eq'.
        + rewrite Hp. cbn [obind]. rewrite Ev. f_equal. f_equal. apply Rr.
        + destruct Hp as (m' & -> & _). reflexivity.
      - assert (Hk : forall k e q, is_queue s = (k, e) :: q -> P (fst k)).
        { intros k e q E0. destruct Rq as (_ & _ & _ & F). rewrite E0 in F. inversion F; auto. }
        destruct (is_queue s) as [|[k e] q] eqn:Eq'.
        + rewrite Hp. cbn [obind]. rewrite Ev. f_equal. f_equal. apply Rr.
        + destruct Hp as (m' & -> & Rm). cbn [obind]. inversion Kq as [|? ? Kk Kq']; subst. cbn [fst] in Kk.
          assert (HS : sim isrel (tree_ihandle inf QM RM edges ign (ord n) k e (mkTI QM RM (ti_active _ _ t) (ti_vertices _ _ t) m' (ti_result _ _ t))) (ihandle_event inf edges ign (ord n) k e (mkISt (is_active s) (is_vertices s) q (is_result s)))).
          { apply ihandle_same; [|eapply Hk; eauto|exact Kk]. split; [exact Ea|]. split; [exact Ev|]. split; [exact Hg|]. split; [split; [exact Rm|exact Kq']|]. split; [exact Rr|exact Kr]. }
          destruct (tree_ihandle _ _ _ _ _ _ _ _ _) as [t'|?| |], (ihandle_event _ _ _ _ _ _ _) as [s'|?| |]; cbn in HS; try contradiction; cbn [obind]; try congruence.
          pose proof HS as (_ & Ev2 & _ & _ & (_ & El & _) & _). rewrite Ev2, (IH _ _ _ HS). match goal with |- match ?m with _ => _ end = _ => replace m with (is_result s') by (symmetry; exact El) end. destruct (is_result s'); auto.
    Qed.
    Lemma iloop_sorted ign stop ord : forall fuel n t s, isrel t s -> forall vs r, ievent_loop inf edges ign stop ord fuel n s = Val (vs, r) -> sorted (keys fst r) /\ keys_ok vs r.
    Proof.
      induction fuel as [|fuel IH]; intros n t s H vs r Er; pose proof H as (Ea & Ev & Hg & [Rq Kq] & Rr & Kr); cbn [ievent_loop] in Er; pose proof (pop_same fst okq HQ _ _ Rq) as Hp.
      - destruct (is_queue s) as [|[k e] q] eqn:Eq'; [|discriminate]. injection Er as <- <-. split; [apply Rr|exact Kr].
      - assert (Hk : forall k e q, is_queue s = (k, e) :: q -> P (fst k)).
        { intros k e q E0. destruct Rq as (_ & _ & _ & F). rewrite E0 in F. inversion F; auto. }
        destruct (is_queue s) as [|[k e] q] eqn:Eq'; [injection Er as <- <-; split; [apply Rr|exact Kr]|].
        destruct Hp as (m' & _ & Rm). inversion Kq as [|? ? Kk Kq']; subst. cbn [fst] in Kk.
        assert (HS : sim isrel (tree_ihandle inf QM RM edges ign (ord n) k e (mkTI QM RM (ti_active _ _ t) (ti_vertices _ _ t) m' (ti_result _ _ t))) (ihandle_event inf edges ign (ord n) k e (mkISt (is_active s) (is_vertices s) q (is_result s)))).
        { apply ihandle_same; [|eapply Hk; eauto|exact Kk]. split; [exact Ea|]. split; [exact Ev|]. split; [exact Hg|]. split; [split; [exact Rm|exact Kq']|]. split; [exact Rr|exact Kr]. }
        destruct (tree_ihandle _ _ _ _ _ _ _ _ _) as [t'|?| |], (ihandle_event _ _ _ _ _ _ _) as [s'|?| |]; cbn in HS; try contradiction; cbn [obind] in Er; try discriminate.
        pose proof HS as (_ & _ & _ & _ & (_ & _ & Hs) & Ks). specialize (IH (Datatypes.S n) _ _ HS vs r). destruct (is_result s') as [|x l]; auto. destruct stop; auto. injection Er as <- <-. auto.
    Qed.
  End Indexed.
End Eq.

(* ---- whole calls ---- *)
Section Calls.
  Context {S : Scalar} (inf : car S).
  Notation V := (V2 S).
  Notation idk := (fun v : V => v).
  Lemma rep_empty P {K E} (pos : K -> V) (M : Map V K E) ok : lawful_on pos M ok -> rep P pos ok (m_empty M) [].
  Proof. intros H. split; [apply (ok_empty _ _ _ H)|]. split; [apply (law_empty _ _ _ H)|]. split; constructor. Qed.
  Lemma arrange_ends (l : Line2 S) : (lstart (arrange l) = lstart l /\ lend (arrange l) = lend l) \/ (lstart (arrange l) = lend l /\ lend (arrange l) = lstart l).
  Proof. unfold arrange. destruct (key_lt _ _); auto. Qed.
  Lemma tree_both (QM : Map V V SiteEvent) (RM : Map V V (list nat)) ord fuel stop ign input : lawful_maps QM RM ->
    consistent (key_point (map arrange input)) -> tree_intersections inf QM RM ord fuel stop ign input = intersections inf ord fuel stop ign input /\
      forall r, intersections inf ord fuel stop ign input = Val r -> sorted (key_point (map arrange input)) (keys idk r).
  Proof.
    intros [[okq HQ] [okr HR]] HC. set (P := key_point (map arrange input)) in *. unfold tree_intersections, intersections, with_lines, compute.
    cbn [d_events d_lines d_stop d_ign default_data with_ignore_end_point_intersections with_stop_at_first_intersection].
    assert (Hin : forall x, In x input -> line_finite (lstart x) (lend x) = true -> P (lstart (arrange x)) /\ P (lend (arrange x))).
    { intros x Hx Hf. unfold line_finite in Hf. apply andb_true_iff in Hf as [Hf F4]. apply andb_true_iff in Hf as [Hf F3]. apply andb_true_iff in Hf as [F1 F2].
      assert (Hx' : In (arrange x) (map arrange input)) by (apply in_map; auto).
      split; (split; [|left; exists (arrange x); auto]); destruct (arrange_ends x) as [[E1 E2]|[E1 E2]]; rewrite ?E1, ?E2, ?F1, ?F2, ?F3, ?F4; auto. }
    pose proof (with_lines_same P HC QM okq HQ input 0 (m_empty QM) [] [] (rep_empty P _ _ _ HQ) Hin) as W.
    assert (Lines : forall i q ls, with_lines_loop (S := S) 0 input [] [] = Val (q, ls) -> nth_error ls i = nth_error (map arrange input) i).
    { intros i q ls Ew. enough (G : forall inp n q0 acc q ls, with_lines_loop (S := S) n inp q0 acc = Val (q, ls) -> ls = acc ++ map arrange inp) by (rewrite (G _ _ _ _ _ _ Ew); auto).
      clear. induction inp as [|x t IH]; intros n q0 acc q ls; cbn [with_lines_loop map]; [intros [= <- <-]; rewrite app_nil_r; auto|].
      destruct (line_finite _ _); [|discriminate]. cbv zeta. destruct (queue_line _ _ _ _); cbn [obind]; try discriminate. intros Ew. rewrite (IH _ _ _ _ _ Ew), <- app_assoc. reflexivity. }
    destruct (tree_with_lines QM 0 input (m_empty QM) []) as [[m la]|?| |], (with_lines_loop 0 input [] []) as [[q lb]|?| |]; cbn [sim fst snd] in W; try contradiction; cbn [obind]; try (split; [congruence|discriminate]).
    destruct W as [Rq ->]. cbn [d_lines d_ign d_stop d_events].
    assert (HP : forall i j l r it, nth_error lb i = Some l -> nth_error lb j = Some r -> vulps (lend l) (lend r) = false -> intersection_point l r = Some it ->
      (sfin (vx (isingle it)) && sfin (vy (isingle it)))%bool = true -> P (isingle it)).
    { intros i j l r it Hi Hj Ev Ei Ef. rewrite (Lines i _ _ eq_refl) in Hi. rewrite (Lines j _ _ eq_refl) in Hj. split; auto. right. exists l, r, it. split; [eapply nth_error_In; eauto|]. split; [eapply nth_error_In; eauto|auto]. }
    assert (HS : srel P QM RM okq okr (mkTS QM RM [] m (m_empty RM)) (mkSt [] q [])) by (split; auto; split; auto; apply rep_empty; auto).
    split; [apply (loop_same inf P HC QM RM okq okr HQ HR lb); auto|apply (loop_sorted inf P HC QM RM okq okr HQ HR lb HP) with (1 := HS)].
  Qed.
  Theorem tree_same (QM : Map V V SiteEvent) (RM : Map V V (list nat)) ord fuel stop ign input : lawful_maps QM RM ->
    consistent (key_point (map arrange input)) -> tree_intersections inf QM RM ord fuel stop ign input = intersections inf ord fuel stop ign input.
  Proof. intros HM HC. apply tree_both; auto. Qed.
  Theorem tree_sorted (QM : Map V V SiteEvent) (RM : Map V V (list nat)) ord fuel stop ign input r : lawful_maps QM RM ->
    consistent (key_point (map arrange input)) -> tree_intersections inf QM RM ord fuel stop ign input = Val r -> StronglySorted (fun a b => key_cmp (fst a) (fst b) = Some Lt) r.
  Proof.
    intros HM HC E. destruct (tree_both QM RM ord fuel stop ign input HM HC) as [E1 E2]. rewrite E1 in E. destruct (E2 r E) as [H _]. clear - H.
    induction r as [|a r IH]; [constructor|]. cbn [keys map] in H. inversion_clear H as [|? ? H1 H2]. constructor; auto. rewrite Forall_forall in *. intros b Hb. apply H2. apply (in_map (fun ke => fst ke)); auto.
  Qed.
  (* of two reports the position of the first comes first *)
  Definition in_order (vs : list V) (a b : nat * list nat) : Prop := exists p q, nth_error vs (fst a) = Some p /\ nth_error vs (fst b) = Some q /\ key_cmp p q = Some Lt.
  Lemma tree_indexed_both (QM : Map V (IKey (S := S)) SiteEvent) (RM : Map V (IKey (S := S)) (list nat)) ord fuel stop ign vertices edges ls : lawful_indexed_maps QM RM ->
    lines_of vertices edges ls -> consistent (key_point ls) ->
    tree_indexed_intersections inf QM RM ord fuel stop ign vertices edges = indexed_intersections inf ord fuel stop ign vertices edges /\
    forall vs out, indexed_intersections inf ord fuel stop ign vertices edges = Val (vs, out) -> StronglySorted (in_order vs) out.
  Proof.
    intros [[okq HQ] [okr HR]] Hls HC. set (P := key_point ls) in *. unfold tree_indexed_intersections, indexed_intersections, with_edges, icompute.
    cbn [tester_new tester_stop tester_ign t_stop t_ign t_events t_lines t_vertices].
    assert (Hin : forall a b p q, In (a, b) edges -> nth_error vertices a = Some p -> nth_error vertices b = Some q -> line_finite p q = true -> P p /\ P q).
    { intros a b p q Hx Ea Eb Hf. unfold line_finite in Hf. apply andb_true_iff in Hf as [Hf F4]. apply andb_true_iff in Hf as [Hf F3]. apply andb_true_iff in Hf as [F1 F2].
      assert (Hl : exists l, In l ls /\ lstart l = p /\ lend l = q).
      { clear - Hls Hx Ea Eb. induction Hls as [|ab l es ls [H1 H2] H IH]; [destruct Hx|]. destruct Hx as [->|Hx].
        - exists l. cbn [fst snd] in *. split; [left; auto|]. split; congruence.
        - destruct (IH Hx) as (l' & ? & ?). exists l'. split; [right; auto|auto]. }
      destruct Hl as (l & Hl & <- & <-). split; (split; [|left; exists l; auto]); rewrite ?F1, ?F2, ?F3, ?F4; auto. }
    pose proof (with_edges_same P HC QM okq HQ vertices edges 0 (m_empty QM) [] [] ltac:(split; [apply rep_empty; auto|constructor]) Hin) as W.
    assert (Lines : forall q es, with_edges_loop (S := S) vertices 0 edges [] [] = Val (q, es) -> es = edges).
    { enough (G : forall inp n q0 acc q ls, with_edges_loop (S := S) vertices n inp q0 acc = Val (q, ls) -> ls = acc ++ inp) by (intros q es Ew; exact (G _ _ _ _ _ _ Ew)).
      clear. induction inp as [|[a b] t IH]; intros n q0 acc q ls; cbn [with_edges_loop]; [intros [= <- <-]; rewrite app_nil_r; auto|].
      unfold idx. destruct (nth_error vertices a); [|discriminate]. cbn [obind]. destruct (nth_error vertices b); [|discriminate]. cbn [obind].
      destruct (line_finite _ _); [|discriminate]. destruct (iqueue_line _ _ _ _ _ _); cbn [obind]; try discriminate. intros Ew. rewrite (IH _ _ _ _ _ Ew), <- app_assoc. reflexivity. }
    destruct (tree_with_edges QM vertices 0 edges (m_empty QM) []) as [[m la]|?| |], (with_edges_loop vertices 0 edges [] []) as [[q lb]|?| |]; cbn [sim fst snd] in W; try contradiction; cbn [obind]; try (split; [congruence|discriminate]).
    destruct W as [[Rq Kq] ->]. rewrite (Lines _ _ eq_refl) in *. cbn [t_lines t_ign t_stop t_events t_vertices].
    assert (El : edge_lines edges vertices ls) by (apply lines_of_edge_lines; auto).
    assert (HP : forall i j l r it, nth_error ls i = Some l -> nth_error ls j = Some r -> vulps (lend l) (lend r) = false -> intersection_point l r = Some it ->
      (sfin (vx (isingle it)) && sfin (vy (isingle it)))%bool = true -> P (isingle it)).
    { intros i j l r it Hi Hj Ev Ei Ef. split; auto. right. exists l, r, it. split; [eapply nth_error_In; eauto|]. split; [eapply nth_error_In; eauto|auto]. }
    assert (HS : isrel P QM RM okq okr vertices (mkTI QM RM [] vertices m (m_empty RM)) (mkISt [] vertices q [])).
    { split; auto. split; auto. split; [exists []; rewrite app_nil_r; auto|]. split; [split; auto|]. split; [apply rep_empty; auto|constructor]. }
    rewrite (iloop_same inf P HC QM RM okq okr HQ HR edges vertices ls El HP ign stop ord fuel 0 _ _ HS). split; [reflexivity|].
    intros vs out Eo. destruct (ievent_loop inf edges ign stop ord fuel 0 (mkISt [] vertices q [])) as [[vs' r]|?| |] eqn:Ei; cbn [obind] in Eo; try discriminate.
    destruct (iloop_sorted inf P HC QM RM okq okr HQ HR edges vertices ls El HP ign stop ord fuel 0 _ _ HS _ _ Ei) as [[Hs _] Hk].
    destruct (mapM_unwrap vs' r Hk) as (out' & Em & Fo). rewrite Em in Eo. cbn [obind] in Eo. injection Eo as <- <-. clear - Hs Fo.
    remember (plain r) as pr eqn:Ep. revert r Ep Hs. induction Fo as [|x [k l] out pr [E1 E2] F IH]; intros r Ep Hs; [constructor|].
    destruct r as [|[[k0 o0] l0] r]; [discriminate|]. cbn [plain map fst snd] in Ep. injection Ep as -> -> ->. cbn [keys map fst] in Hs. inversion_clear Hs as [|? ? H1 H2].
    constructor; [apply (IH r eq_refl H1)|]. rewrite Forall_forall in *. intros y Hy.
    assert (Hyk : exists k l, In (k, l) (plain r) /\ nth_error vs' (fst y) = Some k).
    { clear - F Hy. change (Forall2 (fun (x : nat * list nat) (k : V * list nat) => snd x = snd k /\ nth_error vs' (fst x) = Some (fst k)) out (plain r)) in F. induction F as [|a [k l] m1 m2 [E1 E2] F IH]; [destruct Hy|]. destruct Hy as [->|Hy]; [exists k, l; split; [apply in_eq|exact E2]|].
      destruct (IH Hy) as (k' & l' & H1 & H2). exists k', l'. split; [apply in_cons|]; auto. }
    destruct Hyk as (k' & l' & Hin & En). exists k0, k'. split; [exact E2|]. split; [exact En|]. apply H2. unfold plain in Hin. apply in_map_iff in Hin as ([[k1 o1] l1] & Ex & Hin). cbn [fst snd] in Ex. injection Ex as <- <-.
    exact (in_map (fun ke : IKey (S := S) * list nat => fst (fst ke)) r (k1, o1, l1) Hin).
  Qed.
  Theorem tree_indexed_same (QM : Map V (IKey (S := S)) SiteEvent) (RM : Map V (IKey (S := S)) (list nat)) ord fuel stop ign vertices edges ls : lawful_indexed_maps QM RM ->
    lines_of vertices edges ls -> consistent (key_point ls) ->
    tree_indexed_intersections inf QM RM ord fuel stop ign vertices edges = indexed_intersections inf ord fuel stop ign vertices edges.
  Proof. intros HM Hl HC. apply (tree_indexed_both QM RM ord fuel stop ign vertices edges ls HM Hl HC). Qed.
  Theorem tree_indexed_sorted (QM : Map V (IKey (S := S)) SiteEvent) (RM : Map V (IKey (S := S)) (list nat)) ord fuel stop ign vertices edges ls vs out : lawful_indexed_maps QM RM ->
    lines_of vertices edges ls -> consistent (key_point ls) ->
    tree_indexed_intersections inf QM RM ord fuel stop ign vertices edges = Val (vs, out) -> StronglySorted (in_order vs) out.
  Proof. intros HM Hl HC E. destruct (tree_indexed_both QM RM ord fuel stop ign vertices edges ls HM Hl HC) as [E1 E2]. rewrite E1 in E. auto. Qed.
  Lemma lines_of_range (vertices : list V) edges ls : lines_of vertices edges ls -> in_range_edges vertices edges.
  Proof.
    intros H a b Hx. induction H as [|ab l es ls [H1 H2] H IH]; [destruct Hx|]. destruct Hx as [->|Hx]; auto.
    cbn [fst snd] in *. split; apply nth_error_Some; congruence.
  Qed.
  Theorem tree_self_same (QM : Map V V SiteEvent) (RM : Map V V (list nat)) ord fuel (l : LS S) : lawful_maps QM RM ->
    consistent (key_point (map arrange (window_iter l))) -> tree_self_intersecting inf QM RM ord fuel l = is_self_intersecting inf ord fuel l.
  Proof.
    intros HM HC. unfold tree_self_intersecting, is_self_intersecting. destruct (Nat.leb _ 2); auto. destruct (Nat.ltb _ 10); auto.
    rewrite tree_same by auto. unfold intersections, with_lines, compute.
    cbn [d_events d_lines d_stop d_ign default_data with_ignore_end_point_intersections with_stop_at_first_intersection].
    destruct (with_lines_loop 0 (window_iter l) [] []) as [[q ls]|?| |]; reflexivity.
  Qed.
End Calls.
