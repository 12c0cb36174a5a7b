(* What the sweep line does over any scalar and any lawful map, with no assumption on the key comparison but that finite keys
   have a result and that a key equals itself: what it returns, if it returns. *)
From Coq Require Import Permutation.
From Verif Require Import Prelude Scalar Geo2 Sweep SweepMap SweepIdx SweepRun SweepFin SweepAny SweepFlt SweepTree.

Section Ops.
  Context {S : Scalar} {K E : Type} (pos : K -> V2 S) {M : Map (V2 S) K E} (ok : store M -> Prop) (HM : lawful_on pos M ok).
  Context (okey : V2 S -> Prop) (Kc : forall a b, okey a -> okey b -> key_cmp a b <> None).
  Notation V := (V2 S).
  Definition view (l : list (K * E)) : list (V * E) := map (fun ke => (pos (fst ke), snd ke)) l.
  Definition keyed (l : list (K * E)) : Prop := Forall (fun ke => okey (pos (fst ke))) l.
  Lemma search_cases m k : ok m -> keyed (m_list m) -> okey k ->
    (exists i k' e, m_search m k = Found i /\ nth_error (m_list m) i = Some (k', e) /\ key_cmp k (pos k') = Some Eq) \/ (exists i, m_search m k = Gap i /\ i <= length (m_list m)).
  Proof.
    intros Ho Hk H. pose proof (law_search _ _ _ HM m k Ho) as Hv. destruct (m_search m k) as [i|i|]; cbn [valid_spot] in Hv.
    - destruct Hv as (k' & H1 & H2). rewrite nth_error_map in H1. destruct (nth_error (m_list m) i) as [[k0 e0]|] eqn:En; [|discriminate]. injection H1 as <-. left. exists i, k0, e0. auto.
    - right. exists i. destruct Hv as (H1 & _). rewrite map_length in H1. auto.
    - exfalso. destruct Hv as (k' & H1 & H2). apply in_map_iff in H1 as (ke & <- & Hin). unfold keyed in Hk. rewrite Forall_forall in Hk. apply (Kc k (pos (fst ke))); auto.
  Qed.
  (* a new entry k, or a new value in an entry that compares equal *)
  Definition updated (k : K) (new : E) (upd : E -> E) (l l' : list (K * E)) : Prop :=
    (exists a b, l = a ++ b /\ l' = a ++ (k, new) :: b) \/
    (exists a k' e b, l = a ++ (k', e) :: b /\ key_cmp (pos k) (pos k') = Some Eq /\ l' = a ++ (k', upd e) :: b).
  Lemma set_split (l : list (K * E)) i k e e' : nth_error l i = Some (k, e) -> exists a b, l = a ++ (k, e) :: b /\ firstn i l ++ (k, e') :: skipn (Datatypes.S i) l = a ++ (k, e') :: b.
  Proof.
    intros En. apply nth_error_split in En as (a & b & -> & <-). exists a, b. split; auto.
    rewrite firstn_app, Nat.sub_diag, firstn_all, skipn_app. replace (Datatypes.S (length a) - length a) with 1 by lia. rewrite skipn_all2 by lia. cbn [firstn skipn app]. rewrite app_nil_r. reflexivity.
  Qed.
  Lemma remove_split (l : list (K * E)) i k e : nth_error l i = Some (k, e) -> exists a b, l = a ++ (k, e) :: b /\ firstn i l ++ skipn (Datatypes.S i) l = a ++ b.
  Proof.
    intros En. apply nth_error_split in En as (a & b & -> & <-). exists a, b. split; auto.
    rewrite firstn_app, Nat.sub_diag, firstn_all, skipn_app. replace (Datatypes.S (length a) - length a) with 1 by lia. rewrite skipn_all2 by lia. cbn [firstn skipn app]. rewrite app_nil_r. reflexivity.
  Qed.
  Lemma update_any m k upd : ok m -> keyed (m_list m) -> okey (pos k) ->
    exists m', map_update pos k upd m = Val m' /\ ok m' /\ updated k (upd None) (fun e => upd (Some e)) (m_list m) (m_list m').
  Proof.
    intros Ho Hk H. unfold map_update. destruct (search_cases m (pos k) Ho Hk H) as [(i & k' & e & -> & En & Ec)|(i & -> & Hi)].
    - unfold idx. rewrite En. cbn [obind snd]. assert (Hi : i < length (m_list m)) by (apply nth_error_Some; congruence). eexists. split; [reflexivity|]. split; [apply (ok_set _ _ _ HM); auto|]. right.
      rewrite (law_set _ _ _ HM m i k' e _ Ho En). destruct (set_split (m_list m) i k' e (upd (Some e)) En) as (a & b & E1 & E2). exists a, k', e, b. auto.
    - eexists. split; [reflexivity|]. split; [apply (ok_insert _ _ _ HM); auto|]. left. rewrite (law_insert _ _ _ HM) by auto. exists (firstn i (m_list m)), (skipn i (m_list m)). rewrite firstn_skipn. auto.
  Qed.
  Lemma pop_any m : ok m -> keyed (m_list m) ->
    match map_pop pos m with
    | Val None => m_list m = []
    | Val (Some ((k, e), m')) => ok m' /\ (exists e0, In (k, e0) (m_list m)) /\ exists a k' b, m_list m = a ++ (k', e) :: b /\ key_cmp (pos k) (pos k') = Some Eq /\ m_list m' = a ++ b
    | Fail x => x = InternalError
    | _ => False
    end.
  Proof.
    intros Ho Hk. unfold map_pop. destruct (m_list m) as [|[k e0] t] eqn:El; auto.
    assert (H : okey (pos k)) by (inversion_clear Hk; auto). rewrite <- El in Hk.
    destruct (search_cases m (pos k) Ho Hk H) as [(i & k' & e & -> & En & Ec)|(i & -> & Hi)]; auto.
    rewrite <- El. unfold idx. rewrite En. cbn [obind snd]. assert (Hi : i < length (m_list m)) by (apply nth_error_Some; congruence). split; [apply (ok_remove _ _ _ HM); auto|].
    split; [exists e0; rewrite El; cbn; auto|]. rewrite (law_remove _ _ _ HM) by auto. destruct (remove_split _ i k' e En) as (a & b & E1 & E2). exists a, k', b. auto.
  Qed.
  Lemma updated_keyed k new upd l l' : okey (pos k) -> keyed l -> updated k new upd l l' -> keyed l'.
  Proof.
    intros Hk Hl [(a & b & -> & ->)|(a & k' & e & b & -> & _ & ->)]; unfold keyed in *; rewrite Forall_app in *; destruct Hl as [H1 H2]; split; auto.
    inversion_clear H2. constructor; auto.
  Qed.
End Ops.
Section Report.
  Context {S : Scalar} {K : Type} (pos : K -> V2 S) {M : Map (V2 S) K (list nat)} (ok : store M -> Prop) (HM : lawful_on pos M ok).
  Context (okey : V2 S -> Prop) (Kc : forall a b, okey a -> okey b -> key_cmp a b <> None).
  Notation keyed := (keyed pos okey).
  (* all lists of one event go to the same entry; a fresh entry may be left empty *)
  Definition reported (k : K) (lists : list (list nat)) (l l' : list (K * list nat)) : Prop :=
    exists l0 a k' is is' b, (l0 = l \/ exists a b, l = a ++ b /\ l0 = a ++ (k, []) :: b) /\
      l0 = a ++ (k', is) :: b /\ key_cmp (pos k) (pos k') = Some Eq /\ Permutation is' (is ++ concat lists) /\ l' = a ++ (k', is') :: b.
  Fixpoint reports (k : K) (lists : list (list nat)) (m : store M) : outcome (store M) :=
    match lists with [] => Val m | l :: t => let* m' := map_report pos k l m in reports k t m' end.
  Lemma reports_found k : okey (pos k) -> forall lists m i k' is, ok m -> m_search m (pos k) = Found i -> nth_error (m_list m) i = Some (k', is) ->
    exists m' is', reports k lists m = Val m' /\ ok m' /\ Permutation is' (is ++ concat lists) /\ m_list m' = firstn i (m_list m) ++ (k', is') :: skipn (Datatypes.S i) (m_list m).
  Proof.
    intros H. induction lists as [|l t IH]; intros m i k' is Ho Es En; cbn [reports concat].
    - exists m, is. rewrite app_nil_r. split; auto. split; auto. split; auto. destruct (set_split _ i k' is is En) as (a & b & E1 & ->). exact E1.
    - unfold map_report at 1. rewrite Es. cbn [obind]. rewrite Es. unfold idx. rewrite En. cbn [obind snd].
      assert (Hi : i < length (m_list m)) by (apply nth_error_Some; congruence). set (m1 := m_set m i (push_report l (Some is))).
      assert (Ho1 : ok m1) by (apply (ok_set _ _ _ HM); auto). assert (E1 : m_list m1 = firstn i (m_list m) ++ (k', push_report l (Some is)) :: skipn (Datatypes.S i) (m_list m)) by (apply (law_set _ _ _ HM) with is; auto).
      assert (Es1 : m_search m1 (pos k) = Found i) by (unfold m1; rewrite (law_set_search _ _ _ HM); auto).
      assert (En1 : nth_error (m_list m1) i = Some (k', push_report l (Some is))) by (rewrite E1, nth_error_app2, firstn_length, Nat.min_l, Nat.sub_diag by (rewrite ?firstn_length; lia); reflexivity).
      destruct (IH m1 i k' _ Ho1 Es1 En1) as (m' & is' & E' & Ho' & P' & L'). exists m', is'. split; auto. split; auto. split.
      + rewrite P'. unfold push_report. rewrite nsort_perm, <- app_assoc. reflexivity.
      + rewrite L', E1. rewrite firstn_app, firstn_firstn, firstn_length, Nat.min_l, Nat.min_l, Nat.sub_diag by lia. cbn [firstn]. rewrite app_nil_r. f_equal. f_equal.
        rewrite skipn_app, firstn_length, Nat.min_l by lia. rewrite skipn_all2 by (rewrite firstn_length; lia). replace (Datatypes.S i - i) with 1 by lia. reflexivity.
  Qed.
  Lemma reports_any k l t m : ok m -> keyed (m_list m) -> okey (pos k) ->
    match reports k (l :: t) m with Val m' => ok m' /\ reported k (l :: t) (m_list m) (m_list m') | Panic => True | _ => False end.
  Proof.
    intros Ho Hk H. destruct (search_cases pos ok HM okey Kc m (pos k) Ho Hk H) as [(i & k' & is & Es & En & Ec)|(i & Es & Hi)].
    - destruct (reports_found k H (l :: t) m i k' is Ho Es En) as (m' & is' & -> & Ho' & P' & L'). split; auto.
      destruct (set_split _ i k' is is' En) as (a & b & E1 & E2). exists (m_list m), a, k', is, is', b. rewrite L'. auto 7.
    - cbn [reports]. unfold map_report. rewrite Es. cbn [obind]. set (m1 := m_insert m i k []).
      assert (Ho1 : ok m1) by (apply (ok_insert _ _ _ HM); auto). assert (E1 : m_list m1 = firstn i (m_list m) ++ (k, []) :: skipn i (m_list m)) by (apply (law_insert _ _ _ HM); auto).
      assert (Hk1 : keyed (m_list m1)).
      { apply (updated_keyed pos okey k [] (fun e => e) (m_list m)); auto. left. exists (firstn i (m_list m)), (skipn i (m_list m)). rewrite firstn_skipn. auto. }
      destruct (search_cases pos ok HM okey Kc m1 (pos k) Ho1 Hk1 H) as [(j & k' & is & Es1 & En & Ec)|(j & Es1 & Hj)]; [|rewrite Es1; exact I].
      destruct (reports_found k H (l :: t) m1 j k' is Ho1 Es1 En) as (m' & is' & E' & Ho' & P' & L').
      assert (E2 : (let* m'0 := match m_search m1 (pos k) with Found i0 => let* ke := idx (m_list m1) i0 in Val (m_set m1 i0 (push_report l (Some (snd ke)))) | _ => Panic end in reports k t m'0) = Val m').
      { rewrite <- E'. cbn [reports]. unfold map_report. rewrite Es1. cbn [obind]. rewrite Es1. reflexivity. }
      match type of E2 with ?x = _ => match goal with |- match ?y with _ => _ end => change y with x; rewrite E2 end end. split; auto. destruct (set_split _ j k' is is' En) as (a & b & E3 & E4). exists (m_list m1), a, k', is, is', b.
      split; [right; exists (firstn i (m_list m)), (skipn i (m_list m)); rewrite firstn_skipn; auto|]. rewrite L'. auto.
  Qed.
End Report.

Section Any.
  Context {S : Scalar} (inf : car S) (lines : list (Line2 S)).
  Notation V := (V2 S).
  Notation L := (Line2 S).
  Context (G : Prop) (okey : V -> Prop) (near0 near1 nearh near2 endat : V -> L -> Prop).
  Hypothesis Kc : forall a b, okey a -> okey b -> key_cmp a b <> None.
  Hypothesis Kend : G -> forall l, In l lines -> vulps (lend l) (lend l) = true.
  Hypothesis Hint : forall l r it, In l lines -> In r lines -> intersection_point l r = Some it -> sfin (vx (isingle it)) = true -> sfin (vy (isingle it)) = true ->
    okey (isingle it) /\ near0 (isingle it) l /\ near0 (isingle it) r.
  Hypothesis Sub1 : forall p l, near0 p l -> near1 p l.
  Hypothesis Hop1 : forall p k l, okey p -> okey k -> key_cmp p k = Some Eq -> near0 p l -> near1 k l.
  Hypothesis Hoph : forall p k l, okey p -> okey k -> key_cmp p k = Some Eq -> near1 k l -> nearh p l.
  Hypothesis Hop2 : forall p k l, okey p -> okey k -> key_cmp p k = Some Eq -> nearh p l -> near2 k l.
  Hypothesis Hendat : G -> forall p k l, okey p -> okey k -> key_cmp p k = Some Eq -> endat k l -> (vulps p (lstart l) || vulps p (lend l))%bool = true.
  Notation ev_fine := (ev_fine lines G okey near1 endat).
  Notation q_fine := (q_fine lines G okey near1 endat).
  Notation has := (has lines).
  Notation inr := (inr lines).
  Notation pair_in := (pair_in lines).
  Notation bad_point := (bad_point lines).
  Definition r_some (r : list (V * list nat)) : Prop := Forall (fun x => okey (fst x) /\ (G -> snd x = [] \/ two_of (snd x)) /\ Forall (has near2 (fst x)) (snd x)) r.

  Lemma pair_new i j li lj it : nth_error lines i = Some li -> nth_error lines j = Some lj -> vulps (lend li) (lend lj) = false -> intersection_point li lj = Some it ->
    (sfin (vx (isingle it)) && sfin (vy (isingle it)))%bool = true ->
    okey (isingle it) /\ ev_fine (isingle it) (merge_intersection (isingle it) [(i, li); (j, lj)] None) /\
    forall k e, ev_fine k e -> key_cmp (isingle it) k = Some Eq -> ev_fine k (merge_intersection (isingle it) [(i, li); (j, lj)] (Some e)).
  Proof.
    intros Hi Hj Ev Ei Ef. apply andb_true_iff in Ef as [F1 F2]. destruct (Hint li lj it (nth_error_In _ _ Hi) (nth_error_In _ _ Hj) Ei F1 F2) as (Ok & N1 & N2).
    assert (Nij : G -> i <> j) by (intros g ->; rewrite Hi in Hj; injection Hj as <-; rewrite (Kend g li (nth_error_In _ _ Hi)) in Ev; discriminate).
    split; auto. split; [apply (merge_fine lines G okey near0 near1 endat Sub1 Hop1 Hendat); auto|].
    intros k e Fe Ec. apply (merge_fine lines G okey near0 near1 endat Sub1 Hop1 Hendat); auto. apply Fe.
  Qed.
  Section Keys.
    Context {K : Type} (pos : K -> V).
    Lemma q_keyed {E : Type} (R : V -> E -> Prop) (l : list (K * E)) : (forall k e, R k e -> okey k) -> Forall (fun x => R (fst x) (snd x)) (view pos l) -> keyed pos okey l.
    Proof. intros H F. unfold view in F. rewrite Forall_map in F. eapply Forall_impl; [|exact F]. intros ke. cbn. apply H. Qed.
    Lemma q_fine_keyed (l : list (K * SiteEvent)) : q_fine (view pos l) -> keyed pos okey l.
    Proof. apply (q_keyed ev_fine). intros k e. apply f_key. Qed.
    Lemma r_some_keyed (l : list (K * list nat)) : r_some (view pos l) -> keyed pos okey l.
    Proof. intros F. unfold r_some, view in F. rewrite Forall_map in F. eapply Forall_impl; [|exact F]. intros ke. cbn. intros (H & _). exact H. Qed.
    Lemma updated_fine k new upd (l l' : list (K * SiteEvent)) : q_fine (view pos l) -> updated pos k new upd l l' -> ev_fine (pos k) new ->
      (forall k' e, ev_fine k' e -> key_cmp (pos k) k' = Some Eq -> ev_fine k' (upd e)) -> q_fine (view pos l').
    Proof.
      intros Hq [(a & b & -> & ->)|(a & k' & e & b & -> & Ec & ->)] Hn Hu; unfold SweepAny.q_fine, view in *; rewrite map_app in *; apply Forall_app in Hq as [H1 H2]; apply Forall_app; split; auto; cbn [map fst snd] in *.
      - constructor; auto.
      - inversion_clear H2. constructor; cbn [fst snd] in *; auto.
    Qed.
    Lemma reported_fine k lists (l l' : list (K * list nat)) : okey (pos k) -> r_some (view pos l) -> reported pos k lists l l' -> (G -> two_of (concat lists)) -> Forall (has nearh (pos k)) (concat lists) ->
      r_some (view pos l').
    Proof.
      intros Ok Hr (l0 & a & k' & is & is' & b & H0 & -> & Ec & P & ->) H2 Hn.
      assert (Hr0 : r_some (view pos (a ++ (k', is) :: b))).
      { destruct H0 as [->|(a0 & b0 & -> & E0)]; auto. rewrite E0. unfold r_some, view in *. rewrite map_app in *. apply Forall_app in Hr as [R1 R2]. apply Forall_app. split; auto.
        cbn [map fst snd]. constructor; auto. cbn [fst snd]. split; auto. }
      unfold r_some, view in *. rewrite map_app in *. apply Forall_app in Hr0 as [R1 R2]. apply Forall_app. split; auto. cbn [map fst snd] in *. inversion_clear R2 as [|? ? (O & T & N) R3]. cbn [fst snd] in *.
      constructor; auto. cbn [fst snd]. split; auto. split.
      - intros g. right. destruct (H2 g) as (u & v & Nuv & U & W). exists u, v. split; auto. split; apply (Permutation_in _ (Permutation_sym P)), in_app_iff; auto.
      - apply Forall_forall. intros u Hu. apply (Permutation_in _ P), in_app_iff in Hu as [Hu|Hu]; [rewrite Forall_forall in N; auto|]. rewrite Forall_forall in Hn. destruct (Hn u Hu) as (li & L1 & L2). exists li. split; auto. apply (Hop2 (pos k)); auto.
    Qed.
    (* the first key, and the event of a key that compares equal *)
    Lemma pop_fine k e (l l' : list (K * SiteEvent)) : q_fine (view pos l) -> (exists e0, In (k, e0) l) -> (exists a k' b, l = a ++ (k', e) :: b /\ key_cmp (pos k) (pos k') = Some Eq /\ l' = a ++ b) ->
      okey (pos k) /\ (exists k', ev_fine k' e /\ key_cmp (pos k) k' = Some Eq) /\ q_fine (view pos l').
    Proof.
      intros Hq (e0 & Hin) (a & k' & b & -> & Ec & ->). pose proof (q_fine_keyed _ Hq) as Hk. split; [unfold keyed in Hk; rewrite Forall_forall in Hk; apply (Hk _ Hin)|].
      unfold SweepAny.q_fine, view in *. rewrite map_app in *. apply Forall_app in Hq as [H1 H2]. cbn [map fst snd] in H2. inversion_clear H2. cbn [fst snd] in *. split; [exists (pos k'); auto|]. apply Forall_app. auto.
    Qed.
    (* reporting an event fine at an equal key *)
    Lemma event_reports {RM : Map V K (list nat)} okr : lawful_on pos RM okr -> forall ign k k' e r, okey (pos k) -> ev_fine k' e -> key_cmp (pos k) k' = Some Eq -> okr r -> r_some (view pos (m_list r)) ->
      match reports (M := RM) pos k (to_report ign e) r with Val r' => okr r' /\ r_some (view pos (m_list r')) /\ (forall ke, In ke (m_list r') -> fst ke = k \/ In (fst ke) (map fst (m_list r))) | Panic => True | _ => False end.
    Proof.
      intros HR ign k k' e r Ok Fe Ec Ho Hr. destruct (report_cases ign e) as [E|(l & t & E & El & Hl)]; rewrite E; [cbn [reports]; split; auto; split; auto; intros ke Hin; right; apply in_map; auto|].
      pose proof (reports_any pos okr HR okey Kc k l t r Ho (r_some_keyed _ Hr) Ok) as A. destruct (reports pos k (l :: t) r) as [r'|?| |]; auto. destruct A as [A1 A2]. split; auto. split.
      - eapply reported_fine; eauto; rewrite El.
        + intros g. apply two_length; [apply (f_nodup _ _ _ _ _ _ _ Fe g)|]. destruct Hl as [Hl|Hl]; [auto|eapply ev_long; eauto].
        + pose proof (f_near _ _ _ _ _ _ _ Fe) as Fn. eapply Forall_impl; [|exact Fn]. intros i (li & L1 & L2). exists li. split; auto. apply (Hoph (pos k) k'); auto. apply Fe.
      - destruct A2 as (l0 & a & k1 & is & is' & b & H0 & E0 & _ & _ & E'). rewrite E'. intros ke Hin.
        assert (Hin' : In (fst ke) (map fst l0)) by (rewrite E0; apply (in_map fst) in Hin; rewrite map_app in *; exact Hin).
        destruct H0 as [->|(a0 & b0 & Ea & ->)]; auto. rewrite Ea. rewrite !map_app in *. cbn [map fst] in Hin'. rewrite in_app_iff in *. cbn in Hin'. destruct Hin' as [?|[?|?]]; auto.
    Qed.
  End Keys.
  Lemma event_indices k e : ev_fine k e -> Forall inr (e_add e) /\ Forall inr (e_inter e).
  Proof.
    intros He. assert (En : Forall inr (ev_lines e)) by (eapply Forall_impl; [|exact (f_near _ _ _ _ _ _ _ He)]; intros i Hi; eapply has_inr; eauto).
    unfold ev_lines in En. rewrite !Forall_app in En. tauto.
  Qed.

  (* ---- lines ---- *)
  Section Plain.
    Notation idk := (fun v : V => v).
    Context (QM : Map V V SiteEvent) (RM : Map V V (list nat)) (okq : store QM -> Prop) (okr : store RM -> Prop) (HQ : lawful_on idk QM okq) (HR : lawful_on idk RM okr).
    Definition fineq (q : store QM) : Prop := okq q /\ q_fine (view idk (m_list q)).
    Definition finer (r : store RM) : Prop := okr r /\ r_some (view idk (m_list r)).
    Lemma tree_pair_any sweep i j q : inr i -> inr j -> fineq q ->
      match tree_pair QM lines sweep i j q with Val q' => fineq q' | Fail x => x = InvalidData /\ bad_point | _ => False end.
    Proof.
      intros (li & Hi) (lj & Hj) [Ho Hq]. unfold tree_pair. rewrite !(idx_ok _ _ _ Hi), !(idx_ok _ _ _ Hj). cbn [obind].
      destruct (vulps (lend li) (lend lj)) eqn:Ev; [split; auto|]. destruct (intersection_point li lj) as [it|] eqn:Ei; [|split; auto]. cbv zeta.
      destruct (sfin (vx (isingle it)) && sfin (vy (isingle it)))%bool eqn:Ef.
      - destruct (ahead sweep (isingle it)); [|split; auto]. destruct (pair_new i j li lj it Hi Hj Ev Ei Ef) as (Ok & N1 & N2).
        destruct (update_any idk okq HQ okey Kc q (isingle it) (merge_intersection (isingle it) [(i, li); (j, lj)]) Ho (q_fine_keyed idk _ Hq) Ok) as (q' & E' & Ho' & U'). rewrite E'. split; auto.
        eapply updated_fine; eauto.
      - split; auto. exists li, lj, it. repeat split; auto; eapply nth_error_In; eauto.
    Qed.
    Lemma tree_find_any sweep : forall prs q, Forall pair_in prs -> fineq q ->
      match tree_find QM lines sweep prs q with Val q' => fineq q' | Fail x => x = InvalidData /\ bad_point | _ => False end.
    Proof.
      induction prs as [|[a b] t IH]; intros q Hp Hq; cbn [tree_find]; auto. inversion_clear Hp as [|? ? [H1 H2] Ht]. cbn [fst snd] in *.
      pose proof (tree_pair_any sweep a b q H1 H2 Hq) as A. destruct (tree_pair QM lines sweep a b q) as [q'|?| |]; cbn [obind]; auto. apply IH; auto.
    Qed.
    Lemma tree_report_eq key : forall lists r, tree_report RM key lists r = reports idk key lists r.
    Proof. induction lists as [|l t IH]; intros r; cbn [tree_report reports]; [reflexivity|]. destruct (map_report idk key l r); cbn [obind]; auto. Qed.
    Definition finet (t : TState QM RM) : Prop := Forall inr (ts_active _ _ t) /\ fineq (ts_queue _ _ t) /\ finer (ts_result _ _ t).
    Lemma tree_handle_any ign order k k' e st : (forall l, Permutation (order l) l) -> okey k -> ev_fine k' e -> key_cmp k k' = Some Eq -> finet st ->
      match tree_handle inf QM RM lines ign order k e st with Val st' => finet st' | Fail x => x = InvalidData /\ bad_point | Panic => True | NoFuel => False end.
    Proof.
      intros Ho Ok He Ec (Ha & Hq & Hr & Hr'). unfold tree_handle. rewrite tree_report_eq.
      pose proof (event_reports idk okr HR ign k k' e _ Ok He Ec Hr Hr') as A. destruct (reports idk k (to_report ign e) (ts_result QM RM st)) as [r'|?| |]; cbn [obind]; auto; try contradiction.
      destruct (event_indices _ _ He) as [Ea Ei].
      assert (Hact : Forall inr (set_remove (ts_active _ _ st) (e_drop e))).
      { rewrite Forall_forall in Ha |- *. intros i Hi. apply set_remove_In in Hi as [Hi _]. auto. }
      destruct (neighbours_any inf lines k (e_inter e) (order (set_remove (ts_active _ _ st) (e_drop e))) minmax_new) as (nb & En & Hnb).
      { rewrite Forall_forall in Hact |- *. intros i Hi. apply Hact. eapply Permutation_in; [apply Ho|auto]. } { apply slope_new_in. }
      rewrite En. cbn [obind]. destruct (candidates_any inf lines e (mm_slope nb) Ea Ei Hnb) as (c & Ecl & Hc). rewrite Ecl. cbn [obind].
      pose proof (tree_find_any k _ (ts_queue _ _ st) Hc Hq) as Fa. destruct (tree_find QM lines k (flat_map pairs_of c) (ts_queue _ _ st)) as [q'|?| |]; cbn [obind]; auto; try contradiction.
      split; cbn [ts_active ts_queue ts_result]; [|split; auto; split; apply A].
      rewrite Forall_forall in *. intros i Hi. apply set_inserts_In in Hi as [Hi|Hi]; auto.
    Qed.
    Lemma tree_loop_any ign stop ord : (forall n l, Permutation (ord n l) l) -> forall fuel n st, finet st ->
      match tree_loop inf QM RM lines ign stop ord fuel n st with
      | Val r => r_some (view idk r)
      | Fail x => x = InternalError \/ (x = InvalidData /\ bad_point)
      | _ => True
      end.
    Proof.
      intros Ho. induction fuel as [|fuel IH]; intros n st (Ha & [Hq Hq'] & Hr); cbn [tree_loop]; pose proof (pop_any idk okq HQ okey Kc _ Hq (q_fine_keyed idk _ Hq')) as P;
        destruct (map_pop idk (ts_queue QM RM st)) as [[[[k e] q]|]|?| |]; cbn [obind]; auto; try (apply Hr; fail).
      destruct P as (P1 & P2 & P3). destruct (pop_fine idk k e _ _ Hq' P2 P3) as (Ok & (k' & Fe & Ec) & Hq1).
      pose proof (tree_handle_any ign (ord n) k k' e (mkTS QM RM (ts_active _ _ st) q (ts_result _ _ st)) (Ho n) Ok Fe Ec) as A.
      specialize (A ltac:(split; [exact Ha|split; [split; auto|exact Hr]])).
      destruct (tree_handle inf QM RM lines ign (ord n) k e _) as [st'|?| |]; cbn [obind]; auto. specialize (IH (Datatypes.S n) st' A).
      destruct (m_list (ts_result QM RM st')) as [|x t] eqn:Er; [exact IH|]. destruct stop; [|exact IH]. rewrite <- Er. apply A.
    Qed.
  End Plain.

  (* ---- edges ---- *)
  Section Indexed.
    Notation IK := (IKey (S := S)).
    Notation ipos := (fst : IK -> V).
    Context (QM : Map V IK SiteEvent) (RM : Map V IK (list nat)) (okq : store QM -> Prop) (okr : store RM -> Prop) (HQ : lawful_on ipos QM okq) (HR : lawful_on ipos RM okr).
    Context (edges : list (nat * nat)) (vertices : list V) (Hlines : edge_lines edges vertices lines).
    Definition ifineq (vs : list V) (q : store QM) : Prop := okq q /\ keys_ok vs (m_list q) /\ q_fine (view ipos (m_list q)).
    Definition ifiner (vs : list V) (r : store RM) : Prop := okr r /\ keys_ok vs (m_list r) /\ r_some (view ipos (m_list r)).
    Lemma updated_keys_ok {E : Type} vs k (new : E) upd l l' : keys_ok vs l -> key_ok vs k -> updated ipos k new upd l l' -> keys_ok vs l'.
    Proof.
      intros Hl Hk [(a & b & -> & ->)|(a & k' & e & b & -> & _ & ->)]; unfold keys_ok in *; apply Forall_app in Hl as [H1 H2]; apply Forall_app; split; auto.
      inversion_clear H2. constructor; auto.
    Qed.
    Lemma tree_ipair_any sweep i j vs q : inr i -> inr j -> grown vertices vs -> ifineq vs q ->
      match tree_ipair QM edges sweep i j (vs, q) with Val (vs', q') => (exists w, vs' = vs ++ w) /\ ifineq vs' q' | Fail x => x = InvalidData /\ bad_point | _ => False end.
    Proof.
      intros (li & Hi) (lj & Hj) Hg (Ho & Hk & Hq). unfold tree_ipair. rewrite !(edge_line_idx edges vs lines) by (apply (grown_lines edges vertices lines); auto). rewrite (idx_ok _ _ _ Hi), (idx_ok _ _ _ Hj). cbn [obind].
      assert (Same : (exists w, vs = vs ++ w) /\ ifineq vs q) by (split; [exists []; rewrite app_nil_r; auto|split; auto]).
      destruct (vulps (lend li) (lend lj)) eqn:Ev; [exact Same|]. destruct (intersection_point li lj) as [it|] eqn:Ei; [|exact Same]. cbv zeta.
      destruct (sfin (vx (isingle it)) && sfin (vy (isingle it)))%bool eqn:Ef.
      - destruct (ahead sweep (isingle it)); [|exact Same]. destruct (pair_new i j li lj it Hi Hj Ev Ei Ef) as (Ok & N1 & N2).
        destruct (update_any ipos okq HQ okey Kc q (isingle it, Some (length vs)) (merge_intersection (isingle it) [(i, li); (j, lj)]) Ho (q_fine_keyed ipos _ Hq) Ok) as (q' & E' & Ho' & U'). match goal with |- context [map_update ?a ?b ?c ?d] => replace (map_update a b c d) with (Val (A := store QM) q') by (symmetry; exact E') end. cbn [obind].
        split; [eauto|]. split; [exact Ho'|]. split.
        + eapply updated_keys_ok; [apply keys_ok_app; exact Hk| |exact U']. exists (length vs). cbn [fst snd]. split; auto. rewrite nth_error_app2, Nat.sub_diag by auto. reflexivity.
        + eapply updated_fine; [exact Hq|exact U'|exact N1|exact N2].
      - split; auto. exists li, lj, it. repeat split; auto; eapply nth_error_In; eauto.
    Qed.
    Lemma grown_app vs w : grown vertices vs -> grown vertices (vs ++ w).
    Proof. intros (u & ->). exists (u ++ w). rewrite app_assoc. reflexivity. Qed.
    Lemma tree_ifind_any sweep : forall prs vs q, Forall pair_in prs -> grown vertices vs -> ifineq vs q ->
      match tree_ifind QM edges sweep prs (vs, q) with Val (vs', q') => (exists w, vs' = vs ++ w) /\ ifineq vs' q' | Fail x => x = InvalidData /\ bad_point | _ => False end.
    Proof.
      induction prs as [|[a b] t IH]; intros vs q Hp Hg Hq; cbn [tree_ifind]; [split; auto; exists []; rewrite app_nil_r; auto|]. inversion_clear Hp as [|? ? [H1 H2] Ht]. cbn [fst snd] in *.
      pose proof (tree_ipair_any sweep a b vs q H1 H2 Hg Hq) as A. destruct (tree_ipair QM edges sweep a b (vs, q)) as [[vs' q']|?| |]; cbn [obind]; auto.
      destruct A as ((w & ->) & A). specialize (IH (vs ++ w) q' Ht (grown_app _ w Hg) A). destruct (tree_ifind QM edges sweep t (vs ++ w, q')) as [[vs2 q2]|?| |]; auto.
      destruct IH as ((w2 & ->) & B). split; auto. exists (w ++ w2). rewrite app_assoc. reflexivity.
    Qed.
    Lemma tree_ireport_eq vs key : key_ok vs key -> forall lists r, tree_ireport RM vs key lists r = reports ipos key lists r.
    Proof.
      intros (i & E1 & E2). destruct key as [p o]. cbn [fst snd] in *. subst o. induction lists as [|l t IH]; intros r; cbn [tree_ireport reports snd]; [reflexivity|].
      unfold idx. rewrite E2. cbn [obind]. match goal with |- obind ?x _ = obind ?y _ => change y with x; destruct x end; cbn [obind]; auto.
    Qed.
    Definition ifinet (t : TIState QM RM) : Prop := Forall inr (ti_active _ _ t) /\ grown vertices (ti_vertices _ _ t) /\ ifineq (ti_vertices _ _ t) (ti_queue _ _ t) /\ ifiner (ti_vertices _ _ t) (ti_result _ _ t).
    Lemma tree_ihandle_any ign order k k' e st : (forall l, Permutation (order l) l) -> okey (ipos k) -> key_ok (ti_vertices _ _ st) k -> ev_fine k' e -> key_cmp (ipos k) k' = Some Eq -> ifinet st ->
      match tree_ihandle inf QM RM edges ign order k e st with Val st' => ifinet st' | Fail x => x = InvalidData /\ bad_point | Panic => True | NoFuel => False end.
    Proof.
      intros Ho Ok Kk He Ec (Ha & Hg & Hq & Hr & Hrk & Hr'). unfold tree_ihandle. cbv zeta. rewrite (tree_ireport_eq _ _ Kk).
      pose proof (event_reports ipos okr HR ign k k' e _ Ok He Ec Hr Hr') as A. destruct (reports ipos k (to_report ign e) (ti_result QM RM st)) as [r'|?| |]; cbn [obind]; auto; try contradiction.
      destruct (event_indices _ _ He) as [Ea Ei].
      assert (Hact : Forall inr (set_remove (ti_active _ _ st) (e_drop e))).
      { rewrite Forall_forall in Ha |- *. intros i Hi. apply set_remove_In in Hi as [Hi _]. auto. }
      assert (EL : forall i, edge_line (ti_vertices _ _ st) edges i = idx lines i) by (intros i; apply edge_line_idx, (grown_lines edges vertices lines); auto).
      rewrite (neighbours_ext inf _ (idx lines) _ _ EL). rewrite Forall_forall in Hact.
      destruct (neighbours_any inf lines (fst k) (e_inter e) (order (set_remove (ti_active _ _ st) (e_drop e))) minmax_new) as (nb & En & Hnb).
      { apply Forall_forall. intros i Hi. apply Hact. eapply Permutation_in; [apply Ho|auto]. } { apply slope_new_in. }
      rewrite En. cbn [obind]. rewrite (candidate_lists_ext inf _ (idx lines) _ _ EL). destruct (candidates_any inf lines e (mm_slope nb) Ea Ei Hnb) as (c & Ecl & Hc). rewrite Ecl. cbn [obind].
      pose proof (tree_ifind_any (fst k) _ (ti_vertices _ _ st) (ti_queue _ _ st) Hc Hg Hq) as Fa. destruct (tree_ifind QM edges (fst k) (flat_map pairs_of c) (ti_vertices _ _ st, ti_queue _ _ st)) as [[vs' q']|?| |]; cbn [obind]; auto; try contradiction.
      destruct Fa as ((w & ->) & Fq). split; cbn [ti_active ti_vertices ti_queue ti_result].
      - apply Forall_forall. intros i Hi. apply set_inserts_In in Hi as [Hi|Hi]; auto. rewrite Forall_forall in Ea. auto.
      - split; [apply grown_app; auto|]. split; [exact Fq|]. destruct A as (A1 & A2 & A3). split; auto. split; auto. apply keys_ok_app. apply Forall_forall. intros ke Hin.
        destruct (A3 ke Hin) as [->|Hk]; auto. apply in_map_iff in Hk as (ke' & Ek & Hin'). unfold keys_ok in Hrk. rewrite Forall_forall in Hrk. rewrite <- Ek. auto.
    Qed.
    Lemma tree_iloop_any ign stop ord : (forall n l, Permutation (ord n l) l) -> forall fuel n st, ifinet st ->
      match tree_iloop inf QM RM edges ign stop ord fuel n st with
      | Val (vs, r) => grown vertices vs /\ keys_ok vs r /\ r_some (view ipos r)
      | Fail x => x = InternalError \/ (x = InvalidData /\ bad_point)
      | _ => True
      end.
    Proof.
      intros Ho. induction fuel as [|fuel IH]; intros n st (Ha & Hg & (Hq & Hk & Hq') & Hr); cbn [tree_iloop]; pose proof (pop_any ipos okq HQ okey Kc _ Hq (q_fine_keyed ipos _ Hq')) as P;
        match type of P with match ?y with _ => _ end => match goal with |- match obind ?x _ with _ => _ end => change x with y; destruct y as [[[[k e] q]|]|?| |] end end; cbn [obind]; auto; try (split; [exact Hg|exact (proj2 Hr)]; fail).
      destruct P as (P1 & P2 & P3). destruct (pop_fine ipos k e _ _ Hq' P2 P3) as (Ok & (k' & Fe & Ec) & Hq1).
      assert (Kk : key_ok (ti_vertices _ _ st) k) by (destruct P2 as (e0 & Hin); unfold keys_ok in Hk; rewrite Forall_forall in Hk; apply (Hk _ Hin)).
      assert (Hk1 : keys_ok (ti_vertices _ _ st) (m_list q)).
      { destruct P3 as (a & k1 & b & E1 & _ & ->). rewrite E1 in Hk. unfold keys_ok in *. apply Forall_app in Hk as [K1 K2]. inversion_clear K2. apply Forall_app. auto. }
      pose proof (tree_ihandle_any ign (ord n) k k' e (mkTI QM RM (ti_active _ _ st) (ti_vertices _ _ st) q (ti_result _ _ st)) (Ho n) Ok Kk Fe Ec) as A.
      specialize (A ltac:(split; [exact Ha|split; [exact Hg|split; [split; auto|exact Hr]]])).
      destruct (tree_ihandle inf QM RM edges ign (ord n) k e _) as [st'|?| |]; cbn [obind]; auto. specialize (IH (Datatypes.S n) st' A).
      destruct (m_list (ti_result QM RM st')) as [|x t] eqn:Er; [exact IH|]. destruct stop; [|exact IH]. rewrite <- Er. split; [apply A|]. split; apply A.
    Qed.
  End Indexed.
End Any.
