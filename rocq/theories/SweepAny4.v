(* Shared end points over any lawful map, with no assumption on the key comparison: the end points gathered in one event of the
   initial queue are reported together. *)
From Coq Require Import ZArith Reals Lra Lia Permutation Floats.SpecFloat.
From Flocq Require Import Core BinarySingleNaN.
From Verif Require Import Prelude Scalar RInst Flt FloatSpec FloatGrid Geo2 GeoSpec IsectProofs FloatIsect Sweep SweepMap SweepIdx SweepRun SweepFin SweepAny SweepFlt SweepGrid SweepTree SweepMapEq SweepCons SweepAny2 SweepAny3.

Section Owed.
  Context {S : Scalar} {K : Type} (pos : K -> V2 S) (k0 : V2 S) (ids : list nat).
  Notation V := (V2 S).
  (* the lines [ids] are waiting in the event with key k0 *)
  Definition waiting (ql : list (K * SiteEvent)) : Prop :=
    exists k e, In (k, e) ql /\ pos k = k0 /\ incl ids (e_drop e ++ e_add e) /\ 2 <= length (e_drop e) + length (e_add e).
  Lemma waiting_updated k new upd l l' : (forall e, e_drop (upd e) = e_drop e /\ e_add (upd e) = e_add e) -> updated pos k new upd l l' -> waiting l -> waiting l'.
  Proof.
    intros Hu U (k1 & e1 & Hin & E1 & E2 & E3). destruct U as [(a & b & -> & ->)|(a & k' & e & b & -> & _ & ->)].
    - exists k1, e1. split; auto. rewrite in_app_iff in *. cbn. tauto.
    - rewrite in_app_iff in Hin. destruct Hin as [Hin|[[= -> ->]|Hin]].
      + exists k1, e1. rewrite in_app_iff. auto.
      + exists k1, (upd e1). destruct (Hu e1) as [-> ->]. rewrite in_app_iff. cbn. auto 6.
      + exists k1, e1. rewrite in_app_iff. cbn. auto 6.
  Qed.
  Lemma merge_keeps (p : V) ls e : e_drop (merge_intersection p ls (Some e)) = e_drop e /\ e_add (merge_intersection p ls (Some e)) = e_add e.
  Proof. cbn [merge_intersection]. cbv zeta. destruct (map fst _); auto. Qed.
  (* handing over one event *)
  Lemma owed_pop ql k e ql' : (exists a k' b, ql = a ++ (k', e) :: b /\ key_cmp (pos k) (pos k') = Some Eq /\ ql' = a ++ b) -> waiting ql ->
    waiting ql' \/ (key_cmp (pos k) k0 = Some Eq /\ incl ids (e_drop e ++ e_add e) /\ 2 <= length (e_drop e) + length (e_add e)).
  Proof.
    intros (a & k' & b & -> & Ec & ->) (k1 & e1 & Hin & <- & E2 & E3). rewrite in_app_iff in Hin. destruct Hin as [Hin|[Hin|Hin]]; [left|injection Hin as -> ->; auto|left]; exists k1, e1; rewrite in_app_iff; auto.
  Qed.
  Context (okey : V -> Prop).
  (* they are reported together at a position two comparisons away from k0 *)
  Definition together (rl : list (K * list nat)) : Prop :=
    exists k is c, In (k, is) rl /\ okey c /\ key_cmp c k0 = Some Eq /\ key_cmp c (pos k) = Some Eq /\ incl ids is.
  Lemma together_reported k lists l l' : reported pos k lists l l' -> together l -> together l'.
  Proof.
    intros (l0 & a & k' & is & is' & b & H0 & E0 & _ & P & ->) (k1 & is1 & c & Hin & C1 & C2 & C3 & C4).
    assert (Hin' : In (k1, is1) l0) by (destruct H0 as [->|(a0 & b0 & -> & ->)]; auto; rewrite in_app_iff in *; cbn; tauto).
    rewrite E0, in_app_iff in Hin'. destruct Hin' as [H|[[= -> ->]|H]].
    - exists k1, is1, c. rewrite in_app_iff. auto 7.
    - exists k1, is', c. rewrite in_app_iff. cbn. split; auto. repeat (split; auto). intros x Hx. apply (Permutation_in _ (Permutation_sym P)), in_app_iff. auto.
    - exists k1, is1, c. rewrite in_app_iff. cbn. auto 8.
  Qed.
  Lemma reported_together k lists l l' : okey (pos k) -> key_cmp (pos k) k0 = Some Eq -> incl ids (concat lists) -> reported pos k lists l l' -> together l'.
  Proof.
    intros Ok C Hi (l0 & a & k' & is & is' & b & H0 & E0 & Ec & P & ->). exists k', is', (pos k). rewrite in_app_iff. cbn. repeat (split; auto).
    intros x Hx. apply (Permutation_in _ (Permutation_sym P)), in_app_iff. auto.
  Qed.
  Lemma owed_reports {RM : Map V K (list nat)} okr (HR : lawful_on pos RM okr) (Kc : forall a b, okey a -> okey b -> key_cmp a b <> None) k e (r r' : store RM) : okey (pos k) -> okr r -> keyed pos okey (m_list r) ->
    reports (M := RM) pos k (to_report false e) r = Val r' ->
    (together (m_list r) -> together (m_list r')) /\
    (key_cmp (pos k) k0 = Some Eq -> incl ids (e_drop e ++ e_add e) -> 2 <= length (e_drop e) + length (e_add e) -> together (m_list r')).
  Proof.
    intros Ok Ho Hk E. destruct (report_cases false e) as [E0|(l & t & E0 & El & _)].
    - rewrite E0 in E. cbn [reports] in E. injection E as <-. split; auto. intros _ _ L. exfalso. unfold to_report in E0. rewrite (proj2 (Nat.ltb_lt _ _)) in E0 by lia.
      destruct (e_drop e) as [|x d]; [|discriminate]. destruct (e_add e) as [|y a]; [cbn in L; lia|]. discriminate.
    - rewrite E0 in E. pose proof (reports_any pos okr HR okey Kc k l t r Ho Hk Ok) as A. rewrite E in A. destruct A as [_ A]. split; [apply together_reported with k (l :: t); auto|].
      intros C Hi _. apply (reported_together k (l :: t) (m_list r)); auto. rewrite El. unfold ev_lines. intros x Hx. apply Hi in Hx. rewrite app_assoc. apply in_app_iff. auto.
  Qed.
End Owed.

Section Any.
  Context {S : Scalar} (inf : car S) (lines : list (Line2 S)).
  Notation V := (V2 S).
  Notation L := (Line2 S).
  Context (okey : V -> Prop) (near0 near1 nearh near2 endat : V -> L -> Prop).
  Hypothesis Kc : forall a b, okey a -> okey b -> key_cmp a b <> None.
  Hypothesis Kend : True -> forall l, In l lines -> vulps (lend l) (lend l) = true.
  Hypothesis Hint : forall l r it, In l lines -> In r lines -> intersection_point l r = Some it -> sfin (vx (isingle it)) = true -> sfin (vy (isingle it)) = true ->
    okey (isingle it) /\ near0 (isingle it) l /\ near0 (isingle it) r.
  Hypothesis Sub1 : forall p l, near0 p l -> near1 p l.
  Hypothesis Hop1 : forall p k l, okey p -> okey k -> key_cmp p k = Some Eq -> near0 p l -> near1 k l.
  Hypothesis Hoph : forall p k l, okey p -> okey k -> key_cmp p k = Some Eq -> near1 k l -> nearh p l.
  Hypothesis Hop2 : forall p k l, okey p -> okey k -> key_cmp p k = Some Eq -> nearh p l -> near2 k l.
  Hypothesis Hendat : True -> forall p k l, okey p -> okey k -> key_cmp p k = Some Eq -> endat k l -> (vulps p (lstart l) || vulps p (lend l))%bool = true.
  Context (k0 : V) (ids : list nat).
  Notation inr := (inr lines).
  Notation pair_in := (pair_in lines).

  Section Plain.
    Notation idk := (fun v : V => v).
    Context (QM : Map V V SiteEvent) (RM : Map V V (list nat)) (okq : store QM -> Prop) (okr : store RM -> Prop) (HQ : lawful_on idk QM okq) (HR : lawful_on idk RM okr).
    Notation fineq := (fineq lines True okey near1 endat QM okq).
    Notation finet := (finet lines True okey near1 near2 endat QM RM okq okr).
    Notation waiting := (waiting idk k0 ids).
    Notation together := (together idk k0 ids okey).
    Lemma tree_pair_owed sweep i j q q' : inr i -> inr j -> fineq q -> tree_pair QM lines sweep i j q = Val q' -> waiting (m_list q) -> waiting (m_list q').
    Proof.
      intros (li & Hi) (lj & Hj) [Ho Hq] E W. unfold tree_pair in E. rewrite !(idx_ok _ _ _ Hi), !(idx_ok _ _ _ Hj) in E. cbn [obind] in E.
      destruct (vulps (lend li) (lend lj)) eqn:Ev; [injection E as <-; auto|]. destruct (intersection_point li lj) as [it|] eqn:Ei; [|injection E as <-; auto]. cbv zeta in E.
      destruct (sfin (vx (isingle it)) && sfin (vy (isingle it)))%bool eqn:Ef; [|discriminate]. destruct (ahead sweep (isingle it)); [|injection E as <-; auto].
      destruct (pair_new lines True okey near0 near1 endat Kend Hint Sub1 Hop1 Hendat i j li lj it Hi Hj Ev Ei Ef) as (Ok & _).
      destruct (update_any idk okq HQ okey Kc q (isingle it) (merge_intersection (isingle it) [(i, li); (j, lj)]) Ho (q_fine_keyed lines True okey near1 endat idk _ Hq) Ok) as (q1 & E' & _ & U'). rewrite E' in E. injection E as <-.
      exact (waiting_updated idk k0 ids _ _ _ _ _ (fun e => merge_keeps _ _ e) U' W).
    Qed.
    Lemma tree_find_owed sweep : forall prs q q', Forall pair_in prs -> fineq q -> tree_find QM lines sweep prs q = Val q' -> waiting (m_list q) -> waiting (m_list q').
    Proof.
      induction prs as [|[a b] t IH]; intros q q' Hp Hq E W; cbn [tree_find] in E; [injection E as <-; auto|]. inversion_clear Hp as [|? ? [H1 H2] Ht]. cbn [fst snd] in *.
      pose proof (tree_pair_any lines True okey near0 near1 endat Kc Kend Hint Sub1 Hop1 Hendat QM okq HQ sweep a b q H1 H2 Hq) as A.
      pose proof (tree_pair_owed sweep a b q) as B. destruct (tree_pair QM lines sweep a b q) as [q1|?| |]; cbn [obind] in E; try discriminate. eapply IH; eauto.
    Qed.
    Definition owed (t : TState QM RM) : Prop := waiting (m_list (ts_queue _ _ t)) \/ together (m_list (ts_result _ _ t)).
    Lemma tree_handle_owed order k e st st' : (forall l, Permutation (order l) l) -> okey k -> Forall inr (e_add e) -> Forall inr (e_inter e) -> finet st ->
      tree_handle inf QM RM lines false order k e st = Val st' ->
      (owed st \/ (key_cmp k k0 = Some Eq /\ incl ids (e_drop e ++ e_add e) /\ 2 <= length (e_drop e) + length (e_add e))) -> owed st'.
    Proof.
      intros Ho Ok Ea Ei (Ha & Hq & Hr & Hr') E W. unfold tree_handle in E. rewrite tree_report_eq in E.
      pose proof (owed_reports idk k0 ids okey okr HR Kc k e (ts_result QM RM st)) as A. destruct (reports idk k (to_report false e) (ts_result QM RM st)) as [r'|?| |]; cbn [obind] in E; try discriminate.
      specialize (A r' Ok Hr (r_some_keyed lines True okey near2 idk _ Hr') eq_refl). destruct A as [A1 A2].
      assert (Hact : Forall inr (set_remove (ts_active _ _ st) (e_drop e))).
      { rewrite Forall_forall in Ha |- *. intros i Hi. apply set_remove_In in Hi as [Hi _]. auto. }
      destruct (neighbours_any inf lines k (e_inter e) (order (set_remove (ts_active _ _ st) (e_drop e))) minmax_new) as (nb & En & Hnb).
      { rewrite Forall_forall in Hact |- *. intros i Hi. apply Hact. eapply Permutation_in; [apply Ho|auto]. } { apply slope_new_in. }
      rewrite En in E. cbn [obind] in E. destruct (candidates_any inf lines e (mm_slope nb) Ea Ei Hnb) as (c & Ecl & Hc). rewrite Ecl in E. cbn [obind] in E.
      pose proof (tree_find_owed k (flat_map pairs_of c) (ts_queue _ _ st)) as F. destruct (tree_find QM lines k (flat_map pairs_of c) (ts_queue _ _ st)) as [q'|?| |]; cbn [obind] in E; try discriminate. injection E as <-.
      unfold owed in *. cbn [ts_queue ts_result]. destruct W as [[W|W]|(W1 & W2 & W3)]; [left; apply (F q'); auto|right; auto|right; auto].
    Qed.
    Lemma tree_loop_owed ord : (forall n l, Permutation (ord n l) l) -> forall fuel n st r, finet st -> owed st ->
      tree_loop inf QM RM lines false false ord fuel n st = Val r -> together r.
    Proof.
      intros Ho. induction fuel as [|fuel IH]; intros n st r Hf W; pose proof Hf as (Ha & [Hq Hq'] & Hr); cbn [tree_loop]; pose proof (pop_any idk okq HQ okey Kc _ Hq (q_fine_keyed lines True okey near1 endat idk _ Hq')) as P;
        destruct (map_pop idk (ts_queue QM RM st)) as [[[[k e] q]|]|?| |]; cbn [obind]; try discriminate;
        try (intros [= <-]; destruct W as [(k1 & e1 & Hin & _)|W]; [rewrite P in Hin; destruct Hin|exact W]; fail).
      destruct P as (P1 & P2 & P3). destruct (pop_fine lines True okey near1 endat idk k e _ _ Hq' P2 P3) as (Ok & (k' & Fe & Ec) & Hq1).
      assert (Hf1 : finet (mkTS QM RM (ts_active _ _ st) q (ts_result _ _ st))) by (split; [exact Ha|split; [split; auto|exact Hr]]).
      pose proof (tree_handle_any inf lines True okey near0 near1 nearh near2 endat Kc Kend Hint Sub1 Hop1 Hoph Hop2 Hendat QM RM okq okr HQ HR false (ord n) k k' e _ (Ho n) Ok Fe Ec Hf1) as A.
      destruct (event_indices lines True okey near1 endat _ _ Fe) as [Ea Ei].
      pose proof (tree_handle_owed (ord n) k e (mkTS QM RM (ts_active _ _ st) q (ts_result _ _ st))) as B.
      destruct (tree_handle inf QM RM lines false (ord n) k e _) as [st'|?| |]; cbn [obind]; try discriminate.
      assert (W' : owed st').
      { apply (B st'); auto. destruct W as [W|W]; [|left; right; exact W]. destruct (owed_pop idk k0 ids _ k e _ P3 W) as [W1|W1]; [left; left; exact W1|right; exact W1]. }
      intros E. apply (IH (Datatypes.S n) st' r A W'). destruct (m_list (ts_result QM RM st')); exact E.
    Qed.
  End Plain.

  Section Indexed.
    Notation IK := (IKey (S := S)).
    Notation ipos := (fst : IK -> V).
    Context (QM : Map V IK SiteEvent) (RM : Map V IK (list nat)) (okq : store QM -> Prop) (okr : store RM -> Prop) (HQ : lawful_on ipos QM okq) (HR : lawful_on ipos RM okr).
    Context (edges : list (nat * nat)) (vertices : list V) (Hlines : edge_lines edges vertices lines).
    Notation ifineq := (ifineq lines True okey near1 endat QM okq).
    Notation ifinet := (ifinet lines True okey near1 near2 endat QM RM okq okr vertices).
    Notation waiting := (waiting ipos k0 ids).
    Notation together := (together ipos k0 ids okey).
    Lemma tree_ipair_owed sweep i j vs q vs' q' : inr i -> inr j -> grown vertices vs -> ifineq vs q -> tree_ipair QM edges sweep i j (vs, q) = Val (vs', q') -> waiting (m_list q) -> waiting (m_list q').
    Proof.
      intros (li & Hi) (lj & Hj) Hg (Ho & Hk & Hq) E W. unfold tree_ipair in E. rewrite !(edge_line_idx edges vs lines) in E by (apply (grown_lines edges vertices lines); auto). rewrite (idx_ok _ _ _ Hi), (idx_ok _ _ _ Hj) in E. cbn [obind] in E.
      destruct (vulps (lend li) (lend lj)) eqn:Ev; [injection E as <- <-; auto|]. destruct (intersection_point li lj) as [it|] eqn:Ei; [|injection E as <- <-; auto]. cbv zeta in E.
      destruct (sfin (vx (isingle it)) && sfin (vy (isingle it)))%bool eqn:Ef; [|discriminate]. destruct (ahead sweep (isingle it)); [|injection E as <- <-; auto].
      destruct (pair_new lines True okey near0 near1 endat Kend Hint Sub1 Hop1 Hendat i j li lj it Hi Hj Ev Ei Ef) as (Ok & _).
      destruct (update_any ipos okq HQ okey Kc q (isingle it, Some (length vs)) (merge_intersection (isingle it) [(i, li); (j, lj)]) Ho (q_fine_keyed lines True okey near1 endat ipos _ Hq) Ok) as (q1 & E' & _ & U').
      match type of E with context [map_update ?a ?b ?c ?d] => replace (map_update a b c d) with (Val (A := store QM) q1) in E by (symmetry; exact E') end. cbn [obind] in E. injection E as _ <-.
      exact (waiting_updated ipos k0 ids _ _ _ _ _ (fun e => merge_keeps _ _ e) U' W).
    Qed.
    Lemma tree_ifind_owed sweep : forall prs vs q vs' q', Forall pair_in prs -> grown vertices vs -> ifineq vs q -> tree_ifind QM edges sweep prs (vs, q) = Val (vs', q') -> waiting (m_list q) -> waiting (m_list q').
    Proof.
      induction prs as [|[a b] t IH]; intros vs q vs' q' Hp Hg Hq E W; cbn [tree_ifind] in E; [injection E as <- <-; auto|]. inversion_clear Hp as [|? ? [H1 H2] Ht]. cbn [fst snd] in *.
      pose proof (tree_ipair_any lines True okey near0 near1 endat Kc Kend Hint Sub1 Hop1 Hendat QM okq HQ edges vertices Hlines sweep a b vs q H1 H2 Hg Hq) as A.
      pose proof (tree_ipair_owed sweep a b vs q) as B. destruct (tree_ipair QM edges sweep a b (vs, q)) as [[vs1 q1]|?| |]; cbn [obind] in E; try discriminate.
      destruct A as ((w & ->) & A). apply (IH (vs ++ w) q1 vs' q' Ht (grown_app vertices vs w Hg) A E). eapply B; eauto.
    Qed.
    Definition iowed (t : TIState QM RM) : Prop := waiting (m_list (ti_queue _ _ t)) \/ together (m_list (ti_result _ _ t)).
    Lemma tree_ihandle_owed order k e st st' : (forall l, Permutation (order l) l) -> okey (ipos k) -> key_ok (ti_vertices _ _ st) k -> Forall inr (e_add e) -> Forall inr (e_inter e) -> ifinet st ->
      tree_ihandle inf QM RM edges false order k e st = Val st' ->
      (iowed st \/ (key_cmp (ipos k) k0 = Some Eq /\ incl ids (e_drop e ++ e_add e) /\ 2 <= length (e_drop e) + length (e_add e))) -> iowed st'.
    Proof.
      intros Ho Ok Kk Ea Ei (Ha & Hg & Hq & Hr & Hrk & Hr') E W. unfold tree_ihandle in E. cbv zeta in E. rewrite (tree_ireport_eq _ _ _ Kk) in E.
      pose proof (owed_reports ipos k0 ids okey okr HR Kc k e (ti_result QM RM st)) as A. destruct (reports ipos k (to_report false e) (ti_result QM RM st)) as [r'|?| |]; cbn [obind] in E; try discriminate.
      specialize (A r' Ok Hr (r_some_keyed lines True okey near2 ipos _ Hr') eq_refl). destruct A as [A1 A2].
      assert (Hact : Forall inr (set_remove (ti_active _ _ st) (e_drop e))).
      { rewrite Forall_forall in Ha |- *. intros i Hi. apply set_remove_In in Hi as [Hi _]. auto. }
      assert (EL : forall i, edge_line (ti_vertices _ _ st) edges i = idx lines i) by (intros i; apply edge_line_idx, (grown_lines edges vertices lines); auto).
      rewrite (neighbours_ext inf _ (idx lines) _ _ EL) in E. rewrite Forall_forall in Hact.
      destruct (neighbours_any inf lines (fst k) (e_inter e) (order (set_remove (ti_active _ _ st) (e_drop e))) minmax_new) as (nb & En & Hnb).
      { apply Forall_forall. intros i Hi. apply Hact. eapply Permutation_in; [apply Ho|auto]. } { apply slope_new_in. }
      rewrite En in E. cbn [obind] in E. rewrite (candidate_lists_ext inf _ (idx lines) _ _ EL) in E. destruct (candidates_any inf lines e (mm_slope nb) Ea Ei Hnb) as (c & Ecl & Hc). rewrite Ecl in E. cbn [obind] in E.
      pose proof (tree_ifind_owed (fst k) (flat_map pairs_of c) (ti_vertices _ _ st) (ti_queue _ _ st)) as F.
      destruct (tree_ifind QM edges (fst k) (flat_map pairs_of c) (ti_vertices _ _ st, ti_queue _ _ st)) as [[vs' q']|?| |]; cbn [obind] in E; try discriminate. injection E as <-.
      unfold iowed in *. cbn [ti_queue ti_result]. destruct W as [[W|W]|(W1 & W2 & W3)]; [left; apply (F vs' q'); auto|right; auto|right; auto].
    Qed.
    Lemma tree_iloop_owed ord : (forall n l, Permutation (ord n l) l) -> forall fuel n st vs r, ifinet st -> iowed st ->
      tree_iloop inf QM RM edges false false ord fuel n st = Val (vs, r) -> together r.
    Proof.
      intros Ho. induction fuel as [|fuel IH]; intros n st vs r Hf W; pose proof Hf as (Ha & Hg & (Hq & Hk & Hq') & Hr); cbn [tree_iloop]; pose proof (pop_any ipos okq HQ okey Kc _ Hq (q_fine_keyed lines True okey near1 endat ipos _ Hq')) as P;
        match type of P with match ?y with _ => _ end => match goal with |- obind ?x _ = _ -> _ => change x with y; destruct y as [[[[k e] q]|]|?| |] end end; cbn [obind]; try discriminate;
        try (intros [= _ <-]; destruct W as [(k1 & e1 & Hin & _)|W]; [rewrite P in Hin; destruct Hin|exact W]; fail).
      destruct P as (P1 & P2 & P3). destruct (pop_fine lines True okey near1 endat ipos k e _ _ Hq' P2 P3) as (Ok & (k' & Fe & Ec) & Hq1).
      assert (Kk : key_ok (ti_vertices _ _ st) k) by (destruct P2 as (e0 & Hin); unfold keys_ok in Hk; rewrite Forall_forall in Hk; apply (Hk _ Hin)).
      assert (Hk1 : keys_ok (ti_vertices _ _ st) (m_list q)).
      { destruct P3 as (a & k1 & b & E1 & _ & ->). rewrite E1 in Hk. unfold keys_ok in *. apply Forall_app in Hk as [K1 K2]. inversion_clear K2. apply Forall_app. auto. }
      assert (Hf1 : ifinet (mkTI QM RM (ti_active _ _ st) (ti_vertices _ _ st) q (ti_result _ _ st))) by (split; [exact Ha|split; [exact Hg|split; [split; auto|exact Hr]]]).
      pose proof (tree_ihandle_any inf lines True okey near0 near1 nearh near2 endat Kc Kend Hint Sub1 Hop1 Hoph Hop2 Hendat QM RM okq okr HQ HR edges vertices Hlines false (ord n) k k' e (mkTI QM RM (ti_active _ _ st) (ti_vertices _ _ st) q (ti_result _ _ st)) (Ho n) Ok Kk Fe Ec Hf1) as A.
      destruct (event_indices lines True okey near1 endat _ _ Fe) as [Ea Ei].
      pose proof (tree_ihandle_owed (ord n) k e (mkTI QM RM (ti_active _ _ st) (ti_vertices _ _ st) q (ti_result _ _ st))) as B.
      destruct (tree_ihandle inf QM RM edges false (ord n) k e _) as [st'|?| |]; cbn [obind]; try discriminate.
      assert (W' : iowed st').
      { apply (B st'); auto. destruct W as [W|W]; [|left; right; exact W]. destruct (owed_pop ipos k0 ids _ k e _ P3 W) as [W1|W1]; [left; left; exact W1|right; exact W1]. }
      intros E. apply (IH (Datatypes.S n) st' vs r A W'). destruct (m_list (ti_result QM RM st')); exact E.
    Qed.
  End Indexed.
End Any.

Local Open Scope R_scope.
Section GridOwed.
  Context (prec emax epsexp : Z) (at2 : spec_float -> spec_float -> spec_float) (Hprec : Prec_gt_0 prec) (Hmax : Prec_lt_emax prec emax).
  Notation FS := (FloatS prec emax epsexp at2).
  Notation emin := (SpecFloat.emin prec emax).
  Context (s K : Z) (OK : isect_ok prec emax epsexp s K).
  Context (Hee : (emin + 2 <= epsexp)%Z) (Hes : (epsexp + 2 < s)%Z) (HK7 : (K + 7 <= prec)%Z) (Hh : (epsexp + 1 <= K + s + 4 - prec)%Z).
  Notation V := (V2 FS).
  Notation L := (Line2 FS).
  Notation h := (bpow radix2 (K + s + 4 - prec)).
  Notation n := (2 ^ K)%Z.
  Notation onp := (@grid_point prec emax epsexp at2 s n).
  Notation val := (@point_value prec emax epsexp at2).
  Notation okey := (okey prec emax epsexp at2 s K).
  Notation near_line := (near_line prec emax epsexp at2).
  Notation grid_line := (grid_line prec emax epsexp at2 s K).
  Notation endat := (endat prec emax epsexp at2 s K).
  Notation near1 := (near_line (/ 2 * h + h)).
  Notation near2 := (near_line (/ 2 * h + h + h + h)).
  Context (inf : spec_float) (ord : nat -> list nat -> list nat) (Ho : forall m l, Permutation (ord m l) l).
  Definition ends_at (input : list L) (i : nat) (v : pt) : Prop := exists l, nth_error input i = Some l /\ (v = val (lstart l) \/ v = val (lend l)).
  Lemma together_near {K0 : Type} (pos : K0 -> V) k0 ids (rl : list (K0 * list nat)) : okey k0 -> Forall (fun ke => okey (pos (fst ke))) rl -> together pos k0 ids okey rl ->
    exists k is, In (k, is) rl /\ near_by (2 * h) (val k0) (val (pos k)) /\ incl ids is.
  Proof.
    intros Ok0 Hr (k & is & c & Hin & Oc & C1 & C2 & Hi). exists k, is. split; auto. split; auto. rewrite Forall_forall in Hr. pose proof (Hr _ Hin) as Ok. cbn [fst] in Ok.
    replace (2 * h) with (h + h) by lra. apply near_trans with (val c); [apply near_sym|]; apply (cmp_hop prec emax epsexp at2 Hprec Hmax s K OK Hee HK7 Hh); auto.
  Qed.
  (* the lines that end at v, as a list *)
  Lemma enders (input : list L) v : exists ids, forall i, In i ids <-> ends_at input i v.
  Proof.
    assert (D : forall m : nat, exists ids, forall i, In i ids <-> (i < m)%nat /\ ends_at input i v).
    { induction m as [|m (ids & IH)]; [exists []; intros i; split; [intros []|intros [A _]; lia]|].
      destruct (Classical_Prop.classic (ends_at input m v)) as [Hm|Hm]; [exists (m :: ids)|exists ids]; intros i; cbn [In]; rewrite IH; split.
      - intros [<-|[A B]]; split; auto; lia.
      - intros [A B]. destruct (Nat.eq_dec m i) as [->|N]; [left; auto|right; split; auto; lia].
      - intros [A B]; split; auto; lia.
      - intros [A B]. split; auto. destruct (Nat.eq_dec m i) as [->|N]; [contradiction|lia]. }
    destruct (D (length input)) as (ids & H). exists ids. intros i. rewrite H. split; [tauto|]. intros A. split; auto. destruct A as (l & Hl & _). apply nth_error_Some. congruence.
  Qed.
  Lemma tree_grid_ends QM RM okq okr (HQ : lawful_on (fun v : V => v) QM okq) (HR : lawful_on (fun v : V => v) RM okr) fuel (input : list L) r : Forall grid_line input ->
    tree_intersections (S := FS) inf QM RM ord fuel false false input = Val r ->
    forall v i j, i <> j -> ends_at input i v -> ends_at input j v ->
    exists p is, In (p, is) r /\ near_by (2 * h) v (val p) /\ forall k, ends_at input k v -> In k is.
  Proof.
    intros Hi E0 v i j Nij Ei Ej. unfold tree_intersections in E0. destruct (init_grid prec emax epsexp at2 Hprec Hmax s K OK (@arrange FS) input Hi (or_introl eq_refl)) as (q & E & Hq & He).
    pose proof (with_lines_same onp (consistent_grid prec emax epsexp at2 Hprec Hmax s K OK) QM okq HQ input 0 (m_empty QM) [] [] (rep_empty _ _ _ _ HQ)) as W.
    assert (Hg : forall x, In x input -> line_finite (lstart x) (lend x) = true -> onp (lstart (arrange x)) /\ onp (lend (arrange x))).
    { intros x Hx _. rewrite Forall_forall in Hi. destruct (arrange_grid_line prec emax epsexp at2 s K x (Hi x Hx)) as (A & B & _). auto. }
    specialize (W Hg). rewrite E in W. destruct (tree_with_lines QM 0 input (m_empty QM) []) as [[m la]|?| |]; cbn [sim fst snd] in W; try contradiction. cbn [obind] in E0.
    destruct W as [(O1 & E1 & _) ->].
    assert (HL : Forall grid_line (map arrange input)) by (apply Forall_forall; intros l Hl; apply in_map_iff in Hl as (l0 & <- & Hl0); rewrite Forall_forall in Hi; apply arrange_grid_line; auto).
    destruct (grid_hyps prec emax epsexp at2 Hprec Hmax s K OK Hee HK7 Hh (map arrange input) HL) as (G1 & G2 & G3 & G4 & G5 & G6 & G7 & G8).
    destruct (enders input v) as (ids & Hids).
    destruct Ei as (li & Hli & Vi). destruct Ej as (lj & Hlj & Vj). destruct (He i li v Hli Vi) as (k0 & e0 & H1 & H2 & H3). subst v.
    set (st := mkTS QM RM [] m (m_empty RM)) in *.
    assert (Hm : fineq (map arrange input) True okey near1 endat QM okq m).
    { split; auto. rewrite E1. unfold view. replace (map (fun ke : V * SiteEvent => (fst ke, snd ke)) q) with q; [exact Hq|]. clear. induction q as [|[a b] t IH]; cbn; congruence. }
    assert (Hst : finet (map arrange input) True okey near1 near2 endat QM RM okq okr st).
    { split; [constructor|]. split; [exact Hm|]. split; [apply (ok_empty _ _ _ HR)|cbn [ts_result st]; rewrite (law_empty _ _ _ HR); constructor]. }
    assert (Ok0 : okey k0) by (unfold q_fine in Hq; rewrite Forall_forall in Hq; apply (Hq (k0, e0) H1)).
    assert (Hw : owed okey k0 ids QM RM st).
    { left. exists k0, e0. split; [cbn [ts_queue st]; rewrite E1; exact H1|]. split; [reflexivity|]. split.
      - intros x Hx. apply Hids in Hx as (l & Hl & Vl). apply (H3 x l Hl Vl).
      - rewrite <- app_length. apply (nodes_two i j); auto; [apply (H3 i li)|apply (H3 j lj)]; auto. }
    pose proof (tree_loop_owed (S := FS) inf (map arrange input) okey _ _ _ near2 endat (cmp_okey prec emax epsexp at2 s K) G1 G2 G3 G4 G5 G6 G7 k0 ids
      QM RM okq okr HQ HR ord Ho fuel 0 st r Hst Hw E0) as T.
    pose proof (tree_loop_any (S := FS) inf (map arrange input) True okey _ _ _ near2 endat (cmp_okey prec emax epsexp at2 s K) G1 G2 G3 G4 G5 G6 G7
      QM RM okq okr HQ HR false false ord Ho fuel 0 st Hst) as B.
    change (tree_loop (S := FS) inf QM RM (map arrange input) false false ord fuel 0 st = Val r) in E0. rewrite E0 in B.
    destruct (together_near (fun v : V => v) k0 ids r Ok0) as (p & is & P1 & P2 & P3); auto.
    { unfold r_some, view in B. rewrite Forall_map in B. eapply Forall_impl; [|exact B]. intros ke. cbn. intros (X & _). exact X. }
    exists p, is. split; auto. split; auto. intros k Hk. apply P3, Hids. exact Hk.
  Qed.
  Notation IK := (IKey (S := FS)).
  Lemma tree_indexed_grid_ends QM RM okq okr (HQ : lawful_on (fst : IK -> V) QM okq) (HR : lawful_on (fst : IK -> V) RM okr) fuel vertices edges (ls : list L) vs out : lines_of vertices edges ls -> Forall grid_line ls ->
    tree_indexed_intersections (S := FS) inf QM RM ord fuel false false vertices edges = Val (vs, out) ->
    forall v i j, i <> j -> ends_at ls i v -> ends_at ls j v ->
    exists x p is, In (x, is) out /\ nth_error vs x = Some p /\ near_by (2 * h) v (val p) /\ forall k, ends_at ls k v -> In k is.
  Proof.
    intros Hl Hi E0 v i j Nij Ei Ej. unfold tree_indexed_intersections in E0. pose proof (lines_of_edge_lines _ _ _ Hl) as HE.
    pose proof (with_edges_sim vertices edges ls Hl 0 [] [] [] (Forall_nil _)) as W. cbn [plain map] in W.
    destruct (init_grid prec emax epsexp at2 Hprec Hmax s K OK (fun l => l) ls Hi (or_intror eq_refl)) as (q & E & Hq & He). rewrite E in W. rewrite map_id in Hq.
    destruct (with_edges_loop vertices 0 edges [] []) as [[iq es]|x| |] eqn:Ew; cbn in W; try contradiction. destruct W as (K1 & K2 & K3 & K4). cbn [app] in *. subst es. change (plain iq = q) in K2. subst q.
    pose proof (with_edges_same onp (consistent_grid prec emax epsexp at2 Hprec Hmax s K OK) QM okq HQ vertices edges 0 (m_empty QM) [] [] ltac:(split; [apply rep_empty; auto|constructor])) as Y.
    assert (Hg : forall a b p q, In (a, b) edges -> nth_error vertices a = Some p -> nth_error vertices b = Some q -> line_finite p q = true -> onp p /\ onp q).
    { intros a b p q Hx Ea Eb _. assert (X : exists l, In l ls /\ lstart l = p /\ lend l = q).
      { clear - Hl Hx Ea Eb. induction Hl as [|ab l es ls [H1 H2] H IH]; [destruct Hx|]. destruct Hx as [->|Hx].
        - exists l. cbn [fst snd] in *. split; [left; auto|]. split; congruence.
        - destruct (IH Hx) as (l' & ? & ?). exists l'. split; [right; auto|auto]. }
      destruct X as (l & Hin & <- & <-). rewrite Forall_forall in Hi. destruct (Hi l Hin) as (A & B & _). auto. }
    specialize (Y Hg). rewrite Ew in Y. destruct (tree_with_edges QM vertices 0 edges (m_empty QM) []) as [[m la]|?| |]; cbn [sim fst snd] in Y; try contradiction. cbn [obind] in E0.
    destruct Y as [[(O1 & E1 & _) Kq] ->].
    destruct (grid_hyps prec emax epsexp at2 Hprec Hmax s K OK Hee HK7 Hh ls Hi) as (G1 & G2 & G3 & G4 & G5 & G6 & G7 & G8).
    destruct (enders ls v) as (ids & Hids).
    destruct Ei as (li & Hli & Vi). destruct Ej as (lj & Hlj & Vj). destruct (He i li v Hli Vi) as (k0 & e0 & H1 & H2 & H3). subst v.
    set (st := mkTI QM RM [] vertices m (m_empty RM)) in *.
    assert (Hm : ifineq ls True okey near1 endat QM okq vertices m) by (split; [exact O1|split; [exact (eq_ind_r (fun l => keys_ok vertices l) Kq E1)|exact (eq_ind_r (fun l => q_fine ls True okey near1 endat (view (fst : IK -> V) l)) Hq E1)]]).
    assert (Hst : ifinet ls True okey near1 near2 endat QM RM okq okr vertices st).
    { split; [constructor|]. split; [exists []; rewrite app_nil_r; reflexivity|]. split; [exact Hm|]. split; [apply (ok_empty _ _ _ HR)|cbn [ti_result ti_vertices st]; rewrite (law_empty _ _ _ HR); split; constructor]. }
    assert (Ok0 : okey k0) by (unfold q_fine in Hq; rewrite Forall_forall in Hq; apply (Hq (k0, e0) H1)).
    assert (Hw : iowed okey k0 ids QM RM st).
    { left. unfold plain in H1. apply in_map_iff in H1 as ([kk ee] & [= Ek ->] & Hin). exists kk, e0. split; [exact (eq_ind_r (fun l => In (kk, e0) l) Hin E1)|]. split; [exact Ek|]. split.
      - intros x Hx. apply Hids in Hx as (l & Hll & Vl). apply (H3 x l Hll Vl).
      - rewrite <- app_length. apply (nodes_two i j); auto; [apply (H3 i li)|apply (H3 j lj)]; auto. }
    pose proof (tree_iloop_owed (S := FS) inf ls okey _ _ _ near2 endat (cmp_okey prec emax epsexp at2 s K) G1 G2 G3 G4 G5 G6 G7 k0 ids
      QM RM okq okr HQ HR edges vertices HE ord Ho fuel 0 st) as T.
    pose proof (tree_iloop_any (S := FS) inf ls True okey _ _ _ near2 endat (cmp_okey prec emax epsexp at2 s K) G1 G2 G3 G4 G5 G6 G7
      QM RM okq okr HQ HR edges vertices HE false false ord Ho fuel 0 st Hst) as B.
    destruct (tree_iloop (S := FS) inf QM RM edges false false ord fuel 0 st) as [[vs' r]|x| |]; cbn [obind] in E0; try discriminate.
    specialize (T vs' r Hst Hw eq_refl). destruct B as (_ & B2 & B3). destruct (unwrap_view _ r B2) as (out' & Eo & Fo). rewrite Eo in E0. cbn [obind] in E0. injection E0 as <- <-.
    destruct (together_near (fst : IK -> V) k0 ids r Ok0) as (p & is & P1 & P2 & P3); auto.
    { unfold r_some, view in B3. rewrite Forall_map in B3. eapply Forall_impl; [|exact B3]. intros ke. cbn. intros (X & _). exact X. }
    assert (Fr : exists x, nth_error vs' x = Some (fst p) /\ In (x, is) out').
    { assert (Pv : In (fst p, is) (view (fst : IK -> V) r)) by (apply in_map_iff; exists (p, is); auto). clear - Fo Pv. induction Fo as [|[x is1] [p1 is'] out r' [E1 E2] _ IH]; [destruct Pv|]. destruct Pv as [[= -> ->]|H]; [exists x; cbn in *; subst; auto|].
      destruct (IH H) as (y & Y1 & Y2). exists y. cbn. auto. }
    destruct Fr as (x & X1 & X2). exists x, (fst p), is. split; auto. split; auto. split; auto. intros k Hk. apply P3, Hids. exact Hk.
  Qed.
End GridOwed.
