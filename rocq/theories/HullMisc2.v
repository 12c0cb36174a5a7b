(* More about hulls: minimality, NaN coordinates, the parallel hull of one chunk. *)
From Coq Require Import Reals Lra Psatz Sorting.Sorted Sorting.Permutation.
From Verif Require Import Prelude Scalar RInst Geo2 GeoSpec DistR HullSpec HullGeo Hull HullAny GrahamProofs GrahamProofs2 GrahamProofs3 HullUniq GiftProofs GiftProofs2 IndexedProofs WoProofs ContainProofs HullMisc.
Local Open Scope R_scope.

(* a half plane that contains the vertices contains every inside point *)
Lemma inside_minimal vs a b p : convex_polygon vs -> inside vs p -> (forall v, In v vs -> 0 <= orient a b v) -> 0 <= orient a b p.
Proof.
  intros Hc Hin Hh. destruct vs as [|o t] eqn:E; [destruct Hc as [Hl _]; cbn in Hl; lia|]. rewrite <- E in *.
  destruct (search_spec vs o p (Ho' vs o t E) (length vs) vs false (le_n _) (start_inv vs o p Hc)) as [(_ & x & y & X & Y & EX & Hneg)|(sl & retain & _ & Hi & Hl)].
  - exfalso. specialize (Hin x y (adj_edge vs o t E _ _ _ _ EX)). lra.
  - destruct (final_tri vs o p t Hc E sl retain Hi Hl) as (x & y & _ & Ht & Hx & Hy & _ & Hn). destruct (Hn Hin) as (H1 & H2 & H3).
    pose proof (bary_id a b o x y p) as Id. assert (Ho : In o vs) by (rewrite E; left; auto).
    pose proof (Hh o Ho). pose proof (Hh x Hx). pose proof (Hh y Hy).
    apply Rmult_le_reg_l with (orient o x y); auto. rewrite Rmult_0_r, Id.
    apply Rplus_le_le_0_compat; [apply Rplus_le_le_0_compat|]; apply Rmult_le_pos; auto.
Qed.

(* ---- NaN ---- *)
Section NaN.
  Context {S : Scalar}.
  Notation V := (V2 S).
  Definition unordered (x : car S) : Prop := forall y, spcmp x y = None /\ spcmp y x = None.
  Lemma spcmp_eq (x y : car S) : spcmp x y = None -> seqb x y = false.
  Proof. unfold spcmp. destruct (sltb x y); [discriminate|]. destruct (seqb x y); [discriminate|auto]. Qed.
  Lemma lowest_nan {A} (get : A -> outcome V) : forall rest i mi mv, (forall a, In a rest -> exists p, get a = Val p) ->
    (unordered (vx mv) /\ rest <> [] \/ exists a p, In a rest /\ get a = Val p /\ unordered (vx p)) -> lowest_loop get rest i mi mv = Fail InvalidData.
  Proof.
    induction rest as [|a rest IH]; intros i mi mv Hg H.
    - exfalso. destruct H as [[_ H]|(a & p & [] & _)]; congruence.
    - cbn [lowest_loop]. destruct (Hg a (or_introl eq_refl)) as (q & Eq). rewrite Eq. cbn [obind].
      destruct (spcmp (vx q) (vx mv)) as [c|] eqn:Ec; auto.
      assert (Hr : exists a p, In a rest /\ get a = Val p /\ unordered (vx p)).
      { destruct H as [[Hn _]|(a' & p & [->|Hin] & Ep & Hn)].
        - destruct (Hn (vx q)). congruence.
        - rewrite Eq in Ep. injection Ep as ->. destruct (Hn (vx mv)). congruence.
        - eauto. }
      assert (G : forall mi' mv', lowest_loop get rest (Datatypes.S i) mi' mv' = Fail InvalidData) by (intros; apply IH; auto; intros; apply Hg; right; auto).
      destruct c; auto. destruct (sltb _ _); auto.
  Qed.
  Lemma find_lowest_nan (pts : list V) p : (2 <= length pts)%nat -> In p pts -> unordered (vx p) -> find_lowest_x pts = Fail InvalidData.
  Proof.
    intros Hl Hin Hu. destruct pts as [|v t]; [destruct Hin|]. unfold find_lowest_x. apply lowest_nan.
    - eauto.
    - destruct Hin as [->|Hin]; [left; split; auto; intros ->; cbn in Hl; lia|right; eauto].
  Qed.
  Lemma drop_nan (pts : list V) p : In p pts -> unordered (vx p) -> In p (drop_loop_point pts).
  Proof.
    intros Hin Hu. destruct pts as [|v t]; [destruct Hin|]. unfold drop_loop_point. destruct (veqb v _) eqn:E; auto.
    destruct Hin as [->|Hin]; auto. exfalso. unfold veqb in E. apply andb_true_iff in E as [E _].
    destruct (Hu (vx (last (p :: t) p))) as [H _]. apply spcmp_eq in H. congruence.
  Qed.
  Lemma drop_length (pts : list V) : (length pts - 1 <= length (drop_loop_point pts))%nat.
  Proof. destruct pts as [|v t]; auto. unfold drop_loop_point. destruct (veqb _ _); cbn; lia. Qed.
  Lemma nan_rejected fuel (pts : list V) p : (5 <= length pts)%nat -> In p pts -> unordered (vx p) ->
    gift_wrap fuel pts = Fail InvalidData /\ (forall r, graham_scan pts r -> r = Fail InvalidData) /\
    (forall r, graham_scan_wo_atan2 pts r -> r = Fail InvalidData).
  Proof.
    intros Hl Hin Hu. pose proof (drop_length pts) as Hd. pose proof (drop_nan pts p Hin Hu) as Hin'.
    assert (Hf : find_lowest_x (drop_loop_point pts) = Fail InvalidData) by (eapply find_lowest_nan; eauto; lia). split; [|split].
    - unfold gift_wrap. destruct pts as [|v t] eqn:E; [destruct Hin|]. rewrite <- E in *.
      destruct (drop_loop_point pts) as [|a [|b [|c [|d r]]]]; try (cbn in Hd; lia). cbn [length Nat.leb]. rewrite Hf. auto.
    - intros r H. destruct H as [->|Hne H|a b c H|e H He|i start sorted H He Hs].
      + cbn in Hl. lia.
      + lia.
      + rewrite H in Hd. cbn in Hd. lia.
      + congruence.
      + congruence.
    - intros r H. destruct H as [->|Hne H|a b c H|e H He|i start b c H He Hb Hc Hn|i start sorted H He Hs rv].
      + cbn in Hl. lia.
      + lia.
      + rewrite H in Hd. cbn in Hd. lia.
      + congruence.
      + congruence.
      + congruence.
  Qed.
End NaN.

(* ---- the first index of the parallel hull ---- *)
Section ParHead.
  Context {S : Scalar}.
  Variable vertices : list (V2 S).
  Local Open Scope nat_scope.
  Lemma fold_hd fuel (Q : nat -> Prop) (s : nat) : (forall i, Q i -> i < length vertices) -> forall (l : list (list nat)) acc,
    (forall c i, In c l -> In i c -> Q i) -> safe (fun r => hd_error r = Some s /\ (forall i, In i r -> Q i)) acc ->
    safe (fun r => hd_error r = Some s /\ forall i, In i r -> Q i) (fold_left (fun acc x => let* a := acc in combine_hulls fuel vertices a x) l acc).
  Proof.
    intros HQ. induction l as [|c l IH]; intros acc Hl Hacc; [exact Hacc|]. cbn [fold_left]. apply IH.
    - intros c' i Hc Hi. apply (Hl c' i); auto. right; auto.
    - eapply safe_bind; [exact Hacc|]. intros a [Hh Ha]. eapply safe_impl; [apply combine_hulls_safe|].
      + intros i [Hi|Hi]; apply HQ; auto. apply (Hl c i); auto. left; auto.
      + cbn. intros r [Hr Hr2]. split; [rewrite Hr2; auto; destruct a; discriminate|].
        intros i Hi. apply Hr in Hi. apply in_app_iff in Hi as [Hi|Hi]; auto. apply (Hl c i); auto. left; auto.
  Qed.
  Lemma reduce_hd fuel (Q : nat -> Prop) start : (forall i, Q i -> i < length vertices) -> Q start -> forall t : tree (list nat),
    (forall c i, In c (leaves t) -> In i c -> Q i) ->
    safe (fun r => hd_error r = Some start /\ forall i, In i r -> Q i) (reduce (combine_hulls fuel vertices) [start] t).
  Proof.
    intros HQ Hs. induction t as [items|l IHl r IHr]; intros Hl; cbn [reduce].
    - apply fold_hd; auto. cbn. split; auto. intros i [<-|[]]; auto.
    - cbn [leaves] in Hl. eapply safe_bind; [apply IHl; intros; eapply Hl; eauto; apply in_or_app; auto|]. intros a [Hh Ha].
      eapply safe_bind; [apply IHr; intros; eapply Hl; eauto; apply in_or_app; auto|]. intros b [_ Hb].
      eapply safe_impl; [apply combine_hulls_safe|].
      + intros i [Hi|Hi]; apply HQ; auto.
      + cbn. intros r' [Hr Hr2]. split; [rewrite Hr2; auto; destruct a; discriminate|].
        intros i Hi. apply Hr in Hi. apply in_app_iff in Hi as [Hi|Hi]; auto.
  Qed.
  Lemma par_closed fuel indices chunk out : Forall (fun i => i < length vertices) indices -> 3 < length (drop_loop_index indices) ->
    convex_hull_par fuel vertices indices chunk (Val out) -> exists a, hd_error out = Some a /\ last out a = a.
  Proof.
    intros Hv Hl H. rewrite Forall_forall in Hv. pose proof (drop_index_incl indices) as Hd.
    assert (Hll : length (drop_loop_index indices) <= length indices).
    { unfold drop_loop_index. destruct indices as [|i0 t]; auto. destruct (Nat.eqb _ _); auto. rewrite removelast_firstn_len, firstn_length. lia. }
    remember (Val out) as r eqn:Er. destruct H as [H|a b c H1 H|H H0|e H H0 He|H H0 He|start results t H H0 inds cs Hst Hres Ht]; try discriminate.
    - exfalso. lia.
    - rewrite H in Hl. cbn in Hl. lia.
    - assert (Hcs : forall c i, In c cs -> In i c -> In i indices) by (intros c i Hc Hi; apply chunks_incl in Hc; auto).
      pose proof (par_start_safe vertices cs (fun i => In i indices) Hv Hcs) as P. rewrite Hst in P. cbn in P.
      assert (R : safe (fun r => hd_error r = Some start /\ forall i, In i r -> In i indices) (reduce (combine_hulls fuel vertices) [start] t)).
      { apply reduce_hd; auto. rewrite Ht. intros c i Hc Hi. clear - Hres Hc Hi Hcs Hv. revert Hcs. induction Hres as [|c0 r0 cs rs Hr H IH]; [destruct Hc|]. intros Hcs. destruct Hc as [<-|Hc].
        * apply (indexed_graham_safe vertices) in Hr as [_ Hr]; [|apply Forall_forall; intros; apply Hv; eapply Hcs; eauto; left; auto|discriminate].
          cbn in Hr. apply (Hcs c0); [left; auto|auto].
        * apply IH; auto. intros c' i' Hc'. apply Hcs. right; auto. }
      destruct (reduce (combine_hulls fuel vertices) [start] t) as [h|e| |]; cbn in *; try discriminate. injection Er as <-.
      destruct R as [R _]. apply close_closed. destruct h; discriminate.
  Qed.
End ParHead.

(* ---- every call has some outcome: the sort always returns ---- *)
Section Exists.
  Lemma insert_sorted {A} (cmp : A -> A -> comparison) (a : A) : forall l, (forall b, In b l -> cmp a b = CompOpp (cmp b a)) ->
    Sorted (fun x y => cmp x y <> Gt \/ x = y) l ->
    exists l', Permutation (a :: l) l' /\ Sorted (fun x y => cmp x y <> Gt \/ x = y) l' /\ (exists t, l' = a :: t \/ (exists b t0, l = b :: t0 /\ l' = b :: t)).
  Proof.
    induction l as [|b l IH]; intros Ht Hs.
    - exists [a]. split; auto. split; [repeat constructor|]. exists []. auto.
    - destruct (cmp a b) eqn:E.
      + exists (a :: b :: l). split; auto. split; [constructor; auto; constructor; left; congruence|]. eexists; auto.
      + exists (a :: b :: l). split; auto. split; [constructor; auto; constructor; left; congruence|]. eexists; auto.
      + apply Sorted_inv in Hs as [Hs Hd]. destruct IH as (l' & Hp & Hs' & t & Ht'); auto; [intros; apply Ht; right; auto|].
        exists (b :: l'). split; [|split].
        * eapply perm_trans; [apply perm_swap|]. constructor. auto.
        * constructor; auto. destruct Ht' as [->|(c & t0 & -> & ->)]; constructor.
          -- left. pose proof (Ht b (or_introl eq_refl)) as K. rewrite E in K. destruct (cmp b a); cbn in K; congruence.
          -- apply HdRel_inv in Hd. auto.
        * exists l'. right. eauto.
  Qed.
  Lemma sort_exists {A} (cmp : A -> A -> comparison) : forall l, exists l', sort_result cmp l l'.
  Proof.
    intros l. destruct (Classical_Prop.classic (total_on cmp l)) as [[Ht _]|Hn]; [|exists l; split; [auto|intros; contradiction]].
    assert (G : forall l, (forall l1 a l2 b l3, l = l1 ++ a :: l2 ++ b :: l3 -> cmp a b = CompOpp (cmp b a)) ->
      exists l', Permutation l l' /\ Sorted (fun x y => cmp x y <> Gt \/ x = y) l').
    { clear. induction l as [|a l IH]; intros H; [exists []; auto|].
      destruct IH as (l' & Hp & Hs). { intros l1 x l2 y l3 E. apply (H (a :: l1) x l2 y l3). rewrite E. auto. }
      destruct (insert_sorted cmp a l') as (l'' & Hp' & Hs' & _); auto.
      - intros b Hb. eapply Permutation_in in Hb; [|symmetry; exact Hp]. apply in_split in Hb as (l1 & l2 & ->). apply (H [] a l1 b l2). auto.
      - exists l''. split; auto. eapply perm_trans; [|exact Hp']. auto. }
    destruct (G l Ht) as (l' & Hp & Hs). exists l'. split; auto.
  Qed.
  Lemma find_lowest_total {S : Scalar} (pts : list (V2 S)) : exists r, find_lowest_x pts = r /\ r <> Panic /\ r <> NoFuel.
  Proof.
    exists (find_lowest_x pts). split; auto. unfold find_lowest_x. destruct pts as [|v t]; [split; discriminate|].
    assert (G : forall i k m, lowest_loop (fun p : V2 S => Val p) t i k m <> Panic /\ lowest_loop (fun p : V2 S => Val p) t i k m <> NoFuel); [|apply G].
    induction t as [|p t IH]; intros i k m; cbn [lowest_loop obind]; [split; discriminate|].
    destruct (spcmp _ _) as [[]|]; [destruct (sltb _ _)| | |split; discriminate]; apply IH; (cbn; lia) || discriminate || auto.
  Qed.
  Lemma graham_scan_total {S : Scalar} (pts : list (V2 S)) : exists r, graham_scan pts r.
  Proof.
    destruct pts as [|v t] eqn:E; [eexists; apply gs_nil; auto|]. rewrite <- E. assert (pts <> []) by congruence.
    destruct (le_lt_dec (length (drop_loop_point pts)) 2) as [H1|H1]; [eexists; apply gs_small; auto|].
    destruct (le_lt_dec (length (drop_loop_point pts)) 3) as [H3|H3].
    - destruct (drop_loop_point pts) as [|a [|b [|c [|d r]]]] eqn:Ed; cbn in H1, H3; try lia. eexists. apply (gs_three pts a b c). auto.
    - destruct (find_lowest_total (drop_loop_point pts)) as ([[i s]|e| |] & E1 & E2 & E3); try congruence.
      + destruct (sort_exists (@key_cmp S (V2 S)) (map (keyed (fun p => p) s) (drop_loop_point pts))) as (l & Hl).
        eexists. eapply gs_scan; eauto.
      + eexists. eapply gs_error; eauto.
  Qed.
  Lemma wo_total {S : Scalar} (pts : list (V2 S)) : exists r, graham_scan_wo_atan2 pts r.
  Proof.
    destruct pts as [|v t] eqn:E; [eexists; apply wo_nil; auto|]. rewrite <- E. assert (pts <> []) by congruence.
    destruct (le_lt_dec (length (drop_loop_point pts)) 2) as [H1|H1]; [eexists; apply wo_small; auto|].
    destruct (le_lt_dec (length (drop_loop_point pts)) 3) as [H3|H3].
    - destruct (drop_loop_point pts) as [|a [|b [|c [|d r]]]] eqn:Ed; cbn in H1, H3; try lia. eexists. apply (wo_three pts a b c). auto.
    - destruct (find_lowest_total (drop_loop_point pts)) as ([[i s]|e| |] & E1 & E2 & E3); try congruence.
      + destruct (sort_exists (fun b c => match wo_cmp s b c with Some o => o | None => Eq end) (drop_loop_point pts)) as (l & Hl).
        eexists. eapply wo_scan; eauto.
      + eexists. eapply wo_error; eauto.
  Qed.
  Lemma indexed_graham_total {S : Scalar} (vs : list (V2 S)) is st : exists r, indexed_graham_no_loop vs is st r.
  Proof.
    destruct (le_lt_dec (length is) 1) as [H0|H0]; [eexists; apply ig_small; auto|].
    destruct (le_lt_dec (length (drop_loop_index is)) 2) as [H1|H1]; [eexists; apply ig_small; auto|].
    destruct (le_lt_dec (length (drop_loop_index is)) 3) as [H3|H3].
    - destruct (drop_loop_index is) as [|a [|b [|c [|d r]]]] eqn:Ed; cbn in H1, H3; try lia. eexists. apply (ig_three vs is st a b c); auto.
    - set (find := match st with
                  | Some i => let* p := idx vs i in Val (i, p)
                  | None => let* (ii, p) := indexed_find_lowest_x vs (drop_loop_index is) in let* i := idx (drop_loop_index is) ii in Val (i, p)
                  end).
      assert (Hs : exists sorted, forall si sp pts, find = Val (si, sp) -> mapM (idx vs) (drop_loop_index is) = Val pts ->
         sort_result key_cmp (map (keyed snd sp) (combine (drop_loop_index is) pts)) sorted).
      { destruct find as [[si sp]|e| |]; try (exists []; intros; discriminate).
        destruct (mapM (idx vs) (drop_loop_index is)) as [pts|e| |]; try (exists []; intros; discriminate).
        destruct (sort_exists key_cmp (map (keyed snd sp) (combine (drop_loop_index is) pts))) as (l & Hl). exists l. intros si' sp' pts' E1 E2. congruence. }
      destruct Hs as (sorted & Hs). eexists. apply (ig_scan vs is st sorted); auto.
  Qed.
End Exists.
