(* Facts about the hull functions that hold for every scalar (NaN included). *)
From Coq Require Import Sorting.Permutation.
From Verif Require Import Prelude Scalar Geo2 Hull.

(* returns a value satisfying P, or an error, or runs out of fuel: no panic *)
Definition safe {A} (P : A -> Prop) (o : outcome A) : Prop := match o with Val a => P a | Fail _ => True | NoFuel => True | Panic => False end.
Lemma safe_bind {A B} (P : A -> Prop) (Q : B -> Prop) o f : safe P o -> (forall a, P a -> safe Q (f a)) -> safe Q (obind o f).
Proof. destruct o; cbn; auto; intros []. Qed.
Lemma safe_impl {A} (P Q : A -> Prop) o : safe P o -> (forall a, P a -> Q a) -> safe Q o.
Proof. destruct o; cbn; auto. Qed.
Lemma safe_idx {A} (l : list A) i : i < length l -> safe (fun a => nth_error l i = Some a) (idx l i).
Proof. intros H. destruct (idx_in_range l i H) as (a & E). rewrite E. cbn. unfold idx in E. destruct (nth_error l i); congruence. Qed.
Lemma safe_mapM {A B} (f : A -> outcome B) (R : A -> B -> Prop) : forall l, (forall a, In a l -> safe (R a) (f a)) -> safe (fun bs => Forall2 R l bs) (mapM f l).
Proof.
  induction l as [|a l IH]; intros H; cbn; [constructor|].
  eapply safe_bind; [apply H; left; auto|]. intros b Hb. eapply safe_bind; [apply IH; intros; apply H; right; auto|].
  intros bs Hbs. cbn. constructor; auto.
Qed.

Section Any.
  Context {S : Scalar}.
  Notation V := (V2 S).

  Lemma pop_incl {A} (pos : A -> V) p : forall h, incl (pop_right pos h p) h.
  Proof.
    induction h as [|t h IH]; [apply incl_refl|]. destruct h as [|u h]; [apply incl_refl|].
    cbn [pop_right] in *. destruct (sltb _ _ || sulps _ _)%bool; [apply incl_tl; auto|apply incl_refl].
  Qed.
  Lemma graham_incl {A} (pos : A -> V) skip : forall l h, incl (graham_loop pos skip l h) (h ++ l).
  Proof.
    induction l as [|a l IH]; intros h; cbn [graham_loop].
    - rewrite app_nil_r. apply incl_refl.
    - destruct (skip a).
      + intros x Hx. apply IH in Hx. apply in_app_iff in Hx. apply in_or_app. cbn. tauto.
      + intros x Hx. apply IH in Hx. cbn [app] in Hx. destruct Hx as [<-|Hx]; [apply in_or_app; cbn; auto|].
        apply in_app_iff in Hx as [Hx|Hx]; [apply pop_incl in Hx|]; apply in_or_app; cbn; auto.
  Qed.
  Lemma wo_incl : forall l (h : list V), incl (wo_loop l h) (h ++ l).
  Proof.
    induction l as [|a l IH]; intros h; cbn [wo_loop].
    - rewrite app_nil_r. apply incl_refl.
    - intros x Hx. apply IH in Hx. apply in_app_iff in Hx as [Hx|Hx]; [|apply in_or_app; cbn; auto].
      assert (Hp := pop_incl (fun p => p) a h). destruct (pop_right (fun p => p) h a) as [|t r].
      + destruct Hx as [<-|[]]. apply in_or_app; cbn; auto.
      + destruct (negb (veqb t a)); [destruct Hx as [<-|Hx]; [apply in_or_app; cbn; auto|]|]; apply in_or_app; left; auto.
  Qed.
  Lemma close_incl {A} (l : list A) : incl (close_loop l) l.
  Proof. destruct l as [|a [|b r]]; try apply incl_refl. cbn. intros x Hx. apply (in_app_iff (a :: b :: r)) in Hx as [Hx|[<-|[]]]; cbn; auto. Qed.
  Lemma drop_point_incl (l : list V) : incl (drop_loop_point l) l.
  Proof. destruct l as [|v t]; [apply incl_refl|]. unfold drop_loop_point. destruct (veqb _ _); [apply incl_tl|]; apply incl_refl. Qed.
  Lemma removelast_incl {A} : forall l : list A, incl (removelast l) l.
  Proof.
    induction l as [|a l IH]; [apply incl_refl|]. destruct l as [|b l]; [intros x []|].
    change (removelast (a :: b :: l)) with (a :: removelast (b :: l)). intros x [<-|Hx]; [left; auto|right; apply IH; auto].
  Qed.
  Lemma drop_index_incl (l : list nat) : incl (drop_loop_index l) l.
  Proof. destruct l as [|v t]; [apply incl_refl|]. unfold drop_loop_index. destruct (Nat.eqb _ _); [apply removelast_incl|apply incl_refl]. Qed.
  Lemma ccw3_incl {A} b (x y z : A) : incl (ccw3 b x y z) [x; y; z].
  Proof. destruct b; cbn; intros w Hw; cbn in *; tauto. Qed.

  (* the lowest point is one of the points read *)
  Lemma lowest_safe {A} (get : A -> outcome V) (Q : nat -> V -> Prop) : forall rest i mi mv, Q mi mv ->
    (forall k a, nth_error rest k = Some a -> safe (fun p => Q (i + k) p) (get a)) ->
    safe (fun r => Q (fst r) (snd r)) (lowest_loop get rest i mi mv).
  Proof.
    induction rest as [|a rest IH]; intros i mi mv H0 Hg; cbn [lowest_loop]; [exact H0|].
    apply safe_bind with (P := fun p => Q i p).
    - specialize (Hg 0 a eq_refl). rewrite Nat.add_0_r in Hg. auto.
    - intros p Hp. assert (Hr : forall k b, nth_error rest k = Some b -> safe (fun q => Q (Datatypes.S i + k) q) (get b)).
      { intros k b Hk. replace (Datatypes.S i + k) with (i + Datatypes.S k) by lia. apply Hg. auto. }
      destruct (spcmp _ _) as [[]|]; auto; [|exact I]. destruct (sltb _ _); apply IH; auto.
  Qed.
  Lemma find_lowest_safe (pts : list V) : safe (fun r => nth_error pts (fst r) = Some (snd r)) (find_lowest_x pts).
  Proof.
    destruct pts as [|v t]; [exact I|]. apply (lowest_safe _ (fun k p => nth_error (v :: t) k = Some p)); auto.
  Qed.
  Lemma indexed_lowest_safe (vs : list V) (is : list nat) : Forall (fun i => i < length vs) is ->
    safe (fun r => exists i, nth_error is (fst r) = Some i /\ nth_error vs i = Some (snd r)) (indexed_find_lowest_x vs is).
  Proof.
    intros Hv. unfold indexed_find_lowest_x. destruct vs as [|v0 vs0] eqn:Evs; [exact I|]. rewrite <- Evs in *. clear Evs.
    destruct is as [|i0 t]; [exact I|]. rewrite Forall_forall in Hv.
    eapply safe_bind; [apply safe_idx, Hv; left; auto|]. intros p Hp.
    apply (lowest_safe _ (fun k p => exists i, nth_error (i0 :: t) k = Some i /\ nth_error vs i = Some p)).
    - exists i0. auto.
    - intros k a Hk. eapply safe_impl; [apply safe_idx, Hv; right; eapply nth_error_In; eauto|]. intros q Hq. exists a. auto.
  Qed.

  (* ---- gift wrapping ---- *)
  Lemma candidate_safe (pts : list V) start cur e visited j : cur < length pts -> e < length pts -> j < length pts -> length visited = length pts ->
    safe (fun st => fst st < length pts /\ length (snd st) = length pts) (gift_candidate pts start cur (e, visited) j).
  Proof.
    intros Hc He Hj Hv. unfold gift_candidate. destruct (_ || _)%bool; [cbn; auto|].
    eapply safe_bind; [apply safe_idx; lia|]. intros [] _; [cbn; auto|].
    eapply safe_bind; [apply safe_idx; lia|]. intros pc _. eapply safe_bind; [apply safe_idx; lia|]. intros pe _.
    eapply safe_bind; [apply safe_idx; lia|]. intros pj _.
    destruct (point_orientation pc pe pj); [cbn; auto|cbn; auto|]. destruct (sltb _ _); [cbn; auto|].
    destruct (negb _); cbn; auto. rewrite set_nth_length. auto.
  Qed.
  Lemma inner_safe (pts : list V) start cur : cur < length pts -> forall js e visited, (forall j, In j js -> j < length pts) -> e < length pts -> length visited = length pts ->
    safe (fun st => fst st < length pts /\ length (snd st) = length pts) (gift_inner pts start cur js (e, visited)).
  Proof.
    intros Hc. induction js as [|j js IH]; intros e visited Hj He Hv; [cbn; auto|]. cbn [gift_inner].
    eapply safe_bind; [apply candidate_safe; auto; apply Hj; left; auto|]. intros [e' v'] [H1 H2]. apply IH; auto. intros; apply Hj; right; auto.
  Qed.
  Lemma gift_loop_safe (pts : list V) start : forall fuel cur visited H, cur < length pts -> length visited = length pts -> Forall (fun i => i < length pts) H ->
    safe (Forall (fun i => i < length pts)) (gift_loop fuel pts start cur visited H).
  Proof.
    induction fuel as [|fuel IH]; intros cur visited H Hc Hv HH; [exact I|]. cbn [gift_loop].
    eapply safe_bind.
    - apply (inner_safe pts start cur Hc (seq 0 (length pts))).
      + intros j Hj. apply in_seq in Hj. lia.
      + apply Nat.mod_upper_bound. lia.
      + destruct (negb _); auto. rewrite set_nth_length. auto.
    - intros [e v] [He Hv']. cbn in He, Hv'. assert (HH' : Forall (fun i => i < length pts) (H ++ [cur])) by (apply Forall_app; auto).
      destruct (Nat.eqb e start); [exact HH'|]. apply IH; auto.
  Qed.

  Lemma mapM_idx_incl {A} (l : list A) : forall is, Forall (fun i => i < length l) is -> safe (fun vs => incl vs l /\ length vs = length is) (mapM (idx l) is).
  Proof.
    intros is H. rewrite Forall_forall in H. eapply safe_impl; [apply (safe_mapM (idx l) (fun i a => nth_error l i = Some a)); intros; apply safe_idx; auto|].
    intros bs Hb. split; [|clear H; induction Hb; cbn; auto]. intros x Hx. clear H.
    induction Hb as [|i a is' bs Hi Hb IH]; [destruct Hx|]. destruct Hx as [<-|Hx]; auto. eapply nth_error_In; eauto.
  Qed.

  Lemma gift_wrap_safe fuel (pts : list V) : safe (fun vs => incl vs pts) (gift_wrap fuel pts).
  Proof.
    unfold gift_wrap. destruct pts as [|p0 pts0] eqn:Ep; [cbn; apply incl_refl|]. rewrite <- Ep. clear Ep.
    pose proof (drop_point_incl pts) as Hi. set (ps := drop_loop_point pts) in *. clearbody ps.
    assert (G : safe (fun vs => incl vs pts) (let* (start, _) := find_lowest_x ps in
              let* hull := gift_loop fuel ps start start (repeat false (length ps)) [] in mapM (idx ps) (hull ++ [start]))).
    { eapply safe_bind; [apply find_lowest_safe|]. intros [k p] Hk. cbn in Hk. assert (k < length ps) by (apply nth_error_Some; congruence).
      eapply safe_bind; [apply gift_loop_safe; auto; [rewrite repeat_length; auto]|]. intros hl HH.
      eapply safe_impl; [apply mapM_idx_incl; apply Forall_app; auto|]. intros vs [Hv _]. eapply incl_tran; eauto. }
    destruct ps as [|a [|b [|c [|d t]]]]; try (cbn; exact Hi).
    - cbn. eapply incl_tran; [apply ccw3_incl|auto].
    - exact G.
  Qed.
  Lemma triangle_safe (vs : list V) a b c : a < length vs -> b < length vs -> c < length vs -> safe (fun r => incl r [a; b; c]) (index_triangle vs a b c).
  Proof.
    intros Ha Hb Hc. unfold index_triangle. eapply safe_bind; [apply safe_idx; auto|]. intros ? _.
    eapply safe_bind; [apply safe_idx; auto|]. intros ? _. eapply safe_bind; [apply safe_idx; auto|]. intros ? _. apply ccw3_incl.
  Qed.
  Lemma safe_omap {A B} (f : A -> B) (P : B -> Prop) o : safe (fun a => P (f a)) o -> safe P (omap f o).
  Proof. destruct o; auto. Qed.
  Lemma indexed_gift_safe fuel (vs : list V) (is : list nat) : Forall (fun i => i < length vs) is ->
    safe (fun r => incl r is) (indexed_gift_wrap_no_loop fuel vs is).
  Proof.
    intros Hv. unfold indexed_gift_wrap_no_loop. destruct (Nat.leb (length is) 1); [cbn; apply incl_refl|].
    pose proof (drop_index_incl is) as Hi. set (ds := drop_loop_index is) in *. clearbody ds.
    assert (Hv' : Forall (fun i => i < length vs) ds) by (apply Forall_forall; intros x Hx; rewrite Forall_forall in Hv; auto).
    assert (G : safe (fun r => incl r is) (let* (start, _) := indexed_find_lowest_x vs ds in
            let* pts := mapM (idx vs) ds in
            let* hull := gift_loop fuel pts start start (repeat false (length pts)) [] in mapM (idx ds) hull)).
    { eapply safe_bind; [apply indexed_lowest_safe; auto|]. intros [k p] (i & Hk & _). cbn in Hk.
      eapply safe_bind; [apply mapM_idx_incl; auto|]. intros pts [_ Hl].
      assert (k < length pts) by (rewrite Hl; apply nth_error_Some; congruence).
      eapply safe_bind; [apply gift_loop_safe; auto; [rewrite repeat_length; auto]|]. intros hl HH. rewrite Hl in HH.
      eapply safe_impl; [apply mapM_idx_incl; auto|]. intros r [Hr _]. eapply incl_tran; eauto. }
    destruct ds as [|a [|b [|c [|d t]]]]; try (cbn; exact Hi); [|exact G].
    rewrite Forall_forall in Hv'. eapply safe_impl; [apply triangle_safe; apply Hv'; cbn; auto|].
    intros r Hr. apply incl_tran with [a; b; c]; auto.
  Qed.
  Lemma indexed_gift_wrap_safe fuel (vs : list V) is : Forall (fun i => i < length vs) is -> safe (fun r => incl r is) (indexed_gift_wrap fuel vs is).
  Proof.
    intros H. apply safe_omap. eapply safe_impl; [apply indexed_gift_safe; auto|]. intros r Hr. eapply incl_tran; [apply close_incl|auto].
  Qed.

  (* ---- Graham scans ---- *)
  Lemma unkey_perm {A} (pos : A -> V) start l sorted : Permutation (map (keyed pos start) l) sorted -> incl (map unkey sorted) l.
  Proof.
    intros H x Hx. apply in_map_iff in Hx as (y & <- & Hy). apply (Permutation_in _ (Permutation_sym H)) in Hy.
    apply in_map_iff in Hy as (z & <- & Hz). auto.
  Qed.
  Lemma graham_scan_safe (pts : list V) r : graham_scan pts r -> r <> NoFuel /\ safe (fun vs => incl vs pts) r.
  Proof.
    intros H. pose proof (drop_point_incl pts) as Hd.
    destruct H as [->|Hne H|a b c H|e H He|i start sorted H Hf [Hs _]]; (split; [discriminate|]).
    - cbn. apply incl_refl.
    - exact Hd.
    - cbn. rewrite H in Hd. eapply incl_tran; [apply ccw3_incl|auto].
    - exact I.
    - cbn. pose proof (find_lowest_safe (drop_loop_point pts)) as Hl. rewrite Hf in Hl. cbn in Hl. apply nth_error_In in Hl.
      eapply incl_tran; [apply close_incl|]. intros x Hx. apply in_rev in Hx. apply graham_incl in Hx.
      apply in_app_iff in Hx as [[<-|[]]|Hx]; auto. apply Hd. eapply unkey_perm; eauto.
  Qed.
  Lemma wo_safe (pts : list V) r : graham_scan_wo_atan2 pts r ->
    match r with Val vs => incl vs pts | Fail _ => True | NoFuel => False | Panic => exists a b c, In a pts /\ In b pts /\ In c pts /\ spcmp s0 (cross_2d a b c) = None end.
  Proof.
    intros H. pose proof (drop_point_incl pts) as Hd.
    destruct H as [->|Hne H|a b c H|e H He|i start b c H Hf Hb Hc Hn|i start sorted H Hf [Hs _] rv].
    - apply incl_refl.
    - exact Hd.
    - rewrite H in Hd. eapply incl_tran; [apply ccw3_incl|auto].
    - exact I.
    - pose proof (find_lowest_safe (drop_loop_point pts)) as Hl. rewrite Hf in Hl. cbn in Hl. apply nth_error_In in Hl.
      exists start, b, c. repeat split; auto. unfold wo_cmp in Hn. destruct (spcmp s0 (cross_2d start b c)) as [[]|]; auto; try discriminate.
      destruct (sltb _ _); discriminate.
    - pose proof (find_lowest_safe (drop_loop_point pts)) as Hl. rewrite Hf in Hl. cbn in Hl. apply nth_error_In in Hl.
      assert (Hrv : incl rv pts).
      { intros x Hx. unfold rv in Hx. apply in_rev in Hx. apply wo_incl in Hx. apply in_app_iff in Hx as [[<-|[]]|Hx]; auto.
        apply Hd. eapply Permutation_in; [apply Permutation_sym; eauto|auto]. }
      destruct (negb (is_connected rv)); auto. destruct rv as [|a t]; auto. intros x Hx. apply in_app_iff in Hx as [Hx|[<-|[]]]; auto. apply Hrv. left; auto.
  Qed.
  Lemma indexed_graham_safe (vs : list V) is st r : Forall (fun i => i < length vs) is -> (forall i, st = Some i -> In i is) ->
    indexed_graham_no_loop vs is st r -> r <> NoFuel /\ safe (fun r => incl r is) r.
  Proof.
    intros Hv Hst H. pose proof (drop_index_incl is) as Hd.
    assert (Hv' : Forall (fun i => i < length vs) (drop_loop_index is)) by (apply Forall_forall; intros x Hx; rewrite Forall_forall in Hv; auto).
    destruct H as [H|a b c H1 H|sorted H inds find Hs].
    - split; [discriminate|]. cbn. destruct (Nat.leb _ _); auto. apply incl_refl.
    - rewrite H in Hv', Hd. rewrite Forall_forall in Hv'.
      pose proof (triangle_safe vs a b c (Hv' a ltac:(cbn; auto)) (Hv' b ltac:(cbn; auto)) (Hv' c ltac:(cbn; auto))) as T.
      split; [|eapply safe_impl; [exact T|intros r Hr; apply incl_tran with [a; b; c]; auto]].
      unfold index_triangle in *. destruct (idx vs a) eqn:Ea; cbn in *; try discriminate; try (unfold idx in Ea; destruct (nth_error vs a); discriminate).
      destruct (idx vs b) eqn:Eb; cbn in *; try discriminate; try (unfold idx in Eb; destruct (nth_error vs b); discriminate).
      destruct (idx vs c) eqn:Ec; cbn in *; try discriminate; try (unfold idx in Ec; destruct (nth_error vs c); discriminate).
    - assert (Hf : safe (fun r => In (fst r) is) find /\ find <> NoFuel).
      { unfold find. destruct st as [i|].
        - specialize (Hst i eq_refl). rewrite Forall_forall in Hv. destruct (idx_in_range vs i (Hv i Hst)) as (p & ->). cbn. split; [auto|discriminate].
        - pose proof (indexed_lowest_safe vs inds Hv') as L. destruct (indexed_find_lowest_x vs inds) as [[k p]|e| |] eqn:E; cbn in *; try tauto.
          + destruct L as (i & Hk & _). unfold idx. rewrite Hk. cbn. split; [|discriminate]. apply Hd. eapply nth_error_In; eauto.
          + split; auto. discriminate.
          + exfalso. clear - E. unfold indexed_find_lowest_x in E. destruct vs as [|v vs0] eqn:Ev; [discriminate|]. rewrite <- Ev in E. destruct inds as [|i0 t]; [discriminate|].
            assert (G : forall rest i mi mv, lowest_loop (idx vs) rest i mi mv <> NoFuel).
            { induction rest as [|a rest IH]; intros; cbn; [discriminate|]. unfold idx at 1. destruct (nth_error vs a); cbn; [|discriminate].
              destruct (spcmp _ _) as [[]|]; try apply IH; [destruct (sltb _ _); apply IH|discriminate]. }
            unfold idx at 1 in E. destruct (nth_error vs i0); cbn in E; [|discriminate]. eapply G; eauto. }
      destruct Hf as [Hf Hnf]. clearbody find. pose proof (mapM_idx_incl vs inds Hv') as Hm.
      destruct find as [[si sp]|e| |]; cbn in *; try tauto; [|split; [discriminate|auto]].
      destruct (mapM (idx vs) inds) as [pts|e| |] eqn:Em; cbn in *; try tauto; [|split; [discriminate|auto]|].
      + split; [discriminate|]. destruct (Hs si sp pts eq_refl eq_refl) as [Hp _]. intros x Hx. apply in_map_iff in Hx as ([j q] & <- & Hx). cbn.
        apply in_rev in Hx. apply graham_incl in Hx. apply in_app_iff in Hx as [[E|[]]|Hx]; [injection E as <- <-; auto|].
        eapply unkey_perm in Hx; [|exact Hp]. apply in_combine_l in Hx. auto.
      + exfalso. clear - Em. revert Em. generalize inds. induction inds0 as [|i l IH]; cbn; [discriminate|]. unfold idx at 1. destruct (nth_error vs i); cbn; [|discriminate].
        destruct (mapM (idx vs) l); cbn; try discriminate. auto.
  Qed.
End Any.
