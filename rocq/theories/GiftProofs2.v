(* Gift wrapping: from the loop to the returned list; the indexed variants. *)
From Coq Require Import Reals Lra Psatz.
From Verif Require Import Prelude Scalar RInst Geo2 GeoSpec DistR HullSpec HullGeo Hull GrahamProofs GrahamProofs2 GrahamProofs3 HullUniq GiftProofs.
Local Open Scope R_scope.

Lemma combine_map2 {A B} (f : A -> B) : forall l m, combine (map f l) (map f m) = map (fun e => (f (fst e), f (snd e))) (combine l m).
Proof. induction l as [|a l IH]; intros [|b m]; auto. cbn. rewrite IH. auto. Qed.
Lemma edges_map {A B} (f : A -> B) l : edges (map f l) = map (fun e => (f (fst e), f (snd e))) (edges l).
Proof. destruct l as [|v t]; auto. unfold edges. rewrite <- combine_map2, map_app. auto. Qed.

Lemma lex_corner (pts : list pt) s : (forall r, In r pts -> lex_le s r) -> corner pts s.
Proof. intros H. exists 0, (-1). split; [lra|]. intros r Hr Hn. apply lex_ahead; auto. Qed.

Section Result.
  Variable pts : list pt.
  Hypothesis Hux : forall i j p, nth_error pts i = Some p -> nth_error pts j = Some p -> corner pts p -> i = j.

  Lemma cycle_hull start s R : at_ pts start s -> (forall r, In r pts -> lex_le s r) ->
    NoDup R -> (2 <= length R)%nat -> hd start R = start -> chain pts R -> (forall i, In i R -> iext pts i) -> iedge pts (last R start) start ->
    exists P, mapM (idx pts) R = Val P /\ hull_result pts (P ++ [s]) /\ hd s P = s.
  Proof.
    intros Hs Hlex HR Hl Hhd Hch Hx Hcl. set (get := fun i => nth i pts s).
    assert (Hget : forall i p, at_ pts i p -> get i = p).
    { intros i p Hi. unfold get. apply nth_error_nth. auto. }
    assert (Hm : forall l, (forall i, In i l -> iext pts i) -> mapM (idx pts) l = Val (map get l)).
    { induction l as [|i l IH]; intros Hl'; auto. cbn [mapM map]. destruct (Hl' i) as (p & Hp & _); [left; auto|].
      rewrite (Hget i p Hp). unfold idx, at_ in *. rewrite Hp. cbn [obind]. rewrite IH by (intros; apply Hl'; right; auto). auto. }
    assert (Hedges : forall i j, In (i, j) (edges R) -> gedge pts (get i) (get j)).
    { intros i j H. assert (G : iedge pts i j).
      { destruct R as [|v t]; [destruct H|]. cbn in Hhd. subst v. apply edges_In in H as [(X & Y & E)|[-> ->]]; [eapply Hch; eauto|auto]. }
      destruct G as (p & q & Hp & Hq & G). rewrite (Hget _ _ Hp), (Hget _ _ Hq). auto. }
    assert (Hin : forall i, In i R -> In (get i) pts /\ extreme pts (get i)).
    { intros i Hi. destruct (Hx i Hi) as (p & Hp & Hpx). rewrite (Hget _ _ Hp). split; [eapply nth_error_In; eauto|]. apply corner_extreme; auto. }
    assert (Hpe : forall a b, In (a, b) (edges (map get R)) -> gedge pts a b).
    { intros a b H. rewrite edges_map in H. apply in_map_iff in H as ([i j] & E & H). injection E as <- <-. auto. }
    assert (HndP : NoDup (map get R)).
    { clear - HR Hx Hget Hux. induction R as [|i R IH]; [constructor|]. inversion HR as [|? ? H1 H2]; subst. cbn [map]. constructor.
      - intros Hi. apply in_map_iff in Hi as (j & E & Hj). apply H1.
        destruct (Hx i) as (p & Hp & Hpx); [left; auto|]. destruct (Hx j) as (q & Hq & _); [right; auto|].
        rewrite (Hget _ _ Hp), (Hget _ _ Hq) in E. subst q. assert (i = j) by (eapply Hux; eauto). congruence.
      - apply IH; auto. intros; apply Hx; right; auto. }
    exists (map get R). split; [apply Hm; auto|]. assert (Hgs : get start = s) by (apply Hget; auto).
    destruct R as [|r0 [|r1 R]]; try (cbn in Hl; lia). cbn [hd] in Hhd. subst r0.
    split; [|cbn; auto].
    destruct R as [|r2 R].
    - (* a segment *)
      cbn [map app]. rewrite Hgs. assert (G1 : gedge pts s (get r1)) by (apply Hpe; cbn; rewrite Hgs; auto).
      assert (G2 : gedge pts (get r1) s) by (apply Hpe; cbn; rewrite Hgs; auto).
      apply hull_segment; [apply G1|eapply nth_error_In; eauto|apply Hin; right; left; auto| |auto].
      intros p Hp. destruct G1 as [Hn G1], G2 as [Hn' G2].
      assert (Ho : orient s (get r1) p = 0).
      { assert (L1 := gedge_left pts _ _ _ (conj Hn G1) Hp). assert (L2 := gedge_left pts _ _ _ (conj Hn' G2) Hp).
        rewrite orient_swap in L2. lra. }
      destruct (G1 p Hp) as [H|(k & Hk & E)]; [lra|]. destruct (G2 p Hp) as [H|(k' & Hk' & E')]; [rewrite orient_swap in H; lra|].
      exists k. split; auto. split; auto.
      assert (Ek : lerp (get r1) s k' = lerp s (get r1) (1 - k')) by (unfold lerp; apply V2_ext; cbn [vx vy]; pring).
      rewrite E', Ek in E. apply lerp_inj in E; auto. lra.
    - set (P := map get (start :: r1 :: r2 :: R)) in *. 
      assert (HP : P = s :: map get (r1 :: r2 :: R)) by (unfold P; cbn [map]; rewrite Hgs; auto).
      rewrite HP. apply hull_proper; auto. rewrite <- HP. split; [|split].
      + intros x Hxp. apply in_map_iff in Hxp as (i & <- & Hi). apply Hin. auto.
      + split; [unfold P; rewrite map_length; cbn; lia|]. split; auto.
        intros a b c He Hc Hca Hcb. assert (G := Hpe a b He). destruct G as [Hn G].
        apply in_map_iff in Hc as (i & <- & Hi). destruct (Hin i Hi) as [Hci Hcx]. set (c := get i) in *.
        assert (Ha : In a P) by (apply edges_In_vs in He; tauto). assert (Hb : In b P) by (apply edges_In_vs in He; tauto).
        apply in_map_iff in Ha as (ia & Ea & Hia). destruct (Hin ia Hia) as [Hai Hax]. rewrite Ea in Hai, Hax.
        apply in_map_iff in Hb as (ib & Eb & Hib). destruct (Hin ib Hib) as [Hbi Hbx]. rewrite Eb in Hbi, Hbx.
        destruct (G c Hci) as [H|(k & Hk & E)]; auto. exfalso.
        destruct (Rtotal_order k 0) as [Hk0|[->|Hk0]].
        * destruct (lerp_behind _ _ _ _ Hk0 E) as (t & Ht & E'). apply Hcb. apply (Hax c b t); auto.
        * rewrite lerp_0 in E. auto.
        * destruct Hk as [Hk| ->]; [|rewrite lerp_1 in E; auto]. apply Hn. apply (Hcx a b k); auto.
      + intros p Hp a b He. eapply gedge_left; eauto.
  Qed.

  Lemma gift_loop_hull fuel start s : (2 <= length pts)%nat -> at_ pts start s -> (forall r, In r pts -> lex_le s r) -> (length pts <= fuel)%nat ->
    exists R P, gift_loop fuel pts start start (repeat false (length pts)) [] = Val R /\ NoDup R /\ hd start R = start /\
      mapM (idx pts) R = Val P /\ hull_result pts (P ++ [s]) /\ (forall i, In i R -> i < length pts)%nat /\ (2 <= length R)%nat.
  Proof.
    intros Hn Hs Hlex Hf.
    destruct (gift_loop_spec pts Hux start s Hn Hs Hlex (lex_corner _ _ Hlex)) with (fuel := fuel) (H := @nil nat) (cur := start) (visited := repeat false (length pts))
      as (R & E & HR & Hl & Hhd & Hch & Hx & Hcl); auto.
    - cbn. constructor; [intros []|constructor].
    - intros X i j Y EX. destruct X as [|x [|x' X]]; discriminate.
    - intros i [<-|[]]. exists s. split; auto. apply lex_corner; auto.
    - split; [apply repeat_length|]. intros j Hj. apply nth_error_In, repeat_spec in Hj. discriminate.
    - destruct (cycle_hull start s R) as (P & EP & HP & _); auto. exists R, P.
      split; [auto|]. split; [auto|]. split; [auto|]. split; [auto|]. split; [auto|]. split; [|auto].
      intros i Hi. destruct (Hx i Hi) as (p & Hp & _). apply nth_error_Some. unfold at_ in Hp. congruence.
  Qed.
End Result.

Lemma mapM_app {A B} (f : A -> outcome B) l1 l2 : mapM f (l1 ++ l2) = let* a := mapM f l1 in let* b := mapM f l2 in Val (a ++ b).
Proof.
  induction l1 as [|x l1 IH]; cbn [app mapM obind].
  - destruct (mapM f l2); auto.
  - destruct (f x); cbn [obind]; auto. rewrite IH. destruct (mapM f l1); cbn [obind]; auto. destruct (mapM f l2); auto.
Qed.

Lemma gift_wrap_hull_u fuel (pts : list pt) :
  (forall i j p, nth_error (drop_loop_point pts) i = Some p -> nth_error (drop_loop_point pts) j = Some p -> corner (drop_loop_point pts) p -> i = j) -> (3 < length (drop_loop_point pts))%nat -> (length pts <= fuel)%nat ->
  exists vs, gift_wrap fuel pts = Val vs /\ hull_result pts vs.
Proof.
  intros Hux Hl Hf. assert (Hl2 := drop_loop_length pts). unfold gift_wrap. destruct pts as [|p0 pts0] eqn:Ep; [cbn in Hl; lia|]. rewrite <- Ep in *.
  destruct (find_lowest_R (drop_loop_point pts)) as (k & s & E & Hk & Hmin); [intros E0; rewrite E0 in Hl; cbn in Hl; lia|].
  destruct (gift_loop_hull (drop_loop_point pts) Hux fuel k s) as (R & P & ER & _ & _ & EP & HP & _); auto; [lia|lia|].
  exists (P ++ [s]). split.
  - destruct (drop_loop_point pts) as [|a [|b [|c [|d t]]]] eqn:Ed; try (cbn in Hl; lia). cbn [length Nat.leb].
    rewrite E. cbn [obind]. cbn [length] in ER. rewrite ER. cbn [obind]. rewrite mapM_app, EP. cbn [obind mapM].
    unfold idx at 1. rewrite Hk. auto.
  - apply (hull_result_ext (drop_loop_point pts)); auto. intros x. apply drop_loop_In. lia.
Qed.

Lemma gift_wrap_hull fuel (pts : list pt) : NoDup (drop_loop_point pts) -> (3 < length (drop_loop_point pts))%nat -> (length pts <= fuel)%nat ->
  exists vs, gift_wrap fuel pts = Val vs /\ hull_result pts vs.
Proof. intros Hnd. apply gift_wrap_hull_u. intros i j p Hi Hj _. eapply pos_inj; eauto. Qed.
