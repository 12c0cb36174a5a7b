(* Sorting by angle and distance; the whole Graham scan. *)
From Coq Require Import Reals Lra Psatz Sorting.Sorted Sorting.Permutation.
From Verif Require Import Prelude Scalar RInst Geo2 GeoSpec DistR HullSpec HullGeo Hull GrahamProofs GrahamProofs2.
Local Open Scope R_scope.

(* lra with disjunctions *)
Ltac dlra := repeat match goal with H : _ \/ _ |- _ => destruct H | H : _ /\ _ |- _ => destruct H end;
  first [lra | left; dlra | right; dlra | split; dlra].

(* ---- the angle ---- *)
Lemma atan_lt_inv a b : atan a < atan b -> a < b.
Proof.
  intros H. destruct (Rlt_dec a b) as [|Hn]; auto. exfalso. apply Rnot_lt_le in Hn. destruct Hn as [Hn| ->]; [|lra].
  apply atan_increasing in Hn. lra.
Qed.
Lemma atan_inj' a b : atan a = atan b -> a = b.
Proof.
  intros H. destruct (Rtotal_order a b) as [Hn|[|Hn]]; auto; apply atan_increasing in Hn; lra.
Qed.
Definition right_half (x y : R) : Prop := 0 < x \/ (x = 0 /\ 0 < y).
Lemma atan2_right x y : right_half x y ->
  (0 < x /\ Ratan2 y x = atan (y / x)) \/ (x = 0 /\ 0 < y /\ Ratan2 y x = PI / 2).
Proof.
  intros [H|[-> H]]; unfold Ratan2.
  - left. destruct (Rlt_dec 0 x); [auto|lra].
  - right. destruct (Rlt_dec 0 0); [lra|]. destruct (Rlt_dec 0 y); [auto|lra].
Qed.
Lemma cross_div x1 y1 x2 y2 : 0 < x1 -> 0 < x2 -> x1 * y2 - y1 * x2 = x1 * x2 * (y2 / x2 - y1 / x1).
Proof. intros. field. lra. Qed.
Lemma atan2_lt x1 y1 x2 y2 : right_half x1 y1 -> right_half x2 y2 -> Ratan2 y1 x1 < Ratan2 y2 x2 -> 0 < x1 * y2 - y1 * x2.
Proof.
  intros H1 H2 H. destruct (atan2_right _ _ H1) as [[P1 E1]|(P1 & Q1 & E1)], (atan2_right _ _ H2) as [[P2 E2]|(P2 & Q2 & E2)];
    rewrite E1, E2 in H.
  - apply atan_lt_inv in H. rewrite cross_div; auto. apply Rmult_lt_0_compat; [apply Rmult_lt_0_compat; auto|lra].
  - subst x2. assert (0 < x1 * y2) by (apply Rmult_lt_0_compat; auto). lra.
  - pose proof (atan_bound (y2 / x2)). lra.
  - lra.
Qed.
Lemma atan2_eq x1 y1 x2 y2 : right_half x1 y1 -> right_half x2 y2 -> Ratan2 y1 x1 = Ratan2 y2 x2 -> x1 * y2 - y1 * x2 = 0.
Proof.
  intros H1 H2 H. destruct (atan2_right _ _ H1) as [[P1 E1]|(P1 & Q1 & E1)], (atan2_right _ _ H2) as [[P2 E2]|(P2 & Q2 & E2)];
    rewrite E1, E2 in H.
  - apply atan_inj' in H. rewrite cross_div; auto. rewrite H. ring.
  - pose proof (atan_bound (y1 / x1)). lra.
  - pose proof (atan_bound (y2 / x2)). lra.
  - subst. ring.
Qed.

(* ---- lexicographic order and the half plane ---- *)
Lemma lex_ahead s p : lex_le s p -> p <> s -> ahead 0 (-1) s p.
Proof.
  intros H Hn. unfold ahead, hv. destruct H as [H|[H1 H2]]; [left; rsimp; lra|].
  right. rsimp. split; [lra|]. destruct H2 as [H2|H2]; [lra|]. exfalso. apply Hn. apply V2_ext; auto.
Qed.
Lemma ahead_right s p : ahead 0 (-1) s p -> right_half (vx p - vx s) (vy p - vy s).
Proof. intros [H|[H1 H2]]; unfold right_half; rsimp; [left|right]; lra. Qed.
Lemma Hz01 : 0 < 0 * 0 + (-1) * (-1). Proof. lra. Qed.

(* ---- the comparator is a total preorder ---- *)
Section Sort.
  Context {A : Type}.
  Definition k1 (a : A * R * R) : R := snd (fst a).
  Definition k2 (a : A * R * R) : R := snd a.
  Definition kle (a b : A * R * R) : Prop := k1 a < k1 b \/ (k1 a = k1 b /\ k2 a <= k2 b).
  Lemma pcmp_R (a b : R) : @pcmp_or_eq RS a b = if Rlt_dec a b then Lt else if Rlt_dec b a then Gt else Eq.
  Proof.
    unfold pcmp_or_eq, spcmp. cbn [sltb seqb RS]. destruct (Rltb_spec a b), (Rlt_dec a b); try tauto; auto.
    destruct (Reqb_spec a b), (Rlt_dec b a); auto; try lra; destruct (Rltb_spec b a); auto; try tauto; lra.
  Qed.
  Lemma key_cmp_kle (a b : A * R * R) : @key_cmp RS A a b <> Gt <-> kle a b.
  Proof.
    unfold key_cmp, kle, k1, k2. rewrite !pcmp_R.
    repeat (match goal with |- context [Rlt_dec ?x ?y] => destruct (Rlt_dec x y) end; cbv beta iota);
      split; intros; try congruence; rsimp; solve [dlra | exfalso; dlra].
  Qed.
  Lemma key_cmp_opp (a b : A * R * R) : @key_cmp RS A a b = CompOpp (@key_cmp RS A b a).
  Proof.
    unfold key_cmp. rewrite !pcmp_R.
    repeat (match goal with |- context [Rlt_dec ?x ?y] => destruct (Rlt_dec x y) end; rsimp; cbn [CompOpp]; try lra; auto).
  Qed.
  Lemma kle_trans a b c : kle a b -> kle b c -> kle a c.
  Proof. unfold kle. intros. dlra. Qed.
  Lemma key_total (l : list (A * R * R)) : total_on (@key_cmp RS A) l.
  Proof.
    split.
    - intros l1 a l2 b l3 _. apply key_cmp_opp.
    - intros a b c _ _ _ _ _ _. rewrite !key_cmp_kle. apply kle_trans.
  Qed.
  Lemma sort_kle (l l' : list (A * R * R)) : sort_result (@key_cmp RS A) l l' -> Permutation l l' /\ StronglySorted kle l'.
  Proof.
    intros [Hp Hs]. split; auto. apply Sorted_StronglySorted; [intros a b c; apply kle_trans|].
    specialize (Hs (key_total l)). clear - Hs. induction Hs as [|a l' H IH Hd]; constructor; auto.
    destruct Hd as [|b l' Hd]; constructor. destruct Hd as [Hd|<-]; [apply key_cmp_kle; auto|]. right. split; auto. apply Rle_refl.
  Qed.

  Lemma SS_map_filter (Q : A * R * R -> A * R * R -> Prop) (T : pt -> pt -> Prop) (pos : A -> pt) (keep : A -> bool) : forall l,
    StronglySorted Q l -> (forall a b, In a l -> In b l -> keep (unkey (S := RS) a) = true -> keep (unkey (S := RS) b) = true -> Q a b -> T (pos (unkey (S := RS) a)) (pos (unkey (S := RS) b))) ->
    StronglySorted T (map pos (filter keep (map (unkey (S := RS)) l))).
  Proof.
    induction l as [|a l IH]; intros Hs HT; [constructor|]. apply StronglySorted_inv in Hs as [Hs Hf].
    cbn [map filter]. assert (IH' := IH Hs ltac:(intros; apply HT; auto; right; auto)).
    destruct (keep (unkey (S := RS) a)) eqn:Ek; auto. cbn [map]. constructor; auto.
    apply Forall_forall. intros q Hq. apply in_map_iff in Hq as (b0 & <- & Hb). apply filter_In in Hb as [Hb Hkb].
    apply in_map_iff in Hb as (b & <- & Hb). rewrite Forall_forall in Hf. apply HT; auto; [left; auto|right; auto].
  Qed.

  Lemma sort_ord (pos : A -> pt) (s : pt) (keep : A -> bool) (l : list A) sorted :
    sort_result (@key_cmp RS A) (map (keyed (S := RS) pos s) l) sorted ->
    (forall a, In a l -> keep a = true -> ahead 0 (-1) s (pos a)) ->
    Permutation l (map (unkey (S := RS)) sorted) /\ StronglySorted (ord s) (map pos (filter keep (map (unkey (S := RS)) sorted))).
  Proof.
    intros Hsort Hah. apply sort_kle in Hsort as [Hp Hs]. split.
    - apply (Permutation_map (unkey (S := RS))) in Hp. rewrite map_map in Hp.
      change (map (fun x => unkey (S := RS) (keyed (S := RS) pos s x)) l) with (map (fun x : A => x) l) in Hp.
      rewrite map_id in Hp. auto.
    - eapply SS_map_filter; [exact Hs|]. intros a b Ha Hb Hka Hkb HQ.
      apply (Permutation_in _ (Permutation_sym Hp)) in Ha. apply (Permutation_in _ (Permutation_sym Hp)) in Hb.
      apply in_map_iff in Ha as (a' & <- & Ha). apply in_map_iff in Hb as (b' & <- & Hb).
      unfold keyed, unkey in Hka, Hkb |- *. cbn [fst] in *.
      assert (Ra := ahead_right _ _ (Hah _ Ha Hka)). assert (Rb := ahead_right _ _ (Hah _ Hb Hkb)).
      unfold kle, k1, k2, keyed in HQ. cbn [fst snd] in HQ. unfold ord.
      change (satan2 (vy (vsub (pos a') s)) (vx (vsub (pos a') s))) with (Ratan2 (vy (pos a') - vy s) (vx (pos a') - vx s)) in HQ.
      change (satan2 (vy (vsub (pos b') s)) (vx (vsub (pos b') s))) with (Ratan2 (vy (pos b') - vy s) (vx (pos b') - vx s)) in HQ.
      destruct HQ as [HQ|[HQ Hd]].
      + left. apply (atan2_lt _ _ _ _ Ra Rb) in HQ. exact HQ.
      + right. split; [apply (atan2_eq _ _ _ _ Ra Rb) in HQ; exact HQ|]. exact Hd.
  Qed.
End Sort.

(* ---- the loop with another element type and with skipped elements ---- *)
Lemma graham_skip {S : Scalar} {A} (pos : A -> V2 S) skip : forall l h,
  graham_loop pos skip l h = graham_loop pos (fun _ => false) (filter (fun a => negb (skip a)) l) h.
Proof. induction l as [|a l IH]; intros h; auto. cbn [graham_loop filter]. destruct (skip a); cbn [negb graham_loop]; auto. Qed.
Lemma pop_map {S : Scalar} {A} (pos : A -> V2 S) p : forall h, map pos (pop_right pos h p) = pop_right (fun q => q) (map pos h) p.
Proof.
  induction h as [|t h IH]; auto. destruct h as [|u h]; auto. cbn [pop_right map] in *.
  destruct (sltb (cross_2d (pos u) (pos t) p) s0 || sulps (cross_2d (pos u) (pos t) p) s0)%bool; auto.
Qed.
Lemma graham_map {S : Scalar} {A} (pos : A -> V2 S) : forall l h,
  map pos (graham_loop pos (fun _ => false) l h) = graham_loop (fun q => q) (fun _ => false) (map pos l) (map pos h).
Proof.
  induction l as [|a l IH]; intros h; auto. cbn [graham_loop map]. rewrite IH. cbn [map]. rewrite pop_map. auto.
Qed.

(* ---- the lowest point ---- *)
Lemma lex_le_refl p : lex_le p p. Proof. right. split; auto. apply Rle_refl. Qed.
Lemma lex_le_trans p q r : lex_le p q -> lex_le q r -> lex_le p r.
Proof. unfold lex_le. intros. rsimp. dlra. Qed.
Lemma lex_le_antisym p q : lex_le p q -> lex_le q p -> p = q.
Proof. unfold lex_le. intros H1 H2. apply V2_ext; rsimp; dlra. Qed.
Lemma lex_le_total p q : lex_le p q \/ lex_le q p.
Proof. unfold lex_le. rsimp. destruct (Rtotal_order (vx p) (vx q)) as [|[|]]; [dlra| |dlra]. destruct (Rle_dec (vy p) (vy q)); dlra. Qed.

Lemma lowest_loop_R {A} (get : A -> outcome pt) : forall rest i mi mv pre, length pre = i -> nth_error pre mi = Some mv ->
  (forall p, In p pre -> lex_le mv p) -> forall pts, mapM get rest = Val pts ->
  exists k v, lowest_loop get rest i mi mv = Val (k, v) /\ nth_error (pre ++ pts) k = Some v /\ (forall p, In p (pre ++ pts) -> lex_le v p).
Proof.
  induction rest as [|a rest IH]; intros i mi mv pre Hlen Hmi Hmin pts Hpts.
  - cbn in Hpts. injection Hpts as <-. rewrite app_nil_r. cbn. eauto.
  - cbn [mapM] in Hpts. cbn [lowest_loop]. destruct (get a) as [p|e| |] eqn:Ea; cbn [obind] in *; try discriminate.
    destruct (mapM get rest) as [ps|e| |] eqn:Er; cbn [obind] in Hpts; try discriminate. injection Hpts as <-.
    assert (Hpush : forall mi' mv', nth_error (pre ++ [p]) mi' = Some mv' -> lex_le mv' mv -> lex_le mv' p ->
      exists k v, lowest_loop get rest (Datatypes.S i) mi' mv' = Val (k, v) /\ nth_error (pre ++ p :: ps) k = Some v /\ (forall q, In q (pre ++ p :: ps) -> lex_le v q)).
    { intros mi' mv' Hn Hl1 Hl2.
      assert (L1 : length (pre ++ [p]) = Datatypes.S i) by (rewrite app_length; cbn; lia).
      assert (L2 : forall q, In q (pre ++ [p]) -> lex_le mv' q).
      { intros q Hq. apply in_app_iff in Hq as [Hq|[<-|[]]]; [apply (lex_le_trans _ mv); auto|auto]. }
      destruct (IH (Datatypes.S i) mi' mv' (pre ++ [p]) L1 Hn L2 ps eq_refl) as (k & v & E1 & E2 & E3).
      rewrite <- app_assoc in E2, E3. cbn [app] in *. eauto. }
    assert (Hnew : nth_error (pre ++ [p]) i = Some p) by (rewrite nth_error_app2 by lia; rewrite Hlen, Nat.sub_diag; auto).
    assert (Hold : nth_error (pre ++ [p]) mi = Some mv).
    { rewrite nth_error_app1; auto. apply nth_error_Some. congruence. }
    rewrite spcmp_R. cbn [sltb RS].
    destruct (Rlt_dec (vx p) (vx mv)) as [H|H].
    + apply Hpush; auto; [left; auto|apply lex_le_refl].
    + destruct (Rlt_dec (vx mv) (vx p)) as [He|He].
      * apply Hpush; auto; [apply lex_le_refl|]. left. auto.
      * assert (E : vx p = vx mv) by (rsimp; lra). destruct (Rltb_spec (vy p) (vy mv)) as [Hy|Hy]; apply Hpush; auto; try apply lex_le_refl; right; split; auto; rsimp; lra.
Qed.
Lemma mapM_Val {A} (l : list A) : mapM (fun p => Val p) l = Val l.
Proof. induction l as [|a l IH]; auto. cbn [mapM obind]. rewrite IH. auto. Qed.
Lemma find_lowest_R (pts : list pt) : pts <> [] ->
  exists k s, find_lowest_x pts = Val (k, s) /\ nth_error pts k = Some s /\ (forall p, In p pts -> lex_le s p).
Proof.
  destruct pts as [|v t]; [congruence|]. intros _. unfold find_lowest_x.
  apply (lowest_loop_R (fun p => Val p) t 1%nat 0%nat v [v]); auto.
  - intros p [<-|[]]. apply lex_le_refl.
  - apply mapM_Val.
Qed.

(* ---- hull_result only depends on the set of points ---- *)
Lemma hull_result_ext (p q : list pt) r : (forall x, In x p <-> In x q) -> hull_result p r -> hull_result q r.
Proof.
  intros H Hr. destruct Hr as [v vs (Hi & Hc & Hin) Hl|a b Hab Ha Hb Hs Hl|a Ha Hs].
  - constructor; [|intros; apply Hl, H; auto]. split; [|split; auto].
    + intros x Hx. apply H. auto.
    + intros x Hx. apply Hin, H. auto.
  - constructor; auto; try (apply H; auto); intros x Hx; apply H in Hx; auto.
  - constructor; [apply H; auto|]. intros x Hx. apply Hs, H. auto.
Qed.

Lemma close_map {A B} (f : A -> B) l : map f (close_loop l) = close_loop (map f l).
Proof. destruct l as [|a [|b r]]; auto. cbn. rewrite map_app. auto. Qed.
(* the scan, for any element type: start s0, elements l, all kept ones strictly after s in lex order *)
Lemma scan_result {A} (pos : A -> pt) (a0 : A) (skip : A -> bool) (l : list A) sorted :
  sort_result (@key_cmp RS A) (map (keyed (S := RS) pos (pos a0)) l) sorted ->
  (forall a, In a l -> skip a = true -> pos a = pos a0) ->
  (forall a, In a l -> skip a = false -> lex_le (pos a0) (pos a) /\ pos a <> pos a0) ->
  In (pos a0) (map pos l) ->
  hull_result (map pos l) (map pos (close_loop (rev (graham_loop pos skip (map (unkey (S := RS)) sorted) [a0])))).
Proof.
  intros Hsort Hskip Hkeep Hin0.
  destruct (sort_ord pos (pos a0) (fun a => negb (skip a)) l sorted Hsort) as [Hp Hs].
  { intros a Ha Hk. apply negb_true_iff in Hk. destruct (Hkeep a Ha Hk). apply lex_ahead; auto. }
  set (todo := map pos (filter (fun a => negb (skip a)) (map (unkey (S := RS)) sorted))) in *.
  assert (Htodo : forall p, In p todo -> exists a, In a l /\ skip a = false /\ pos a = p).
  { intros p H. apply in_map_iff in H as (a & <- & H). apply filter_In in H as [H Hk]. apply negb_true_iff in Hk.
    exists a. split; auto. eapply Permutation_in; [apply Permutation_sym, Hp|auto]. }
  assert (Hah : Forall (ahead 0 (-1) (pos a0)) todo).
  { apply Forall_forall. intros p H. destruct (Htodo p H) as (a & Ha & Hk & <-). destruct (Hkeep a Ha Hk). apply lex_ahead; auto. }
  destruct (scan_inv 0 (-1) (pos a0) Hz01 todo [] []) as (l' & E & Hi); auto.
  { intros d p []. }
  { repeat split.
    - intros x [].
    - constructor.
    - congruence.
    - intros d []. }
  rewrite app_nil_r in Hi.
  assert (Emap : map pos (close_loop (rev (graham_loop pos skip (map (unkey (S := RS)) sorted) [a0]))) = close_loop (rev (l' ++ [pos a0]))).
  { rewrite <- E. change ([] ++ [pos a0]) with (map pos [a0]). unfold todo. rewrite <- graham_map, <- map_rev.
    rewrite graham_skip. apply close_map. }
  rewrite Emap.
  apply (hull_result_ext (pos a0 :: rev todo)).
  - intros x. split.
    + intros [<-|H]; auto. apply in_rev in H. destruct (Htodo x H) as (a & Ha & _ & <-). apply in_map. auto.
    + intros H. apply in_map_iff in H as (a & <- & Ha). destruct (skip a) eqn:Ek; [left; rewrite (Hskip a); auto|].
      right. apply in_rev. rewrite rev_involutive. apply in_map. apply filter_In. split; [|rewrite Ek; auto].
      eapply Permutation_in; eauto.
  - apply (scan_hull 0 (-1)); auto; [apply Forall_rev; auto|].
    intros p H. apply in_rev in H. destruct (Htodo p H) as (a & Ha & Hk & <-). apply Hkeep; auto.
Qed.

Lemma drop_loop_In (l : list pt) x : (2 <= length l)%nat -> In x (drop_loop_point l) <-> In x l.
Proof.
  destruct l as [|v [|w t]]; cbn [length]; [lia|lia|]. intros _. unfold drop_loop_point.
  destruct (veqb v (last (v :: w :: t) v)) eqn:E; [|tauto]. apply veqb_R in E.
  split; [right; auto|]. intros [<-|H]; auto. rewrite E. change (last (v :: w :: t) v) with (last (w :: t) v).
  destruct (@exists_last _ (w :: t)) as (y & z & Ey); [congruence|]. rewrite Ey, last_app_one. apply in_or_app. right; left; auto.
Qed.
Lemma drop_loop_length (l : list pt) : (length (drop_loop_point l) <= length l)%nat.
Proof. destruct l as [|v t]; auto. unfold drop_loop_point. destruct (veqb _ _); cbn; lia. Qed.

Lemma graham_scan_hull (pts : list pt) r : (3 < length (drop_loop_point pts))%nat -> graham_scan pts r ->
  exists vs, r = Val vs /\ hull_result pts vs.
Proof.
  intros Hlen H. assert (Hl2 := drop_loop_length pts).
  destruct H as [->|Hne H|a b c H|e H He|i start sorted H Hf Hs].
  - cbn in Hlen. lia.
  - lia.
  - rewrite H in Hlen. cbn in Hlen. lia.
  - destruct (find_lowest_R (drop_loop_point pts)) as (k & s & E & _); [intros E0; rewrite E0 in H; cbn in H; lia|]. congruence.
  - destruct (find_lowest_R (drop_loop_point pts)) as (k & s & E & Hk & Hmin); [intros E0; rewrite E0 in H; cbn in H; lia|].
    rewrite Hf in E. injection E as <- <-. eexists. split; [reflexivity|].
    apply (hull_result_ext (drop_loop_point pts)); [intros x; apply drop_loop_In; lia|].
    pose proof (scan_result (fun p : pt => p) start (fun p => veqb p start) (drop_loop_point pts) sorted) as R.
    rewrite !map_id in R. apply R; auto.
    + intros a _ Ha. apply veqb_R in Ha. auto.
    + intros a Ha Hn. split; auto. intros E. apply veqb_R in E. congruence.
    + eapply nth_error_In; eauto.
Qed.
