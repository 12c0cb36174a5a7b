(* The indexed hull functions in exact arithmetic. *)
From Coq Require Import Reals Lra Psatz Sorting.Permutation.
From Verif Require Import Prelude Scalar RInst Geo2 GeoSpec DistR HullSpec HullGeo Hull HullAny GrahamProofs GrahamProofs2 GrahamProofs3 HullUniq GiftProofs GiftProofs2.
Local Open Scope R_scope.

Lemma picks_mapM vertices is ps : picks vertices is ps <-> mapM (idx vertices) is = Val ps.
Proof.
  split.
  - intros H. induction H as [|i p is ps Hi H IH]; auto. cbn [mapM]. unfold idx at 1. rewrite Hi. cbn [obind]. rewrite IH. auto.
  - revert ps. induction is as [|i is IH]; intros ps; cbn [mapM].
    + intros E. injection E as <-. constructor.
    + unfold idx at 1. destruct (nth_error vertices i) as [p|] eqn:Ei; cbn [obind]; [|discriminate].
      destruct (mapM (idx vertices) is) as [qs|e| |]; cbn [obind]; try discriminate. intros E. injection E as <-. constructor; auto. apply IH. auto.
Qed.
Lemma picks_nth vertices is ps k i : picks vertices is ps -> nth_error is k = Some i -> exists p, nth_error ps k = Some p /\ nth_error vertices i = Some p.
Proof.
  intros H. revert k. induction H as [|j p is ps Hj H IH]; intros [|k]; cbn; try discriminate; eauto.
  intros E. injection E as <-. eauto.
Qed.
Lemma picks_length vertices is ps : picks vertices is ps -> length is = length ps.
Proof. intros H. induction H; cbn; auto. Qed.
Lemma picks_app vertices i1 i2 p1 p2 : picks vertices i1 p1 -> picks vertices i2 p2 -> picks vertices (i1 ++ i2) (p1 ++ p2).
Proof. apply Forall2_app. Qed.
Lemma picks_NoDup vertices is ps : picks vertices is ps -> NoDup ps -> NoDup is.
Proof.
  intros H. induction H as [|i p is ps Hi H IH]; intros Hn; constructor; inversion Hn as [|? ? H1 H2]; subst; auto.
  intros Hin. apply H1. apply In_nth_error in Hin as (k & Hk). destruct (picks_nth _ _ _ _ _ H Hk) as (q & Hq & Hq').
  assert (q = p) by congruence. subst q. eapply nth_error_In; eauto.
Qed.

Lemma indexed_lowest_R vertices is ps : picks vertices is ps -> is <> [] ->
  exists k s, indexed_find_lowest_x vertices is = Val (k, s) /\ nth_error ps k = Some s /\ (forall p, In p ps -> lex_le s p).
Proof.
  intros H Hne. destruct H as [|i0 p0 is ps Hi H]; [congruence|]. unfold indexed_find_lowest_x.
  destruct vertices as [|v vs0] eqn:Ev; [destruct i0; discriminate|]. rewrite <- Ev in *. clear Ev v vs0.
  unfold idx at 1. rewrite Hi. cbn [obind]. apply (lowest_loop_R (idx vertices) is 1%nat 0%nat p0 [p0]); auto.
  - intros p [<-|[]]. apply lex_le_refl.
  - apply picks_mapM. auto.
Qed.

Lemma mapM_compose vertices is ps : picks vertices is ps -> forall (Rl : list nat) P, mapM (idx ps) Rl = Val P ->
  exists H, mapM (idx is) Rl = Val H /\ picks vertices H P.
Proof.
  intros Hp. induction Rl as [|k Rl IH]; intros P; cbn [mapM].
  - intros E. injection E as <-. exists []. split; auto. constructor.
  - unfold idx at 1. destruct (nth_error ps k) as [p|] eqn:Ek; cbn [obind]; [|discriminate].
    destruct (mapM (idx ps) Rl) as [P'|e| |] eqn:ER; cbn [obind]; try discriminate. intros E. injection E as <-.
    destruct (IH P' eq_refl) as (H & EH & HH).
    assert (Hk : (k < length is)%nat) by (rewrite (picks_length _ _ _ Hp); apply nth_error_Some; congruence).
    destruct (nth_error is k) as [i|] eqn:Ei; [|apply nth_error_None in Ei; lia].
    destruct (picks_nth _ _ _ _ _ Hp Ei) as (q & Hq & Hv). exists (i :: H). unfold idx at 1. rewrite Ei. cbn [obind]. rewrite EH. split; auto.
    constructor; auto. congruence.
Qed.

Lemma indexed_gift_hull_u fuel vertices indices pts : picks vertices (drop_loop_index indices) pts ->
  (forall i j p, nth_error pts i = Some p -> nth_error pts j = Some p -> corner pts p -> i = j) -> (3 < length pts)%nat -> (length pts <= fuel)%nat ->
  exists out vs, indexed_gift_wrap fuel vertices indices = Val out /\ picks vertices out vs /\ hull_result pts vs.
Proof.
  intros Hp Hux Hl Hf. set (inds := drop_loop_index indices) in *.
  assert (Hli := picks_length _ _ _ Hp).
  destruct (indexed_lowest_R vertices inds pts Hp) as (k & s & Ek & Hk & Hmin); [intros E; rewrite E in Hli; cbn in Hli; lia|].
  destruct (gift_loop_hull pts Hux fuel k s) as (R & P & ER & HRn & Hhd & EP & HP & _ & HR2); auto; [lia|].
  destruct (mapM_compose vertices inds pts Hp R P EP) as (H & EH & HH).
  unfold indexed_gift_wrap, indexed_gift_wrap_no_loop. fold inds.
  assert (Hlen : (length inds <= length indices)%nat).
  { unfold inds, drop_loop_index. destruct indices as [|i0 t]; auto. destruct (Nat.eqb _ _); auto.
    rewrite removelast_firstn_len, firstn_length. lia. }
  destruct (Nat.leb_spec (length indices) 1) as [|_]; [lia|].
  assert (Hbody : (let* (start, _) := indexed_find_lowest_x vertices inds in
            let* pts := mapM (idx vertices) inds in
            let* hull := gift_loop fuel pts start start (repeat false (length pts)) [] in
            mapM (idx inds) hull) = Val H).
  { rewrite Ek. cbn [obind]. apply picks_mapM in Hp. rewrite Hp. cbn [obind]. rewrite ER. cbn [obind]. auto. }
  clearbody inds.
  exists (close_loop H), (P ++ [s]). split.
  { destruct inds as [|a [|b [|c [|d t]]]]; try (cbn in Hli; lia). cbn [length Nat.leb]. rewrite Hbody. auto. }
  assert (HlH : length H = length R).
  { clear - EH. revert H EH. induction R as [|r R IH]; cbn [mapM]; intros H; [intros E; injection E as <-; auto|].
    destruct (idx inds r); cbn [obind]; try discriminate. destruct (mapM (idx inds) R); cbn [obind]; try discriminate.
    intros E. injection E as <-. cbn. f_equal. auto. }
  split; auto.
  destruct H as [|h0 [|h1 H]]; cbn in HlH; try lia. cbn [close_loop]. apply (picks_app _ (h0 :: h1 :: H) [h0]); auto.
  destruct R as [|r0 R]; [cbn in HR2; lia|]. cbn in Hhd. subst r0.
  inversion HH as [|? p0 ? ? Hp0 _]; subst. constructor; [|constructor]. rewrite Hp0.
  cbn [mapM] in EP. unfold idx at 1 in EP. rewrite Hk in EP. cbn [obind] in EP. destruct (mapM (idx pts) R); cbn [obind] in EP; try discriminate.
  injection EP as E _. congruence.
Qed.

Lemma indexed_gift_hull fuel vertices indices pts : picks vertices (drop_loop_index indices) pts -> NoDup pts -> (3 < length pts)%nat -> (length pts <= fuel)%nat ->
  exists out vs, indexed_gift_wrap fuel vertices indices = Val out /\ picks vertices out vs /\ hull_result pts vs.
Proof. intros Hp Hnd. apply indexed_gift_hull_u; auto. intros i j p Hi Hj _. eapply pos_inj; eauto. Qed.

(* ---- indexed Graham scan ---- *)
Lemma picks_combine vertices is ps : picks vertices is ps -> map fst (combine is ps) = is /\ map snd (combine is ps) = ps /\
  forall i p, In (i, p) (combine is ps) -> nth_error vertices i = Some p.
Proof.
  intros H. induction H as [|i p is ps Hi H (I1 & I2 & I3)]; cbn; [repeat split; auto; intros ? ? []|].
  rewrite I1, I2. repeat split; auto. intros j q [E|Hin]; [injection E as <- <-; auto|auto].
Qed.
Lemma picks_pairs vertices (l : list (nat * pt)) : (forall i p, In (i, p) l -> nth_error vertices i = Some p) -> picks vertices (map fst l) (map snd l).
Proof. induction l as [|[i p] l IH]; intros H; constructor; [apply H; left; auto|apply IH; intros; apply H; right; auto]. Qed.

Lemma indexed_graham_hull_u vertices indices pts r : picks vertices (drop_loop_index indices) pts ->
  (forall i j p, In i indices -> In j indices -> nth_error vertices i = Some p -> nth_error vertices j = Some p -> (forall q, In q pts -> lex_le p q) -> i = j) ->
  (3 < length pts)%nat ->
  indexed_graham_scan vertices indices r -> exists out vs, r = Val out /\ picks vertices out vs /\ hull_result pts vs.
Proof.
  intros Hp Hnd Hl (r0 & H & ->). assert (Hli := picks_length _ _ _ Hp).
  destruct H as [H|a b c H1 H|sorted H inds find Hs].
  - exfalso. assert (Hlen : (length (drop_loop_index indices) <= length indices)%nat).
    { unfold drop_loop_index. destruct indices as [|i0 t]; auto. destruct (Nat.eqb _ _); auto. rewrite removelast_firstn_len, firstn_length. lia. }
    destruct H; lia.
  - rewrite H in Hli. cbn in Hli. lia.
  - fold inds in Hp, Hli, H. destruct (indexed_lowest_R vertices inds pts Hp) as (k & s & Ek & Hk & Hmin); [intros E; rewrite E in Hli; cbn in Hli; lia|].
    destruct (nth_error inds k) as [si|] eqn:Ei; [|apply nth_error_None in Ei; assert (k < length pts)%nat by (apply nth_error_Some; congruence); lia].
    assert (Ef : find = Val (si, s)). { unfold find. rewrite Ek. cbn [obind]. unfold idx. rewrite Ei. auto. }
    assert (Em := Hp). apply picks_mapM in Em. specialize (Hs si s pts Ef Em). rewrite Ef, Em. cbn [obind omap].
    destruct (picks_combine _ _ _ Hp) as (C1 & C2 & C3).
    destruct (picks_nth _ _ _ _ _ Hp Ei) as (s' & Hs' & Hsv). assert (s' = s) by congruence. subst s'.
    assert (Hsub : forall i, In i inds -> In i indices).
    { intros i. unfold inds, drop_loop_index. destruct indices as [|i0 t]; auto. destruct (Nat.eqb _ _); auto.
      intros Hi. rewrite (app_removelast_last i0 (l := i0 :: t)) by congruence. apply in_or_app; auto. }
    assert (Hdis : forall i p, In (i, p) (combine inds pts) -> p = s -> i = si).
    { intros i p Hin ->. apply (Hnd i si s); auto.
      - apply Hsub. apply in_combine_l in Hin. auto.
      - apply Hsub. eapply nth_error_In; eauto. }
    pose proof (scan_result snd (si, s) (fun ip => Nat.eqb (fst ip) si) (combine inds pts) sorted Hs) as R. rewrite C2 in R.
    set (L := close_loop (rev (graham_loop snd (fun ip => Nat.eqb (fst ip) si) (map (unkey (S := RS)) sorted) [(si, s)]))) in *.
    exists (map fst L), (map snd L). split; [|split].
    + unfold L. rewrite close_map. auto.
    + apply picks_pairs. intros i p Hin. unfold L in Hin. apply close_incl in Hin. apply in_rev in Hin. apply graham_incl in Hin.
      apply in_app_iff in Hin as [[E|[]]|Hin]; [injection E as <- <-; auto|]. apply C3.
      destruct Hs as [Hperm _]. eapply unkey_perm; eauto.
    + apply R.
      * intros [i p] Hin E. cbn in *. apply Nat.eqb_eq in E. subst i. apply C3 in Hin. congruence.
      * intros [i p] Hin E. cbn in *. apply Nat.eqb_neq in E. split.
        -- apply Hmin. apply in_combine_r in Hin. auto.
        -- intros ->. apply E. eapply Hdis; eauto.
      * cbn. eapply nth_error_In; eauto.
Qed.


Lemma indexed_graham_hull vertices indices pts r : picks vertices (drop_loop_index indices) pts -> NoDup pts -> (3 < length pts)%nat ->
  indexed_graham_scan vertices indices r -> exists out vs, r = Val out /\ picks vertices out vs /\ hull_result pts vs.
Proof.
  intros Hp Hnd Hl. apply indexed_graham_hull_u; auto.
  assert (Hback : forall i, In i indices -> exists m, nth_error (drop_loop_index indices) m = Some i).
  { intros i Hi. apply In_nth_error. unfold drop_loop_index. destruct indices as [|i0 t]; auto. destruct (Nat.eqb_spec i0 (last (i0 :: t) i0)) as [El|]; auto.
    destruct t as [|i1 t]; [exfalso; unfold drop_loop_index in Hp; cbn [last] in Hp; rewrite Nat.eqb_refl in Hp; cbn in Hp; inversion Hp; subst; cbn in Hl; lia|]. rewrite (app_removelast_last i0 (l := i0 :: i1 :: t)) in Hi by congruence. apply in_app_iff in Hi as [Hi|[<-|[]]]; auto.
    rewrite <- El. left; auto. }
  intros i j p Hi Hj Ei Ej _. apply Hback in Hi as (m & Hm). apply Hback in Hj as (m' & Hm').
  destruct (picks_nth _ _ _ _ _ Hp Hm) as (q & Hq & Hqv). destruct (picks_nth _ _ _ _ _ Hp Hm') as (q' & Hq' & Hqv').
  assert (m = m') by (eapply (pos_inj pts Hnd); eauto; congruence). subst m'. congruence.
Qed.
