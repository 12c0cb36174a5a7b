(* Point in convex polygon. *)
From Coq Require Import Reals Lra Psatz.
From Verif Require Import Prelude Scalar RInst Geo2 GeoSpec DistR HullSpec HullGeo Hull HullAny GrahamProofs GrahamProofs2 GrahamProofs3 HullUniq.
Local Open Scope R_scope.

Lemma left_c_R a b p : is_point_left_allow_collinear a b p = true <-> 0 <= orient a b p.
Proof.
  unfold is_point_left_allow_collinear. rewrite cross_orient. cbn [sleb sulps s0 RS]. rewrite orb_true_iff, Rleb_true, Reqb_true. lra.
Qed.
Lemma left_R a b p : is_point_left a b p = true <-> 0 < orient a b p.
Proof. unfold is_point_left. rewrite cross_orient. cbn [sltb s0 RS]. apply Rltb_true. Qed.
Lemma left_c_false a b p : is_point_left_allow_collinear a b p = false <-> orient a b p < 0.
Proof. rewrite <- not_true_iff_false, left_c_R. lra. Qed.

Lemma windows_adj {A} (l : list A) a b : In (a, b) (windows l) <-> exists X Y, l = X ++ a :: b :: Y.
Proof.
  split.
  - induction l as [|x [|y l] IH]; cbn [windows]; try (intros []; fail).
    intros [E|H]; [injection E as -> ->; exists [], l; auto|]. destruct (IH H) as (X & Y & ->). exists (x :: X), Y. auto.
  - intros (X & Y & ->). induction X as [|x X IH]; [left; auto|]. cbn [app]. destruct (X ++ a :: b :: Y) as [|y Z] eqn:E; [destruct X; discriminate|].
    right. auto.
Qed.

Section Search.
  Variables (Q : list pt) (o p : pt).
  Hypothesis Ho : forall a t, Q = a :: t -> o = a.

  Definition sinv (slice : list pt) (retain : bool) : Prop :=
    exists X Y, Q = X ++ slice ++ Y /\ (Y = [] \/ exists W z, slice = W ++ [z] /\ orient o z p < 0) /\
      (if retain then X <> [] /\ (2 <= length slice)%nat /\ (forall a t, slice = a :: t -> 0 <= orient o a p)
       else X = [] /\ (3 <= length slice)%nat).

  Lemma search_spec : forall fuel slice retain, (length slice <= fuel)%nat -> sinv slice retain ->
    (search fuel o p slice retain = Val None /\ exists a b X Y, Q = X ++ a :: b :: Y /\ orient a b p < 0) \/
    (exists slice' retain', search fuel o p slice retain = Val (Some (slice', retain')) /\ sinv slice' retain' /\
       length slice' = (if retain' then 2 else 3)%nat).
  Proof.
    induction fuel as [|fuel IH]; intros slice retain Hf Hi.
    { exfalso. destruct Hi as (X & Y & _ & _ & Hr). destruct retain; lia. }
    cbn [search].
    destruct (Nat.ltb 3 (length slice) || (retain && Nat.ltb 2 (length slice)))%bool eqn:Eg.
    2:{ right. exists slice, retain. split; auto. split; auto. apply orb_false_iff in Eg as [E1 E2]. apply Nat.ltb_ge in E1.
        destruct Hi as (X & Y & _ & _ & Hr). destruct retain; [|lia]. cbn [andb] in E2. apply Nat.ltb_ge in E2. lia. }
    set (mid := if retain then ((length slice + 1) / 2 - 1)%nat else (length slice / 2)%nat).
    assert (Hmid : (1 <= mid /\ mid < length slice /\ (retain = false -> 2 <= mid) /\ mid + 1 < length slice)%nat).
    { apply orb_true_iff in Eg. unfold mid. destruct retain.
      - assert (2 < length slice)%nat by (destruct Eg as [E|E]; [apply Nat.ltb_lt in E; lia|cbn [andb] in E; apply Nat.ltb_lt in E; lia]).
        pose proof (Nat.div_mod (length slice + 1) 2 ltac:(lia)). pose proof (Nat.mod_upper_bound (length slice + 1) 2 ltac:(lia)).
        repeat split; try lia; try discriminate.
      - assert (3 < length slice)%nat by (destruct Eg as [E|E]; [apply Nat.ltb_lt in E; lia|discriminate]).
        pose proof (Nat.div_mod (length slice) 2 ltac:(lia)). pose proof (Nat.mod_upper_bound (length slice) 2 ltac:(lia)). repeat split; lia. }
    clearbody mid. destruct Hmid as (Hm1 & Hm2 & Hm3 & Hm4).
    destruct mid as [|m]; [lia|].
    (* split the slice around the tested edge *)
    assert (Hsp : exists L a b R, slice = L ++ a :: b :: R /\ length L = m).
    { exists (firstn m slice). destruct (skipn m slice) as [|a [|b R]] eqn:E.
      - apply (f_equal (@length _)) in E. rewrite skipn_length in E. cbn in E. lia.
      - apply (f_equal (@length _)) in E. rewrite skipn_length in E. cbn in E. lia.
      - exists a, b, R. rewrite <- E. split; [symmetry; apply firstn_skipn|]. rewrite firstn_length. lia. }
    destruct Hsp as (L & a & b & R0 & Es & HL).
    assert (Ia : idx slice m = Val a). { unfold idx. rewrite Es, nth_error_app2 by lia. rewrite HL, Nat.sub_diag. auto. }
    assert (Ib : idx slice (S m) = Val b). { unfold idx. rewrite Es, nth_error_app2 by lia. replace (S m - length L)%nat with 1%nat by lia. auto. }
    rewrite Ia, Ib. cbn [obind].
    assert (Hz : exists z t, slice = z :: t) by (destruct slice as [|z t]; [cbn in Hm2; lia|eauto]).
    destruct Hz as (z & t & Ez). assert (Iz : idx slice 0 = Val z) by (rewrite Ez; auto). rewrite Iz. cbn [obind].
    destruct Hi as (X & Y & EQ & HY & Hr).
    destruct (is_point_left_allow_collinear a b p) eqn:Eab; cbn [negb].
    2:{ left. split; auto. apply left_c_false in Eab. exists a, b, (X ++ L), (R0 ++ Y). split; auto. rewrite EQ, Es, <- !app_assoc. cbn [app]. auto. }
    assert (Ezo : retain = false -> z = o).
    { intros ->. destruct Hr as [-> _]. symmetry. apply (Ho z (t ++ Y)). rewrite EQ, Ez. auto. }
    assert (Econd : (retain && is_point_left_allow_collinear o b p || negb retain && is_point_left_allow_collinear z b p)%bool = is_point_left_allow_collinear o b p).
    { destruct retain; cbn; [apply orb_false_r|rewrite Ezo; auto]. }
    rewrite Econd. clear Econd.
    assert (Esk : skipn (S m) slice = b :: R0).
    { rewrite Es. replace (L ++ a :: b :: R0) with ((L ++ [a]) ++ b :: R0) by (rewrite <- app_assoc; auto).
      rewrite skipn_app, skipn_all2 by (rewrite app_length; cbn; lia). rewrite app_length. cbn [length]. replace (S m - (length L + 1))%nat with 0%nat by lia. auto. }
    assert (Efn : firstn (S (S m)) slice = L ++ [a; b]).
    { rewrite Es. replace (L ++ a :: b :: R0) with ((L ++ [a; b]) ++ R0) by (rewrite <- app_assoc; auto).
      rewrite firstn_app, firstn_all2 by (rewrite app_length; cbn; lia). rewrite app_length. cbn [length]. replace (S (S m) - (length L + 2))%nat with 0%nat by lia.
      cbn. apply app_nil_r. }
    assert (Hlen : length slice = (m + 2 + length R0)%nat) by (rewrite Es, app_length; cbn; lia).
    destruct (is_point_left_allow_collinear o b p) eqn:Eo.
    - rewrite Esk. apply IH; [cbn; lia|]. apply left_c_R in Eo. exists (X ++ L ++ [a]), Y. split; [|split].
      + rewrite EQ, Es, <- !app_assoc. cbn [app]. auto.
      + destruct HY as [|(W & w & EW & Hw)]; auto. right.
        destruct (@exists_last _ R0) as (W' & w' & EW'); [intros ->; cbn in Hlen; lia|].
        rewrite EW' in *. exists (b :: W'), w'. split; auto. rewrite EW in Es.
        replace (L ++ a :: b :: W' ++ [w']) with ((L ++ a :: b :: W') ++ [w']) in Es by (rewrite <- app_assoc; auto).
        apply app_inj_tail in Es as [_ <-]. auto.
      + split; [destruct X; [destruct L|]; discriminate|]. split; [cbn; lia|]. intros a' t' E. injection E as <- _. auto.
    - rewrite Efn. apply left_c_false in Eo. apply IH; [rewrite app_length; cbn; lia|]. exists X, (R0 ++ Y). split; [|split].
      + rewrite EQ, Es, <- !app_assoc. auto.
      + right. exists (L ++ [a]), b. rewrite <- app_assoc. auto.
      + destruct retain.
        * destruct Hr as (H1 & H2 & H3). split; auto. split; [rewrite app_length; cbn; lia|].
          intros a' t' E. destruct L as [|l0 L']; cbn [app] in *; injection E as <- _; eapply H3; eauto.
        * destruct Hr as [-> Hr]. split; auto. rewrite app_length. cbn [length]. specialize (Hm3 eq_refl). lia.
  Qed.
End Search.

Lemma convex_fan vs o a b X Y t : convex_polygon vs -> vs = o :: t -> vs = X ++ a :: b :: Y -> X <> [] -> 0 < orient o a b.
Proof.
  intros (Hl & Hn & Hs) E1 E2 HX. rewrite orient_rot. apply Hs.
  - subst vs. eapply edges_adj; eauto.
  - rewrite E1. left; auto.
  - intros ->. destruct X as [|x X]; [congruence|]. rewrite E1 in E2, Hn. injection E2 as <- E2. inversion Hn as [|? ? H1 _]; subst. apply H1. apply in_or_app. right; left; auto.
  - intros ->. destruct X as [|x X]; [congruence|]. rewrite E1 in E2, Hn. injection E2 as <- E2. inversion Hn as [|? ? H1 _]; subst. apply H1. apply in_or_app. right; right; left; auto.
Qed.
Lemma polygon_left vs a b c : convex_polygon vs -> In (a, b) (edges vs) -> In c vs -> 0 <= orient a b c.
Proof.
  intros (_ & _ & Hs) He Hc. destruct (pt_dec c a) as [->|Ha]; [rewrite orient_aba; lra|].
  destruct (pt_dec c b) as [->|Hb]; [rewrite orient_abb; lra|]. left. apply Hs; auto.
Qed.

Lemma tri_inside vs o a b p : convex_polygon vs -> In o vs -> In a vs -> In b vs -> 0 < orient o a b ->
  0 <= orient o a p -> 0 <= orient a b p -> 0 <= orient b o p -> inside vs p.
Proof.
  intros Hc Ho Ha Hb Ht H1 H2 H3 c d He.
  pose proof (bary_id c d o a b p) as Id.
  pose proof (polygon_left _ _ _ _ Hc He Ho). pose proof (polygon_left _ _ _ _ Hc He Ha). pose proof (polygon_left _ _ _ _ Hc He Hb).
  apply Rmult_le_reg_l with (orient o a b); auto. rewrite Rmult_0_r, Id.
  apply Rplus_le_le_0_compat; [apply Rplus_le_le_0_compat|]; apply Rmult_le_pos; auto.
Qed.
Lemma tri_strict vs o a b p : convex_polygon vs -> In o vs -> In a vs -> In b vs -> 0 < orient o a b ->
  0 < orient o a p -> 0 < orient a b p -> 0 < orient b o p -> strictly_inside vs p.
Proof.
  intros Hc Ho Ha Hb Ht H1 H2 H3 c d He.
  pose proof (bary_id c d o a b p) as Id.
  pose proof (polygon_left _ _ _ _ Hc He Ho) as L1. pose proof (polygon_left _ _ _ _ Hc He Ha) as L2. pose proof (polygon_left _ _ _ _ Hc He Hb) as L3.
  assert (M1 : 0 <= orient a b p * orient c d o) by (apply Rmult_le_pos; lra).
  assert (M2 : 0 <= orient b o p * orient c d a) by (apply Rmult_le_pos; lra).
  assert (M3 : 0 <= orient o a p * orient c d b) by (apply Rmult_le_pos; lra).
  apply Rmult_lt_reg_l with (orient o a b); auto. rewrite Rmult_0_r, Id.
  destruct (Req_dec (orient c d o) 0) as [Z1|N1].
  2:{ assert (0 < orient a b p * orient c d o) by (apply Rmult_lt_0_compat; lra). lra. }
  destruct (Req_dec (orient c d a) 0) as [Z2|N2].
  2:{ assert (0 < orient b o p * orient c d a) by (apply Rmult_lt_0_compat; lra). lra. }
  destruct (Req_dec (orient c d b) 0) as [Z3|N3].
  2:{ assert (0 < orient o a p * orient c d b) by (apply Rmult_lt_0_compat; lra). lra. }
  exfalso. destruct Hc as (Hl & Hn & Hs).
  assert (K : forall x, In x vs -> orient c d x = 0 -> x = c \/ x = d).
  { intros x Hx Hz. destruct (pt_dec x c); auto. destruct (pt_dec x d); auto. specialize (Hs c d x He Hx n n0). lra. }
  destruct (K o Ho Z1) as [->| ->], (K a Ha Z2) as [->| ->], (K b Hb Z3) as [->| ->];
    rewrite ?orient_aab, ?orient_aba, ?orient_abb in Ht; lra.
Qed.

Section Final.
  Variables (Q : list pt) (o p : pt) (t : list pt).
  Hypothesis HQ : convex_polygon Q.
  Hypothesis EQ : Q = o :: t.
  Lemma Ho' : forall a t', Q = a :: t' -> o = a. Proof. intros a t' E. rewrite EQ in E. congruence. Qed.
  Lemma start_inv : sinv Q o p Q false.
  Proof. exists [], []. rewrite app_nil_r. split; auto. split; auto. split; auto. apply HQ. Qed.
  (* edges of Q *)
  Lemma adj_edge X a b Y : Q = X ++ a :: b :: Y -> In (a, b) (edges Q).
  Proof. rewrite EQ. apply edges_adj. Qed.
  Lemma close_edge W z : Q = W ++ [z] -> In (z, o) (edges Q).
  Proof. intros E. pose proof (edges_close t o) as H. rewrite <- EQ in H. rewrite E in H at 1. rewrite last_app_one in H. auto. Qed.

  (* the final slice, with o, is a triangle of the fan *)
  Lemma final_tri slice retain : sinv Q o p slice retain -> length slice = (if retain then 2 else 3)%nat ->
    exists a b, slice = (if retain then [a; b] else [o; a; b]) /\ 0 < orient o a b /\ In a Q /\ In b Q /\ In (a, b) (edges Q) /\
      (inside Q p -> 0 <= orient o a p /\ 0 <= orient a b p /\ 0 <= orient b o p).
  Proof.
    intros (X & Y & E & HY & Hr) Hl. destruct retain.
    - destruct slice as [|a [|b [|]]]; try discriminate. exists a, b. cbn [app] in E. destruct Hr as (HX & _ & Hoa).
      assert (Hab := adj_edge _ _ _ _ E). split; auto. split; [eapply convex_fan; eauto|].
      split; [rewrite E; apply in_or_app; right; left; auto|]. split; [rewrite E; apply in_or_app; right; right; left; auto|]. split; auto.
      intros Hin. split; [eapply Hoa; eauto|]. split; [apply Hin; auto|].
      destruct HY as [->|(W & z & EW & Hz)].
      + apply Hin. apply (close_edge (X ++ [a])). rewrite E, <- app_assoc. auto.
      + change [a; b] with ([a] ++ [b]) in EW. apply app_inj_tail in EW as [_ <-]. rewrite orient_swap. lra.
    - destruct slice as [|o' [|a [|b [|]]]]; try discriminate. destruct Hr as [-> _]. cbn [app] in E.
      assert (o' = o) by (rewrite EQ in E; congruence). subst o'. exists a, b.
      assert (Hoa : In (o, a) (edges Q)) by (apply (adj_edge [] o a (b :: Y)); auto).
      assert (Hab : In (a, b) (edges Q)) by (apply (adj_edge [o] a b Y); auto).
      split; auto. split; [apply (convex_fan Q o a b [o] Y t); auto; discriminate|].
      split; [rewrite E; cbn; auto|]. split; [rewrite E; cbn; auto|]. split; auto.
      intros Hin. split; [apply Hin; auto|]. split; [apply Hin; auto|].
      destruct HY as [->|(W & z & EW & Hz)].
      + apply Hin. apply (close_edge [o; a]). auto.
      + change [o; a; b] with ([o; a] ++ [b]) in EW. apply app_inj_tail in EW as [_ <-]. rewrite orient_swap. lra.
  Qed.

  Lemma final_test_tri left a b (retain : bool) : final_test left o p (if retain then [a; b] else [o; a; b]) retain = Val (left o a p && left a b p && left b o p)%bool.
  Proof. destruct retain; cbn; rewrite ?andb_true_r, ?andb_assoc; auto. Qed.

  Lemma contains_slice left : exists r,
    (let* r := search (length Q) o p Q false in match r with None => Val false | Some (sl, retain) => final_test left o p sl retain end) = Val r /\
    (r = true -> exists a b, 0 < orient o a b /\ In a Q /\ In b Q /\ left o a p = true /\ left a b p = true /\ left b o p = true) /\
    (inside Q p -> (forall a b, 0 <= orient a b p -> left a b p = true) -> r = true).
  Proof.
    destruct (search_spec Q o p Ho' (length Q) Q false (le_n _) start_inv) as [(E & a & b & X & Y & EX & Hneg)|(sl & retain & E & Hi & Hl)]; rewrite E; cbn [obind].
    - exists false. split; auto. split; [discriminate|]. intros Hin _. exfalso.
      specialize (Hin a b (adj_edge _ _ _ _ EX)). lra.
    - destruct (final_tri sl retain Hi Hl) as (a & b & -> & Ht & Ha & Hb & He & Hc). rewrite final_test_tri.
      exists (left o a p && left a b p && left b o p)%bool. split; auto. split.
      + intros H. apply andb_true_iff in H as [H H3]. apply andb_true_iff in H as [H1 H2]. exists a, b. repeat split; auto.
      + intros Hin Hleft. destruct (Hc Hin) as (H1 & H2 & H3). rewrite !Hleft; auto.
  Qed.
End Final.

(* closed or open input *)
Lemma edges_rotate (v : pt) vs : vs <> [] -> forall e, In e (edges (vs ++ [v])) <-> In e (edges (v :: vs)).
Proof.
  intros Hne [a b]. destruct vs as [|u t]; [congruence|]. split; intros H.
  - cbn [app] in H. apply edges_In in H as [(X & Y & E)|[-> ->]].
    + destruct Y as [|y Y] using rev_ind.
      * change (u :: t ++ [v]) with ((u :: t) ++ [v]) in E. replace (X ++ [a; b]) with ((X ++ [a]) ++ [b]) in E by (rewrite <- app_assoc; auto).
        apply app_inj_tail in E as [E <-]. pose proof (edges_close (u :: t) v) as Hc. change (last (v :: u :: t) v) with (last (u :: t) v) in Hc.
        rewrite E, last_app_one in Hc. rewrite E. auto.
      * change (u :: t ++ [v]) with ((u :: t) ++ [v]) in E. replace (X ++ a :: b :: Y ++ [y]) with ((X ++ a :: b :: Y) ++ [y]) in E by (rewrite <- app_assoc; auto).
        apply app_inj_tail in E as [E _]. apply (edges_adj v (u :: t) (v :: X) a b Y). rewrite E. auto.
    + replace (u :: t ++ [v]) with ((u :: t) ++ [v]) by auto. rewrite last_app_one. left. auto.
  - apply edges_In in H as [(X & Y & E)|[-> ->]].
    + destruct X as [|x X].
      * injection E as -> -> ->. pose proof (edges_close (Y ++ [a]) b) as Hc. change (b :: Y ++ [a]) with ((b :: Y) ++ [a]) in Hc at 1. rewrite last_app_one in Hc. exact Hc.
      * injection E as -> E. cbn [app]. apply (edges_adj u (t ++ [x]) X a b (Y ++ [x])). change (u :: t ++ [x]) with ((u :: t) ++ [x]). rewrite E, <- app_assoc. auto.
    + change (last (v :: u :: t) v) with (last (u :: t) v). cbn [app].
      destruct (@exists_last _ (u :: t)) as (W & z & E); [congruence|]. rewrite E, last_app_one.
      apply (edges_adj u (t ++ [v]) W z v []). change (u :: t ++ [v]) with ((u :: t) ++ [v]). rewrite E, <- app_assoc. auto.
Qed.
Lemma convex_rotate (v : pt) vs : convex_polygon (v :: vs) -> convex_polygon (vs ++ [v]).
Proof.
  intros (Hl & Hn & Hs). assert (Hne : vs <> []) by (intros ->; cbn in Hl; lia). split; [|split].
  - rewrite app_length. cbn in *. lia.
  - inversion Hn as [|? ? H1 H2]; subst. apply NoDup_app_intro; auto; [constructor; [intros []|constructor]|]. intros x Hx [<-|[]]. auto.
  - intros a b c He Hc. apply edges_rotate in He; auto. apply Hs; auto. apply in_app_iff in Hc as [Hc|[<-|[]]]; [right|left]; auto.
Qed.
Lemma inside_rotate (v : pt) vs p : vs <> [] -> inside (vs ++ [v]) p <-> inside (v :: vs) p.
Proof. intros Hne. split; intros H a b He; apply H; apply edges_rotate; auto. Qed.
Lemma strict_rotate (v : pt) vs p : vs <> [] -> strictly_inside (vs ++ [v]) p <-> strictly_inside (v :: vs) p.
Proof. intros Hne. split; intros H a b He; apply H; apply edges_rotate; auto. Qed.

Lemma contains_with_spec left vs input p : convex_polygon vs -> ring_of input vs ->
  exists r, contains_with left input p = Val r /\
    (r = true -> exists o a b, 0 < orient o a b /\ In o vs /\ In a vs /\ In b vs /\ left o a p = true /\ left a b p = true /\ left b o p = true) /\
    (inside vs p -> (forall a b, 0 <= orient a b p -> left a b p = true) -> r = true).
Proof.
  intros Hc Hring. pose proof Hc as (Hl & Hn & Hs). destruct vs as [|v0 [|v1 [|v2 vs]]]; try (cbn in Hl; lia).
  set (vs0 := v0 :: v1 :: v2 :: vs) in *. destruct Hring as [->|(a & m & E & ->)].
  - (* open *)
    assert (Hlast : veqb v0 (last (v1 :: v2 :: vs) v0) = false).
    { apply not_true_iff_false. intros H. apply veqb_R in H. destruct (@exists_last _ (v1 :: v2 :: vs)) as (W & z & Ew); [congruence|].
      rewrite Ew, last_app_one in H. subst z. inversion Hn as [|? ? H1 _]; subst. apply H1. rewrite Ew. apply in_or_app. right; left; auto. }
    unfold contains_with, vs0. rewrite Hlast. cbn [length Nat.eqb andb]. unfold idx at 1. cbn [nth_error obind].
    destruct (contains_slice vs0 v0 p (v1 :: v2 :: vs) Hc eq_refl left) as (r & E & H1 & H2). exists r. split; [exact E|]. split; auto.
    intros Hr. destruct (H1 Hr) as (x & y & K). exists v0, x, y. repeat split; try tauto. left; auto.
  - (* closed *)
    injection E as <- <-. assert (Hlast : veqb v0 (last ((v1 :: v2 :: vs) ++ [v0]) v0) = true) by (apply veqb_R; rewrite last_app_one; auto).
    unfold contains_with, vs0. cbn [app]. cbn [app] in Hlast. rewrite Hlast. cbn [length Nat.eqb andb]. unfold idx at 1. cbn [nth_error obind].
    assert (Hc' := convex_rotate _ _ Hc). cbn [app] in Hc'.
    destruct (contains_slice (v1 :: v2 :: vs ++ [v0]) v1 p (v2 :: vs ++ [v0]) Hc' eq_refl left) as (r & E & H1 & H2). exists r. split; [exact E|].
    assert (Hsub : forall x, In x (v1 :: v2 :: vs ++ [v0]) -> In x vs0).
    { intros x Hx. change (v1 :: v2 :: vs ++ [v0]) with ((v1 :: v2 :: vs) ++ [v0]) in Hx. apply in_app_iff in Hx as [Hx|[<-|[]]]; [right|left]; auto. }
    split.
    + intros Hr. destruct (H1 Hr) as (x & y & K). exists v1, x, y. repeat split; try tauto; apply Hsub; try tauto. left; auto.
    + intros Hin. apply H2. apply (inside_rotate v0 (v1 :: v2 :: vs)); auto. congruence.
Qed.

Lemma inclusive_spec vs input p : convex_polygon vs -> ring_of input vs ->
  exists r, contains_point_inclusive input p = Val r /\ (r = true <-> inside vs p).
Proof.
  intros Hc Hr. destruct (contains_with_spec is_point_left_allow_collinear vs input p Hc Hr) as (r & E & H1 & H2). exists r. split; auto. split.
  - intros H. destruct (H1 H) as (o & a & b & Ht & Ho & Ha & Hb & K1 & K2 & K3). rewrite left_c_R in K1, K2, K3. eapply (tri_inside vs o a b); eauto.
  - intros H. apply H2; auto. intros; apply left_c_R; auto.
Qed.
Lemma exclusive_sound vs input p : convex_polygon vs -> ring_of input vs ->
  exists r, contains_point_exclusive input p = Val r /\ (r = true -> strictly_inside vs p).
Proof.
  intros Hc Hr. destruct (contains_with_spec is_point_left vs input p Hc Hr) as (r & E & H1 & H2). exists r. split; auto.
  intros H. destruct (H1 H) as (o & a & b & Ht & Ho & Ha & Hb & K1 & K2 & K3). rewrite left_R in K1, K2, K3. eapply (tri_strict vs o a b); eauto.
Qed.
