(* Hull and containment code only looks at points through a few predicates: a map of points that preserves these
   predicates commutes with it. *)
From Verif Require Import Prelude Scalar Geo2 Hull.

Section Sim.
  Context {S T : Scalar} (f : V2 S -> V2 T) (D : V2 S -> Prop).
  Hypothesis f_eqb : forall a b, D a -> D b -> veqb (f a) (f b) = veqb a b.
  Hypothesis f_pcmp : forall a b, D a -> D b -> spcmp (vx (f a)) (vx (f b)) = spcmp (vx a) (vx b).
  Hypothesis f_lty : forall a b, D a -> D b -> sltb (vy (f a)) (vy (f b)) = sltb (vy a) (vy b).
  Hypothesis f_left : forall a b c, D a -> D b -> D c -> is_point_left (f a) (f b) (f c) = is_point_left a b c.
  Hypothesis f_leftc : forall a b c, D a -> D b -> D c -> is_point_left_allow_collinear (f a) (f b) (f c) = is_point_left_allow_collinear a b c.
  Hypothesis f_orient : forall a b c, D a -> D b -> D c -> point_orientation (f a) (f b) (f c) = point_orientation a b c.
  Hypothesis f_dist : forall a b c, D a -> D b -> D c -> sltb (vdist2 (f a) (f b)) (vdist2 (f a) (f c)) = sltb (vdist2 a b) (vdist2 a c).
  Notation Dl := (Forall D).

  Lemma idx_map l i : idx (map f l) i = omap f (idx l i).
  Proof. unfold idx. rewrite nth_error_map. destruct (nth_error l i); auto. Qed.
  Lemma idx_D l i p : Dl l -> idx l i = Val p -> D p.
  Proof. intros H E. apply idx_val in E. apply nth_error_In in E. eapply Forall_forall in H; eauto. Qed.
  Lemma mapM_idx_map l is : mapM (idx (map f l)) is = omap (map f) (mapM (idx l) is).
  Proof.
    induction is as [|i is IH]; auto. cbn [mapM]. rewrite idx_map, IH. destruct (idx l i); cbn [omap obind]; auto.
    destruct (mapM (idx l) is); auto.
  Qed.
  Lemma mapM_idx_D l is ps : Dl l -> mapM (idx l) is = Val ps -> Dl ps.
  Proof.
    intros H. revert ps. induction is as [|i is IH]; cbn [mapM]; intros ps; [intros E; injection E as <-; auto|].
    destruct (idx l i) as [p| | |] eqn:E; cbn [obind]; try discriminate. destruct (mapM (idx l) is) as [qs| | |]; cbn [obind]; try discriminate.
    intros E'. injection E' as <-. constructor; auto. eapply idx_D; eauto.
  Qed.

  Lemma sim_candidate pts start cur st j : Dl pts -> gift_candidate (map f pts) start cur st j = gift_candidate pts start cur st j.
  Proof.
    intros H. unfold gift_candidate. destruct st as [e vis]. destruct (_ || _)%bool; auto. destruct (idx vis j) as [[]| | |]; cbn [obind]; auto.
    rewrite !idx_map. destruct (idx pts cur) as [pc| | |] eqn:E1; cbn [obind omap]; auto. destruct (idx pts e) as [pe| | |] eqn:E2; cbn [obind omap]; auto.
    destruct (idx pts j) as [pj| | |] eqn:E3; cbn [obind omap]; auto. apply idx_D in E1, E2, E3; auto.
    rewrite f_orient, f_dist by auto. reflexivity.
  Qed.
  Lemma sim_inner pts start cur : Dl pts -> forall js st, gift_inner (map f pts) start cur js st = gift_inner pts start cur js st.
  Proof.
    intros H. induction js as [|j js IH]; intros st; auto. cbn [gift_inner]. rewrite sim_candidate by auto. destruct (gift_candidate _ _ _ _ _); cbn [obind]; auto.
  Qed.
  Lemma sim_loop pts start : Dl pts -> forall fuel cur vis hull, gift_loop fuel (map f pts) start cur vis hull = gift_loop fuel pts start cur vis hull.
  Proof.
    intros H. induction fuel as [|fuel IH]; intros cur vis hull; auto. cbn [gift_loop]. rewrite map_length, sim_inner by auto.
    destruct (gift_inner _ _ _ _ _) as [[e v]| | |]; cbn [obind]; auto. destruct (Nat.eqb e start); auto.
  Qed.
  Definition fmap2 (p : nat * V2 S) : nat * V2 T := (fst p, f (snd p)).
  Lemma sim_lowest_loop {A B} (get : A -> outcome (V2 S)) (get' : B -> outcome (V2 T)) (g : A -> B) :
    (forall a, get' (g a) = omap f (get a)) -> (forall a p, get a = Val p -> D p) ->
    forall rest i mi mv, D mv -> lowest_loop get' (map g rest) i mi (f mv) = omap fmap2 (lowest_loop get rest i mi mv).
  Proof.
    intros Hg HD. induction rest as [|a t IH]; intros i mi mv Hm; auto. cbn [map lowest_loop]. rewrite Hg.
    destruct (get a) as [p| | |] eqn:E; cbn [obind omap]; auto. assert (Hp : D p) by eauto. rewrite f_pcmp, f_lty by auto.
    destruct (spcmp (vx p) (vx mv)) as [[]|]; auto. destruct (sltb (vy p) (vy mv)); auto.
  Qed.
  Lemma sim_lowest pts : Dl pts -> find_lowest_x (map f pts) = omap fmap2 (find_lowest_x pts).
  Proof.
    intros H. destruct pts as [|v t]; auto. cbn [map find_lowest_x]. inversion H as [|? ? Hv Ht]; subst. clear H.
    assert (K : forall t, Dl t -> forall i mi v, D v -> lowest_loop (fun p => Val p) (map f t) i mi (f v) = omap fmap2 (lowest_loop (fun p => Val p) t i mi v)).
    { clear v t Hv Ht. intros t Ht. induction Ht as [|a t Ha Ht IH]; intros i mi v Hv; auto.
      cbn [map lowest_loop obind]. rewrite f_pcmp, f_lty by auto.
      destruct (spcmp (vx a) (vx v)) as [[]|]; auto. destruct (sltb (vy a) (vy v)); auto. }
    apply K; auto.
  Qed.
  Lemma last_map_ {A B} (g : A -> B) l a : last (map g l) (g a) = g (last l a).
  Proof. induction l as [|x l IH]; auto. cbn. destruct l; auto. Qed.
  Lemma last_D l a : Dl l -> D a -> D (last l a).
  Proof. intros H Ha. induction H as [|x l Hx H IH]; auto. cbn. destruct l; auto. Qed.
  Lemma sim_drop pts : Dl pts -> drop_loop_point (map f pts) = map f (drop_loop_point pts).
  Proof.
    intros H. destruct pts as [|v t]; auto. unfold drop_loop_point. cbn [map].
    change (f v :: map f t) with (map f (v :: t)). rewrite last_map_. inversion H; subst. rewrite f_eqb; auto; [|apply last_D; auto].
    destruct (veqb _ _); auto.
  Qed.
  Lemma drop_D (pts : list (V2 S)) : Dl pts -> Dl (drop_loop_point pts).
  Proof. intros H. destruct pts as [|v t]; auto. unfold drop_loop_point. destruct (veqb _ _); auto. inversion H; auto. Qed.
  Lemma sim_gift_wrap fuel pts : Dl pts -> gift_wrap fuel (map f pts) = omap (map f) (gift_wrap fuel pts).
  Proof.
    intros H. unfold gift_wrap. destruct pts as [|p0 pts0]; auto. cbn [map]. change (f p0 :: map f pts0) with (map f (p0 :: pts0)).
    rewrite sim_drop by auto. assert (Hd := drop_D _ H). revert Hd. generalize (drop_loop_point (p0 :: pts0)). clear H p0 pts0. intros pts Hd.
    destruct pts as [|a [|b [|c [|d t]]]]; auto.
    - cbn [map omap obind]. inversion Hd as [|? ? Ha H1]; subst. inversion H1 as [|? ? Hb H2]; subst. inversion H2 as [|? ? Hc _]; subst. rewrite f_left by auto.
      destruct (is_point_left a b c); auto.
    - assert (Hmap : forall l : list (V2 S), l <> [] -> map f l <> []) by (intros [|]; cbn; congruence).
      cbn [map length Nat.leb]. change (f a :: f b :: f c :: f d :: map f t) with (map f (a :: b :: c :: d :: t)).
      rewrite sim_lowest by auto. destruct (find_lowest_x (a :: b :: c :: d :: t)) as [[start sv]| | |]; cbn [omap obind fmap2 fst snd]; auto.
      rewrite map_length, sim_loop by auto. change (Datatypes.S (Datatypes.S (Datatypes.S (Datatypes.S (length t))))) with (length (a :: b :: c :: d :: t)). destruct (gift_loop _ _ _ _ _ _) as [h| | |]; cbn [obind]; auto.
      rewrite mapM_idx_map. auto.
  Qed.
  Lemma sim_indexed_lowest vertices inds : Dl vertices -> indexed_find_lowest_x (map f vertices) inds = omap fmap2 (indexed_find_lowest_x vertices inds).
  Proof.
    intros H. unfold indexed_find_lowest_x. destruct vertices as [|v vs0]; auto. cbn [map]. change (f v :: map f vs0) with (map f (v :: vs0)).
    destruct inds as [|i0 t]; auto. rewrite idx_map. destruct (idx (v :: vs0) i0) as [p| | |] eqn:E; cbn [obind omap]; auto.
    rewrite <- (map_id t) at 1. apply sim_lowest_loop; [intros i; apply idx_map|intros i q; apply idx_D; auto|eapply idx_D; eauto].
  Qed.
  Lemma sim_indexed_gift_wrap fuel vertices indices : Dl vertices -> indexed_gift_wrap fuel (map f vertices) indices = indexed_gift_wrap fuel vertices indices.
  Proof.
    intros H. unfold indexed_gift_wrap. f_equal. unfold indexed_gift_wrap_no_loop. destruct (Nat.leb (length indices) 1); auto.
    assert (Hbody : forall inds : list nat, (let* (start, _) := indexed_find_lowest_x (map f vertices) inds in
            let* pts := mapM (idx (map f vertices)) inds in
            let* hull := gift_loop fuel pts start start (repeat false (length pts)) [] in
            mapM (idx inds) hull) = (let* (start, _) := indexed_find_lowest_x vertices inds in
            let* pts := mapM (idx vertices) inds in
            let* hull := gift_loop fuel pts start start (repeat false (length pts)) [] in
            mapM (idx inds) hull)).
    { intros inds. rewrite sim_indexed_lowest by auto. destruct (indexed_find_lowest_x vertices inds) as [[st sv]| | |]; cbn [omap obind fmap2 fst snd]; auto.
      rewrite mapM_idx_map. destruct (mapM (idx vertices) inds) as [pts| | |] eqn:E; cbn [omap obind]; auto.
      rewrite map_length, sim_loop; auto. eapply mapM_idx_D; eauto. }
    destruct (drop_loop_index indices) as [|a [|b [|c [|d t]]]]; auto.
    - unfold index_triangle. rewrite !idx_map. destruct (idx vertices a) as [va| | |] eqn:Ea; cbn [omap obind]; auto.
      destruct (idx vertices b) as [vb| | |] eqn:Eb; cbn [omap obind]; auto. destruct (idx vertices c) as [vc| | |] eqn:Ec; cbn [omap obind]; auto.
      rewrite f_left; auto; eapply idx_D; eauto.
    - cbn [length Nat.leb]. apply Hbody.
  Qed.

  (* ---- containment ---- *)
  Lemma sim_search o p : D o -> D p -> forall fuel slice retain, Dl slice ->
    search fuel (f o) (f p) (map f slice) retain = omap (option_map (fun sr => (map f (fst sr), snd sr))) (search fuel o p slice retain).
  Proof.
    intros Ho Hp. induction fuel as [|fuel IH]; intros slice retain H; cbn [search]; rewrite map_length; destruct (_ || _)%bool; auto.
    set (mid := if retain then _ else _). destruct mid as [|m]; auto. rewrite !idx_map.
    destruct (idx slice m) as [a| | |] eqn:Ea; cbn [omap obind]; auto. destruct (idx slice (Datatypes.S m)) as [b| | |] eqn:Eb; cbn [omap obind]; auto.
    apply idx_D in Ea, Eb; auto. rewrite f_leftc by auto. destruct (is_point_left_allow_collinear a b p); cbn [negb]; auto.
    destruct (idx slice 0) as [z| | |] eqn:Ez; cbn [omap obind]; auto. apply idx_D in Ez; auto. rewrite !f_leftc by auto.
    assert (Hs : forall n, Dl (skipn n slice) /\ Dl (firstn n slice)).
    { intros n. rewrite <- (firstn_skipn n slice) in H. apply Forall_app in H. tauto. }
    destruct (_ || _)%bool; [rewrite skipn_map|rewrite firstn_map]; apply IH; apply Hs.
  Qed.
  Lemma windows_map_ l : windows (map f l) = map (fun w => (f (fst w), f (snd w))) (windows l).
  Proof. induction l as [|a [|b l] IH]; auto. cbn [map windows] in *. rewrite IH. auto. Qed.
  Lemma windows_D l a b : Dl l -> In (a, b) (windows l) -> D a /\ D b.
  Proof.
    intros H. induction H as [|x l Hx H IH]; [intros []|]. destruct l as [|y l]; [intros []|]. intros [E|E].
    - injection E as <- <-. inversion H; auto.
    - apply IH; auto.
  Qed.
  Lemma sim_final (left : V2 S -> V2 S -> V2 S -> bool) (left' : V2 T -> V2 T -> V2 T -> bool) :
    (forall a b c, D a -> D b -> D c -> left' (f a) (f b) (f c) = left a b c) ->
    forall o p slice retain, D o -> D p -> Dl slice -> final_test left' (f o) (f p) (map f slice) retain = final_test left o p slice retain.
  Proof.
    intros Hl o p slice retain Ho Hp H. unfold final_test. destruct slice as [|z t]; auto. cbn [map]. change (f z :: map f t) with (map f (z :: t)).
    rewrite last_map_, windows_map_. inversion H as [|? ? Hz Ht]; subst. assert (Hd : D (last (z :: t) z)) by (apply last_D; auto).
    assert (E : forallb (fun w => left' (fst w) (snd w) (f p)) (map (fun w => (f (fst w), f (snd w))) (windows (z :: t))) = forallb (fun w => left (fst w) (snd w) p) (windows (z :: t))).
    { assert (K : forall a b, In (a, b) (windows (z :: t)) -> D a /\ D b) by (intros a b Hi; exact (windows_D _ a b H Hi)).
      revert K. generalize (windows (z :: t)). induction l as [|[a b] l IH]; intros K; auto. cbn [map forallb fst snd]. rewrite IH by (intros; apply K; right; auto).
      destruct (K a b) as [Da Db]; [left; auto|]. rewrite Hl; auto. }
    rewrite E, !Hl by auto. auto.
  Qed.
  Lemma search_D o p : forall fuel l r sl rt, search fuel o p l r = Val (Some (sl, rt)) -> Dl l -> Dl sl.
  Proof.
    induction fuel as [|n IH]; intros l r sl rt; cbn [search]; (destruct (_ || _)%bool; [|intros E; injection E as <- <-; auto]); [discriminate|].
    destruct (if r then _ else _) as [|m]; [discriminate|]. destruct (idx l m); cbn [obind]; try discriminate. destruct (idx l (Datatypes.S m)); cbn [obind]; try discriminate.
    destruct (negb _); [discriminate|]. destruct (idx l 0); cbn [obind]; try discriminate. destruct (_ || _)%bool; intros E Hd; (eapply IH; [exact E|]).
    - rewrite <- (firstn_skipn (Datatypes.S m) l) in Hd. apply Forall_app in Hd. tauto.
    - rewrite <- (firstn_skipn (Datatypes.S (Datatypes.S m)) l) in Hd. apply Forall_app in Hd. tauto.
  Qed.
  Lemma sim_contains_with left left' :
    (forall a b c, D a -> D b -> D c -> left' (f a) (f b) (f c) = left a b c) ->
    forall input p, D p -> Dl input -> contains_with left' (map f input) (f p) = contains_with left input p.
  Proof.
    intros Hl input p Hp H. unfold contains_with. destruct input as [|a [|b t]]; auto.
    - cbn [map]. inversion H; subst. rewrite f_eqb; auto.
    - cbn [map length]. change (f b :: map f t) with (map f (b :: t)). rewrite map_length.
      change (f a :: map f (b :: t)) with (map f (a :: b :: t)). inversion H as [|? ? Ha Ht]; subst.
      rewrite last_map_, f_eqb by (auto; apply last_D; auto). destruct (_ && _)%bool; auto.
      destruct (veqb a (last (b :: t) a)).
      + rewrite idx_map. destruct (idx (a :: b :: t) 1) as [o| | |] eqn:Eo; cbn [omap obind]; auto. assert (Ho : D o) by (eapply idx_D; [|eauto]; auto).
        rewrite map_length, sim_search by auto. destruct (search _ _ _ _ _) as [[[sl rt]|]| | |] eqn:Es; cbn [omap obind option_map fst snd]; auto.
        apply sim_final; auto. eapply search_D; eauto.
      + rewrite idx_map. destruct (idx (a :: b :: t) 0) as [o| | |] eqn:Eo; cbn [omap obind]; auto. assert (Ho : D o) by (eapply idx_D; [|eauto]; auto).
        rewrite map_length, sim_search by auto. destruct (search _ _ _ _ _) as [[[sl rt]|]| | |] eqn:Es; cbn [omap obind option_map fst snd]; auto.
        apply sim_final; auto. eapply search_D; eauto.
  Qed.
  Lemma sim_inclusive input p : D p -> Dl input -> contains_point_inclusive (map f input) (f p) = contains_point_inclusive input p.
  Proof. intros. apply sim_contains_with; auto. Qed.
  Lemma sim_exclusive input p : D p -> Dl input -> contains_point_exclusive (map f input) (f p) = contains_point_exclusive input p.
  Proof. intros. apply sim_contains_with; auto. Qed.
  Lemma sim_connected l : Dl l -> is_connected (map f l) = is_connected l.
  Proof.
    intros H. unfold is_connected. destruct l as [|a t]; auto. cbn [map]. change (f a :: map f t) with (map f (a :: t)). inversion H; subst.
    rewrite last_map_, f_eqb; auto. apply last_D; auto.
  Qed.
  Lemma sim_ls_inclusive l p : D p -> Dl l -> ls_contains_inclusive (map f l) (f p) = ls_contains_inclusive l p.
  Proof. intros. unfold ls_contains_inclusive. rewrite sim_connected, sim_inclusive; auto. Qed.
  Lemma sim_ls_exclusive l p : D p -> Dl l -> ls_contains_exclusive (map f l) (f p) = ls_contains_exclusive l p.
  Proof. intros. unfold ls_contains_exclusive. rewrite sim_connected, sim_exclusive; auto. Qed.
  Lemma sim_hull_in_hull a b : Dl a -> Dl b -> contains_convex_hull (map f a) (map f b) = contains_convex_hull a b.
  Proof.
    intros Ha Hb. unfold contains_convex_hull. assert (Hc : point_count (map f a) = point_count a) by (unfold point_count; rewrite map_length, sim_connected; auto).
    rewrite Hc. destruct (Nat.leb _ 1); auto. destruct b as [|b0 b]; auto. cbn [map]. change (f b0 :: map f b) with (map f (b0 :: b)). rewrite !map_length, !idx_map.
    destruct (idx a _) as [e0| | |] eqn:E0; cbn [omap obind]; auto. destruct (idx a (Nat.div _ 2)) as [e1| | |] eqn:E1; cbn [omap obind]; auto.
    destruct (idx (b0 :: b) _) as [bm| | |] eqn:Em; cbn [omap obind]; auto. apply idx_D in E0, E1, Em; auto. inversion Hb; subst.
    rewrite !f_leftc by auto. destruct (_ || _)%bool; auto.
    assert (K : forall l, Dl l -> allM (contains_point_inclusive (map f a)) (map f l) = allM (contains_point_inclusive a) l).
    { induction l as [|x l IH]; intros H; auto. inversion H; subst. cbn [map allM]. rewrite sim_inclusive by auto. destruct (contains_point_inclusive a x) as [[]| | |]; cbn [obind]; auto. }
    apply K; auto.
  Qed.
End Sim.
