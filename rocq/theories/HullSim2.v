(* The sorting hull functions under a map of points that preserves the predicates they use (continues HullSim.v). *)
From Coq Require Import Sorting.Sorted Sorting.Permutation Classical_Prop.
From Verif Require Import Prelude Scalar Geo2 Hull HullSim.

(* ---- sorting ---- *)
Lemma total_on_map {A B} (g : A -> B) cs ct l : (forall a b, In a l -> In b l -> ct (g a) (g b) = cs a b) ->
  total_on ct (map g l) -> total_on cs l.
Proof.
  intros Hg [H1 H2].
  assert (K : forall l1 a l2 b l3, l = l1 ++ a :: l2 ++ b :: l3 -> cs a b = CompOpp (cs b a)).
  { intros l1 a l2 b l3 E. assert (Ia : In a l) by (rewrite E; apply in_or_app; right; left; auto).
    assert (Ib : In b l) by (rewrite E; apply in_or_app; right; right; apply in_or_app; right; left; auto).
    rewrite <- !Hg by auto. apply (H1 (map g l1) _ (map g l2) _ (map g l3)). rewrite E, map_app. cbn. rewrite map_app. auto. }
  split; auto. intros a b c Ia Ib Ic Nab Nbc Nac Cab Cbc.
  assert (Eac : cs a c = CompOpp (cs c a)).
  { apply in_split in Ia as (l1 & l2 & E). rewrite E in Ic. apply in_app_or in Ic as [Ic|[Ic|Ic]]; [|congruence|].
    - apply in_split in Ic as (m1 & m2 & Em). rewrite (K m1 c m2 a l2); [destruct (cs a c); auto|]. rewrite E, Em, <- app_assoc. auto.
    - apply in_split in Ic as (m1 & m2 & Em). apply (K l1 a m1 c m2). rewrite E, Em. auto. }
  destruct (classic (g a = g b)) as [E|N1]; [rewrite <- Hg, E, Hg; auto|].
  destruct (classic (g b = g c)) as [E|N2]; [rewrite <- Hg, <- E, Hg; auto|].
  destruct (classic (g a = g c)) as [E|N3].
  - rewrite <- !Hg, E in Eac by auto. rewrite <- Hg, E by auto. destruct (ct (g c) (g c)); cbn in Eac; congruence.
  - rewrite <- Hg in * by auto. apply (H2 (g a) (g b) (g c)); auto; apply in_map; auto.
Qed.

Lemma sort_result_map {A B} (g : A -> B) cs ct l l' : (forall a b, In a l -> In b l -> ct (g a) (g b) = cs a b) ->
  sort_result cs l l' -> sort_result ct (map g l) (map g l').
Proof.
  intros Hg [Hp Hs]. split; [apply Permutation_map; auto|]. intros Ht. specialize (Hs (total_on_map g cs ct l Hg Ht)).
  assert (Hin : forall a, In a l' -> In a l) by (intros a Ha; eapply Permutation_in; [symmetry; exact Hp|auto]).
  clear Hp Ht. induction Hs as [|a t Ht IH Ha]; constructor.
  - apply IH. intros b Hb. apply Hin. right; auto.
  - inversion Ha as [|b t' Hab]; subst; constructor. destruct Hab as [Hab| ->]; [left|right; auto].
    rewrite Hg; auto; apply Hin; cbn; auto.
Qed.
(* sorting by keys: the keys determine the elements *)
Lemma sort_result_keys {A K} (k : A -> K) cmp l s : (forall a b, k a = k b -> a = b) ->
  sort_result cmp (map k l) s -> exists l', s = map k l' /\ sort_result (fun a b => cmp (k a) (k b)) l l'.
Proof.
  intros Hk [Hp Hs]. destruct (Permutation_map_inv k l (Permutation_sym Hp)) as (l' & -> & Hp'). exists l'. split; auto. split; [symmetry in Hp'; symmetry; auto|].
  intros [T1 T2]. assert (T : total_on cmp (map k l)).
  { split.
    - intros l1 a l2 b l3 E. apply map_eq_app in E as (m1 & m2 & -> & <- & E). apply map_eq_cons in E as (x & m3 & -> & <- & E).
      apply map_eq_app in E as (m4 & m5 & -> & <- & E). apply map_eq_cons in E as (y & m6 & -> & <- & <-). eapply T1; eauto.
    - intros a b c Ha Hb Hc. apply in_map_iff in Ha as (x & <- & Hx). apply in_map_iff in Hb as (y & <- & Hy). apply in_map_iff in Hc as (z & <- & Hz).
      intros N1 N2 N3. apply T2; auto; congruence. }
  specialize (Hs T). clear -Hs Hk. induction l' as [|a t IH]; constructor.
  - apply IH. inversion Hs; auto.
  - inversion Hs as [|? ? _ Hd]; subst. destruct t as [|b t]; constructor. inversion Hd as [|? ? [H|H]]; subst; auto.
Qed.
Lemma sort_result_unkeys {A K} (k : A -> K) cmp l l' : sort_result (fun a b => cmp (k a) (k b)) l l' -> sort_result cmp (map k l) (map k l').
Proof. intros H. eapply sort_result_map; [|exact H]. auto. Qed.

Section Sim.
  Context {S T : Scalar} (f : V2 S -> V2 T) (D : V2 S -> Prop).
  Hypothesis f_eqb : forall a b, D a -> D b -> veqb (f a) (f b) = veqb a b.
  Hypothesis f_pcmp : forall a b, D a -> D b -> spcmp (vx (f a)) (vx (f b)) = spcmp (vx a) (vx b).
  Hypothesis f_lty : forall a b, D a -> D b -> sltb (vy (f a)) (vy (f b)) = sltb (vy a) (vy b).
  Hypothesis f_left : forall a b c, D a -> D b -> D c -> is_point_left (f a) (f b) (f c) = is_point_left a b c.
  Hypothesis f_dist : forall a b c, D a -> D b -> D c -> spcmp (vdist2 (f a) (f b)) (vdist2 (f a) (f c)) = spcmp (vdist2 a b) (vdist2 a c).
  Hypothesis f_dlt : forall a b c, D a -> D b -> D c -> sltb (vdist2 (f a) (f b)) (vdist2 (f a) (f c)) = sltb (vdist2 a b) (vdist2 a c).
  Hypothesis f_neg : forall a b c, D a -> D b -> D c -> sltb (cross_2d (f a) (f b) (f c)) s0 = sltb (cross_2d a b c) s0.
  Hypothesis f_ulps : forall a b c, D a -> D b -> D c -> sulps (cross_2d (f a) (f b) (f c)) s0 = sulps (cross_2d a b c) s0.
  Hypothesis f_sign : forall a b c, D a -> D b -> D c -> spcmp s0 (cross_2d (f a) (f b) (f c)) = spcmp s0 (cross_2d a b c).
  Notation Dl := (Forall D).

  (* the result of find_lowest_x is one of the points *)
  Lemma lowest_D pts i p : Dl pts -> find_lowest_x pts = Val (i, p) -> D p.
  Proof.
    intros H. unfold find_lowest_x. destruct pts as [|v t]; [discriminate|]. inversion H as [|? ? Hv Ht]; subst. clear H.
    assert (K : forall t, Dl t -> forall j mi v, D v -> lowest_loop (fun p => Val p) t j mi v = Val (i, p) -> D p); [|eapply K; eauto].
    clear. intros t Ht. induction Ht as [|a t Ha Ht IH]; intros j mi v Hv; cbn [lowest_loop obind]; [intros E; injection E as <- <-; auto|].
    destruct (spcmp (vx a) (vx v)) as [[]|]; [destruct (sltb (vy a) (vy v))| | |discriminate]; intros E; eapply IH in E; eauto.
  Qed.
  Lemma indexed_lowest_D vertices inds i p : Dl vertices -> indexed_find_lowest_x vertices inds = Val (i, p) -> D p.
  Proof.
    intros H. unfold indexed_find_lowest_x. destruct vertices as [|w vs0]; [discriminate|]. destruct inds as [|i0 t]; [discriminate|].
    destruct (idx (w :: vs0) i0) as [v| | |] eqn:E0; cbn [obind]; try discriminate. assert (Hv : D v) by (eapply idx_D; eauto).
    clear E0. revert H. generalize (w :: vs0). intros vs H.
    assert (K : forall t j mi v, D v -> lowest_loop (idx vs) t j mi v = Val (i, p) -> D p); [|eapply K; eauto]. clear t v Hv.
    induction t as [|a t IH]; intros j mi v Hv; cbn [lowest_loop obind]; [intros E; injection E as <- <-; auto|].
    destruct (idx vs a) as [q| | |] eqn:Ea; cbn [obind]; try discriminate. assert (Hq : D q) by (eapply idx_D; eauto).
    destruct (spcmp (vx q) (vx v)) as [[]|]; [destruct (sltb (vy q) (vy v))| | |discriminate]; intros E; eapply IH in E; eauto.
  Qed.
  Lemma mapM_length_ {A B} (h : A -> outcome B) l ps : mapM h l = Val ps -> length l = length ps.
  Proof.
    revert ps. induction l as [|a l IH]; cbn [mapM]; intros ps; [intros E; injection E as <-; auto|].
    destruct (h a); cbn [obind]; try discriminate. destruct (mapM h l); cbn [obind]; try discriminate. intros E. injection E as <-. cbn. f_equal. auto.
  Qed.

  Section Loop.
    Context {A B : Type} (g : A -> B) (pos : A -> V2 S) (pos' : B -> V2 T) (Hpos : forall a, pos' (g a) = f (pos a)).
    Notation DA := (fun a => D (pos a)).
    Lemma sim_pop p : D p -> forall h, Forall DA h -> pop_right pos' (map g h) (f p) = map g (pop_right pos h p) /\ Forall DA (pop_right pos h p).
    Proof.
      intros Hp. induction h as [|t h IH]; intros H; [split; auto|]. inversion H as [|? ? Ht Hh]; subst.
      destruct h as [|u h]; [split; auto|]. inversion Hh; subst.
      change (pop_right pos' (map g (t :: u :: h)) (f p)) with
        (if ((cross_2d (pos' (g u)) (pos' (g t)) (f p) <? s0)%sc || sulps (cross_2d (pos' (g u)) (pos' (g t)) (f p)) s0)%bool then pop_right pos' (map g (u :: h)) (f p) else map g (t :: u :: h)).
      change (pop_right pos (t :: u :: h) p) with
        (if ((cross_2d (pos u) (pos t) p <? s0)%sc || sulps (cross_2d (pos u) (pos t) p) s0)%bool then pop_right pos (u :: h) p else t :: u :: h).
      rewrite !Hpos, f_neg, f_ulps by auto. destruct (_ || _)%bool; [apply IH; auto|]. split; auto.
    Qed.
    Lemma sim_graham_loop skip skip' : (forall a, D (pos a) -> skip' (g a) = skip a) -> forall sorted h, Forall DA sorted -> Forall DA h ->
      graham_loop pos' skip' (map g sorted) (map g h) = map g (graham_loop pos skip sorted h).
    Proof.
      intros Hskip. induction sorted as [|p t IH]; intros h H Hh; auto. inversion H as [|? ? Hp Ht]; subst. cbn [map graham_loop]. rewrite Hskip by auto.
      destruct (skip p); [apply IH; auto|]. rewrite Hpos. destruct (sim_pop (pos p) Hp h Hh) as [E Hh']. rewrite E. apply (IH (p :: _)); auto.
    Qed.
  End Loop.
  Lemma close_map_ {A B} (g : A -> B) l : close_loop (map g l) = map g (close_loop l).
  Proof. destruct l as [|a [|b l]]; auto. cbn. rewrite map_app. auto. Qed.
  Lemma unkey_keyed {U : Scalar} {A} (pos : A -> V2 U) st l : map unkey (map (keyed pos st) l) = l.
  Proof. rewrite map_map. rewrite <- (map_id l) at 2. apply map_ext. auto. Qed.
  Lemma keyed_inj {U : Scalar} {A} (pos : A -> V2 U) st (a b : A) : keyed pos st a = keyed pos st b -> a = b.
  Proof. intros E. exact (f_equal (fun x => fst (fst x)) E). Qed.

  (* the angles compare in T as in S *)
  Definition angles_agree (st : V2 S) (l : list (V2 S)) : Prop :=
    forall a b, In a l -> In b l ->
      spcmp (satan2 (vy (vsub (f a) (f st))) (vx (vsub (f a) (f st)))) (satan2 (vy (vsub (f b) (f st))) (vx (vsub (f b) (f st)))) =
      spcmp (satan2 (vy (vsub a st)) (vx (vsub a st))) (satan2 (vy (vsub b st)) (vx (vsub b st))).
  Lemma sim_key_cmp {A B} (g : A -> B) pos pos' st l : (forall a : A, pos' (g a : B) = f (pos a)) -> D st -> Forall (fun a => D (pos a)) l -> angles_agree st (map pos l) ->
    forall a b, In a l -> In b l -> key_cmp (keyed pos' (f st) (g a)) (keyed pos' (f st) (g b)) = key_cmp (keyed pos st a) (keyed pos st b).
  Proof.
    intros Hpos Hst Hl Ha a b Ia Ib. unfold key_cmp, keyed, pcmp_or_eq. cbn [fst snd]. rewrite !Hpos.
    assert (Da : D (pos a)) by (eapply Forall_forall in Hl; eauto). assert (Db : D (pos b)) by (eapply Forall_forall in Hl; eauto).
    rewrite Ha by (apply in_map; auto). rewrite f_dist by auto. reflexivity.
  Qed.

  Lemma sim_graham_scan pts r : Dl pts -> (forall i st, find_lowest_x (drop_loop_point pts) = Val (i, st) -> angles_agree st (drop_loop_point pts)) ->
    graham_scan pts r -> graham_scan (map f pts) (omap (map f) r).
  Proof.
    intros Hd Ha H. assert (Ed : drop_loop_point (map f pts) = map f (drop_loop_point pts)) by (eapply sim_drop; eauto).
    assert (Hdd : Dl (drop_loop_point pts)) by (eapply drop_D; eauto).
    destruct H as [->|Hne Hl|a b c E|e Hl E|i st sorted Hl E Hs].
    - apply gs_nil; auto.
    - change (omap (map f) (Val (drop_loop_point pts))) with (Val (map f (drop_loop_point pts))). rewrite <- Ed. apply gs_small; [destruct pts; [congruence|discriminate]|]. rewrite Ed, map_length. auto.
    - rewrite E in Hdd. inversion Hdd as [|? ? Da H1]; subst. inversion H1 as [|? ? Db H2]; subst. inversion H2 as [|? ? Dc _]; subst.
      assert (E' : omap (map f) (Val (ccw3 (is_point_left a b c) a b c)) = Val (ccw3 (is_point_left (f a) (f b) (f c)) (f a) (f b) (f c))).
      { rewrite f_left by auto. destruct (is_point_left a b c); auto. }
      rewrite E'. apply gs_three. rewrite Ed, E. auto.
    - cbn [omap obind]. apply gs_error; rewrite Ed; [rewrite map_length; auto|]. rewrite (sim_lowest f D f_pcmp f_lty) by auto. rewrite E. auto.
    - assert (Dst : D st) by (eapply lowest_D; [|exact E]; auto). cbn [omap obind].
      apply (sort_result_keys (keyed (fun p => p) st)) in Hs as (l' & -> & Hs); [|apply keyed_inj].
      assert (Hl' : Dl l') by (destruct Hs as [Hp _]; eapply Permutation_Forall; eauto).
      rewrite unkey_keyed. rewrite <- close_map_, map_rev.
      rewrite <- (sim_graham_loop f (fun p => p) (fun p => p) (fun a => eq_refl) (fun p => veqb p st) (fun p => veqb p (f st))); auto.
      change (map f [st]) with [f st]. rewrite <- (unkey_keyed (fun p => p) (f st) (map f l')).
      apply (gs_scan (map f pts) i (f st) (map (keyed (fun p => p) (f st)) (map f l'))).
      + rewrite Ed, map_length. auto.
      + rewrite Ed, (sim_lowest f D f_pcmp f_lty), E by auto. auto.
      + rewrite Ed. apply sort_result_unkeys. eapply sort_result_map; [|exact Hs]. cbv beta. intros a b Ia Ib.
        apply (sim_key_cmp f (fun p => p) (fun p => p) st (drop_loop_point pts)); auto. rewrite map_id. eauto.
  Qed.

  Lemma sim_wo_cmp st b c : D st -> D b -> D c -> wo_cmp (f st) (f b) (f c) = wo_cmp st b c.
  Proof. intros H1 H2 H3. unfold wo_cmp. rewrite f_sign, f_dlt by auto. auto. Qed.
  Lemma sim_wo_loop : forall sorted h, Dl sorted -> Dl h -> wo_loop (map f sorted) (map f h) = map f (wo_loop sorted h).
  Proof.
    induction sorted as [|p t IH]; intros h H Hh; auto. inversion H as [|? ? Hp Ht]; subst. cbn [map wo_loop].
    destruct (sim_pop f (fun p => p) (fun p => p) (fun a => eq_refl) p Hp h Hh) as [E Hh']. rewrite E.
    destruct (pop_right (fun p0 => p0) h p) as [|l h']; cbn [map]; [apply (IH [p]); auto|]. inversion Hh'; subst. rewrite f_eqb by auto.
    destruct (negb (veqb l p)); [apply (IH (p :: l :: h')); auto|apply (IH (l :: h')); auto].
  Qed.
  Lemma wo_loop_D : forall sorted h, Dl sorted -> Dl h -> Dl (wo_loop sorted h).
  Proof.
    induction sorted as [|p t IH]; intros h H Hh; auto. inversion H as [|? ? Hp Ht]; subst. cbn [wo_loop].
    destruct (sim_pop f (fun p => p) (fun p => p) (fun a => eq_refl) p Hp h Hh) as [_ Hh'].
    destruct (pop_right (fun p0 => p0) h p) as [|l h']; [apply IH; auto|]. destruct (negb (veqb l p)); apply IH; auto.
  Qed.
  Lemma sim_wo pts r : Dl pts -> graham_scan_wo_atan2 pts r -> graham_scan_wo_atan2 (map f pts) (omap (map f) r).
  Proof.
    intros Hd H. assert (Ed : drop_loop_point (map f pts) = map f (drop_loop_point pts)) by (eapply sim_drop; eauto).
    assert (Hdd : Dl (drop_loop_point pts)) by (eapply drop_D; eauto).
    destruct H as [->|Hne Hl|a b c E|e Hl E|i st b c Hl E Ib Ic Ec|i st sorted Hl E Hs rv].
    - apply wo_nil; auto.
    - change (omap (map f) (Val (drop_loop_point pts))) with (Val (map f (drop_loop_point pts))). rewrite <- Ed. apply wo_small; [destruct pts; [congruence|discriminate]|]. rewrite Ed, map_length. auto.
    - rewrite E in Hdd. inversion Hdd as [|? ? Da H1]; subst. inversion H1 as [|? ? Db H2]; subst. inversion H2 as [|? ? Dc _]; subst.
      assert (E' : omap (map f) (Val (ccw3 (is_point_left a b c) a b c)) = Val (ccw3 (is_point_left (f a) (f b) (f c)) (f a) (f b) (f c))).
      { rewrite f_left by auto. destruct (is_point_left a b c); auto. }
      rewrite E'. apply wo_three. rewrite Ed, E. auto.
    - cbn [omap obind]. apply wo_error; rewrite Ed; [rewrite map_length; auto|]. rewrite (sim_lowest f D f_pcmp f_lty) by auto. rewrite E. auto.
    - assert (Dst : D st) by (eapply lowest_D; [|exact E]; auto). cbn [omap obind]. apply (wo_panic (map f pts) i (f st) (f b) (f c)); rewrite ?Ed.
      + rewrite map_length; auto.
      + rewrite (sim_lowest f D f_pcmp f_lty), E by auto. auto.
      + apply in_map; auto.
      + apply in_map; auto.
      + rewrite sim_wo_cmp; auto; eapply Forall_forall; try exact Hdd; auto.
    - assert (Dst : D st) by (eapply lowest_D; [|exact E]; auto). cbn [omap obind].
      assert (Hl' : Dl sorted) by (destruct Hs as [Hp _]; eapply Permutation_Forall; eauto).
      pose proof (wo_scan (map f pts) i (f st) (map f sorted)) as G. cbv zeta in G.
      change [f st] with (map f [st]) in G. rewrite sim_wo_loop, <- map_rev in G; auto. fold rv in G.
      assert (Drv : Dl rv) by (apply Forall_rev, wo_loop_D; auto). rewrite (sim_connected f D f_eqb rv Drv) in G.
      replace (map f (if negb (is_connected rv) then match rv with [] => rv | a :: _ => rv ++ [a] end else rv))
        with (if negb (is_connected rv) then match map f rv with [] => map f rv | a :: _ => map f rv ++ [a] end else map f rv).
      2: { destruct (negb (is_connected rv)); auto. destruct rv; auto. cbn. rewrite map_app. auto. }
      apply G; rewrite ?Ed.
      + rewrite map_length; auto.
      + rewrite (sim_lowest f D f_pcmp f_lty), E by auto. auto.
      + eapply sort_result_map; [|exact Hs]. cbv beta. intros a b Ia Ib. rewrite sim_wo_cmp; auto; eapply Forall_forall; try exact Hdd; auto.
  Qed.

  Lemma sim_indexed_no_loop vertices indices r : Dl vertices ->
    (forall ii st, indexed_find_lowest_x vertices (drop_loop_index indices) = Val (ii, st) ->
       forall ps, mapM (idx vertices) (drop_loop_index indices) = Val ps -> angles_agree st ps) ->
    indexed_graham_no_loop vertices indices None r -> indexed_graham_no_loop (map f vertices) indices None r.
  Proof.
    intros Hd Ha H.
    destruct H as [Hl|a b c Hl E|sorted Hl inds find Hs].
    - apply ig_small; auto.
    - assert (E' : index_triangle vertices a b c = index_triangle (map f vertices) a b c).
      { unfold index_triangle. rewrite !idx_map. destruct (idx vertices a) as [va| | |] eqn:Ea; cbn [omap obind]; auto.
        destruct (idx vertices b) as [vb| | |] eqn:Eb; cbn [omap obind]; auto. destruct (idx vertices c) as [vc| | |] eqn:Ec; cbn [omap obind]; auto.
        rewrite f_left; auto; eapply idx_D; eauto. }
      rewrite E'. apply ig_three; auto.
    - subst inds. cbv zeta in *. set (inds := drop_loop_index indices) in *.
      assert (Ef : indexed_find_lowest_x (map f vertices) inds = omap (fmap2 f) (indexed_find_lowest_x vertices inds)) by (eapply sim_indexed_lowest; eauto).
      assert (Em : mapM (idx (map f vertices)) inds = omap (map f) (mapM (idx vertices) inds)) by apply mapM_idx_map.
      pose proof (ig_scan (map f vertices) indices None) as G. cbv zeta in G. fold inds in G. rewrite Ef, Em in G.
      subst find. destruct (indexed_find_lowest_x vertices inds) as [[ii st]|e| |] eqn:El.
      + cbn [omap fmap2 fst snd obind] in *. destruct (idx inds ii) as [si| | |] eqn:Ei; cbn [obind] in *; try (apply (G []); [auto|discriminate]).
        destruct (mapM (idx vertices) inds) as [ps| | |] eqn:Eps; cbn [omap obind] in *; try (apply (G []); [auto|discriminate]).
        specialize (Hs si st ps eq_refl eq_refl). specialize (Ha ii st eq_refl ps eq_refl).
        assert (Dps : Dl ps) by (eapply mapM_idx_D; eauto).
        assert (Dst : D st) by exact (indexed_lowest_D vertices inds ii st Hd El).
        apply (sort_result_keys (keyed snd st)) in Hs as (l' & -> & Hs); [|apply keyed_inj].
        assert (Hlen : length inds = length ps) by (eapply mapM_length_; eauto).
        assert (Dc : Forall (fun a : nat * V2 S => D (snd a)) (combine inds ps)).
        { apply Forall_forall. intros [i p] Hi. apply in_combine_r in Hi. eapply Forall_forall in Dps; eauto. }
        assert (Hl' : Forall (fun a : nat * V2 S => D (snd a)) l') by (destruct Hs as [Hp _]; eapply Permutation_Forall; eauto).
        rewrite unkey_keyed. pose (g := fun ip : nat * V2 S => (fst ip, f (snd ip))).
        assert (Er : map fst (rev (graham_loop snd (fun ip : nat * V2 S => Nat.eqb (fst ip) si) l' [(si, st)])) =
                     map fst (rev (graham_loop snd (fun ip : nat * V2 T => Nat.eqb (fst ip) si) (map unkey (map (keyed snd (f st)) (map g l'))) [(si, f st)]))).
        { rewrite unkey_keyed. change [(si, f st)] with (map g [(si, st)]).
          rewrite (sim_graham_loop g snd snd (fun a => eq_refl) (fun ip => Nat.eqb (fst ip) si)); auto.
          rewrite <- map_rev, map_map. reflexivity. }
        rewrite Er. apply G; auto. intros si' sp' pts' E1 E2. injection E1 as <- <-. injection E2 as <-.
        assert (Ec : combine inds (map f ps) = map g (combine inds ps)).
        { clear. revert ps. induction inds as [|i t IH]; intros [|p ps]; auto. cbn. rewrite IH. auto. }
        rewrite Ec. apply sort_result_unkeys. eapply sort_result_map; [|exact Hs]. cbv beta. intros a b Ia Ib.
        apply (sim_key_cmp g snd snd st (combine inds ps)); auto.
        assert (Es : map snd (combine inds ps) = ps).
        { clear -Hlen. revert ps Hlen. induction inds as [|i t IH]; intros [|p ps] H; auto; try discriminate. cbn. rewrite IH; auto. }
        rewrite Es. auto.
      + cbn in *. apply (G []); [auto|discriminate].
      + cbn in *. apply (G []); [auto|discriminate].
      + cbn in *. apply (G []); [auto|discriminate].
  Qed.
  Lemma sim_indexed_graham vertices indices r : Dl vertices ->
    (forall ii st, indexed_find_lowest_x vertices (drop_loop_index indices) = Val (ii, st) ->
       forall ps, mapM (idx vertices) (drop_loop_index indices) = Val ps -> angles_agree st ps) ->
    indexed_graham_scan vertices indices r -> indexed_graham_scan (map f vertices) indices r.
  Proof. intros Hd Ha (r0 & H & ->). exists r0. split; auto. apply sim_indexed_no_loop; auto. Qed.

  (* ---- the parallel hull ---- *)
  Hypothesis f_orient : forall a b c, D a -> D b -> D c -> point_orientation (f a) (f b) (f c) = point_orientation a b c.
  Lemma sim_combine_inner vertices side cur : Dl vertices -> forall cands jj e found,
    combine_inner (map f vertices) side cur cands jj e found = combine_inner vertices side cur cands jj e found.
  Proof.
    intros Hd. induction cands as [|j t IH]; intros jj e found; cbn [combine_inner]; auto. destruct (_ || _)%bool; auto. rewrite !idx_map.
    destruct (idx vertices (vindex cur)) as [pc| | |] eqn:E1; cbn [omap obind]; auto.
    destruct (idx vertices (vindex e)) as [pe| | |] eqn:E2; cbn [omap obind]; auto.
    destruct (idx vertices j) as [pj| | |] eqn:E3; cbn [omap obind]; auto.
    assert (D pc) by (eapply idx_D; eauto). assert (D pe) by (eapply idx_D; eauto). assert (D pj) by (eapply idx_D; eauto).
    rewrite f_orient by auto. destruct (point_orientation pc pe pj); auto; try solve [destruct found; auto]. rewrite f_dlt by auto. rewrite !IH. auto.
  Qed.
  Lemma sim_combine_loop vertices ia ib start : Dl vertices -> forall fuel cur hull,
    combine_loop fuel (map f vertices) ia ib start cur hull = combine_loop fuel vertices ia ib start cur hull.
  Proof.
    intros Hd. induction fuel as [|fuel IH]; intros cur hull; cbn [combine_loop]; auto. destruct (combine_next ia ib cur) as [e0| | |]; cbn [obind]; auto.
    rewrite sim_combine_inner by auto. destruct (combine_inner _ _ _ _ _ _ _) as [e| | |]; cbn [obind]; auto. destruct (Nat.eqb _ _); auto.
  Qed.
  Lemma sim_combine fuel vertices ia ib : Dl vertices -> combine_hulls fuel (map f vertices) ia ib = combine_hulls fuel vertices ia ib.
  Proof. intros Hd. unfold combine_hulls. destruct ia, ib; auto. apply sim_combine_loop; auto. Qed.
  Lemma reduce_ext {A} (op op' : A -> A -> outcome A) e t : (forall a b, op a b = op' a b) -> reduce op e t = reduce op' e t.
  Proof.
    intros H. induction t as [l|l IHl r IHr]; cbn [reduce].
    - generalize (@Val A e). induction l as [|x l IH]; intros acc; cbn [fold_left]; auto. rewrite IH. f_equal. destruct acc; cbn [obind]; auto.
    - rewrite IHl, IHr. destruct (reduce op' e l); cbn [obind]; auto. destruct (reduce op' e r); cbn [obind]; auto.
  Qed.
  Lemma mapM_ext_ {A B} (h h' : A -> outcome B) l : (forall a, h a = h' a) -> mapM h l = mapM h' l.
  Proof. intros H. induction l as [|a l IH]; cbn [mapM]; auto. rewrite H, IH. auto. Qed.
  Lemma sim_par_start vertices cs : Dl vertices -> par_start (map f vertices) cs = par_start vertices cs.
  Proof.
    intros Hd. assert (El : forall inds, indexed_find_lowest_x (map f vertices) inds = omap (fmap2 f) (indexed_find_lowest_x vertices inds)) by (intros; eapply sim_indexed_lowest; eauto).
    unfold par_start. rewrite (mapM_ext_ _ (fun c => let* (ii, _) := indexed_find_lowest_x vertices c in idx c ii)).
    - destruct (mapM _ cs) as [starts| | |]; cbn [obind]; auto. rewrite El. destruct (indexed_find_lowest_x vertices starts) as [[k p]| | |]; auto.
    - intros c. rewrite El. destruct (indexed_find_lowest_x vertices c) as [[k p]| | |]; auto.
  Qed.
  Lemma sim_par_by t fuel vertices indices chunk r : Dl vertices ->
    (forall c, In c (chunks (length (drop_loop_index indices)) chunk (drop_loop_index indices)) -> forall ii st, indexed_find_lowest_x vertices (drop_loop_index c) = Val (ii, st) ->
       forall ps, mapM (idx vertices) (drop_loop_index c) = Val ps -> angles_agree st ps) ->
    convex_hull_par_by t fuel vertices indices chunk r -> convex_hull_par_by t fuel (map f vertices) indices chunk r.
  Proof.
    intros Hd Ha (H1 & H2 & start & E & HF & ->). split; auto. split; auto. exists start. rewrite sim_par_start by auto. split; auto. split.
    - revert Ha HF. generalize (chunks (length (drop_loop_index indices)) chunk (drop_loop_index indices)) (leaves t). clear - Hd f_pcmp f_lty f_left f_dist f_dlt f_neg f_ulps.
      intros cs ls Ha HF. induction HF as [|c h cs ls Hc HF IH]; constructor.
      + apply sim_indexed_no_loop; auto. apply Ha. left; auto.
      + apply IH. intros c' Hc'. apply Ha. right; auto.
    - f_equal. apply reduce_ext. intros a b. symmetry. apply sim_combine; auto.
  Qed.
End Sim.
