(* The sweep commutes with maps of scalars that preserve the operations it uses (lines that are not single points). *)
From Verif Require Import Prelude Scalar Geo2 Sweep SweepRun QInst.

Section Hom.
  Context {S T : Scalar} {h : car S -> car T} (H : hom S T h) (inf : car S).
  Definition hv (p : V2 S) : V2 T := mkV2 (h (vx p)) (h (vy p)).
  Definition hl (l : Line2 S) : Line2 T := mkL (hv (lstart l)) (hv (lend l)).
  Definition hi_ (i : Intersection S) : Intersection T := match i with IPoint p => IPoint (hv p) | IOverlap l => IOverlap (hl l) end.
  Definition hm {E} (m : list (V2 S * E)) : list (V2 T * E) := map (fun ke => (hv (fst ke), snd ke)) m.
  Definition omap {A B} (f : A -> B) (o : outcome A) : outcome B := match o with Val a => Val (f a) | Fail e => Fail e | Panic => Panic | NoFuel => NoFuel end.

  Lemma hv_sub a b : vsub (hv a) (hv b) = hv (vsub a b).
  Proof. unfold vsub, hv. cbn [vx vy]. rewrite !(h_sub _ _ _ H). auto. Qed.
  Lemma hv_add a b : vadd (hv a) (hv b) = hv (vadd a b).
  Proof. unfold vadd, hv. cbn [vx vy]. rewrite !(h_add _ _ _ H). auto. Qed.
  Lemma hv_neg a : vneg (hv a) = hv (vneg a).
  Proof. unfold vneg, hv. cbn [vx vy]. rewrite !(h_neg _ _ _ H). auto. Qed.
  Lemma hv_scale a k : vscale (hv a) (h k) = hv (vscale a k).
  Proof. unfold vscale, hv. cbn [vx vy]. rewrite !(h_mul _ _ _ H). auto. Qed.
  Lemma hv_dot a b : vdot (hv a) (hv b) = h (vdot a b).
  Proof. unfold vdot, hv. cbn [vx vy]. rewrite (h_add _ _ _ H), !(h_mul _ _ _ H). auto. Qed.
  Lemma hv_perp a b : vperp (hv a) (hv b) = h (vperp a b).
  Proof. unfold vperp, hv. cbn [vx vy]. rewrite (h_sub _ _ _ H), !(h_mul _ _ _ H). auto. Qed.
  Lemma hv_ulps a b : vulps (hv a) (hv b) = vulps a b.
  Proof. unfold vulps, hv. cbn [vx vy]. rewrite !(h_ulps _ _ _ H). auto. Qed.
  Lemma hv_eqb a b : veqb (hv a) (hv b) = veqb a b.
  Proof. unfold veqb, hv. cbn [vx vy]. rewrite !(h_eqb _ _ _ H). auto. Qed.
  Lemma h_pcmp a b : spcmp (h a) (h b) = spcmp a b.
  Proof. unfold spcmp. rewrite !(h_ltb _ _ _ H), (h_eqb _ _ _ H). auto. Qed.
  Lemma h_keycmp a b : key_cmp (hv a) (hv b) = key_cmp a b.
  Proof. unfold key_cmp, hv. cbn [vx vy]. rewrite !(h_ulps _ _ _ H), !h_pcmp. auto. Qed.
  Lemma h_keylt a b : key_lt (hv a) (hv b) = key_lt a b.
  Proof. unfold key_lt. rewrite h_keycmp. auto. Qed.
  Lemma h_update {E} k (upd : option E -> E) : forall m, bt_update (fun v => v) (hv k) upd (hm m) = omap hm (bt_update (fun v => v) k upd m).
  Proof.
    induction m as [|[k' e] t IH]; [reflexivity|]. cbn [hm map bt_update fst snd]. rewrite h_keycmp. destruct (key_cmp k k') as [[]|]; auto.
    fold (hm t). rewrite IH. destruct (bt_update (fun v => v) k upd t); auto.
  Qed.

  Definition proper (l : Line2 S) : Prop := vulps (lstart l) (lend l) = false.
  Lemma h_precedes a b : precedes (hv a) (hv b) = precedes a b.
  Proof. unfold precedes, hv. cbn [vx vy]. rewrite !(h_ltb _ _ _ H), (h_ulps _ _ _ H). auto. Qed.
  Lemma h_parallel a b : intersection_parallel (hl a) (hl b) = option_map hi_ (intersection_parallel a b).
  Proof.
    unfold intersection_parallel, hl. cbn [lstart lend]. rewrite !hv_sub, !hv_neg, !h_precedes.
    destruct (precedes (lstart a) (lend a)), (precedes (lstart b) (lend b)); cbv zeta;
      rewrite !hv_sub, !hv_perp, !hv_dot, <- (h_0 _ _ _ H), <- (h_1 _ _ _ H), (h_ulps _ _ _ H);
      (destruct (sulps _ s0); [|reflexivity]); rewrite <- !(h_div _ _ _ H), <- !(h_add _ _ _ H), <- !(h_max _ _ _ H), <- !(h_min _ _ _ H), !hv_scale, !hv_add, hv_eqb;
      (destruct (veqb _ _); reflexivity).
  Qed.
  Lemma h_cross a b : intersection_cross (hl a) (hl b) = option_map hi_ (intersection_cross a b).
  Proof.
    unfold intersection_cross, hl, in_range. cbn [lstart lend]. cbv zeta. rewrite !hv_sub, !hv_perp, <- !(h_div _ _ _ H), <- (h_0 _ _ _ H), <- (h_1 _ _ _ H), !(h_leb _ _ _ H), hv_scale, hv_add.
    destruct (_ && _)%bool; reflexivity.
  Qed.
  Lemma h_isect a b : proper a -> proper b -> intersection_point (hl a) (hl b) = option_map hi_ (intersection_point a b).
  Proof.
    unfold proper. intros Ha Hb. unfold intersection_point. rewrite h_cross, h_parallel. cbn [hl lstart lend]. rewrite !hv_ulps, Ha, Hb. cbv zeta.
    rewrite !hv_sub, hv_perp. cbn [hv vx vy].
    rewrite <- !(h_max _ _ _ H), <- !(h_min _ _ _ H), !(h_ltb _ _ _ H), <- (h_0 _ _ _ H), (h_ulps _ _ _ H).
    destruct (_ || _)%bool; auto. destruct (sulps _ _); auto.
  Qed.
  Lemma h_isingle i : isingle (hi_ i) = hv (isingle i).
  Proof. destruct i; auto. Qed.

  Definition hms (m : MinMaxSlope (S := S)) : MinMaxSlope (S := T) := mkMS (option_map h (best_left m)) (cand_left m) (option_map h (best_right m)) (cand_right m).
  Definition hmm (m : MinMax (S := S)) : MinMax (S := T) := mkMM (option_map h (mm_left m)) (hms (mm_slope m)) (option_map h (mm_right m)).
  Lemma h_left m c s i : update_left (hms m) c (h s) i = hms (update_left m c s i).
  Proof.
    destruct m as [[bl|] cl br cr], c; unfold update_left, hms; cbn [best_left cand_left best_right cand_right option_map]; auto.
    rewrite (h_ulps _ _ _ H), (h_ltb _ _ _ H). destruct (sulps bl s); auto. destruct (sltb s bl); auto.
  Qed.
  Lemma h_right m c s i : update_right (hms m) c (h s) i = hms (update_right m c s i).
  Proof.
    destruct m as [bl cl [br|] cr], c; unfold update_right, hms; cbn [best_left cand_left best_right cand_right option_map]; auto.
    rewrite (h_ulps _ _ _ H), (h_ltb _ _ _ H). destruct (sulps br s); auto. destruct (sltb br s); auto.
  Qed.
  Lemma h_both m i l : update_both (h inf) (hms m) i (hl l) = hms (update_both inf m i l).
  Proof.
    unfold update_both, hl, hv. cbn [lstart lend vx vy]. rewrite (h_ulps _ _ _ H), <- !(h_sub _ _ _ H), <- (h_div _ _ _ H).
    destruct (sulps _ _); rewrite h_left, h_right; auto.
  Qed.
  Lemma h_mm m p x s i : minmax_update (hmm m) (h p) (h x) (h s) i = hmm (minmax_update m p x s i).
  Proof.
    destruct m as [l ms r]. unfold minmax_update, hmm. cbn [mm_left mm_slope mm_right]. rewrite !(h_ltb _ _ _ H).
    destruct (sltb x p).
    - destruct l as [l|]; cbn [option_map]; [rewrite (h_ulps _ _ _ H), (h_ltb _ _ _ H); destruct (sulps l x); [|destruct (sltb l x)]|]; rewrite ?h_left; auto.
    - destruct (sltb p x); auto.
      destruct r as [r|]; cbn [option_map]; [rewrite (h_ulps _ _ _ H), (h_ltb _ _ _ H); destruct (sulps r x); [|destruct (sltb x r)]|]; rewrite ?h_right; auto.
  Qed.
  Lemma h_sweep p l : sweepline_intersection (h inf) (hv p) (hl l) = option_map (fun xs => (h (fst xs), h (snd xs))) (sweepline_intersection inf p l).
  Proof.
    unfold sweepline_intersection, hl, hv. cbn [lstart lend vx vy]. cbv zeta.
    rewrite !(h_ulps _ _ _ H), (h_ltb _ _ _ H). destruct (sulps (vy _) _); [destruct (sltb _ _); cbn; rewrite ?(h_0 _ _ _ H); auto|].
    destruct (sulps _ _); auto. rewrite <- !(h_sub _ _ _ H), <- (h_div _ _ _ H), <- (h_mul _ _ _ H), <- !(h_sub _ _ _ H), <- (h_div _ _ _ H). auto.
  Qed.

  Variable lines : list (Line2 S).
  Hypothesis Hp : Forall proper lines.
  Lemma h_idx i : idx (map hl lines) i = omap hl (idx lines i).
  Proof. unfold idx. rewrite nth_error_map. destruct (nth_error lines i); auto. Qed.
  Lemma h_nb p inter : forall order m, neighbours (h inf) (idx (map hl lines)) (hv p) inter order (hmm m) = omap hmm (neighbours inf (idx lines) p inter order m).
  Proof.
    induction order as [|i t IH]; intros m; [reflexivity|]. cbn [neighbours]. destruct (nmem i inter); auto. rewrite h_idx. destruct (idx lines i) as [l|?| |]; auto.
    cbn [obind omap]. rewrite h_sweep. destruct (sweepline_intersection inf p l) as [[x s]|]; cbn [option_map fst snd]; auto.
    rewrite <- IH. f_equal. apply h_mm.
  Qed.
  Lemma h_conn : forall ls m, connected (h inf) (idx (map hl lines)) ls (hms m) = omap hms (connected inf (idx lines) ls m).
  Proof.
    induction ls as [|i t IH]; intros m; [reflexivity|]. cbn [connected]. rewrite h_idx. destruct (idx lines i) as [l|?| |]; auto.
    cbn [obind omap]. rewrite h_both. auto.
  Qed.
  Lemma h_cand e m : candidate_lists (h inf) (idx (map hl lines)) e (hms m) = candidate_lists inf (idx lines) e m.
  Proof.
    unfold candidate_lists. cbn [hms cand_left cand_right]. destruct (Nat.eqb _ 0); auto.
    change (@slope_new T) with (hms (@slope_new S)). rewrite h_conn. destruct (connected inf (idx lines) (e_add e) slope_new) as [c1|?| |]; auto.
    cbn [obind omap]. rewrite h_conn. destruct (connected inf (idx lines) (e_inter e) c1) as [c|?| |]; auto.
  Qed.
  Lemma h_ahead s p : ahead (hv s) (hv p) = ahead s p.
  Proof. unfold ahead. rewrite hv_ulps. unfold hv. cbn [vx vy]. rewrite (h_leb _ _ _ H), (h_eqb _ _ _ H), (h_ltb _ _ _ H). auto. Qed.
  Lemma h_merge p ls o : merge_intersection (hv p) (map (fun il => (fst il, hl (snd il))) ls) o = merge_intersection p ls o.
  Proof.
    unfold merge_intersection. destruct o as [e|]; [|unfold with_intersection; rewrite map_map; auto].
    replace (map fst (filter (fun il => negb (vulps (hv p) (lstart (snd il)) || vulps (hv p) (lend (snd il)))) (map (fun il => (fst il, hl (snd il))) ls)))
      with (map fst (filter (fun il : nat * Line2 S => negb (vulps p (lstart (snd il)) || vulps p (lend (snd il)))) ls)); auto.
    induction ls as [|[i l] t IH]; auto. cbn [map filter fst snd hl lstart lend]. rewrite !hv_ulps. destruct (negb _); cbn [map fst]; rewrite IH; auto.
  Qed.
  Lemma h_pair s a b q : pair_event (map hl lines) (hv s) a b (hm q) = omap hm (pair_event lines s a b q).
  Proof.
    unfold pair_event. rewrite !h_idx. destruct (idx lines a) as [l|?| |] eqn:El; auto. cbn [obind omap]. destruct (idx lines b) as [r|?| |] eqn:Er; auto. cbn [obind omap].
    assert (Pl : proper l /\ proper r).
    { rewrite Forall_forall in Hp. unfold idx in *. destruct (nth_error lines a) eqn:Ea; [|discriminate]. destruct (nth_error lines b) eqn:Eb; [|discriminate].
      injection El as <-. injection Er as <-. split; apply Hp; eapply nth_error_In; eauto. }
    cbn [hl lend]. rewrite hv_ulps. destruct (vulps (lend l) (lend r)); auto.
    fold (hl l) (hl r). rewrite h_isect by tauto. destruct (intersection_point l r) as [it|]; auto. cbn [option_map]. rewrite h_isingle.
    rewrite h_ahead. cbn [hv vx vy]. rewrite !(h_fin _ _ _ H). destruct (_ && _)%bool; auto. destruct (ahead s (isingle it)); auto.
    fold (hv (isingle it)). rewrite <- h_update.
    assert (E : forall k (f g : option SiteEvent -> SiteEvent) m, (forall o, f o = g o) -> bt_update (S := T) (fun v => v) k f m = bt_update (fun v => v) k g m).
    { intros k f g m Hfg. induction m as [|[k' e] t IH]; cbn [bt_update]; rewrite ?Hfg; auto. destruct (key_cmp k k') as [[]|]; rewrite ?Hfg, ?IH; auto. }
    apply E. intros o. apply (h_merge (isingle it) [(a, l); (b, r)]).
  Qed.
  Lemma h_find s : forall prs q, find_new_events (map hl lines) (hv s) prs (hm q) = omap hm (find_new_events lines s prs q).
  Proof.
    induction prs as [|[a b] t IH]; intros q; [reflexivity|]. cbn [find_new_events]. rewrite h_pair. destruct (pair_event lines s a b q); auto. cbn [obind omap]. auto.
  Qed.
  Lemma h_report p : forall ls r, report (hv p) ls (hm r) = omap hm (report p ls r).
  Proof. induction ls as [|l t IH]; intros r; [reflexivity|]. cbn [report]. rewrite h_update. destruct (bt_update _ p _ r); auto. cbn [obind omap]. auto. Qed.
  Definition hst (st : State (S := S)) : State (S := T) := mkSt (st_active st) (hm (st_queue st)) (hm (st_result st)).
  Lemma h_handle ign order k e st : handle_event (h inf) (map hl lines) ign order (hv k) e (hst st) = omap hst (handle_event inf lines ign order k e st).
  Proof.
    unfold handle_event. cbn [hst st_active st_queue st_result]. rewrite h_report. destruct (report k _ _) as [res|?| |]; auto. cbn [obind omap].
    change (@minmax_new T) with (hmm (@minmax_new S)). rewrite h_nb. destruct (neighbours inf _ _ _ _ _) as [nb|?| |]; auto. cbn [obind omap hmm mm_slope].
    rewrite h_cand. destruct (candidate_lists inf _ _ _) as [c|?| |]; auto. cbn [obind omap]. rewrite h_find. destruct (find_new_events _ _ _ _); auto.
  Qed.
  Lemma h_loop ign stop ord : forall fuel n st, event_loop (h inf) (map hl lines) ign stop ord fuel n (hst st) = omap hm (event_loop inf lines ign stop ord fuel n st).
  Proof.
    induction fuel as [|fuel IH]; intros n [act [|[k e] q] res]; try reflexivity. cbn [event_loop hst st_active st_queue st_result hm map fst snd].
    pose proof (h_handle ign (ord n) k e (mkSt act q res)) as E. unfold hst at 1 in E. cbn [st_active st_queue st_result] in E. fold (@hm SiteEvent q). fold (@hm (list nat) res). rewrite E.
    destruct (handle_event inf lines ign (ord n) k e (mkSt act q res)) as [st'|?| |]; auto. cbn [obind omap]. rewrite IH.
    cbn [hst st_result]. destruct (st_result st'); auto. destruct stop; auto.
  Qed.
End Hom.

Section HomRun.
  Context {S T : Scalar} {h : car S -> car T} (H : hom S T h) (inf : car S).
  Lemma h_arrange l : arrange (@hl S T h l) = @hl S T h (arrange l).
  Proof. unfold arrange. cbn [hl lstart lend]. rewrite (h_keylt H). destruct (key_lt _ _); auto. Qed.
  Lemma proper_arrange l : proper l -> proper (S := S) (mkL (lend l) (lstart l)) -> proper (arrange l).
  Proof. unfold arrange. destruct (key_lt _ _); auto. Qed.
  Lemma h_with_lines : forall input i q ls, with_lines_loop i (map (@hl S T h) input) (@hm S T h _ q) (map (@hl S T h) ls) =
    @omap (list (V2 S * SiteEvent) * list (Line2 S)) (list (V2 T * SiteEvent) * list (Line2 T)) (fun x => (@hm S T h _ (fst x), map (@hl S T h) (snd x))) (with_lines_loop i input q ls).
  Proof.
    induction input as [|l t IH]; intros i q ls; [reflexivity|]. cbn [map with_lines_loop].
    replace (line_finite (lstart (@hl S T h l)) (lend (@hl S T h l))) with (line_finite (lstart l) (lend l)) by (unfold line_finite; cbn; rewrite !(h_fin _ _ _ H); auto).
    destruct (line_finite _ _); auto. rewrite h_arrange. unfold queue_line. cbn [hl lstart lend].
    rewrite (h_update H). destruct (bt_update _ (lstart (arrange l)) _ q) as [q1|?| |]; auto. cbn [obind omap].
    rewrite (h_update H). destruct (bt_update _ (lend (arrange l)) _ q1) as [q2|?| |]; auto. cbn [obind omap].
    match goal with |- context [map (@hl S T h) ls ++ ?y] => change y with (map (@hl S T h) [arrange l]) end. rewrite <- map_app. apply IH.
  Qed.
  Lemma h_intersections ord fuel stop ign input : Forall (fun l => proper l /\ proper (S := S) (mkL (lend l) (lstart l))) input ->
    intersections (h inf) ord fuel stop ign (map (@hl S T h) input) = omap (@hm S T h (list nat)) (intersections inf ord fuel stop ign input).
  Proof.
    intros Hp. unfold intersections, with_lines, compute. cbn [d_events d_lines d_stop d_ign default_data with_ignore_end_point_intersections with_stop_at_first_intersection].
    pose proof (h_with_lines input 0 [] []) as E. cbn [hm map] in E. rewrite E.
    assert (K : forall input i q ls q' ls', Forall (fun l => proper l /\ proper (S := S) (mkL (lend l) (lstart l))) input -> Forall proper ls ->
      with_lines_loop i input q ls = Val (q', ls') -> Forall proper ls').
    { clear. induction input as [|l t IH]; intros i q ls q' ls' Hi Hls; cbn [with_lines_loop]; [intros [= <- <-]; auto|].
      inversion Hi as [|? ? [H1 H2] H3]; subst. destruct (line_finite _ _); [|discriminate]. destruct (queue_line _ _ _ _) as [q2|?| |]; try discriminate. cbn [obind].
      apply IH; auto. apply Forall_app. split; auto. constructor; auto. apply proper_arrange; auto. }
    destruct (with_lines_loop 0 input [] []) as [[q ls]|?| |] eqn:W; auto. cbn [obind omap fst snd d_events d_lines d_stop d_ign].
    specialize (K input 0 [] [] q ls Hp (Forall_nil _) W). apply (h_loop H inf ls K ign stop ord fuel 0 (mkSt [] q [])).
  Qed.
End HomRun.
