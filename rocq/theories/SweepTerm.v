(* The sweep line terminates on finite input over every scalar whose finite numbers are ordered, floats included: an event
   only creates events that lie strictly behind it in the exact order of positions, and there are finitely many positions. *)
From Coq Require Import Permutation Floats.SpecFloat Wellfounded.
From Verif Require Import Prelude Scalar RInst Flt Rdp1 FltOrd Geo2 Sweep SweepIdx SweepRun SweepFin SweepAny SweepFlt.

(* ---- replacing one element of a multiset by smaller ones ---- *)
Section Multi.
  Context {A : Type} (R : A -> A -> Prop).
  Definition mstep (M' M : list A) : Prop := exists k b c, Permutation M (k :: b) /\ Permutation M' (c ++ b) /\ Forall (fun x => R x k) c.
  Lemma mstep_perm M M' N : Permutation M N -> mstep M' M -> mstep M' N.
  Proof. intros P (k & b & c & H1 & H2 & H3). exists k, b, c. split; [rewrite <- P|]; auto. Qed.
  Lemma macc_perm M N : Permutation M N -> Acc mstep M -> Acc mstep N.
  Proof. intros P H. constructor. intros M' H'. apply H. apply mstep_perm with N; auto. symmetry; auto. Qed.
  Lemma macc_nil : Acc mstep [].
  Proof. constructor. intros M' (k & b & c & H & _). apply Permutation_nil in H. discriminate. Qed.
  Lemma macc_cons a : Acc R a -> forall M, Acc mstep M -> Acc mstep (a :: M).
  Proof.
    intros Ha. induction Ha as [a _ IHa]. intros M HM. induction HM as [M HM IHM]. constructor. intros M' (k & b & c & P1 & P2 & Hc).
    assert (Case : (k = a /\ Permutation M b) \/ exists b', Permutation M (k :: b') /\ Permutation b (a :: b')).
    { assert (Hin : In k (a :: M)) by (apply (Permutation_in k (Permutation_sym P1)); left; auto). destruct Hin as [->|Hin].
      - left. split; auto. apply Permutation_cons_inv with k. auto.
      - right. apply in_split in Hin as (m1 & m2 & ->). exists (m1 ++ m2). split; [symmetry; apply Permutation_middle|].
        apply Permutation_cons_inv with k. rewrite <- P1. rewrite <- Permutation_middle. apply perm_swap. }
    destruct Case as [[-> Pb]|(b' & Q1 & Q2)].
    - (* a itself is replaced *)
      apply macc_perm with (c ++ M); [rewrite P2, Pb; auto|]. clear - IHa HM Hc. induction Hc as [|x c Hx Hc IH]; cbn [app].
      + constructor. exact HM.
      + apply IHa; auto.
    - apply macc_perm with (a :: (c ++ b')).
      + rewrite P2, Q2. apply Permutation_middle.
      + apply IHM. exists k, b', c. auto.
  Qed.
  Lemma macc_all M : Forall (Acc R) M -> Acc mstep M.
  Proof. intros H. induction H; [apply macc_nil|apply macc_cons; auto]. Qed.
End Multi.

Section Term.
  Context {S : Scalar} (inf : car S).
  Notation V := (V2 S).
  Notation L := (Line2 S).
  Notation idk := (fun v : V => v).
  Hypothesis HO : OrdOn S (fun x => sfin x = true).
  Hypothesis Heq : forall a b : car S, sfin a = true -> sfin b = true -> seqb a b = true -> sulps a b = true.

  (* lower, or at the same height and further left, in the exact order *)
  Definition lex (k p : V) : bool := (sltb (vy k) (vy p) || (seqb (vy k) (vy p) && sltb (vx k) (vx p)))%bool.
  Lemma lex_irrefl k : fin_pt k -> lex k k = false.
  Proof. intros [H1 H2]. unfold lex. rewrite !(ord_irrefl _ _ HO) by auto. rewrite andb_false_r. auto. Qed.
  Lemma lex_trans a b c : fin_pt a -> fin_pt b -> fin_pt c -> lex a b = true -> lex b c = true -> lex a c = true.
  Proof.
    intros [A1 A2] [B1 B2] [C1 C2]. unfold lex. rewrite !orb_true_iff, !andb_true_iff, !(ord_eqb _ _ HO), !andb_true_iff, !negb_true_iff by auto.
    assert (T : forall x y z, sfin x = true -> sfin y = true -> sfin z = true -> sltb x y = true -> sltb y z = true -> sltb x z = true) by (intros x y z; intros; apply (ord_trans _ _ HO x y z); auto).
    assert (N : forall x y z, sfin x = true -> sfin y = true -> sfin z = true -> sltb x y = false -> sltb y z = false -> sltb x z = false) by (intros x y z; intros; apply (ord_neg_trans _ _ HO x y z); auto).
    intros [H|[[E1 E2] H]] [H'|[[E1' E2'] H']].
    - left. eauto.
    - left. destruct (sltb (vy a) (vy c)) eqn:E; auto. rewrite (N (vy a) (vy c) (vy b)) in H; auto.
    - left. destruct (sltb (vy a) (vy c)) eqn:E; auto. rewrite (N (vy b) (vy a) (vy c)) in H'; auto.
    - right. split; [split; eauto|eauto].
  Qed.
  Lemma ahead_lex k p : fin_pt k -> fin_pt p -> ahead k p = true -> lex k p = true.
  Proof.
    intros [K1 K2] [P1 P2] H. unfold ahead in H. apply andb_prop in H as [H H3]. apply andb_prop in H as [H1 H2]. unfold lex. apply orb_true_iff.
    destruct (sltb (vy k) (vy p)) eqn:E; auto. right. rewrite negb_true_iff in H3. unfold vulps in H3.
    rewrite (ord_leb _ _ HO), negb_true_iff in H1 by auto.
    assert (Ey : seqb (vy p) (vy k) = true) by (rewrite (ord_eqb _ _ HO), E, H1; auto).
    assert (Ey' : seqb (vy k) (vy p) = true) by (rewrite (ord_eqb _ _ HO), E, H1; auto).
    rewrite Ey'. cbn [andb]. rewrite Ey in H2. cbn [andb] in H2. apply negb_true_iff in H2. rewrite (Heq (vy p) (vy k)), andb_true_r in H3 by auto.
    destruct (sltb (vx k) (vx p)) eqn:Ex; auto. rewrite Heq in H3; auto. rewrite (ord_eqb _ _ HO), Ex, H2; auto.
  Qed.

  Variable lines : list L.
  (* all positions a pair of lines can produce *)
  Definition spots : list V := flat_map (fun l => flat_map (fun r => match intersection_point l r with Some it => if (sfin (vx (isingle it)) && sfin (vy (isingle it)))%bool then [isingle it] else [] | None => [] end) lines) lines.
  Lemma spots_In l r it : In l lines -> In r lines -> intersection_point l r = Some it -> fin_pt (isingle it) -> In (isingle it) spots.
  Proof.
    intros Hl Hr E [F1 F2]. unfold spots. apply in_flat_map. exists l. split; auto. apply in_flat_map. exists r. split; auto. rewrite E, F1, F2. left. auto.
  Qed.
  Lemma spots_fin p : In p spots -> fin_pt p.
  Proof.
    unfold spots. intros H. apply in_flat_map in H as (l & _ & H). apply in_flat_map in H as (r & _ & H). destruct (intersection_point l r); [|destruct H].
    destruct (sfin _ && sfin _)%bool eqn:E; [|destruct H]. apply andb_prop in E. destruct H as [<-|[]]. exact E.
  Qed.
  Definition rel (x k : V) : Prop := In x spots /\ lex k x = true.
  Definition rank (k : V) : nat := length (filter (lex k) spots).
  Lemma filter_le {A} (f g : A -> bool) l : (forall x, In x l -> f x = true -> g x = true) -> length (filter f l) <= length (filter g l).
  Proof.
    induction l as [|x l IH]; intros H; cbn [filter]; auto. pose proof (H x (or_introl eq_refl)) as Hx. specialize (IH (fun y Hy => H y (or_intror Hy))).
    destruct (f x); [rewrite (Hx eq_refl)|]; [cbn; lia|]. destruct (g x); cbn; lia.
  Qed.
  Lemma filter_lt {A} (f g : A -> bool) l a : (forall x, In x l -> f x = true -> g x = true) -> In a l -> f a = false -> g a = true -> length (filter f l) < length (filter g l).
  Proof.
    induction l as [|x l IH]; intros H Hin Fa Ga; [destruct Hin|]. destruct Hin as [->|Hi]; cbn [filter].
    - rewrite Fa, Ga. cbn. apply Nat.lt_succ_r. apply filter_le. intros y Hy. apply H. right; auto.
    - pose proof (H x (or_introl eq_refl)) as Hx. specialize (IH (fun y Hy => H y (or_intror Hy)) Hi Fa Ga). destruct (f x); [rewrite (Hx eq_refl); cbn; lia|]. destruct (g x); cbn; lia.
  Qed.
  Lemma rel_acc k : fin_pt k -> Acc rel k.
  Proof.
    remember (rank k) as m eqn:Em. revert k Em. induction m as [m IH] using (well_founded_induction lt_wf). intros k -> Hk. constructor. intros x [Hx Lx].
    apply (IH (rank x)); auto; [|apply spots_fin; auto]. assert (Fx := spots_fin x Hx). unfold rank. apply filter_lt with x; auto; [|apply lex_irrefl; auto].
    intros y Hy Ly. apply lex_trans with x; auto. apply spots_fin; auto.
  Qed.

  Lemma bt_keys {E} k (upd : option E -> E) : forall m m', bt_update idk k upd m = Val m' -> map fst m' = map fst m \/ Permutation (map fst m') (k :: map fst m).
  Proof.
    induction m as [|[k1 e1] m IH]; intros m' H; cbn [bt_update] in H; [injection H as <-; right; reflexivity|].
    destruct (key_cmp k k1) as [[]|]; try discriminate.
    - injection H as <-. auto.
    - injection H as <-. right. reflexivity.
    - destruct (bt_update idk k upd m) as [t|?| |]; try discriminate. cbn [obind] in H. injection H as <-. destruct (IH t eq_refl) as [E0|P]; cbn [map fst]; [left; congruence|right; rewrite P; apply perm_swap].
  Qed.
  Lemma pair_keys k i j q q' : fin_pt k -> pair_event lines k i j q = Val q' -> map fst q' = map fst q \/ exists x, rel x k /\ Permutation (map fst q') (x :: map fst q).
  Proof.
    intros Hk H. unfold pair_event in H. unfold idx in H. destruct (nth_error lines i) as [l|] eqn:El; [|discriminate]. destruct (nth_error lines j) as [r|] eqn:Er; [|discriminate]. cbn [obind] in H.
    destruct (vulps (lend l) (lend r)); [injection H as <-; auto|]. destruct (intersection_point l r) as [it|] eqn:Ei; [|injection H as <-; auto].
    destruct (sfin (vx (isingle it)) && sfin (vy (isingle it)))%bool eqn:Ef; [|discriminate]. apply andb_prop in Ef. destruct (ahead k (isingle it)) eqn:Ea; [|injection H as <-; auto].
    apply bt_keys in H as [H|H]; auto. right. exists (isingle it). split; auto. split; [apply (spots_In l r); auto; eapply nth_error_In; eauto|apply ahead_lex; auto].
  Qed.
  Lemma find_keys k : fin_pt k -> forall prs q q', find_new_events lines k prs q = Val q' -> exists c, Forall (fun x => rel x k) c /\ Permutation (map fst q') (c ++ map fst q).
  Proof.
    intros Hk. induction prs as [|[i j] prs IH]; intros q q' H; cbn [find_new_events] in H; [injection H as <-; exists []; auto|].
    destruct (pair_event lines k i j q) as [q1|?| |] eqn:E; try discriminate. cbn [obind] in H. apply IH in H as (c & Hc & P).
    destruct (pair_keys k i j q q1 Hk E) as [E1|(x & Hx & P1)].
    - exists c. split; auto. rewrite P, E1. auto.
    - exists (c ++ [x]). split; [apply Forall_app; auto|]. rewrite P, P1, <- app_assoc. reflexivity.
  Qed.
  Lemma loop_ends ign stop ord : forall M, Acc (mstep rel) M -> forall n st, map fst (st_queue st) = M -> Forall fin_pt M ->
    exists fuel, event_loop inf lines ign stop ord fuel n st <> NoFuel.
  Proof.
    intros M HM. induction HM as [M _ IH]. intros n st EM Hf. destruct (st_queue st) as [|[k e] q] eqn:Eq.
    - exists 0. cbn [event_loop]. rewrite Eq. discriminate.
    - cbn [map fst] in EM. subst M. inversion_clear Hf as [|? ? Hk Hq].
      destruct (handle_event inf lines ign (ord n) k e (mkSt (st_active st) q (st_result st))) as [st'|x| |] eqn:Eh; [|exists 1; cbn [event_loop]; rewrite Eq, Eh; discriminate..|].
      2: { exfalso. revert Eh. unfold handle_event. cbn [st_queue st_active st_result].
           assert (Nr : forall ls r, report (S := S) k ls r <> NoFuel).
           { assert (Nb : forall (upd : option (list nat) -> list nat) r, bt_update idk k upd r <> NoFuel).
             { intros upd. induction r as [|[k0 e0] r IHr]; cbn [bt_update]; [discriminate|]. destruct (key_cmp k k0) as [[]|]; try discriminate. destruct (bt_update idk k upd r); cbn [obind]; congruence. }
             induction ls as [|l ls IHl]; intros r; cbn [report]; [discriminate|]. pose proof (Nb (push_report l) r). destruct (bt_update idk k (push_report l) r); cbn [obind]; try congruence; auto. }
           assert (Nn : forall inter order m, neighbours inf (idx lines) k inter order m <> NoFuel).
           { intros inter. induction order as [|i t IHo]; intros m; cbn [neighbours]; [discriminate|]. destruct (nmem i inter); auto. unfold idx at 1. destruct (nth_error lines i); cbn [obind]; [auto|discriminate]. }
           assert (Nc : forall ls m, connected inf (idx lines) ls m <> NoFuel).
           { induction ls as [|i t IHo]; intros m; cbn [connected]; [discriminate|]. unfold idx at 1. destruct (nth_error lines i); cbn [obind]; [auto|discriminate]. }
           assert (Nl : forall e0 nb, candidate_lists inf (idx lines) e0 nb <> NoFuel).
           { intros e0 nb. unfold candidate_lists. destruct (Nat.eqb _ 0); [destruct (cand_left nb), (cand_right nb); discriminate|].
             pose proof (Nc (e_add e0) slope_new). destruct (connected inf (idx lines) (e_add e0) slope_new) as [c1|?| |]; cbn [obind]; try congruence.
             pose proof (Nc (e_inter e0) c1). destruct (connected inf (idx lines) (e_inter e0) c1); cbn [obind]; congruence. }
           assert (Np : forall i j q0, pair_event lines k i j q0 <> NoFuel).
           { intros i j q0. unfold pair_event, idx. destruct (nth_error lines i); [|discriminate]. destruct (nth_error lines j); [|discriminate]. cbn [obind]. destruct (vulps _ _); [discriminate|].
             destruct (intersection_point _ _) as [it|]; [|discriminate]. destruct (_ && _)%bool; [|discriminate]. destruct (ahead _ _); [|discriminate].
             generalize (merge_intersection (isingle it) [(i, l); (j, l0)]). intros upd. induction q0 as [|[k0 e0] r IHr]; cbn [bt_update]; [discriminate|]. destruct (key_cmp (isingle it) k0) as [[]|]; try discriminate. destruct (bt_update idk (isingle it) upd r); cbn [obind]; congruence. }
           assert (Nf : forall prs q0, find_new_events lines k prs q0 <> NoFuel).
           { induction prs as [|[i j] prs IHp]; intros q0; cbn [find_new_events]; [discriminate|]. pose proof (Np i j q0). destruct (pair_event lines k i j q0); cbn [obind]; try congruence; auto. }
           pose proof (Nr (to_report ign e) (st_result st)). destruct (report k (to_report ign e) (st_result st)); cbn [obind]; try congruence.
           match goal with |- context [neighbours inf (idx lines) k ?a ?b ?c] => pose proof (Nn a b c); destruct (neighbours inf (idx lines) k a b c) as [nb|?| |] end; cbn [obind]; try congruence.
           pose proof (Nl e (mm_slope nb)). destruct (candidate_lists inf (idx lines) e (mm_slope nb)); cbn [obind]; try congruence.
           match goal with |- context [find_new_events lines k ?a ?b] => pose proof (Nf a b); destruct (find_new_events lines k a b) end; cbn [obind]; congruence. }
      assert (Hst : exists c, Forall (fun x => rel x k) c /\ Permutation (map fst (st_queue st')) (c ++ map fst q)).
      { unfold handle_event in Eh. cbn [st_queue st_active st_result] in Eh. destruct (report _ _ _); cbn [obind] in Eh; try discriminate.
        destruct (neighbours _ _ _ _ _ _) as [nb|?| |]; cbn [obind] in Eh; try discriminate. destruct (candidate_lists _ _ _ _); cbn [obind] in Eh; try discriminate.
        destruct (find_new_events _ _ _ _) as [q'|?| |] eqn:Ef; cbn [obind] in Eh; try discriminate. injection Eh as <-. cbn [st_queue]. eapply find_keys; eauto. }
      destruct Hst as (c & Hc & P).
      destruct (IH (map fst (st_queue st'))) with (n := Datatypes.S n) (st := st') as (fuel & Hfuel); auto.
      { exists k, (map fst q), c. auto. }
      { apply (Permutation_Forall (Permutation_sym P)). apply Forall_app. split; auto. eapply Forall_impl; [|exact Hc]. intros x [Hx _]. apply spots_fin; auto. }
      exists (Datatypes.S fuel). cbn [event_loop]. rewrite Eq, Eh. cbn [obind]. destruct (st_result st'); auto. destruct stop; auto. discriminate.
  Qed.
  Lemma queue_ends ign stop ord q : fin_keys q -> exists fuel, event_loop inf lines ign stop ord fuel 0 (mkSt [] q []) <> NoFuel.
  Proof.
    intros Hq. apply (loop_ends ign stop ord (map fst q)); auto.
    - apply macc_all. apply Forall_forall. intros k Hk. apply in_map_iff in Hk as ([k' e] & <- & Hk). apply rel_acc. eapply Hq; eauto.
    - apply Forall_forall. intros k Hk. apply in_map_iff in Hk as ([k' e] & <- & Hk). eapply Hq; eauto.
  Qed.
End Term.

Section Calls.
  Context {S : Scalar} (inf : car S).
  Hypothesis Hc : comparable S.
  Hypothesis HO : OrdOn S (fun x => sfin x = true).
  Hypothesis Heq : forall a b : car S, sfin a = true -> sfin b = true -> seqb a b = true -> sulps a b = true.
  Lemma plain_ends ord stop ign input : exists bound, forall fuel, bound <= fuel -> intersections inf ord fuel stop ign input <> NoFuel.
  Proof.
    pose proof (with_lines_fin Hc input 0 [] [] ltac:(intros k e []) (Forall_nil _)) as F.
    unfold intersections, with_lines, compute. cbn [d_events d_lines d_stop d_ign default_data with_ignore_end_point_intersections with_stop_at_first_intersection].
    destruct (with_lines_loop 0 input [] []) as [[q ls]|x| |]; cbn [obind d_events d_lines d_stop d_ign]; try contradiction; [|exists 0; discriminate].
    destruct F as (_ & F2 & _). destruct (queue_ends inf HO Heq ls ign stop ord q F2) as (b & Hb). exists b. intros fuel Hf. erewrite event_loop_mono; eauto.
  Qed.
  Lemma indexed_ends ord stop ign vertices edges ls : lines_of vertices edges ls -> exists bound, forall fuel, bound <= fuel -> indexed_intersections inf ord fuel stop ign vertices edges <> NoFuel.
  Proof.
    intros Hl. unfold indexed_intersections, with_edges, icompute. cbn [t_events t_lines t_stop t_ign t_vertices tester_new tester_ign tester_stop].
    pose proof (lines_of_edge_lines _ _ _ Hl) as HE.
    pose proof (with_edges_sim vertices edges ls Hl 0 [] [] [] (Forall_nil _)) as W. cbn [plain map] in W.
    pose proof (with_lines_fin Hc ls 0 [] [] ltac:(intros k e []) (Forall_nil _)) as F.
    destruct (with_edges_loop vertices 0 edges [] []) as [[iq es]|x| |], (with_lines_loop 0 ls [] []) as [[q ls']|x'| |] eqn:E; cbn in W; try contradiction; cbn [obind t_events t_lines t_stop t_ign t_vertices]; [|exists 0; discriminate].
    destruct W as (K1 & K2 & K3 & K4). cbn [fst snd app] in *. subst es. destruct F as (F1 & F2 & F3). change (plain iq = q) in K2. subst q.
    destruct (queue_ends inf HO Heq ls ign stop ord (plain iq) F2) as (b & Hb). exists b. intros fuel Hf.
    assert (SR : st_rel vertices (mkISt [] vertices iq []) (mkSt [] (plain iq) [])).
    { split; [auto|]. split; [exists []; rewrite app_nil_r; auto|]. cbn. repeat split; auto. constructor. }
    pose proof (iloop_sim inf edges vertices ls HE ign stop ord fuel 0 (mkISt [] vertices iq []) (mkSt [] (plain iq) []) SR) as Sm.
    rewrite (event_loop_mono inf ls ign stop ord b fuel 0 (mkSt [] (plain iq) []) _ Hf eq_refl Hb) in Sm.
    destruct (ievent_loop inf edges ign stop ord fuel 0 (mkISt [] vertices iq [])) as [[vs ir]|x| |]; cbn [obind]; try discriminate.
    - destruct (event_loop inf ls ign stop ord b 0 (mkSt [] (plain iq) [])); cbn in Sm; try contradiction. destruct Sm as (_ & G2 & _). destruct (mapM_unwrap vs ir G2) as (out & Eo & _). rewrite Eo. discriminate.
    - destruct (event_loop inf ls ign stop ord b 0 (mkSt [] (plain iq) [])); cbn in Sm; try contradiction.
  Qed.
End Calls.
