(* Whole sweep-line calls over scalars whose finite numbers are comparable: no panic; what a result consists of. *)
From Coq Require Import Permutation Floats.SpecFloat.
From Verif Require Import Prelude Scalar RInst Flt Geo2 Sweep SweepIdx SweepRun SweepFin SweepAny.

Section NoPanic.
  Context {S : Scalar} (inf : car S).
  Hypothesis Hc : comparable S.
  Hypothesis Hu : forall a : car S, sfin a = true -> sulps a a = true.
  Notation V := (V2 S).
  Notation L := (Line2 S).
  Let T (_ : V) (_ : L) : Prop := True.

  Definition bad_pair (lines : list L) : Prop := exists l r it, In l lines /\ In r lines /\ intersection_point l r = Some it /\ ~ fin_pt (isingle it).
  Lemma loop_finite lines ign stop ord : (forall n l, Permutation (ord n l) l) -> forall fuel q,
    fin_keys q -> below (length lines) q ->
    match event_loop inf lines ign stop ord fuel 0 (mkSt [] q []) with
    | Val r => Forall (fun x => fin_pt (fst x) /\ Forall (fun i => i < length lines) (snd x)) r
    | Fail x => x = InvalidData /\ bad_pair lines
    | Panic => False
    | NoFuel => True
    end.
  Proof.
    intros Ho fuel q Hq Hb.
    assert (Kr : forall a : V, fin_pt a -> key_cmp a a = Some Eq) by (intros a [A1 A2]; unfold key_cmp; rewrite !Hu; auto).
    assert (Hint : forall (l r : L) it, In l lines -> In r lines -> intersection_point l r = Some it -> sfin (vx (isingle it)) = true -> sfin (vy (isingle it)) = true ->
      fin_pt (isingle it) /\ T (isingle it) l /\ T (isingle it) r) by (intros; repeat split; auto).
    pose proof (loop_any inf lines False fin_pt T T T T (key_cmp_fin Hc) Kr (fun f => match f with end) Hint
      (fun _ _ _ => I) (fun _ _ _ => I) (fun _ _ _ _ _ _ _ => I) (fun _ _ _ _ _ _ _ => I) (fun f => match f with end) ign stop ord Ho fuel 0 (mkSt [] q [])) as A.
    assert (St : st_fine lines False fin_pt T T T (mkSt [] q [])).
    { split; [constructor|]. split; [|constructor]. cbn [st_queue]. apply Forall_forall. intros [k e] He. cbn [fst snd]. constructor; try (intros []); [apply (Hq k e He)|].
      eapply Forall_impl; [|apply (Hb k e He)]. intros i Hi. cbn beta in Hi. apply nth_error_Some in Hi. destruct (nth_error lines i) as [l|] eqn:E; [|congruence]. exists l. split; auto. exact I. }
    specialize (A St). destruct (event_loop _ _ _ _ _ _ _ _) as [r|x| |]; auto.
    - destruct A as (A & _). eapply Forall_impl; [|exact A]. intros [k is] (H1 & _ & H2). cbn [fst snd] in *. split; auto.
      eapply Forall_impl; [|exact H2]. intros i (l & Hl & _). apply nth_error_Some. congruence.
    - destruct A as (-> & l & r & it & H1 & H2 & H3 & H4). split; auto. exists l, r, it. repeat split; auto. intros [F1 F2]. rewrite F1, F2 in H4. discriminate.
  Qed.
  Lemma plain_finite ord fuel stop ign input : (forall n l, Permutation (ord n l) l) ->
    match intersections inf ord fuel stop ign input with
    | Val r => Forall fin_line input /\ Forall (fun x => fin_pt (fst x) /\ Forall (fun i => i < length input) (snd x)) r
    | Fail x => x = InvalidData /\ (~ Forall fin_line input \/ bad_pair (map arrange input))
    | Panic => False
    | NoFuel => Forall fin_line input
    end.
  Proof.
    intros Ho. unfold intersections, with_lines, compute. cbn [d_events d_lines d_stop d_ign default_data with_ignore_end_point_intersections with_stop_at_first_intersection].
    pose proof (with_lines_fin Hc input 0 [] [] ltac:(intros k e []) (Forall_nil _)) as F.
    destruct (with_lines_loop 0 input [] []) as [[q ls]|x| |] eqn:E; cbn [obind d_events d_lines d_stop d_ign]; try contradiction; [|split; [apply F|left; apply F]].
    destruct F as (F1 & F2 & F3). apply with_lines_idx in E as [_ Hb]; [|intros k e []]. cbn [app] in F3. subst ls.
    pose proof (loop_finite (map arrange input) ign stop ord Ho fuel q F2) as A. rewrite map_length in A. specialize (A Hb).
    destruct (event_loop _ _ _ _ _ _ _ _); auto. destruct A. auto.
  Qed.
  Lemma indexed_finite ord fuel stop ign vertices edges ls : (forall n l, Permutation (ord n l) l) -> lines_of vertices edges ls ->
    match indexed_intersections inf ord fuel stop ign vertices edges with
    | Val (vs, out) => Forall fin_line ls /\ (exists added, vs = vertices ++ added) /\
        Forall (fun x => (exists p, nth_error vs (fst x) = Some p /\ fin_pt p) /\ Forall (fun i => i < length edges) (snd x)) out
    | Fail x => x = InvalidData /\ (~ Forall fin_line ls \/ bad_pair ls)
    | Panic => False
    | NoFuel => Forall fin_line ls
    end.
  Proof.
    intros Ho Hl. unfold indexed_intersections, with_edges, icompute. cbn [t_events t_lines t_stop t_ign t_vertices tester_new tester_ign tester_stop].
    pose proof (lines_of_edge_lines _ _ _ Hl) as HE.
    pose proof (with_edges_sim vertices edges ls Hl 0 [] [] [] (Forall_nil _)) as W. cbn [plain map] in W.
    (* with_edges_sim relates to with_lines on ls *)
    pose proof (with_lines_fin Hc ls 0 [] [] ltac:(intros k e []) (Forall_nil _)) as F.
    destruct (with_edges_loop vertices 0 edges [] []) as [[iq es]|x| |], (with_lines_loop 0 ls [] []) as [[q ls']|x'| |] eqn:E; cbn in W; try contradiction; cbn [obind t_events t_lines t_stop t_ign t_vertices].
    2: { subst x'. split; [apply F|left; apply F]. }
    destruct W as (K1 & K2 & K3 & K4). cbn [fst snd app] in *. subst es. destruct F as (F1 & F2 & F3). cbn [app] in F3.
    apply with_lines_idx in E as [_ Hb]; [|intros k e []]. cbn [Nat.add] in Hb. subst q.
    pose proof (loop_finite ls ign stop ord Ho fuel (plain iq) F2 Hb) as A.
    assert (SR : st_rel vertices (mkISt [] vertices iq []) (mkSt [] (plain iq) [])).
    { split; [auto|]. split; [exists []; rewrite app_nil_r; auto|]. cbn. repeat split; auto. constructor. }
    pose proof (iloop_sim inf edges vertices ls HE ign stop ord fuel 0 (mkISt [] vertices iq []) (mkSt [] (plain iq) []) SR) as Sm.
    destruct (ievent_loop inf edges ign stop ord fuel 0 (mkISt [] vertices iq [])) as [[vs ir]|x| |], (event_loop inf ls ign stop ord fuel 0 (mkSt [] (plain iq) [])) as [r|x'| |];
      cbn in Sm; try contradiction; cbn [obind]; auto.
    - destruct Sm as (G1 & G2 & G3). change (plain ir = r) in G3. destruct (mapM_unwrap vs ir G2) as (out & Eo & Fo). rewrite Eo. cbn [obind]. split; auto.
      split; [destruct G1 as (w & ->); eauto|]. rewrite G3 in Fo. clear Eo. destruct HE as [HE _]. rewrite <- HE.
      clear - A Fo. induction Fo as [|x k out r [E1 E2] _ IH]; constructor; inversion_clear A as [|? ? [A1 A2] A3]; auto. rewrite E1. split; auto. eauto.
    - subst x'. destruct A. auto.
  Qed.
End NoPanic.
