(* The indexed sweep (IntersectionTester) runs in lock step with the plain one, over any scalar. *)
From Verif Require Import Prelude Scalar Geo2 Sweep.

Section Idx.
  Context {S : Scalar} (inf : car S).
  Notation V := (V2 S).
  Notation L := (Line2 S).
  Notation idk := (fun v : V => v).

  (* the index of a key names a vertex at the key's position *)
  Definition key_ok (vs : list V) (k : IKey (S := S)) : Prop := exists i, snd k = Some i /\ nth_error vs i = Some (fst k).
  Definition keys_ok {E} (vs : list V) (m : list (IKey (S := S) * E)) : Prop := Forall (fun ke => key_ok vs (fst ke)) m.
  Definition plain {E} (m : list (IKey (S := S) * E)) : list (V * E) := map (fun ke => (fst (fst ke), snd ke)) m.
  Lemma key_ok_app vs ws k : key_ok vs k -> key_ok (vs ++ ws) k.
  Proof.
    intros (i & H1 & H2). exists i. split; auto. rewrite nth_error_app1; auto. apply nth_error_Some. congruence.
  Qed.
  Lemma keys_ok_app {E} vs ws (m : list (IKey * E)) : keys_ok vs m -> keys_ok (vs ++ ws) m.
  Proof. intros H. eapply Forall_impl; [|exact H]. intros a. apply key_ok_app. Qed.

  (* what a step of the indexed run must deliver, given the plain one *)
  Definition sim {A B} (R : A -> B -> Prop) (o : outcome A) (o' : outcome B) : Prop :=
    match o', o with
    | Val b, Val a => R a b
    | Fail e, Fail e' => e = e'
    | Panic, Panic => True
    | NoFuel, NoFuel => True
    | _, _ => False
    end.
  Lemma sim_bind {A B A' B'} (R : A -> B -> Prop) (R' : A' -> B' -> Prop) o o' f g :
    sim R o o' -> (forall a b, R a b -> sim R' (f a) (g b)) -> sim R' (obind o f) (obind o' g).
  Proof. destruct o, o'; cbn; intros H K; try contradiction; auto. Qed.
  Lemma sim_eq {A} (o o' : outcome A) : o = o' -> sim eq o o'.
  Proof. intros ->. destruct o'; cbn; auto. Qed.

  Lemma bt_update_sim {E} (vs : list V) k i (upd : option E -> E) : forall m : list (IKey * E), keys_ok vs m -> key_ok vs (k, Some i) ->
    sim (fun m' p' => keys_ok vs m' /\ plain m' = p') (bt_update fst (k, Some i) upd m) (bt_update idk k upd (plain m)).
  Proof.
    induction m as [|[k0 e] m IH]; intros Hm Hk; cbn [bt_update plain map fst snd].
    - cbn. split; auto. constructor; auto.
    - inversion Hm as [|? ? H0 Hm']; subst. destruct (key_cmp k (fst k0)) as [[]|]; cbn; auto.
      + split; auto. constructor; auto.
      + split; auto. constructor; auto.
      + eapply sim_bind; [apply IH; auto|]. intros a b [Ha Eb]. cbn. split; [constructor; auto|]. unfold plain in Eb. cbn. congruence.
  Qed.

  Variable edges : list (nat * nat).
  (* the lines the edges stand for *)
  Definition edge_lines (vs : list V) (ls : list L) : Prop :=
    length ls = length edges /\ forall i a b, nth_error edges i = Some (a, b) ->
      exists p q, nth_error vs a = Some p /\ nth_error vs b = Some q /\ nth_error ls i = Some (mkL p q).
  Lemma edge_lines_app vs ws ls : edge_lines vs ls -> edge_lines (vs ++ ws) ls.
  Proof.
    intros [H1 H2]. split; auto. intros i a b H. destruct (H2 i a b H) as (p & q & Hp & Hq & Hl). exists p, q.
    rewrite !nth_error_app1 by (apply nth_error_Some; congruence). auto.
  Qed.
  Lemma edge_line_idx vs ls i : edge_lines vs ls -> edge_line vs edges i = idx ls i.
  Proof.
    intros [H1 H2]. unfold edge_line. unfold idx at 1. destruct (nth_error edges i) as [[a b]|] eqn:E; cbn [obind fst snd].
    - destruct (H2 i a b E) as (p & q & Hp & Hq & Hl). unfold idx. rewrite Hp, Hq, Hl. auto.
    - unfold idx. replace (nth_error ls i) with (@None L); auto. symmetry. apply nth_error_None. rewrite H1. apply nth_error_None; auto.
  Qed.

  Lemma neighbours_ext (g h : nat -> outcome L) pos inter : (forall i, g i = h i) -> forall order m, neighbours inf g pos inter order m = neighbours inf h pos inter order m.
  Proof.
    intros H. induction order as [|i t IH]; intros m; cbn [neighbours]; auto. destruct (nmem i inter); auto. rewrite H.
    destruct (h i); cbn [obind]; auto.
  Qed.
  Lemma connected_ext (g h : nat -> outcome L) : (forall i, g i = h i) -> forall ls m, connected inf g ls m = connected inf h ls m.
  Proof.
    intros H. induction ls as [|i t IH]; intros m; cbn [connected]; auto. rewrite H. destruct (h i); cbn [obind]; auto.
  Qed.
  Lemma candidate_lists_ext (g h : nat -> outcome L) e nb : (forall i, g i = h i) -> candidate_lists inf g e nb = candidate_lists inf h e nb.
  Proof.
    intros H. unfold candidate_lists. destruct (Nat.eqb _ 0); auto. rewrite (connected_ext g h H).
    destruct (connected inf h (e_add e) slope_new); cbn [obind]; auto. rewrite (connected_ext g h H). auto.
  Qed.

  Variable vs0 : list V.
  Variable ls : list L.
  Hypothesis Hlines : edge_lines vs0 ls.
  Definition grown (vs : list V) : Prop := exists ws, vs = vs0 ++ ws.
  Lemma grown_lines vs : grown vs -> edge_lines vs ls.
  Proof. intros (ws & ->). apply edge_lines_app; auto. Qed.
  Definition vq_rel (vq : list V * IQueue (S := S)) (q : Queue (S := S)) : Prop := grown (fst vq) /\ keys_ok (fst vq) (snd vq) /\ plain (snd vq) = q.

  Lemma ipair_sim sweep li ri vq q : vq_rel vq q ->
    sim (fun vq' q' => vq_rel vq' q' /\ exists w, fst vq' = fst vq ++ w) (ipair_event edges sweep li ri vq) (pair_event ls sweep li ri q).
  Proof.
    destruct vq as [vs iq]. intros (Hg & Hk & <-). cbn [fst snd] in *. unfold ipair_event, pair_event.
    rewrite !(edge_line_idx vs ls) by (apply grown_lines; auto).
    assert (Same : sim (fun vq' q' => vq_rel vq' q' /\ exists w, fst vq' = vs ++ w) (Val (vs, iq)) (Val (plain iq))).
    { cbn. split; [split; auto|]. exists []. rewrite app_nil_r; auto. }
    destruct (idx ls li) as [l|?| |]; cbn [obind]; [|cbn; auto..]. destruct (idx ls ri) as [r|?| |]; cbn [obind]; [|cbn; auto..].
    destruct (vulps (lend l) (lend r)); auto. destruct (intersection_point l r) as [it|]; auto.
    destruct (sfin (vx (isingle it)) && sfin (vy (isingle it)))%bool; [|cbn; auto].
    destruct (ahead sweep (isingle it)); auto.
    assert (Hk' : keys_ok (vs ++ [isingle it]) iq) by (apply keys_ok_app; auto).
    assert (Hn : key_ok (vs ++ [isingle it]) (isingle it, Some (length vs))).
    { exists (length vs). split; auto. rewrite nth_error_app2, Nat.sub_diag; auto. }
    pose proof (bt_update_sim (vs ++ [isingle it]) (isingle it) (length vs) (merge_intersection (isingle it) [(li, l); (ri, r)]) iq Hk' Hn) as B.
    destruct (bt_update idk (isingle it) _ (plain iq)) as [q'|?| |]; destruct (bt_update fst (isingle it, Some (length vs)) _ iq) as [iq'|?| |];
      cbn in B; try contradiction; cbn; auto.
    destruct B as [B1 B2]. split; [|exists [isingle it]; auto]. split; [|split; auto]. destruct Hg as (ws & ->). exists (ws ++ [isingle it]). rewrite app_assoc. auto.
  Qed.
  Lemma ifind_sim sweep prs : forall vq q, vq_rel vq q ->
    sim (fun vq' q' => vq_rel vq' q' /\ exists w, fst vq' = fst vq ++ w) (ifind_new_events edges sweep prs vq) (find_new_events ls sweep prs q).
  Proof.
    induction prs as [|[a b] prs IH]; intros vq q H; cbn [ifind_new_events find_new_events].
    - cbn. split; auto. exists []. rewrite app_nil_r; auto.
    - eapply sim_bind; [apply ipair_sim; eauto|]. intros vq' q' [H' (w & Ew)]. cbn beta.
      specialize (IH vq' q' H'). destruct (ifind_new_events edges sweep prs vq'), (find_new_events ls sweep prs q'); cbn in *; auto.
      destruct IH as [I1 (w' & I2)]. split; auto. exists (w ++ w'). rewrite I2, Ew, app_assoc. auto.
  Qed.
  Lemma ireport_sim vs key lists : key_ok vs key -> forall r, keys_ok vs r ->
    sim (fun r' p' => keys_ok vs r' /\ plain r' = p') (ireport vs key lists r) (report (fst key) lists (plain r)).
  Proof.
    intros Hkey. pose proof Hkey as (i & Ei & Hi). destruct key as [p o]. cbn [fst snd] in *. subst o.
    induction lists as [|l lists IH]; intros r Hr; cbn [ireport report snd]; [cbn; auto|].
    unfold idx. rewrite Hi. cbn [obind].
    eapply sim_bind; [apply (bt_update_sim vs p i (push_report l) r Hr Hkey)|]. intros a b [Ha <-]. cbn beta. apply IH; auto.
  Qed.

  Definition st_rel (i : IState (S := S)) (s : State (S := S)) : Prop :=
    is_active i = st_active s /\ grown (is_vertices i) /\ keys_ok (is_vertices i) (is_queue i) /\ plain (is_queue i) = st_queue s /\
    keys_ok (is_vertices i) (is_result i) /\ plain (is_result i) = st_result s.
  Lemma ihandle_sim ign order key e i s : st_rel i s -> key_ok (is_vertices i) key ->
    sim (fun i' s' => st_rel i' s') (ihandle_event inf edges ign order key e i) (handle_event inf ls ign order (fst key) e s).
  Proof.
    intros (Ha & Hg & Hq & Eq & Hr & Er) Hk. unfold ihandle_event, handle_event. rewrite Ha, <- Er, <- Eq.
    assert (HE : forall j, edge_line (is_vertices i) edges j = idx ls j) by (intros; apply edge_line_idx, grown_lines; auto).
    eapply sim_bind; [apply ireport_sim; auto|]. intros r' p' [Hr' <-]. cbn beta.
    eapply sim_bind; [apply sim_eq, neighbours_ext; auto|]. intros nb ? <-. cbn beta.
    eapply sim_bind; [apply sim_eq, candidate_lists_ext; auto|]. intros cs ? <-. cbn beta.
    eapply sim_bind; [apply ifind_sim; split; eauto|]. intros [vs' q'] q2 [(Hg' & Hq' & <-) (w & Ew)]. cbn [fst snd] in *. cbn.
    unfold st_rel. cbn. repeat (split; auto). rewrite Ew. apply keys_ok_app; auto.
  Qed.
  Lemma plain_nil {E} (m : list (IKey (S := S) * E)) : plain m = [] -> m = [].
  Proof. destruct m; cbn; auto; discriminate. Qed.
  Lemma iloop_sim ign stop ord : forall fuel n i s, st_rel i s ->
    sim (fun vr r => grown (fst vr) /\ keys_ok (fst vr) (snd vr) /\ plain (snd vr) = r) (ievent_loop inf edges ign stop ord fuel n i) (event_loop inf ls ign stop ord fuel n s).
  Proof.
    induction fuel as [|fuel IH]; intros n i s H; pose proof H as (Ha & Hg & Hq & Eq & Hr & Er); destruct i as [act vs iq ir], s as [act' q r];
      cbn [is_active is_vertices is_queue is_result st_active st_queue st_result] in *; subst act' q r; destruct iq as [|[k e] iq];
      cbn [ievent_loop event_loop is_queue st_queue is_vertices is_result st_result plain map fst snd].
    - cbn. auto.
    - exact I.
    - cbn. auto.
    - inversion Hq as [|? ? Hk Hq']; subst. eapply sim_bind.
      + apply (ihandle_sim ign (ord n) k e (mkISt act vs iq ir) (mkSt act (plain iq) (plain ir))); auto. unfold st_rel. cbn. auto 10.
      + intros i' s' H'. cbn beta. specialize (IH (Datatypes.S n) i' s' H'). destruct H' as (Ha' & Hg' & Hq2 & Eq' & Hr' & Er').
        destruct (is_result i') as [|x t] eqn:E; destruct (st_result s') as [|y t'] eqn:E'; try discriminate Er'; auto.
        destruct stop; auto. cbn. auto.
  Qed.

End Idx.

(* ---- with_edges builds the queue with_lines would build ---- *)
Section Edges.
  Context {S : Scalar} (inf : car S).
  Notation V := (V2 S).
  Notation L := (Line2 S).
  Definition in_range_edges (vs : list V) (edges : list (nat * nat)) : Prop := forall a b, In (a, b) edges -> (a < length vs)%nat /\ (b < length vs)%nat.
  Definition lines_of (vs : list V) (edges : list (nat * nat)) (ls : list L) : Prop :=
    Forall2 (fun ab l => nth_error vs (fst ab) = Some (lstart l) /\ nth_error vs (snd ab) = Some (lend l)) edges ls.
  Lemma lines_of_exists vs edges : in_range_edges vs edges -> exists ls, lines_of vs edges ls.
  Proof.
    induction edges as [|[a b] edges IH]; intros H; [exists []; constructor|].
    destruct IH as (ls & Hl); [intros a' b' Hi; apply H; right; auto|]. destruct (H a b (or_introl eq_refl)) as [Ha Hb].
    apply nth_error_Some in Ha, Hb. destruct (nth_error vs a) as [p|] eqn:Ep; [|congruence]. destruct (nth_error vs b) as [q|] eqn:Eq; [|congruence].
    exists (mkL p q :: ls). constructor; auto.
  Qed.
  Lemma lines_of_edge_lines vs edges ls : lines_of vs edges ls -> edge_lines edges vs ls.
  Proof.
    intros H. split; [induction H; cbn; auto|]. induction H as [|[a0 b0] l edges ls [H1 H2] H IH]; intros [|i] a b E; cbn in *; try discriminate.
    - injection E as -> ->. exists (lstart l), (lend l). destruct l; auto.
    - eauto.
  Qed.
  Lemma iqueue_sim (vs : list V) i si s ei e (q : IQueue (S := S)) : keys_ok vs q -> nth_error vs si = Some s -> nth_error vs ei = Some e ->
    sim (fun q' p' => keys_ok vs q' /\ plain q' = p') (iqueue_line i si s ei e q) (queue_line i (lstart (arrange (mkL s e))) (lend (arrange (mkL s e))) (plain q)).
  Proof.
    intros Hq Hs He. unfold iqueue_line, queue_line, arrange. cbn [lstart lend].
    assert (Ks : key_ok vs (s, Some si)) by (exists si; auto). assert (Ke : key_ok vs (e, Some ei)) by (exists ei; auto).
    destruct (key_lt s e); cbn [lstart lend].
    - eapply sim_bind; [apply (bt_update_sim vs); auto|]. intros a b [Ha <-]. apply bt_update_sim; auto.
    - eapply sim_bind; [apply (bt_update_sim vs); auto|]. intros a b [Ha <-]. apply bt_update_sim; auto.
  Qed.
  Lemma with_edges_sim (vs : list V) : forall edges ls, lines_of vs edges ls -> forall n (q : IQueue (S := S)) done acc, keys_ok vs q ->
    sim (fun qe ql => keys_ok vs (fst qe) /\ plain (fst qe) = fst ql /\ snd qe = done ++ edges /\ snd ql = acc ++ map arrange ls)
      (with_edges_loop vs n edges q done) (with_lines_loop n ls (plain q) acc).
  Proof.
    intros edges ls H. induction H as [|[a b] l edges ls [H1 H2] H IH]; intros n q done acc Hq; cbn [with_edges_loop with_lines_loop map].
    - cbn. rewrite !app_nil_r. auto.
    - cbn [fst snd] in *. unfold idx. rewrite H1, H2. cbn [obind]. destruct (line_finite (lstart l) (lend l)); [|cbn; auto].
      eapply sim_bind.
      + replace (arrange l) with (arrange (mkL (lstart l) (lend l))) by (destruct l; auto). apply (iqueue_sim vs); auto.
      + intros q' p' [Hq' <-]. cbn beta. specialize (IH (Datatypes.S n) q' (done ++ [(a, b)]) (acc ++ [arrange l]) Hq').
        rewrite <- !app_assoc in IH. cbn [app] in IH. exact IH.
  Qed.
End Edges.
