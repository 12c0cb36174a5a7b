(* What the event loop of the sweep line does over any scalar, with no assumption on the arithmetic: it never panics on
   comparable keys, every line listed at a point belongs to an event at a key that compares equal, and queued end points are
   reported. *)
From Coq Require Import Permutation Sorting.Sorted.
From Verif Require Import Prelude Scalar Geo2 Sweep SweepMap.

Lemma nodup_app {A} (a b : list A) : NoDup (a ++ b) <-> NoDup a /\ NoDup b /\ forall x, In x a -> ~ In x b.
Proof.
  induction a as [|x a IH]; cbn [app]; [split; [intros H; repeat split; auto; constructor|tauto]|]. split.
  - intros H. inversion_clear H as [|? ? N H']. apply IH in H' as (H1 & H2 & H3). rewrite in_app_iff in N. repeat split; auto; [constructor; auto|].
    intros y [<-|Hy]; auto.
  - intros (H1 & H2 & H3). inversion_clear H1 as [|? ? N H']. constructor; [rewrite in_app_iff; intros [|K]; [auto|apply (H3 x); cbn; auto]|]. apply IH. repeat split; auto. intros y Hy. apply H3. cbn. auto.
Qed.
Section Any.
  Context {S : Scalar} (inf : car S) (lines : list (Line2 S)).
  Notation V := (V2 S).
  Notation L := (Line2 S).
  Notation idk := (fun v : V => v).

  Lemma idx_ok {A} (l : list A) i x : nth_error l i = Some x -> idx l i = Val x.
  Proof. unfold idx. intros ->. auto. Qed.

  (* ---- candidate lists hold only the indices fed in ---- *)
  Definition slopes_in (P : nat -> Prop) (m : MinMaxSlope (S := S)) : Prop := Forall P (cand_left m) /\ Forall P (cand_right m).
  Lemma update_left_in P m c sl i : slopes_in P m -> P i -> slopes_in P (update_left m c sl i).
  Proof.
    intros [H1 H2] Hi. unfold update_left, slopes_in. destruct c.
    - cbn [cand_left cand_right app]. auto.
    - destruct (best_left m); [destruct (sulps _ _); [|destruct (sltb _ _)]|]; cbn [cand_left cand_right]; split; auto; try (apply Forall_app; auto).
  Qed.
  Lemma update_right_in P m c sl i : slopes_in P m -> P i -> slopes_in P (update_right m c sl i).
  Proof.
    intros [H1 H2] Hi. unfold update_right, slopes_in. destruct c.
    - cbn [cand_left cand_right app]. auto.
    - destruct (best_right m); [destruct (sulps _ _); [|destruct (sltb _ _)]|]; cbn [cand_left cand_right]; split; auto; try (apply Forall_app; auto).
  Qed.
  Lemma minmax_in P m pv cx sl i : slopes_in P (mm_slope m) -> P i -> slopes_in P (mm_slope (minmax_update m pv cx sl i)).
  Proof.
    intros H Hi. unfold minmax_update. destruct (sltb cx pv).
    - destruct (mm_left m); [destruct (sulps _ _); [|destruct (sltb _ _)]|]; cbn [mm_slope]; auto using update_left_in.
    - destruct (sltb pv cx); auto. destruct (mm_right m); [destruct (sulps _ _); [|destruct (sltb _ _)]|]; cbn [mm_slope]; auto using update_right_in.
  Qed.
  Definition inr (i : nat) : Prop := exists l, nth_error lines i = Some l.
  Lemma neighbours_any pos inter : forall order m, Forall inr order -> slopes_in inr (mm_slope m) ->
    exists m', neighbours inf (idx lines) pos inter order m = Val m' /\ slopes_in inr (mm_slope m').
  Proof.
    induction order as [|i t IH]; intros m Ho Hm; cbn [neighbours]; [eauto|]. inversion_clear Ho as [|? ? Hi Ht].
    destruct (nmem i inter); [auto|]. destruct (Hi) as (l & Hl). rewrite (idx_ok _ _ _ Hl). cbn [obind]. apply IH; auto.
    destruct (sweepline_intersection inf pos l) as [[x sl]|]; auto. apply minmax_in; auto.
  Qed.
  Lemma connected_any : forall ls m, Forall inr ls -> slopes_in inr m -> exists m', connected inf (idx lines) ls m = Val m' /\ slopes_in inr m'.
  Proof.
    induction ls as [|i t IH]; intros m Hl Hm; cbn [connected]; [eauto|]. inversion_clear Hl as [|? ? Hi Ht].
    destruct (Hi) as (l & El). rewrite (idx_ok _ _ _ El). cbn [obind]. apply IH; auto. unfold update_both. apply update_right_in; auto. apply update_left_in; auto.
  Qed.
  Lemma slope_new_in P : slopes_in P slope_new.
  Proof. split; constructor. Qed.
  Definition pair_in (ab : nat * nat) : Prop := inr (fst ab) /\ inr (snd ab).
  Lemma pairs_in a b : Forall inr a -> Forall inr b -> Forall pair_in (pairs_of (a, b)).
  Proof.
    intros Ha Hb. unfold pairs_of. cbn [fst snd]. apply Forall_forall. intros [x y] H. apply in_flat_map in H as (x' & Hx & H). apply in_map_iff in H as (y' & [= -> ->] & Hy).
    rewrite Forall_forall in Ha, Hb. split; cbn; auto.
  Qed.
  Lemma candidates_any e nb : Forall inr (e_add e) -> Forall inr (e_inter e) -> slopes_in inr nb ->
    exists c, candidate_lists inf (idx lines) e nb = Val c /\ Forall pair_in (flat_map pairs_of c).
  Proof.
    intros Ha Hi [Hl Hr]. unfold candidate_lists. destruct (Nat.eqb _ 0).
    - destruct (cand_left nb) as [|x xs]; [eexists; split; [reflexivity|constructor]|]. destruct (cand_right nb) as [|y ys]; [eexists; split; [reflexivity|constructor]|].
      eexists. split; [reflexivity|]. cbn [flat_map]. rewrite app_nil_r. apply pairs_in; auto.
    - destruct (connected_any (e_add e) slope_new Ha (slope_new_in _)) as (c1 & E1 & H1). rewrite E1. cbn [obind].
      destruct (connected_any (e_inter e) c1 Hi H1) as (c2 & E2 & H2 & H3). rewrite E2. cbn [obind]. eexists. split; [reflexivity|].
      rewrite flat_map_app. apply Forall_app. split.
      + destruct (cand_left nb); [constructor|]. cbn [flat_map]. rewrite app_nil_r. apply pairs_in; auto.
      + destruct (cand_right nb); [constructor|]. cbn [flat_map]. rewrite app_nil_r. apply pairs_in; auto.
  Qed.

  (* ---- the ordered map ---- *)
  Definition all_gt {E} (k : V) (m : list (V * E)) : Prop := Forall (fun x => key_cmp k (fst x) = Some Gt) m.
  Lemma bt_at {E} k (upd : option E -> E) m1 k' e m2 : all_gt k m1 -> key_cmp k k' = Some Eq ->
    bt_update idk k upd (m1 ++ (k', e) :: m2) = Val (m1 ++ (k', upd (Some e)) :: m2).
  Proof.
    intros H Eq. induction H as [|[k0 e0] m1 Hk H IH]; cbn [app bt_update fst] in *; [rewrite Eq; auto|]. rewrite Hk, IH. auto.
  Qed.
  Lemma bt_any {E} k (upd : option E -> E) : forall m, Forall (fun x => key_cmp k (fst x) <> None) m ->
    (exists m1 m2, m = m1 ++ m2 /\ all_gt k m1 /\ bt_update idk k upd m = Val (m1 ++ (k, upd None) :: m2)) \/
    (exists m1 k' e m2, m = m1 ++ (k', e) :: m2 /\ all_gt k m1 /\ key_cmp k k' = Some Eq /\ bt_update idk k upd m = Val (m1 ++ (k', upd (Some e)) :: m2)).
  Proof.
    induction m as [|[k0 e0] m IH]; intros H; [left; exists [], []; repeat split; auto; constructor|].
    inversion_clear H as [|? ? H0 Hm]. cbn [fst] in H0. destruct (key_cmp k k0) as [[]|] eqn:Ec; [| | |congruence].
    - right. exists [], k0, e0, m. cbn [app bt_update]. rewrite Ec. repeat split; auto. constructor.
    - left. exists [], ((k0, e0) :: m). cbn [app bt_update]. rewrite Ec. repeat split; auto. constructor.
    - destruct (IH Hm) as [(m1 & m2 & -> & Gm & Eb)|(m1 & k' & e & m2 & -> & Gm & Eq & Eb)].
      + left. exists ((k0, e0) :: m1), m2. cbn [app bt_update]. rewrite Ec, Eb. repeat split; auto. constructor; auto.
      + right. exists ((k0, e0) :: m1), k', e, m2. cbn [app bt_update]. rewrite Ec, Eb. repeat split; auto. constructor; auto.
  Qed.

  Lemma report_at key lists : forall m1 k is m2, all_gt key m1 -> key_cmp key k = Some Eq ->
    exists is', report key lists (m1 ++ (k, is) :: m2) = Val (m1 ++ (k, is') :: m2) /\ Permutation is' (is ++ concat lists).
  Proof.
    induction lists as [|l t IH]; intros m1 k is m2 Gm Eq; cbn [report concat]; [exists is; rewrite app_nil_r; auto|].
    rewrite (bt_at key _ m1 k is m2 Gm Eq). cbn [obind]. destruct (IH m1 k (push_report l (Some is)) m2 Gm Eq) as (is' & E & P).
    exists is'. split; auto. rewrite P. unfold push_report. rewrite nsort_perm. rewrite app_assoc. reflexivity.
  Qed.
  Lemma report_any key l t r : Forall (fun x => key_cmp key (fst x) <> None) r -> key_cmp key key = Some Eq ->
    (exists m1 m2 is, r = m1 ++ m2 /\ report key (l :: t) r = Val (m1 ++ (key, is) :: m2) /\ Permutation is (concat (l :: t))) \/
    (exists m1 k is m2 is', r = m1 ++ (k, is) :: m2 /\ key_cmp key k = Some Eq /\ report (S := S) key (l :: t) r = Val (m1 ++ (k, is') :: m2) /\ Permutation is' (is ++ concat (l :: t))).
  Proof.
    intros Hr Hk. cbn [report]. destruct (bt_any key (push_report l) r Hr) as [(m1 & m2 & -> & Gm & Eb)|(m1 & k' & e & m2 & -> & Gm & Eq & Eb)]; rewrite Eb; cbn [obind].
    - left. destruct (report_at key t m1 key (push_report l None) m2 Gm Hk) as (is' & E & P). exists m1, m2, is'. repeat split; auto.
      rewrite P. unfold push_report. cbn [concat]. rewrite nsort_perm. reflexivity.
    - right. destruct (report_at key t m1 k' (push_report l (Some e)) m2 Gm Eq) as (is' & E & P). exists m1, k', e, m2, is'. repeat split; auto.
      rewrite P. unfold push_report. cbn [concat]. rewrite nsort_perm, app_assoc. reflexivity.
  Qed.

  (* ---- the loop ---- *)
  (* G: the optional part, that every event lists a line once *)
  Context (G : Prop) (okey : V -> Prop) (near0 near1 near2 endat : V -> L -> Prop).
  Hypothesis Kc : forall a b, okey a -> okey b -> key_cmp a b <> None.
  Hypothesis Kr : forall a, okey a -> key_cmp a a = Some Eq.
  Hypothesis Kend : G -> forall l, In l lines -> vulps (lend l) (lend l) = true.
  Hypothesis Hint : forall l r it, In l lines -> In r lines -> intersection_point l r = Some it -> sfin (vx (isingle it)) = true -> sfin (vy (isingle it)) = true ->
    okey (isingle it) /\ near0 (isingle it) l /\ near0 (isingle it) r.
  Hypothesis Sub1 : forall p l, near0 p l -> near1 p l.
  Hypothesis Sub2 : forall p l, near1 p l -> near2 p l.
  Hypothesis Hop1 : forall p k l, okey p -> okey k -> key_cmp p k = Some Eq -> near0 p l -> near1 k l.
  Hypothesis Hop2 : forall p k l, okey p -> okey k -> key_cmp p k = Some Eq -> near1 p l -> near2 k l.
  Hypothesis Hendat : G -> forall p k l, okey p -> okey k -> key_cmp p k = Some Eq -> endat k l -> (vulps p (lstart l) || vulps p (lend l))%bool = true.

  Definition has (R : V -> L -> Prop) (k : V) (i : nat) : Prop := exists l, nth_error lines i = Some l /\ R k l.
  Definition ev_lines (e : SiteEvent) : list nat := e_drop e ++ e_add e ++ e_inter e.
  Record ev_fine (k : V) (e : SiteEvent) : Prop := {
    f_key : okey k;
    f_near : Forall (has near1 k) (ev_lines e);
    f_end : G -> Forall (has endat k) (e_drop e ++ e_add e);
    f_nodup : G -> NoDup (ev_lines e);
    f_some : G -> e_drop e ++ e_add e <> [] \/ 2 <= length (e_inter e) }.
  Definition q_fine (q : Queue (S := S)) : Prop := Forall (fun x => ev_fine (fst x) (snd x)) q.
  Definition two_of (l : list nat) : Prop := exists i j, i <> j /\ In i l /\ In j l.
  Definition r_fine (r : Result (S := S)) : Prop := Forall (fun x => okey (fst x) /\ (G -> two_of (snd x)) /\ Forall (has near2 (fst x)) (snd x)) r.
  Definition st_fine (st : State (S := S)) : Prop := Forall inr (st_active st) /\ q_fine (st_queue st) /\ r_fine (st_result st).
  Definition bad_point : Prop := exists l r it, In l lines /\ In r lines /\ intersection_point l r = Some it /\ (sfin (vx (isingle it)) && sfin (vy (isingle it)))%bool = false.

  Lemma has_inr R k i : has R k i -> inr i.
  Proof. intros (l & Hl & _). exists l. auto. Qed.
  Lemma q_cmp p q : okey p -> q_fine q -> Forall (fun x => key_cmp p (fst x) <> None) q.
  Proof. intros Hp Hq. eapply Forall_impl; [|exact Hq]. intros [k e] [Hk _ _ _ _]. cbn [fst] in *. auto. Qed.
  Lemma two_length l : NoDup l -> 2 <= length l -> two_of l.
  Proof. intros N H. destruct l as [|a [|b t]]; cbn in H; try lia. exists a, b. inversion_clear N as [|? ? Na _]. cbn in *. intuition. Qed.
  Lemma ev_long k e : G -> ev_fine k e -> e_inter e <> [] -> 2 <= length (ev_lines e).
  Proof.
    intros g [_ _ _ _ Hs] Hi; destruct (Hs g) as [H|H]; unfold ev_lines; rewrite app_assoc, app_length; [|lia].
    destruct (e_drop e ++ e_add e); [congruence|]. destruct (e_inter e); [congruence|]. cbn. lia.
  Qed.

  Lemma merge_fine p i j li lj o k : okey p -> okey k -> (k = p \/ key_cmp p k = Some Eq) -> (G -> i <> j) -> nth_error lines i = Some li -> nth_error lines j = Some lj -> near0 p li -> near0 p lj ->
    match o with None => k = p | Some e => ev_fine k e /\ key_cmp p k = Some Eq end -> ev_fine k (merge_intersection p [(i, li); (j, lj)] o).
  Proof.
    intros Hp Hk Hpk Hij Hi Hj Ni Nj Ho. set (ls := [(i, li); (j, lj)]).
    assert (Hls : Forall (fun il => nth_error lines (fst il) = Some (snd il) /\ near0 p (snd il)) ls) by (repeat constructor; auto).
    assert (Nls : G -> NoDup (map fst ls)) by (intros g; cbn; constructor; [intros [E|[]]; apply (Hij g); congruence|]; constructor; [intros []|constructor]).
    assert (N1 : Forall (fun il => has near1 k (fst il)) ls).
    { eapply Forall_impl; [|exact Hls]. intros [x l] [H1 H2]. cbn [fst snd] in *. exists l. split; auto. destruct Hpk as [->|Hpk]; [auto|]. apply (Hop1 p); auto. }
    destruct o as [e|]; cbn [merge_intersection].
    - destruct Ho as [[_ Fn Fe Fd Fs] Eq]. match goal with |- ev_fine _ (match ?x with [] => _ | _ => _ end) => set (fresh := x) end.
      assert (Fr : Forall (has near1 k) fresh).
      { unfold fresh. rewrite Forall_map. rewrite Forall_forall in N1 |- *. intros x Hx. apply filter_In in Hx as [Hx _]. auto. }
      assert (Fx : G -> forall x, In x fresh -> ~ In x (e_drop e ++ e_add e)).
      { intros g x Hx Hd. specialize (Fe g). rewrite Forall_forall in Fe. destruct (Fe x Hd) as (l & Hl & He). unfold fresh in Hx. apply in_map_iff in Hx as ([x' l'] & <- & Hf). apply filter_In in Hf as [Hf1 Hf2]. cbn [fst snd] in *.
        rewrite Forall_forall in Hls. destruct (Hls _ Hf1) as [Hl' _]. cbn [fst snd] in Hl'. rewrite Hl in Hl'. injection Hl' as <-. rewrite (Hendat g p k l) in Hf2; auto. discriminate. }
      destruct fresh as [|x fr] eqn:Efr; [constructor; auto|]. rewrite <- Efr in *. clear Efr.
      unfold ev_lines in *. rewrite app_assoc in Fn. setoid_rewrite app_assoc in Fd. apply Forall_app in Fn as [Fn1 Fn2].
      set (new := dedup (nsort (e_inter e ++ fresh))). assert (In_new : forall y, In y new <-> In y (e_inter e) \/ In y fresh) by (intros y; unfold new; rewrite dedup_In, nsort_In, in_app_iff; reflexivity).
      assert (Nn : NoDup new) by apply dedup_NoDup, nsort_sorted.
      constructor; unfold ev_lines; cbn [e_drop e_add e_inter]; auto; rewrite ?app_assoc.
      + apply Forall_app. split; auto. apply Forall_forall. intros y Hy. apply In_new in Hy. rewrite Forall_forall in Fn2, Fr. destruct Hy; auto.
      + intros g. specialize (Fd g). apply nodup_app in Fd as (Fd1 & Fd2 & Fd3). apply nodup_app. split; auto. split; auto. intros y Hy Hn. apply In_new in Hn as [Hn|Hn]; [apply (Fd3 y); auto|apply (Fx g y Hn Hy)].
      + intros g. specialize (Fd g). apply nodup_app in Fd as (Fd1 & Fd2 & Fd3). destruct (Fs g) as [Fs'|Fs']; [auto|right]. etransitivity; [exact Fs'|]. apply NoDup_incl_length; auto. intros y Hy. apply In_new. auto.
    - subst k. constructor; unfold ev_lines, with_intersection; cbn [e_drop e_add e_inter app]; auto. rewrite Forall_map. auto.
  Qed.

  Lemma pair_any sweep i j q : inr i -> inr j -> q_fine q ->
    match pair_event lines sweep i j q with
    | Val q' => q_fine q' /\ forall k e, In (k, e) q -> exists e', In (k, e') q' /\ e_drop e' = e_drop e /\ e_add e' = e_add e
    | Fail x => x = InvalidData /\ bad_point
    | _ => False
    end.
  Proof.
    intros (li & Hi) (lj & Hj) Hq. unfold pair_event. rewrite (idx_ok _ _ _ Hi), (idx_ok _ _ _ Hj). cbn [obind].
    assert (Ii := nth_error_In _ _ Hi). assert (Ij := nth_error_In _ _ Hj).
    assert (Same : q_fine q /\ forall k e, In (k, e) q -> exists e', In (k, e') q /\ e_drop e' = e_drop e /\ e_add e' = e_add e) by (split; eauto).
    destruct (vulps (lend li) (lend lj)) eqn:Ev; [auto|].
    assert (Nij : G -> i <> j). { intros g ->. rewrite Hi in Hj. injection Hj as <-. rewrite (Kend g) in Ev; auto. discriminate. }
    destruct (intersection_point li lj) as [it|] eqn:Ei; [|auto].
    destruct (sfin (vx (isingle it)) && sfin (vy (isingle it)))%bool eqn:Ef; [|split; auto; exists li, lj, it; auto].
    destruct (ahead sweep (isingle it)); [|auto]. apply andb_prop in Ef as [F1 F2]. destruct (Hint li lj it Ii Ij Ei F1 F2) as (Hp & N1 & N2). set (p := isingle it) in *.
    destruct (bt_any p (merge_intersection p [(i, li); (j, lj)]) q (q_cmp p q Hp Hq)) as [(m1 & m2 & -> & Gm & Eb)|(m1 & k' & e & m2 & -> & Gm & Eq & Eb)]; rewrite Eb.
    - unfold q_fine in *. apply Forall_app in Hq as [Q1 Q2]. split.
      + apply Forall_app. split; auto. constructor; auto. cbn [fst snd]. apply merge_fine; auto.
      + intros k e He. exists e. split; auto. apply in_app_iff in He. apply in_app_iff. cbn. tauto.
    - unfold q_fine in *. apply Forall_app in Hq as [Q1 Q2]. inversion_clear Q2 as [|? ? Q0 Q3]. cbn [fst snd] in *. assert (Hk' := f_key _ _ Q0). split.
      + apply Forall_app. split; auto. constructor; auto. cbn [fst snd]. apply merge_fine; auto.
      + intros k x He. apply in_app_iff in He as [He|[[= <- <-]|He]]; [exists x; rewrite in_app_iff; auto| |exists x; rewrite in_app_iff; cbn; auto].
        exists (merge_intersection p [(i, li); (j, lj)] (Some e)). split; [apply in_app_iff; cbn; auto|].
        cbn [merge_intersection]. destruct (map fst _); auto.
  Qed.
  Lemma find_any sweep : forall prs q, Forall pair_in prs -> q_fine q ->
    match find_new_events lines sweep prs q with
    | Val q' => q_fine q' /\ forall k e, In (k, e) q -> exists e', In (k, e') q' /\ e_drop e' = e_drop e /\ e_add e' = e_add e
    | Fail x => x = InvalidData /\ bad_point
    | _ => False
    end.
  Proof.
    induction prs as [|[a b] prs IH]; intros q Hp Hq; cbn [find_new_events]; [split; eauto|]. inversion_clear Hp as [|? ? [H1 H2] Hp']. cbn [fst snd] in *.
    pose proof (pair_any sweep a b q H1 H2 Hq) as P. destruct (pair_event lines sweep a b q) as [q1|?| |]; cbn [obind]; auto. destruct P as [Q1 P1].
    specialize (IH q1 Hp' Q1). destruct (find_new_events lines sweep prs q1) as [q2|?| |]; auto. destruct IH as [Q2 P2]. split; auto.
    intros k e He. destruct (P1 k e He) as (e1 & I1 & D1 & A1). destruct (P2 k e1 I1) as (e2 & I2 & D2 & A2). exists e2. split; auto. split; congruence.
  Qed.

  Lemma report_cases ign e : to_report ign e = [] \/ (exists l t, to_report ign e = l :: t /\ concat (l :: t) = ev_lines e /\ (2 <= length (ev_lines e) \/ e_inter e <> [])).
  Proof.
    assert (O : forall l : list nat, concat (if Nat.ltb 0 (length l) then [l] else []) = l) by (intros [|x l]; cbn; rewrite ?app_nil_r; auto).
    assert (N : forall ls : list (list nat), concat ls = ev_lines e -> (2 <= length (ev_lines e) \/ e_inter e <> []) ->
      ls = [] \/ (exists l t, ls = l :: t /\ concat (l :: t) = ev_lines e /\ (2 <= length (ev_lines e) \/ e_inter e <> []))).
    { intros [|l t] H1 H2; auto. right. exists l, t. auto. }
    unfold to_report. destruct ign.
    - destruct (Nat.ltb_spec 0 (length (e_inter e))) as [L|L]; [|auto]. apply N; [rewrite !concat_app, !O; cbn; rewrite app_nil_r; auto|]. right. intros E. rewrite E in L. cbn in L. lia.
    - destruct (Nat.ltb_spec 1 (length (e_drop e) + length (e_add e) + length (e_inter e))) as [L|L]; [|auto]. apply N; [rewrite !concat_app, !O; auto|]. left. unfold ev_lines. rewrite !app_length. lia.
  Qed.
  Lemma reports_fine ign k e r : ev_fine k e -> r_fine r ->
    exists r', report k (to_report ign e) r = Val r' /\ r_fine r' /\
      (forall k0 is, In (k0, is) r -> exists is', In (k0, is') r' /\ incl is is') /\
      (to_report ign e <> [] -> exists k0 is, In (k0, is) r' /\ (k0 = k \/ key_cmp k k0 = Some Eq) /\ incl (ev_lines e) is).
  Proof.
    intros He Hr. destruct (report_cases ign e) as [E|(l & t & E & Ec & El)]; rewrite E.
    - exists r. split; [reflexivity|]. split; auto. split; [intros k0 is H; exists is; split; auto; apply incl_refl|congruence].
    - assert (Hk := f_key _ _ He).
      assert (L2 : G -> 2 <= length (ev_lines e)) by (intros g; destruct El as [El|El]; [auto|apply (ev_long k); auto]).
      assert (T2 : G -> two_of (ev_lines e)) by (intros g; apply two_length; [apply (f_nodup _ _ He g)|auto]).
      assert (Hr' : Forall (fun x => key_cmp k (fst x) <> None) r). { eapply Forall_impl; [|exact Hr]. intros [k0 is] (H & _). cbn [fst] in *. auto. }
      assert (Tw : forall a b, two_of a -> incl a b -> two_of b) by (intros a b (i & j & N & H1 & H2) Hab; exists i, j; auto).
      destruct (report_any k l t r Hr' (Kr k Hk)) as [(m1 & m2 & is & -> & Eb & P)|(m1 & k0 & is & m2 & is' & -> & Eq & Eb & P)]; rewrite Eb; rewrite Ec in P; unfold r_fine in *; apply Forall_app in Hr as [R1 R2]; eexists; (split; [reflexivity|]).
      + assert (Inc : incl (ev_lines e) is) by (intros x Hx; apply (Permutation_in _ (Permutation_sym P)); auto). split; [|split].
        * apply Forall_app. split; auto. constructor; auto. cbn [fst snd]. split; auto. split; [intros g; eapply Tw; [eauto|]; eauto|].
          rewrite Forall_forall. intros x Hx. apply (Permutation_in _ P) in Hx. pose proof (f_near _ _ He) as Fn. rewrite Forall_forall in Fn. destruct (Fn x Hx) as (y & Y1 & Y2). exists y. auto.
        * intros k0 is0 H. exists is0. split; [|apply incl_refl]. apply in_app_iff in H. apply in_app_iff. cbn. tauto.
        * intros _. exists k, is. split; [apply in_app_iff; cbn; auto|]. auto.
      + inversion_clear R2 as [|? ? R0 R3]. cbn [fst snd] in R0. destruct R0 as (K0 & T0 & N0).
        assert (Inc : incl (ev_lines e) is') by (intros x Hx; apply (Permutation_in _ (Permutation_sym P)), in_app_iff; auto).
        assert (Inc0 : incl is is') by (intros x Hx; apply (Permutation_in _ (Permutation_sym P)), in_app_iff; auto). split; [|split].
        * apply Forall_app. split; auto. constructor; auto. cbn [fst snd]. split; auto. split; [intros g; eapply Tw; [eauto|]; eauto|].
          rewrite Forall_forall in *. intros x Hx. apply (Permutation_in _ P), in_app_iff in Hx as [Hx|Hx]; [auto|]. pose proof (f_near _ _ He) as Fn. rewrite Forall_forall in Fn. destruct (Fn x Hx) as (y & Y1 & Y2). exists y. split; auto. apply (Hop2 k); auto.
        * intros k1 is1 H. apply in_app_iff in H as [H|[[= <- <-]|H]]; [exists is1; split; [apply in_app_iff; auto|apply incl_refl]|exists is'; split; [apply in_app_iff; cbn; auto|auto]|exists is1; split; [apply in_app_iff; cbn; auto|apply incl_refl]].
        * intros _. exists k0, is'. split; [apply in_app_iff; cbn; auto|]. auto.
  Qed.

  Lemma handle_any ign order k e st : (forall l, Permutation (order l) l) -> ev_fine k e -> st_fine st ->
    match handle_event inf lines ign order k e st with
    | Val st' => st_fine st' /\ (forall k0 x, In (k0, x) (st_queue st) -> exists x', In (k0, x') (st_queue st') /\ e_drop x' = e_drop x /\ e_add x' = e_add x) /\
        (forall k0 is, In (k0, is) (st_result st) -> exists is', In (k0, is') (st_result st') /\ incl is is') /\
        (to_report ign e <> [] -> exists k0 is, In (k0, is) (st_result st') /\ (k0 = k \/ key_cmp k k0 = Some Eq) /\ incl (ev_lines e) is)
    | Fail x => x = InvalidData /\ bad_point
    | _ => False
    end.
  Proof.
    intros Ho He (Ha & Hq & Hr). unfold handle_event. destruct (reports_fine ign k e (st_result st) He Hr) as (r' & Er & R1 & R2 & R3). rewrite Er. cbn [obind].
    assert (En : Forall inr (ev_lines e)) by (eapply Forall_impl; [|exact (f_near _ _ He)]; intros i Hi; eapply has_inr; eauto).
    unfold ev_lines in En. rewrite !Forall_app in En. destruct En as (_ & Ea & Ei).
    assert (Hact : Forall inr (set_remove (st_active st) (e_drop e))).
    { rewrite Forall_forall in Ha |- *. intros i Hi. apply set_remove_In in Hi as [Hi _]. auto. }
    destruct (neighbours_any k (e_inter e) (order (set_remove (st_active st) (e_drop e))) minmax_new) as (nb & En & Hnb).
    { rewrite Forall_forall in Hact |- *. intros i Hi. apply Hact. eapply Permutation_in; [apply Ho|auto]. } { apply slope_new_in. }
    rewrite En. cbn [obind]. destruct (candidates_any e (mm_slope nb) Ea Ei Hnb) as (c & Ec & Hc). rewrite Ec. cbn [obind].
    pose proof (find_any k _ (st_queue st) Hc Hq) as Fa. destruct (find_new_events lines k (flat_map pairs_of c) (st_queue st)) as [q'|?| |]; cbn [obind]; auto.
    destruct Fa as [Q1 Q2]. cbn [st_active st_queue st_result]. split; [|auto]. split; [|auto]. cbn [st_active].
    rewrite Forall_forall in *. intros i Hi. apply set_inserts_In in Hi as [Hi|Hi]; auto.
  Qed.

  (* the loop: no panic; the result is fine; with stop = false every queued event with two end points is reported *)
  Lemma loop_any ign stop ord : (forall n l, Permutation (ord n l) l) -> forall fuel n st, st_fine st ->
    match event_loop inf lines ign stop ord fuel n st with
    | Val r => r_fine r /\
        (stop = false -> forall k is, In (k, is) (st_result st) -> exists is', In (k, is') r /\ incl is is') /\
        (stop = false -> ign = false -> forall k e, In (k, e) (st_queue st) -> 2 <= length (e_drop e) + length (e_add e) ->
           exists k' is, In (k', is) r /\ (k' = k \/ key_cmp k k' = Some Eq) /\ incl (e_drop e ++ e_add e) is)
    | Fail x => x = InvalidData /\ bad_point
    | Panic => False
    | NoFuel => True
    end.
  Proof.
    intros Ho. induction fuel as [|fuel IH]; intros n st Hst; cbn [event_loop].
    - destruct (st_queue st) as [|[k e] q] eqn:EQ; auto. split; [apply Hst|]. split; [intros _ k is H; exists is; split; auto; apply incl_refl|intros _ _ k e []].
    - destruct (st_queue st) as [|[k e] q] eqn:EQ.
      { split; [apply Hst|]. split; [intros _ k is H; exists is; split; auto; apply incl_refl|intros _ _ k e []]. }
      destruct Hst as (Ha & Hq & Hr). rewrite EQ in Hq. inversion_clear Hq as [|? ? He Hq']. cbn [fst snd] in He.
      assert (Hst : st_fine (mkSt (st_active st) q (st_result st))) by (repeat split; auto).
      pose proof (handle_any ign (ord n) k e (mkSt (st_active st) q (st_result st)) (Ho n) He Hst) as Hh.
      destruct (handle_event inf lines ign (ord n) k e (mkSt (st_active st) q (st_result st))) as [st'|?| |]; cbn [obind]; auto.
      destruct Hh as (Hst' & H1 & H2 & H3). cbn [st_queue st_result] in *.
      assert (Next : match event_loop inf lines ign stop ord fuel (Datatypes.S n) st' with
        | Val r => r_fine r /\
          (stop = false -> forall k0 is, In (k0, is) (st_result st) -> exists is', In (k0, is') r /\ incl is is') /\
          (stop = false -> ign = false -> forall k0 e0, In (k0, e0) ((k, e) :: q) -> 2 <= length (e_drop e0) + length (e_add e0) ->
             exists k' is, In (k', is) r /\ (k' = k0 \/ key_cmp k0 k' = Some Eq) /\ incl (e_drop e0 ++ e_add e0) is)
        | Fail x => x = InvalidData /\ bad_point
        | Panic => False
        | NoFuel => True
        end).
      { specialize (IH (Datatypes.S n) st' Hst'). destruct (event_loop inf lines ign stop ord fuel (Datatypes.S n) st') as [r|?| |]; auto. destruct IH as (I1 & I2 & I3). split; auto. split.
        - intros Es k0 is H. destruct (H2 k0 is H) as (is1 & J1 & J2). destruct (I2 Es k0 is1 J1) as (is2 & J3 & J4). exists is2. split; auto. eapply incl_tran; eauto.
        - intros Es Ei k0 e0 [[= <- <-]|H] Hl.
          + destruct H3 as (k' & is & J1 & J2 & J3).
            { unfold to_report. rewrite Ei. destruct (Nat.ltb_spec 1 (length (e_drop e) + length (e_add e) + length (e_inter e))); [|lia].
              destruct (e_drop e), (e_add e); cbn in *; try discriminate; lia. }
            destruct (I2 Es k' is J1) as (is2 & J4 & J5). exists k', is2. split; auto. split; auto. intros x Hx. apply J5, J3. unfold ev_lines. rewrite app_assoc. apply in_app_iff. auto.
          + destruct (H1 k0 e0 H) as (e1 & J1 & J2 & J3). destruct (I3 Es Ei k0 e1 J1) as (k' & is & J4 & J5 & J6); [rewrite J2, J3; auto|]. exists k', is. rewrite <- J2, <- J3. auto. }
      destruct (st_result st') as [|x t] eqn:Er; [exact Next|]. destruct stop; [|exact Next].
      split; [rewrite <- Er; apply Hst'|]. split; discriminate.
  Qed.
End Any.

(* ---- the initial queue ---- *)
Section Init.
  Context {S : Scalar}.
  Notation V := (V2 S).
  Notation L := (Line2 S).
  Notation idk := (fun v : V => v).
  Lemma bt_In {E} k (upd : option E -> E) : forall m m', bt_update idk k upd m = Val m' -> forall k0 e0, In (k0, e0) m' ->
    In (k0, e0) m \/ (k0 = k /\ e0 = upd None) \/ (exists e, In (k0, e) m /\ e0 = upd (Some e) /\ key_cmp k k0 = Some Eq).
  Proof.
    induction m as [|[k1 e1] m IH]; intros m' Eb k0 e0 Hin; cbn [bt_update] in Eb.
    - injection Eb as <-. destruct Hin as [[= <- <-]|[]]. auto.
    - destruct (key_cmp k k1) as [[]|] eqn:Ec; try discriminate.
      + injection Eb as <-. destruct Hin as [[= <- <-]|Hin]; [right; right; exists e1; cbn; auto|left; cbn; auto].
      + injection Eb as <-. destruct Hin as [[= <- <-]|Hin]; [auto|left; auto].
      + destruct (bt_update _ _ _ m) as [t'|?| |] eqn:Et; try discriminate. cbn [obind] in Eb. injection Eb as <-. destruct Hin as [[= <- <-]|Hin]; [left; cbn; auto|].
        destruct (IH t' eq_refl k0 e0 Hin) as [H|[H|(e & H1 & H2)]]; [left; cbn; auto|auto|right; right; exists e; cbn; auto].
  Qed.
  Definition below (n : nat) (q : Queue (S := S)) : Prop := forall k e, In (k, e) q -> Forall (fun i => i < n) (ev_lines e).
  Lemma push_below i n e : Forall (fun j => j < n) (ev_lines e) -> i < n ->
    Forall (fun j => j < n) (ev_lines (push_add i (Some e))) /\ Forall (fun j => j < n) (ev_lines (push_drop i (Some e))).
  Proof. unfold ev_lines, push_add, push_drop. cbn [e_drop e_add e_inter]. rewrite !Forall_app. intros (H1 & H2 & H3) Hi. repeat split; auto. Qed.
  Lemma queue_line_below n s e q q' : below n q -> queue_line n s e q = Val q' -> below (Datatypes.S n) q'.
  Proof.
    intros Hq E. unfold queue_line in E. destruct (bt_update idk s (push_add n) q) as [q1|?| |] eqn:E1; try discriminate. cbn [obind] in E.
    assert (Hq' : below (Datatypes.S n) q) by (intros k x Hx; eapply Forall_impl; [|apply (Hq k x Hx)]; intros; cbn in *; lia).
    assert (H1 : below (Datatypes.S n) q1).
    { intros k x Hx. destruct (bt_In _ _ _ _ E1 k x Hx) as [H|[[-> ->]|(y & H & -> & _)]]; [eauto|repeat constructor|]. apply push_below; [eauto|lia]. }
    intros k x Hx. destruct (bt_In _ _ _ _ E k x Hx) as [H|[[-> ->]|(y & H & -> & _)]]; [eauto|repeat constructor|]. apply push_below; [eauto|lia].
  Qed.
  Lemma with_lines_idx : forall input n q acc q' ls, below n q -> with_lines_loop n input q acc = Val (q', ls) -> ls = acc ++ map arrange input /\ below (n + length input) q'.
  Proof.
    induction input as [|l t IH]; intros n q acc q' ls Hq E; cbn [with_lines_loop] in E.
    - injection E as <- <-. cbn. rewrite app_nil_r, Nat.add_0_r. auto.
    - destruct (line_finite _ _); [|discriminate]. destruct (queue_line _ _ _ _) as [q1|?| |] eqn:E1; try discriminate. cbn [obind] in E.
      apply queue_line_below in E1; auto. destruct (IH _ _ _ _ _ E1 E) as [-> H]. split; [cbn; rewrite <- app_assoc; auto|]. cbn [length]. rewrite Nat.add_succ_r. auto.
  Qed.
  Definition no_inter (q : Queue (S := S)) : Prop := forall k e, In (k, e) q -> e_inter e = [].
  Lemma queue_line_no_inter n s e q q' : no_inter q -> queue_line n s e q = Val q' -> no_inter q'.
  Proof.
    intros Hq E. unfold queue_line in E. destruct (bt_update idk s (push_add n) q) as [q1|?| |] eqn:E1; try discriminate. cbn [obind] in E.
    assert (H1 : no_inter q1).
    { intros k x Hx. destruct (bt_In _ _ _ _ E1 k x Hx) as [H|[[-> ->]|(y & H & -> & _)]]; [eauto|reflexivity|]. cbn. eauto. }
    intros k x Hx. destruct (bt_In _ _ _ _ E k x Hx) as [H|[[-> ->]|(y & H & -> & _)]]; [eauto|reflexivity|]. cbn. eauto.
  Qed.
  Lemma with_lines_no_inter : forall input n q acc q' ls, no_inter q -> with_lines_loop n input q acc = Val (q', ls) -> no_inter q'.
  Proof.
    induction input as [|l t IH]; intros n q acc q' ls Hq E; cbn [with_lines_loop] in E.
    - injection E as <- <-. auto.
    - destruct (line_finite _ _); [|discriminate]. destruct (queue_line _ _ _ _) as [q1|?| |] eqn:E1; try discriminate. cbn [obind] in E.
      apply queue_line_no_inter in E1; auto. eapply IH; eauto.
  Qed.
End Init.
