(* Two runs of the sweep side by side: lines renumbered by f and moved by T, different iteration orders of the hash set. *)
From Coq Require Import Reals Lra Permutation Sorting.Sorted.
From Verif Require Import Prelude Scalar RInst Geo2 GeoSpec DistR IsectProofs Sweep SweepMap SweepProofs SweepCand SweepLoop SweepLoop2 SweepRun SweepExact SweepSym.
Local Open Scope R_scope.

Section Two.
  Variables inf inf' : R.
  Variables lines lines' : list line.
  Variable ign : bool.
  Variables (f : nat -> nat) (T : pt -> pt) (tx ts tc : R -> R).
  Definition Tl (l : line) : line := @mkL RS (T (lstart l)) (T (lend l)).
  Hypothesis Hf : forall i j li lj, ln lines i li -> ln lines j lj -> f i = f j -> i = j.
  Hypothesis Hl : forall i l, ln lines i l -> ln lines' (f i) (Tl l).
  Hypothesis Hsur : forall j l', ln lines' j l' -> exists i l, j = f i /\ ln lines i l /\ l' = Tl l.
  Hypothesis HT : forall p q, klt p q -> klt (T p) (T q).
  Hypothesis Tsur : forall q, exists p, T p = q.
  Hypothesis Hix : forall a b, match intersection_point a b with
                               | None => intersection_point (Tl a) (Tl b) = None
                               | Some it => exists it', intersection_point (Tl a) (Tl b) = Some it' /\ isingle it' = T (isingle it)
                               end.
  Hypothesis Hsw : forall p i l, ln lines i l -> sweepline_intersection (S := RS) inf' (T p) (Tl l) =
    match sweepline_intersection (S := RS) inf p l with Some (x, s) => Some (tx x, ts s) | None => None end.
  (* the slopes of the lines keep their order *)
  Hypothesis Hts : forall p i j l m x s y t, ln lines i l -> ln lines j m -> sweepline_intersection (S := RS) inf p l = Some (x, s) -> sweepline_intersection (S := RS) inf p m = Some (y, t) ->
    ts s <= ts t <-> s <= t.
  Hypothesis Hvx : forall p : pt, vx (T p) = tx (vx p).
  Hypothesis Htx : forall x y, x < y -> tx x < tx y.
  Hypothesis Hcs : forall i l, ln lines i l -> cslope inf' (Tl l) = tc (cslope inf l).
  Hypothesis Htc : forall i j l m, ln lines i l -> ln lines j m -> tc (cslope inf l) <= tc (cslope inf m) <-> cslope inf l <= cslope inf m.

  Lemma T_inj2 p q : T p = T q -> p = q.
  Proof. intros E. destruct (klt_total p q) as [K|[K|K]]; auto; apply HT in K; rewrite E in K; destruct (klt_irrefl _ K). Qed.
  Lemma HT_iff p q : klt (T p) (T q) <-> klt p q.
  Proof. split; auto. intros H. destruct (klt_total p q) as [K|[K|K]]; auto; [subst; destruct (klt_irrefl _ H)|apply HT in K; destruct (klt_asym _ _ H K)]. Qed.
  Lemma tx_iff x y : tx x < tx y <-> x < y.
  Proof. split; auto. intros H. destruct (Rtotal_order x y) as [K|[K|K]]; auto; [subst; lra|apply Htx in K; lra]. Qed.
  Lemma tx_inj x y : tx x = tx y -> x = y.
  Proof. intros H. destruct (Rtotal_order x y) as [K|[K|K]]; auto; apply Htx in K; lra. Qed.
  Lemma tx_le x y : tx x <= tx y <-> x <= y.
  Proof. split; intros H; destruct (Rtotal_order x y) as [K|[K|K]]; try lra; try (subst; lra); apply Htx in K; lra. Qed.
  Lemma ln_iff i l : ln lines i l -> forall l', ln lines' (f i) l' <-> l' = Tl l.
  Proof. intros H l'. split; [intros H'; eapply ln_fun; eauto|intros ->; auto]. Qed.
  Lemma lo_T l : lo (Tl l) = T (lo l) /\ hi (Tl l) = T (hi l).
  Proof.
    unfold lo, hi, arrange, Tl. cbn [lstart lend]. destruct (key_lt (lstart l) (lend l)) eqn:E.
    - apply key_lt_R, HT, key_lt_R in E. rewrite E. auto.
    - replace (key_lt (T (lstart l)) (T (lend l))) with false; auto. symmetry. apply not_true_iff_false. rewrite key_lt_R, HT_iff, <- key_lt_R. congruence.
  Qed.
  Lemma ends_T k l : ends_of (T k) (Tl l) <-> ends_of k l.
  Proof. unfold ends_of, Tl. cbn [lstart lend]. split; intros [H|H]; try (apply T_inj2 in H); subst; auto. Qed.

  Definition Tpos (pos : option pt) : option pt := match pos with Some p => Some (T p) | None => None end.
  Lemma after_T pos k : after (Tpos pos) (T k) <-> after pos k.
  Proof. destruct pos; cbn; [apply HT_iff|tauto]. Qed.
  (* the events correspond *)
  Definition ev_rel (e e' : SiteEvent) : Prop := forall i l, ln lines i l -> In i (e_inter e) <-> In (f i) (e_inter e').
  Definition q_rel (q q' : list (pt * SiteEvent)) : Prop := forall k,
    match get q k, get q' (T k) with Some e, Some e' => ev_rel e e' | None, None => True | _, _ => False end.
  Definition r_rel (r r' : list (pt * list nat)) : Prop := forall k,
    match get r k, get r' (T k) with Some l, Some l' => Permutation l' (map f l) | None, None => True | _, _ => False end.

  Lemma img_perm (P : nat -> Prop) (l l' : list nat) : NoDup l -> NoDup l' -> (forall i, In i l -> P i) ->
    (forall i j, P i -> P j -> f i = f j -> i = j) -> (forall i, P i -> In i l <-> In (f i) l') -> (forall j, In j l' -> exists i, P i /\ j = f i) -> Permutation l' (map f l).
  Proof.
    intros N N' HP Hi H Hs. apply NoDup_Permutation; auto.
    - induction N as [|i l K N IH]; cbn; constructor; auto.
      + intros C. apply in_map_iff in C as (j & E & Hj). apply Hi in E; [congruence| |]; apply HP; [right|left]; auto.
      + clear - N HP Hi K. assert (HP' : forall i, In i l -> P i) by (intros; apply HP; right; auto). clear HP K i. induction N as [|i l K N IH]; cbn; constructor.
        * intros C. apply in_map_iff in C as (j & E & Hj). apply Hi in E; [congruence| |]; apply HP'; [right|left]; auto.
        * apply IH. intros; apply HP'; right; auto.
    - intros j. rewrite in_map_iff. split.
      + intros Hj. destruct (Hs j Hj) as (i & Pi & ->). exists i. split; auto. apply H; auto.
      + intros (i & <- & Hi'). apply H; auto.
  Qed.
  Definition valid (i : nat) : Prop := exists l, ln lines i l.
  Lemma f_inj i j : valid i -> valid j -> f i = f j -> i = j.
  Proof. intros (li & H) (lj & K). eauto. Qed.

  Section OneEvent.
    Variables (k : pt) (e e' : SiteEvent).
    Hypothesis He : ev_ok lines k e.
    Hypothesis He' : ev_ok lines' (T k) e'.
    Hypothesis Rev : ev_rel e e'.
    Lemma drop_rel i : valid i -> In i (e_drop e) <-> In (f i) (e_drop e').
    Proof.
      intros (l & H). rewrite (ok_drop _ _ _ He), (ok_drop _ _ _ He'). split.
      - intros (l0 & H0 & E). assert (l0 = l) by (eapply ln_fun; eauto). subst l0. exists (Tl l). split; auto. rewrite (proj2 (lo_T l)), E. auto.
      - intros (l0 & H0 & E). apply (ln_iff i l H) in H0. subst l0. exists l. split; auto. rewrite (proj2 (lo_T l)) in E. apply T_inj2; auto.
    Qed.
    Lemma add_rel i : valid i -> In i (e_add e) <-> In (f i) (e_add e').
    Proof.
      intros (l & H). rewrite (ok_add _ _ _ He), (ok_add _ _ _ He'). split.
      - intros (l0 & H0 & E). assert (l0 = l) by (eapply ln_fun; eauto). subst l0. exists (Tl l). split; auto. rewrite (proj1 (lo_T l)), E. auto.
      - intros (l0 & H0 & E). apply (ln_iff i l H) in H0. subst l0. exists l. split; auto. rewrite (proj1 (lo_T l)) in E. apply T_inj2; auto.
    Qed.
    Lemma inter_rel i : valid i -> In i (e_inter e) <-> In (f i) (e_inter e').
    Proof. intros (l & H). eapply Rev; eauto. Qed.
    Lemma drop_valid i : In i (e_drop e) -> valid i.
    Proof. intros H. apply (ok_drop _ _ _ He) in H as (l & H & _). exists l; auto. Qed.
    Lemma add_valid i : In i (e_add e) -> valid i.
    Proof. intros H. apply (ok_add _ _ _ He) in H as (l & H & _). exists l; auto. Qed.
    Lemma inter_valid i : In i (e_inter e) -> valid i.
    Proof. intros H. apply (ok_inter _ _ _ He) in H as (l & H & _). exists l; auto. Qed.
    Lemma ln'_img j l' : ln lines' j l' -> exists i, valid i /\ j = f i.
    Proof. intros H. destruct (Hsur _ _ H) as (i & l & -> & H1 & _). exists i. split; [exists l; auto|auto]. Qed.
    Lemma drop_perm : Permutation (e_drop e') (map f (e_drop e)).
    Proof.
      apply (img_perm valid); eauto using ok_drop_nd, drop_valid, f_inj, drop_rel.
      intros j H. apply (ok_drop _ _ _ He') in H as (l & H & _). eapply ln'_img; eauto.
    Qed.
    Lemma add_perm : Permutation (e_add e') (map f (e_add e)).
    Proof.
      apply (img_perm valid); eauto using ok_add_nd, add_valid, f_inj, add_rel.
      intros j H. apply (ok_add _ _ _ He') in H as (l & H & _). eapply ln'_img; eauto.
    Qed.
    Lemma inter_perm : Permutation (e_inter e') (map f (e_inter e)).
    Proof.
      apply (img_perm valid); eauto using ok_inter_nd, inter_valid, f_inj, inter_rel.
      intros j H. apply (ok_inter _ _ _ He') in H as (l & H & _). eapply ln'_img; eauto.
    Qed.
    Lemma reports_rel : reports ign e' = reports ign e.
    Proof.
      unfold reports. rewrite (Permutation_length drop_perm), (Permutation_length add_perm), (Permutation_length inter_perm), !map_length. auto.
    Qed.
    Variables act act' : list nat.
    Hypothesis Hact : forall i, valid i -> In i act <-> In (f i) act'.
    Hypothesis Hact' : forall j, In j act' -> exists i, valid i /\ j = f i.
    Lemma smp_rel x s i : valid i -> smp inf lines k e act x s i -> smp inf' lines' (T k) e' act' (tx x) (ts s) (f i).
    Proof.
      intros Hv. unfold smp. rewrite <- (Hact i Hv), <- (drop_rel i Hv), <- (inter_rel i Hv).
      intros (H1 & H2 & H3 & l0 & H4 & H5); (split; [auto|]); (split; [auto|]); (split; [auto|]).
      exists (Tl l0). split; auto. rewrite (Hsw k i l0 H4), H5. auto.
    Qed.
    Lemma smp_img y t j : smp inf' lines' (T k) e' act' y t j -> exists x s i, valid i /\ y = tx x /\ t = ts s /\ j = f i /\ smp inf lines k e act x s i.
    Proof.
      intros (H1 & H2 & H3 & l' & H4 & H5). destruct (Hsur _ _ H4) as (i & l & -> & Hi & ->). rewrite (Hsw k i l Hi) in H5.
      assert (V : valid i) by (exists l; auto).
      destruct (sweepline_intersection (S := RS) inf k l) as [[x0 t0]|] eqn:E; [|discriminate]. injection H5 as <- <-. exists x0, t0, i. split; auto. split; auto. split; auto. split; auto.
      rewrite <- (Hact i V) in H1. rewrite <- (drop_rel i V) in H2. rewrite <- (inter_rel i V) in H3. split; auto. split; auto. split; auto. exists l. auto.
    Qed.
    Lemma smp_order x s i y t j : smp inf lines k e act x s i -> smp inf lines k e act y t j -> ts s <= ts t <-> s <= t.
    Proof. intros (_ & _ & _ & l & H1 & H2) (_ & _ & _ & m & H3 & H4). exact (Hts k i j l m x s y t H1 H3 H2 H4). Qed.
    Lemma smp_valid x s i : smp inf lines k e act x s i -> valid i.
    Proof. intros (_ & _ & _ & l & H & _). exists l; auto. Qed.
    Lemma left_rel i : valid i -> nearest_left k (smp inf lines k e act) i <-> nearest_left (T k) (smp inf' lines' (T k) e' act') (f i).
    Proof.
      intros Hv. unfold nearest_left. rewrite Hvx. split.
      - intros (x & s & H1 & H2 & H3). exists (tx x), (ts s). split; [apply smp_rel; auto|]. split; auto.
        intros x' s' j H4 H5. destruct (smp_img _ _ _ H4) as (x0 & s0 & i0 & V & -> & -> & -> & H6). apply (proj1 (tx_iff _ _)) in H5. destruct (H3 _ _ _ H6 H5) as [K1 K2].
        split; [apply tx_le; auto|]. intros E. apply tx_inj in E. apply (smp_order _ _ _ _ _ _ H1 H6). auto.
      - intros (y & t & H1 & H2 & H3). destruct (smp_img _ _ _ H1) as (x & s & i0 & V & -> & -> & E0 & H6). apply f_inj in E0; auto. subst i0. apply (proj1 (tx_iff _ _)) in H2.
        exists x, s. split; auto. split; auto. intros x' s' j H4 H5.
        assert (Vj := smp_valid _ _ _ H4).
        destruct (H3 (tx x') (ts s') (f j)) as [K1 K2]; [apply smp_rel; auto|auto|]. split; [apply tx_le; auto|]. intros ->. apply (smp_order _ _ _ _ _ _ H6 H4). auto.
    Qed.
    Lemma right_rel i : valid i -> nearest_right k (smp inf lines k e act) i <-> nearest_right (T k) (smp inf' lines' (T k) e' act') (f i).
    Proof.
      intros Hv. unfold nearest_right. rewrite Hvx. split.
      - intros (x & s & H1 & H2 & H3). exists (tx x), (ts s). split; [apply smp_rel; auto|]. split; auto.
        intros x' s' j H4 H5. destruct (smp_img _ _ _ H4) as (x0 & s0 & i0 & V & -> & -> & -> & H6). apply (proj1 (tx_iff _ _)) in H5. destruct (H3 _ _ _ H6 H5) as [K1 K2].
        split; [apply tx_le; auto|]. intros E. apply tx_inj in E. apply (smp_order _ _ _ _ _ _ H6 H1). auto.
      - intros (y & t & H1 & H2 & H3). destruct (smp_img _ _ _ H1) as (x & s & i0 & V & -> & -> & E0 & H6). apply f_inj in E0; auto. subst i0. apply (proj1 (tx_iff _ _)) in H2.
        exists x, s. split; auto. split; auto. intros x' s' j H4 H5.
        assert (Vj := smp_valid _ _ _ H4).
        destruct (H3 (tx x') (ts s') (f j)) as [K1 K2]; [apply smp_rel; auto|auto|]. split; [apply tx_le; auto|]. intros ->. apply (smp_order _ _ _ _ _ _ H4 H6). auto.
    Qed.
    Lemma cn_rel s i : valid i -> cn inf lines e s i -> cn inf' lines' e' (tc s) (f i).
    Proof.
      intros Hv. unfold cn. rewrite <- (add_rel i Hv), <- (inter_rel i Hv). intros (H1 & l0 & H2 & ->); (split; [auto|]).
      exists (Tl l0). split; auto. symmetry. eapply Hcs; eauto.
    Qed.
    Lemma cn_valid s i : cn inf lines e s i -> valid i.
    Proof. intros (_ & l & H & _). exists l; auto. Qed.
    Lemma cn_img t j : cn inf' lines' e' t j -> exists s i, valid i /\ j = f i /\ t = tc s /\ cn inf lines e s i.
    Proof.
      intros (H1 & l' & H & ->). destruct (Hsur _ _ H) as (i & l & -> & Hi & ->). assert (V : valid i) by (exists l; auto).
      exists (cslope inf l), i. split; auto. split; auto. split; [eapply Hcs; eauto|]. rewrite <- (add_rel i V), <- (inter_rel i V) in H1. split; auto. exists l. auto.
    Qed.
    Lemma cn_order s i t j : cn inf lines e s i -> cn inf lines e t j -> tc s <= tc t <-> s <= t.
    Proof. intros (_ & l & H1 & ->) (_ & m & H2 & ->). exact (Htc i j l m H1 H2). Qed.
    Lemma low_rel i : valid i -> (exists s, cn inf lines e s i /\ forall s' j, cn inf lines e s' j -> s <= s') <-> (exists s, cn inf' lines' e' s (f i) /\ forall s' j, cn inf' lines' e' s' j -> s <= s').
    Proof.
      intros Hv. split.
      - intros (s & H1 & H2). exists (tc s). split; [apply cn_rel; auto|]. intros t j H. destruct (cn_img _ _ H) as (s' & i0 & V & -> & -> & H'). apply (cn_order _ _ _ _ H1 H'). eauto.
      - intros (t & H1 & H2). destruct (cn_img _ _ H1) as (s & i0 & V & E0 & -> & H'). apply f_inj in E0; auto. subst i0. exists s. split; auto.
        intros s' j H. apply (cn_order _ _ _ _ H' H). apply (H2 _ (f j)). apply cn_rel; auto. eapply cn_valid; eauto.
    Qed.
    Lemma high_rel i : valid i -> (exists s, cn inf lines e s i /\ forall s' j, cn inf lines e s' j -> s' <= s) <-> (exists s, cn inf' lines' e' s (f i) /\ forall s' j, cn inf' lines' e' s' j -> s' <= s).
    Proof.
      intros Hv. split.
      - intros (s & H1 & H2). exists (tc s). split; [apply cn_rel; auto|]. intros t j H. destruct (cn_img _ _ H) as (s' & i0 & V & -> & -> & H'). apply (cn_order _ _ _ _ H' H1). eauto.
      - intros (t & H1 & H2). destruct (cn_img _ _ H1) as (s & i0 & V & E0 & -> & H'). apply f_inj in E0; auto. subst i0. exists s. split; auto.
        intros s' j H. apply (cn_order _ _ _ _ H H'). apply (H2 _ (f j)). apply cn_rel; auto. eapply cn_valid; eauto.
    Qed.
    Lemma nil_rel : (e_add e = [] /\ e_inter e = []) <-> (e_add e' = [] /\ e_inter e' = []).
    Proof.
      pose proof add_perm as P1. pose proof inter_perm as P2.
      split; intros [E1 E2].
      - rewrite E1 in P1. rewrite E2 in P2. cbn in P1, P2. split; apply Permutation_nil; symmetry; auto.
      - rewrite E1 in P1. rewrite E2 in P2. apply Permutation_nil in P1. apply Permutation_nil in P2. destruct (e_add e); [|discriminate]. destruct (e_inter e); [|discriminate]. auto.
    Qed.
    Lemma prs_rel a b : valid a -> valid b -> prs_of inf lines k e act a b <-> prs_of inf' lines' (T k) e' act' (f a) (f b).
    Proof. intros Ha Hb. unfold prs_of. rewrite nil_rel, (left_rel a Ha), (right_rel a Ha), (right_rel b Hb), (low_rel b Hb), (high_rel b Hb). tauto. Qed.
    Lemma hit_rel k2 i : valid i -> hit lines k (prs_of inf lines k e act) k2 i <-> hit lines' (T k) (prs_of inf' lines' (T k) e' act') (T k2) (f i).
    Proof.
      intros Hv. split.
      - intros (a & b & la & lb & it & H1 & H2 & H3 & H4 & H5 & H6 & H7 & H8). pose proof (Hix la lb) as X. rewrite H5 in X. destruct X as (it' & X1 & X2).
        exists (f a), (f b), (Tl la), (Tl lb), it'. split; [apply prs_rel; auto; eexists; eauto|]. split; auto. split; auto.
        split; [intros E; apply T_inj2 in E; auto|]. split; auto. split; [rewrite X2, H6; auto|]. split; [apply HT_iff; auto|]. rewrite !ends_T.
        destruct H8 as [[-> K]|[-> K]]; auto.
      - intros (a' & b' & la' & lb' & it' & H1 & H2 & H3 & H4 & H5 & H6 & H7 & H8).
        destruct (Hsur _ _ H2) as (a & la & -> & Ha & ->). destruct (Hsur _ _ H3) as (b & lb & -> & Hb & ->). pose proof (Hix la lb) as X.
        destruct (intersection_point la lb) as [it|] eqn:Ei; [|congruence]. destruct X as (it2 & X1 & X2). assert (it2 = it') by congruence. subst it2.
        exists a, b, la, lb, it. split; [apply prs_rel; auto; eexists; eauto|]. split; auto. split; auto. split; [intros E; apply H4; unfold Tl; cbn; congruence|].
        split; auto. split; [apply T_inj2; congruence|]. split; [apply HT_iff; auto|]. rewrite !ends_T in H8.
        destruct H8 as [[E K]|[E K]]; [left|right]; (split; [apply f_inj; auto; eexists; eauto|auto]).
    Qed.
    Lemma hit_img k2 j : hit lines' (T k) (prs_of inf' lines' (T k) e' act') k2 j -> exists i, valid i /\ j = f i.
    Proof. intros (a' & b' & la' & lb' & it' & H1 & H2 & H3 & H4 & H5 & H6 & H7 & [[-> _]|[-> _]]); eapply ln'_img; eauto. Qed.
    Lemma hit_valid k2 i : hit lines k (prs_of inf lines k e act) k2 i -> valid i.
    Proof. intros (a' & b' & la' & lb' & it' & H1 & H2 & H3 & H4 & H5 & H6 & H7 & [[-> _]|[-> _]]); eexists; eauto. Qed.
    Lemma extends_rel q q' r r' : q_rel q q' -> extends lines k (prs_of inf lines k e act) q r -> extends lines' (T k) (prs_of inf' lines' (T k) e' act') q' r' -> q_rel r r'.
    Proof.
      intros Q X X' k2. destruct (X k2) as [X1 X2]. destruct (X' (T k2)) as [Y1 Y2]. specialize (Q k2).
      assert (Hq : get q k2 <> None <-> get q' (T k2) <> None). { destruct (get q k2), (get q' (T k2)); try contradiction; split; intros; try discriminate; congruence. }
      assert (Hh : (exists i, hit lines k (prs_of inf lines k e act) k2 i) <-> exists j, hit lines' (T k) (prs_of inf' lines' (T k) e' act') (T k2) j).
      { split.
        - intros (i & H). exists (f i). apply hit_rel; auto. eapply hit_valid; eauto.
        - intros (j & H). destruct (hit_img _ _ H) as (i & V & ->). exists i. apply hit_rel; auto. }
      assert (Hr : get r k2 <> None <-> get r' (T k2) <> None) by (rewrite X1, Y1, Hq, Hh; tauto).
      destruct (get r k2) as [e1|] eqn:E1; destruct (get r' (T k2)) as [e1'|] eqn:E1'; auto.
      - intros i l H. assert (V : valid i) by (exists l; auto).
        assert (A : In i (e_inter e1) <-> queued r k2 i). { unfold queued. rewrite E1. split; [eauto|intros (? & [= <-] & ?); auto]. }
        assert (B : In (f i) (e_inter e1') <-> queued r' (T k2) (f i)). { unfold queued. rewrite E1'. split; [eauto|intros (? & [= <-] & ?); auto]. }
        rewrite A, B, X2, Y2, (hit_rel k2 i V).
        assert (C : queued q k2 i <-> queued q' (T k2) (f i)).
        { unfold queued. destruct (get q k2) as [e0|], (get q' (T k2)) as [e0'|]; try contradiction; split; intros (e2 & [= <-] & K); eexists; (split; [reflexivity|]); eapply Q; eauto. }
        rewrite C. reflexivity.
      - apply (proj1 Hr); [discriminate|auto].
      - apply (proj2 Hr); [discriminate|auto].
    Qed.
  End OneEvent.

  Variables ord ord' : nat -> list nat -> list nat.
  Hypothesis Hord : forall n l, Permutation (ord n l) l.
  Hypothesis Hord' : forall n l, Permutation (ord' n l) l.

  Lemma act_rel pos st st' : Inv lines ign pos st -> Inv lines' ign (Tpos pos) st' ->
    (forall i, valid i -> In i (st_active st) <-> In (f i) (st_active st')) /\ (forall j, In j (st_active st') -> exists i, valid i /\ j = f i).
  Proof.
    intros I1 I2. split.
    - intros i (l & H). rewrite (i_act _ _ _ _ I1), (i_act _ _ _ _ I2). split.
      + intros (l0 & H0 & K1 & K2). assert (l0 = l) by (eapply ln_fun; eauto). subst l0. exists (Tl l). destruct (lo_T l) as [-> ->]. rewrite !after_T. split; auto. split; auto. destruct K2 as [|K2]; auto. right. congruence.
      + intros (l0 & H0 & K1 & K2). apply (ln_iff i l H) in H0. subst l0. exists l. destruct (lo_T l) as [E1 E2]. rewrite E1, E2, !after_T in *. split; auto. split; auto. destruct K2 as [|K2]; auto. right. apply T_inj2; auto.
    - intros j Hj. apply (i_act _ _ _ _ I2) in Hj as (l & H & _). eapply ln'_img; eauto.
  Qed.
  Lemma head_rel k e q k' e' q' : ksorted ((k, e) :: q) -> ksorted ((k', e') :: q') -> q_rel ((k, e) :: q) ((k', e') :: q') -> k' = T k /\ ev_rel e e' /\ q_rel q q'.
  Proof.
    intros S S' Q. destruct (ksorted_head _ _ _ S) as [S1 H1]. destruct (ksorted_head _ _ _ S') as [S1' H1'].
    assert (G : get ((k, e) :: q) k = Some e) by (rewrite get_cons; destruct (pt_dec k k); congruence).
    assert (G' : get ((k', e') :: q') k' = Some e') by (rewrite get_cons; destruct (pt_dec k' k'); congruence).
    assert (E : k' = T k).
    { pose proof (Q k) as Qk. rewrite G in Qk. destruct (get ((k', e') :: q') (T k)) as [e1|] eqn:E1; [|contradiction].
      destruct (Tsur k') as (k0 & <-). pose proof (Q k0) as Q0. rewrite G' in Q0. destruct (get ((k, e) :: q) k0) as [e2|] eqn:E2; [|contradiction].
      rewrite get_cons in E1, E2. destruct (pt_dec (T k0) (T k)); auto. destruct (pt_dec k k0); [congruence|].
      apply H1 in E2. apply H1' in E1. apply HT in E2. destruct (klt_asym _ _ E1 E2). }
    subst k'. split; auto. split.
    - specialize (Q k). rewrite G, G' in Q. auto.
    - intros k2. rewrite (get_tail k e q k2 S), (get_tail (T k) e' q' (T k2) S'). destruct (pt_dec k k2) as [->|N].
      + destruct (pt_dec (T k2) (T k2)); [auto|congruence].
      + destruct (pt_dec (T k) (T k2)) as [E|_]; [apply T_inj2 in E; congruence|]. apply Q.
  Qed.
  Lemma r_nil r r' : r_rel r r' -> r = [] <-> r' = [].
  Proof.
    intros R. split; intros ->.
    - destruct r' as [|[k' l'] r']; auto. destruct (Tsur k') as (k & <-). specialize (R k). rewrite get_nil, get_cons in R. destruct (pt_dec (T k) (T k)); [contradiction|congruence].
    - destruct r as [|[k l] r]; auto. specialize (R k). rewrite get_nil, get_cons in R. destruct (pt_dec k k); [contradiction|congruence].
  Qed.

  Lemma loop_rel stop : forall fuel fuel' n n' pos st st' r r', Inv lines ign pos st -> Inv lines' ign (Tpos pos) st' -> q_rel (st_queue st) (st_queue st') -> r_rel (st_result st) (st_result st') ->
    event_loop (S := RS) inf lines ign stop ord fuel n st = Val r -> event_loop (S := RS) inf' lines' ign stop ord' fuel' n' st' = Val r' -> r_rel r r' /\ ksorted r /\ ksorted r'.
  Proof.
    induction fuel as [|fuel IH]; intros fuel' n n' pos [act [|[key e] q] res] [act' [|[key' e'] q'] res'] r r' I1 I2 Q Rr; cbn [event_loop st_queue st_result st_active].
    - intros [= <-]. destruct fuel'; cbn [event_loop st_queue st_result]; intros [= <-]; (split; [auto|split; [apply (i_rs _ _ _ _ I1)|apply (i_rs _ _ _ _ I2)]]).
    - exfalso. cbn [st_queue] in Q. destruct (Tsur key') as (k & <-). specialize (Q k). rewrite get_nil, get_cons in Q. destruct (pt_dec (T k) (T k)); [contradiction|congruence].
    - discriminate.
    - discriminate.
    - intros [= <-]. destruct fuel'; cbn [event_loop st_queue st_result]; intros [= <-]; (split; [auto|split; [apply (i_rs _ _ _ _ I1)|apply (i_rs _ _ _ _ I2)]]).
    - exfalso. cbn [st_queue] in Q. destruct (Tsur key') as (k & <-). specialize (Q k). rewrite get_nil, get_cons in Q. destruct (pt_dec (T k) (T k)); [contradiction|congruence].
    - exfalso. cbn [st_queue] in Q. specialize (Q key). rewrite get_nil, get_cons in Q. destruct (pt_dec key key); [contradiction|congruence].
    - cbn [st_queue st_result] in Q, Rr.
      destruct (head_rel _ _ _ _ _ _ (q_sorted _ _ _ (i_q _ _ _ _ I1)) (q_sorted _ _ _ (i_q _ _ _ _ I2)) Q) as (-> & Re & Q2).
      destruct (handle_ok inf lines ign pos key e q act res (ord n) I1 (Hord n)) as (s1 & E1 & J1 & S1).
      destruct (handle_ok inf' lines' ign (Tpos pos) (T key) e' q' act' res' (ord' n') I2 (Hord' n')) as (s2 & E2 & J2 & S2).
      destruct (head_ev _ _ _ _ _ (i_q _ _ _ _ I1)) as [V1 _]. destruct (head_ev _ _ _ _ _ (i_q _ _ _ _ I2)) as [V2 _].
      destruct (act_rel _ _ _ I1 I2) as [A1 A2]. cbn [st_active] in A1, A2.
      pose proof (handle_exact _ _ _ _ _ _ _ _ _ _ _ I1 (Hord n) E1) as X1. pose proof (handle_exact _ _ _ _ _ _ _ _ _ _ _ I2 (Hord' n') E2) as X2.
      assert (Q3 : q_rel (st_queue s1) (st_queue s2)) by (eapply extends_rel; eauto).
      assert (R3 : r_rel (st_result s1) (st_result s2)).
      { intros k. destruct (pt_dec k key) as [->|N].
        - pose proof (s_key _ _ _ _ _ _ _ _ _ S1) as K1. pose proof (s_key _ _ _ _ _ _ _ _ _ S2) as K2. rewrite (reports_rel key e e' V1 V2 Re) in K2.
          destruct (get (st_result s1) key) as [l1|] eqn:G1; destruct (get (st_result s2) (T key)) as [l2|] eqn:G2; auto.
          + pose proof (s_list _ _ _ _ _ _ _ _ _ S1 _ G1) as P1. pose proof (s_list _ _ _ _ _ _ _ _ _ S2 _ G2) as P2.
            rewrite P2. rewrite (Permutation_map f P1), !map_app. apply Permutation_app; [eapply drop_perm; eauto|]. apply Permutation_app; [eapply add_perm; eauto|eapply inter_perm; eauto].
          + destruct K1 as [K1 K1']. destruct K2 as [K2 K2']. specialize (K1' (K2 eq_refl)). discriminate.
          + destruct K1 as [K1 K1']. destruct K2 as [K2 K2']. specialize (K2' (K1 eq_refl)). discriminate.
        - rewrite (s_other _ _ _ _ _ _ _ _ _ S1 k N), (s_other _ _ _ _ _ _ _ _ _ S2 (T k)); [apply Rr|]. intros E; apply T_inj2 in E; auto. }
      destruct fuel' as [|fuel']; cbn [event_loop st_queue st_result st_active]; [discriminate|]. rewrite E1, E2. cbn [obind].
      pose proof (r_nil _ _ R3) as RN. specialize (IH fuel' (Datatypes.S n) (Datatypes.S n') (Some key) s1 s2 r r' J1 J2 Q3 R3).
      destruct (st_result s1) as [|x1 t1] eqn:ES1; destruct (st_result s2) as [|x2 t2] eqn:ES2.
      + exact IH.
      + destruct RN as [RN _]. specialize (RN eq_refl). discriminate.
      + destruct RN as [_ RN]. specialize (RN eq_refl). discriminate.
      + destruct stop; [|exact IH]. intros [= <-] [= <-]. split; auto. split; [rewrite <- ES1; apply (i_rs _ _ _ _ J1)|rewrite <- ES2; apply (i_rs _ _ _ _ J2)].
  Qed.
  (* related results, position by position *)
  Lemma r_rel_Forall2 : forall r r', ksorted r -> ksorted r' -> r_rel r r' -> Forall2 (fun x x' => fst x' = T (fst x) /\ Permutation (snd x') (map f (snd x))) r r'.
  Proof.
    induction r as [|[k l] r IH]; intros r' S S' R.
    - rewrite (proj1 (r_nil [] r' R) eq_refl). constructor.
    - destruct r' as [|[k' l'] r']; [pose proof (proj2 (r_nil _ _ R) eq_refl); discriminate|].
      destruct (ksorted_head _ _ _ S) as [S1 H1]. destruct (ksorted_head _ _ _ S') as [S1' H1'].
      assert (G : get ((k, l) :: r) k = Some l) by (rewrite get_cons; destruct (pt_dec k k); congruence).
      assert (G' : get ((k', l') :: r') k' = Some l') by (rewrite get_cons; destruct (pt_dec k' k'); congruence).
      assert (E : k' = T k).
      { pose proof (R k) as Rk. rewrite G in Rk. destruct (get ((k', l') :: r') (T k)) as [e1|] eqn:E1; [|contradiction].
        destruct (Tsur k') as (k0 & <-). pose proof (R k0) as R0. rewrite G' in R0. destruct (get ((k, l) :: r) k0) as [e2|] eqn:E2; [|contradiction].
        rewrite get_cons in E1, E2. destruct (pt_dec (T k0) (T k)); auto. destruct (pt_dec k k0); [congruence|].
        apply H1 in E2. apply H1' in E1. apply HT in E2. destruct (klt_asym _ _ E1 E2). }
      subst k'. constructor.
      + cbn. split; auto. specialize (R k). rewrite G, G' in R. auto.
      + apply IH; auto. intros k2. rewrite (get_tail k l r k2 S), (get_tail (T k) l' r' (T k2) S'). destruct (pt_dec k k2) as [->|N].
        * destruct (pt_dec (T k2) (T k2)); [auto|congruence].
        * destruct (pt_dec (T k) (T k2)) as [E|_]; [apply T_inj2 in E; congruence|]. apply R.
  Qed.
  (* from the start *)
  Lemma start_rel q q' : q_ok lines None q -> q_ok lines' None q' -> (forall k e, get q k = Some e -> e_inter e = []) -> (forall k e, get q' k = Some e -> e_inter e = []) -> q_rel q q'.
  Proof.
    intros H H' N N' k.
    assert (Ex : forall lines q, q_ok lines None q -> (forall k e, get q k = Some e -> e_inter e = []) -> forall k, get q k <> None <-> exists i l, ln lines i l /\ ends_of k l).
    { clear. intros lines q H N k. split.
      - intros G. destruct (get q k) as [e|] eqn:E; [|congruence]. pose proof (q_ev _ _ _ H _ _ E) as V.
        destruct (e_drop e) as [|i t] eqn:Ed; [destruct (e_add e) as [|i t] eqn:Ea|].
        + pose proof (ok_some _ _ _ V Ed Ea) as K. rewrite (N _ _ E) in K. cbn in K. lia.
        + destruct (proj1 (ok_add _ _ _ V i)) as (l & Hl & <-); [rewrite Ea; left; auto|]. exists i, l. split; auto. apply end_cases. auto.
        + destruct (proj1 (ok_drop _ _ _ V i)) as (l & Hl & <-); [rewrite Ed; left; auto|]. exists i, l. split; auto. apply end_cases. auto.
      - intros (i & l & Hl & K). apply end_cases in K as [->| ->]; [apply (q_lo _ _ _ H i l Hl I)|apply (q_hi _ _ _ H i l Hl I)]. }
    assert (B : get q k <> None <-> get q' (T k) <> None).
    { rewrite (Ex _ _ H N), (Ex _ _ H' N'). split.
      - intros (i & l & K1 & K2). exists (f i), (Tl l). split; auto. apply ends_T; auto.
      - intros (j & l' & K1 & K2). destruct (Hsur _ _ K1) as (i & l & -> & K3 & ->). exists i, l. split; auto. apply ends_T; auto. }
    destruct (get q k) as [e|] eqn:E; destruct (get q' (T k)) as [e'|] eqn:E'; auto.
    - intros i l _. rewrite (N _ _ E), (N' _ _ E'). cbn. tauto.
    - apply (proj1 B); [discriminate|auto].
    - apply (proj2 B); [discriminate|auto].
  Qed.
End Two.
