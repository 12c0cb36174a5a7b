(* In general position the sweep finds every meeting point with all its lines (exact arithmetic). *)
From Coq Require Import Reals Lra Psatz Classical Permutation.
From Verif Require Import Prelude Scalar RInst Geo2 GeoSpec DistR IsectProofs Sweep SweepMap SweepProofs SweepCand SweepLoop SweepLoop2 SweepGeo.
Local Open Scope R_scope.

Lemma minimal {A} (R : A -> A -> Prop) (P : A -> Prop) : (forall a, ~ R a a) -> (forall a b c, R a b -> R b c -> R a c) ->
  forall l : list A, (exists x, In x l /\ P x) -> exists m, In m l /\ P m /\ forall x, In x l -> P x -> ~ R x m.
Proof.
  intros Hi Ht. induction l as [|a l IH]; [intros (x & [] & _)|]. intros H0.
  destruct (classic (exists x, In x l /\ P x)) as [E|E].
  - destruct (IH E) as (m & Hm & Pm & Mm). destruct (classic (P a /\ R a m)) as [[Pa Ra]|N].
    + exists a. split; [left; auto|]. split; auto. intros x [<-|Hx] Px Rx; [exact (Hi _ Rx)|]. apply (Mm x Hx Px). eapply Ht; eauto.
    + exists m. split; [right; auto|]. split; auto. intros x [<-|Hx] Px Rx; [apply N; auto|]. exact (Mm x Hx Px Rx).
  - destruct H0 as (x & [->|Hx] & Px); [|exfalso; eauto].
    exists x. split; [left; auto|]. split; auto. intros y [<-|Hy] Py Ry; [exact (Hi _ Ry)|]. apply E; eauto.
Qed.

Lemma on_after_lo p l : on_line p l -> steep l -> p <> lo l -> klt (lo l) p.
Proof.
  intros Ho Hs Hn. apply on_XX in Ho as [[Hy _] Hx]; auto. destruct (Rle_lt_or_eq_dec _ _ Hy) as [|E]; [left; auto|].
  exfalso. apply Hn. apply V2_ext; auto. rewrite Hx, <- E, XX_lo. auto.
Qed.
Lemma on_before_hi p l : on_line p l -> steep l -> p <> hi l -> klt p (hi l).
Proof.
  intros Ho Hs Hn. apply on_XX in Ho as [[_ Hy] Hx]; auto. destruct (Rle_lt_or_eq_dec _ _ Hy) as [|E]; [left; auto|].
  exfalso. apply Hn. apply V2_ext; auto. rewrite Hx, E, XX_hi; auto.
Qed.

Section Complete.
  Variable inf : R.
  Variable lines : list line.
  Variable ign : bool.
  Notation ln := (ln lines).
  Notation tev := (tev lines).
  Hypothesis G : general lines.

  Lemma cslope_sl i l : ln i l -> cslope inf l = sl l.
  Proof.
    intros Hl. pose proof (g_steep _ G _ _ Hl) as Hs. unfold steep in Hs. unfold cslope, sl.
    destruct (lohi l) as [[E1 E2]|[E1 E2]]; rewrite E1, E2 in *; destruct (Reqb_spec (vy (lend l)) (vy (lstart l))) as [E|_]; try (rewrite E in Hs; lra); auto.
    apply Rminus_diag_uniq; field; lra.
  Qed.
  Lemma sweep_x i l (k : pt) : ln i l -> exists s, sweepline_intersection (S := RS) inf k l = Some (XX l (vy k), s).
  Proof.
    intros Hl. pose proof (g_steep _ G _ _ Hl) as Hs. unfold steep in Hs. unfold sweepline_intersection, XX, sl. cbn [sulps RS].
    assert (Hne : vy (lstart l) <> vy (lend l)). { intros E. destruct (lohi l) as [[E1 E2]|[E1 E2]]; rewrite E1, E2 in Hs; lra. }
    destruct (Reqb_spec (vy (lstart l)) (vy (lend l))); [contradiction|].
    destruct (Reqb_spec (vx (lstart l)) (vx (lend l))) as [E|E].
    - eexists. f_equal. f_equal. destruct (lohi l) as [[E1 E2]|[E1 E2]]; rewrite E1, E2 in *; rewrite ?E; apply Rminus_diag_uniq; field; lra.
    - eexists. f_equal. f_equal. cbn [sadd ssub smul sdiv RS].
      assert (vy (lend l) - vy (lstart l) <> 0) by lra. assert (vx (lend l) - vx (lstart l) <> 0) by lra.
      destruct (lohi l) as [[E1 E2]|[E1 E2]]; rewrite E1, E2 in *; apply Rminus_diag_uniq; field; lra.
  Qed.

  Lemma common_single i j a b q : i <> j -> ln i a -> ln j b -> on_line q a -> on_line q b -> intersection_point a b = Some (IPoint q).
  Proof.
    intros Hij Ha Hb Oa Ob. pose proof (intersection_correct a b) as C. destruct (intersection_point a b) as [[p|s]|]; cbn [correct] in C.
    - assert (q = p) by (apply C; split; auto). congruence.
    - exfalso. destruct C as [Hne C]. apply Hne.
      assert (C1 : common a b (lstart s)) by (apply C, on_segment_start). assert (C2 : common a b (lend s)) by (apply C, on_segment_end).
      destruct C1, C2. apply (g_once _ G i j a b); auto.
    - exfalso. apply (C q). split; auto.
  Qed.
  Lemma tev_cands r : tev r -> In r (cands lines).
  Proof.
    intros [(i & l & Hl & He)|(i & j & a & b & Hij & Ha & Hb & Oa & Ob)].
    - apply (in_cands_end _ l); [eapply ln_In; eauto|]. apply end_cases; auto.
    - apply (in_cands_pair lines a b (IPoint r)); [eapply ln_In; eauto|eapply ln_In; eauto|]. eapply common_single; eauto.
  Qed.
  Lemma ev_tev k e : ev_ok lines k e -> tev k.
  Proof.
    intros H. destruct (e_drop e) as [|i t] eqn:Ed.
    - destruct (e_add e) as [|i t] eqn:Ea.
      + pose proof (ok_some _ _ _ H Ed Ea) as H2. pose proof (ok_inter_nd _ _ _ H) as ND. pose proof (ok_inter _ _ _ H) as OI.
        destruct (e_inter e) as [|i [|j t]]; cbn in H2; try lia.
        destruct (OI i) as (a & Ha & Oa & _); [left; auto|]. destruct (OI j) as (b & Hb & Ob & _); [right; left; auto|].
        right. exists i, j, a, b. split; auto. intros ->. inversion ND as [|? ? Hn _]. apply Hn. left; auto.
      + left. destruct (proj1 (ok_add _ _ _ H i)) as (l & Hl & E); [rewrite Ea; left; auto|]. exists i, l. auto.
    - left. destruct (proj1 (ok_drop _ _ _ H i)) as (l & Hl & E); [rewrite Ed; left; auto|]. exists i, l. auto.
  Qed.

  (* ---- the invariant ---- *)
  Definition adjacent (p : pt) (a b : line) : Prop := olt p a b /\ forall k c, ln k c -> active p c -> ~ (olt p a c /\ olt p c b).
  Definition found (p : pt) (Q : list (pt * SiteEvent)) : Prop := forall i j a b q,
    ln i a -> ln j b -> active p a -> active p b -> adjacent p a b -> on_line q a -> on_line q b -> klt p q ->
    (forall r, tev r -> on_line r a \/ on_line r b -> klt p r -> klt r q -> vy r <> vy p) ->
    covered Q q i /\ covered Q q j.
  Definition found_at (pos : option pt) (Q : list (pt * SiteEvent)) : Prop := match pos with Some p => found p Q | None => True end.
  Definition next_at (pos : option pt) (p' : pt) : Prop := tev p' /\ after pos p' /\ forall r, tev r -> after pos r -> r = p' \/ klt p' r.

  Lemma succ p l l' : olt p l l' -> active p l' -> (exists j, ln j l') ->
    exists k c, ln k c /\ active p c /\ (c = l' \/ olt p c l') /\ adjacent p l c.
  Proof.
    intros Ho Ha (j & Hj). destruct (minimal (olt p) (fun c => active p c /\ olt p l c /\ (c = l' \/ olt p c l'))) with (l := lines) as (c & Hc & (Ac & Oc & Bc) & Mc).
    - apply olt_irrefl. - intros; eapply olt_trans; eauto. - exists l'. split; [eapply ln_In; eauto|auto].
    - apply In_nth_error in Hc as (k & Hk). exists k, c. repeat (split; auto). intros k' c' Hk' Ac' [O1 O2].
      apply (Mc c'); auto. { eapply ln_In; eauto. } split; auto. split; auto. right. destruct Bc as [->|Bc]; auto. eapply olt_trans; eauto.
  Qed.
  Lemma pred p l l' : olt p l' l -> active p l' -> (exists j, ln j l') ->
    exists k c, ln k c /\ active p c /\ (c = l' \/ olt p l' c) /\ adjacent p c l.
  Proof.
    intros Ho Ha (j & Hj). destruct (minimal (fun x y => olt p y x) (fun c => active p c /\ olt p c l /\ (c = l' \/ olt p l' c))) with (l := lines) as (c & Hc & (Ac & Oc & Bc) & Mc).
    - intros a. apply olt_irrefl. - intros a b c H1 H2; eapply olt_trans; eauto. - exists l'. split; [eapply ln_In; eauto|auto].
    - apply In_nth_error in Hc as (k & Hk). exists k, c. repeat (split; auto). intros k' c' Hk' Ac' [O1 O2].
      apply (Mc c'); auto. { eapply ln_In; eauto. } split; auto. split; auto. right. destruct Bc as [->|Bc]; auto. eapply olt_trans; eauto.
  Qed.

  Lemma arrives p p' i l : next lines p p' -> ln i l -> on_line p' l -> p' <> lo l -> active p l.
  Proof.
    intros (Ht & Hk & Hmin) Hl Ho Hn. pose proof (g_steep _ G _ _ Hl) as Hs. pose proof (on_after_lo _ _ Ho Hs Hn) as Hlo. split.
    - intros K. destruct (Hmin (lo l) (tev_lo _ _ _ Hl) K) as [E|E]; [rewrite E in Hn; congruence|]. exact (klt_asym _ _ E Hlo).
    - destruct (pt_dec p' (hi l)) as [<-|E]; auto. eapply klt_trans; [exact Hk|]. apply on_before_hi; auto.
  Qed.
  (* every line that passes through the next event is known to the queue *)
  Lemma arrive pos p' Q i l : found_at pos Q -> next_at pos p' -> ln i l -> on_line p' l -> p' <> lo l -> p' <> hi l -> covered Q p' i.
  Proof.
    intros Hf Hn Hl Ho Hlo Hhi. pose proof (g_steep _ G _ _ Hl) as Hs. destruct pos as [p|].
    2: { exfalso. destruct Hn as (_ & _ & Hmin). pose proof (on_after_lo _ _ Ho Hs Hlo) as K.
         destruct (Hmin (lo l) (tev_lo _ _ _ Hl) I) as [E|E]; [rewrite E in Hlo; congruence|]. exact (klt_asym _ _ E K). }
    cbn [found_at] in Hf. pose proof Hn as (Ht & Hk & Hmin). cbn [after] in Hk.
    assert (Hnx : next lines p p') by exact Hn.
    assert (Hno : forall j l', ln j l' -> lo l' <> p').
    { intros j l' Hl' E. assert (Z : on_line (lo l') l) by (rewrite E; auto). destruct (g_start _ G j i l' l Hl' Hl Z) as [K|K]; rewrite E in K; auto. }
    assert (Hoth : exists j l', j <> i /\ ln j l' /\ on_line p' l').
    { destruct Ht as [(j & l' & Hj & [E|E])|(j1 & j2 & a & b & H12 & Ha & Hb & Oa & Ob)].
      - destruct (Hno j l' Hj); auto.
      - exists j, l'. split; [|split; auto; rewrite E; apply on_hi]. intros ->. assert (l' = l) by (eapply ln_fun; eauto). congruence.
      - destruct (Nat.eq_dec j1 i) as [->|N]; [exists j2, b|exists j1, a]; auto. }
    destruct Hoth as (j & l' & Hij & Hj & Oj).
    assert (Al : active p l) by (eapply arrives; eauto). assert (Aj : active p l') by (apply (arrives p p' j); auto; intros E; apply (Hno j l'); auto).
    assert (Hclear : forall a b r, tev r -> on_line r a \/ on_line r b -> klt p r -> klt r p' -> vy r <> vy p).
    { intros a b r Hr _ K1 K2 _. destruct (Hmin r Hr K1) as [->|K3]; [exact (klt_irrefl _ K2)|exact (klt_asym _ _ K2 K3)]. }
    assert (Xl : forall k c, ln k c -> on_line p' c -> XX c (vy p') = vx p').
    { intros k c Hc Oc. apply on_XX in Oc as [_ Oc]; auto. apply (g_steep _ G _ _ Hc). }
    assert (Hin : forall k c, ln k c -> active p c -> XX c (vy p') = vx p' -> on_line p' c).
    { intros k c Hc Ac E. apply on_XX; [apply (g_steep _ G _ _ Hc)|]. split; auto. eapply next_y; eauto. }
    destruct (olt_total lines G p i j l l') as [O|O]; auto.
    - destruct (succ p l l' O Aj) as (k & c & Hc & Ac & Bc & Adj); eauto.
      assert (Oc : on_line p' c).
      { destruct Bc as [->|Bc]; auto. apply (Hin k); auto. apply Rle_antisym.
        - rewrite <- (Xl j l' Hj Oj). apply (order_at_next lines G p p' k j); auto. intros ->. assert (c = l') by (eapply ln_fun; eauto). subst c. exact (olt_irrefl _ _ Bc).
        - rewrite <- (Xl i l Hl Ho). apply (order_at_next lines G p p' i k); auto; [|apply Adj]. intros ->. assert (c = l) by (eapply ln_fun; eauto). subst c. destruct Adj as [Adj _]. exact (olt_irrefl _ _ Adj). }
      destruct (Hf i k l c p' Hl Hc Al Ac Adj Ho Oc Hk (Hclear l c)) as [H1 _]. exact H1.
    - destruct (pred p l l' O Aj) as (k & c & Hc & Ac & Bc & Adj); eauto.
      assert (Oc : on_line p' c).
      { destruct Bc as [->|Bc]; auto. apply (Hin k); auto. apply Rle_antisym.
        - rewrite <- (Xl i l Hl Ho). apply (order_at_next lines G p p' k i); auto; [|apply Adj]. intros ->. assert (c = l) by (eapply ln_fun; eauto). subst c. destruct Adj as [Adj _]. exact (olt_irrefl _ _ Adj).
        - rewrite <- (Xl j l' Hj Oj). apply (order_at_next lines G p p' j k); auto. intros ->. assert (c = l') by (eapply ln_fun; eauto). subst c. exact (olt_irrefl _ _ Bc). }
      destruct (Hf k i c l p' Hc Hl Ac Al Adj Oc Ho Hk (Hclear c l)) as [_ H1]. exact H1.
  Qed.

  (* the head of the queue is the next event *)
  Lemma head_next pos key e q : q_ok lines pos ((key, e) :: q) -> found_at pos ((key, e) :: q) -> next_at pos key.
  Proof.
    intros HQ Hf. destruct (head_ev _ _ _ _ _ HQ) as [Hev Hafter]. pose proof (ev_tev _ _ Hev) as Hkt.
    destruct (minimal klt (fun r => tev r /\ after pos r) klt_irrefl klt_trans (cands lines)) as (p' & Hp & (Tp & Ap) & Mp).
    { exists key. split; auto. apply tev_cands; auto. }
    assert (Hn : next_at pos p').
    { split; auto. split; auto. intros r Hr Ha. destruct (klt_total r p') as [K|[K|K]]; auto. destruct (Mp r (tev_cands _ Hr) (conj Hr Ha) K). }
    assert (Hq : get ((key, e) :: q) p' <> None).
    { destruct Tp as [(i & l & Hl & [E|E])|(i & j & a & b & Hij & Ha & Hb & Oa & Ob)].
      - subst p'. eapply q_lo; eauto.
      - subst p'. eapply q_hi; eauto.
      - destruct (pt_dec p' (lo a)) as [E|N1]; [rewrite E in *; eapply q_lo; eauto|].
        destruct (pt_dec p' (hi a)) as [E|N2]; [rewrite E in *; eapply q_hi; eauto|].
        destruct (arrive pos p' ((key, e) :: q) i a) as (e' & Ge & _); auto. congruence. }
    destruct (head_min _ _ _ _ _ _ HQ Hq) as [E|K].
    - congruence.
    - exfalso. exact (Mp key (tev_cands _ Hkt) (conj Hkt Hafter) K).
  Qed.

  (* ---- one event ---- *)
  Section Step.
    Variables (pos : option pt) (key : pt) (e : SiteEvent) (q : list (pt * SiteEvent)) (act : list nat) (res : list (pt * list nat)) (st' : State (S := RS)).
    Hypothesis HI : Inv lines ign pos (mkSt act ((key, e) :: q) res).
    Hypothesis HI' : Inv lines ign (Some key) st'.
    Hypothesis HS : step_spec inf lines ign key e act q res st'.
    Hypothesis HF : found_at pos ((key, e) :: q).

    Lemma HN : next_at pos key.
    Proof. eapply head_next; eauto. apply (i_q _ _ _ _ HI). Qed.
    Lemma Hev : ev_ok lines key e.
    Proof. apply (head_ev _ _ _ _ _ (i_q _ _ _ _ HI)). Qed.
    Lemma key_inter i l : ln i l -> on_line key l -> key <> lo l -> key <> hi l -> In i (e_inter e).
    Proof.
      intros Hl Ho H1 H2. destruct (arrive pos key ((key, e) :: q) i l HF HN Hl Ho H1 H2) as (e' & Ge & K).
      rewrite get_cons in Ge. destruct (pt_dec key key); [|congruence]. injection Ge as <-. destruct K as [K|K]; auto.
      apply (ok_drop _ _ _ Hev) in K as (l' & Hl' & E). assert (l' = l) by (eapply ln_fun; eauto). congruence.
    Qed.
    Definition con (i : nat) (l : line) : Prop := (In i (e_add e) \/ In i (e_inter e)) /\ ln i l.
    Lemma con_spec i l : con i l <-> ln i l /\ on_line key l /\ active key l.
    Proof.
      split.
      - intros [[H|H] Hl].
        + apply (ok_add _ _ _ Hev) in H as (l' & Hl' & E). assert (l' = l) by (eapply ln_fun; eauto). subst l'.
          split; auto. split; [rewrite <- E; apply on_lo|]. split; [rewrite E; apply klt_irrefl|]. rewrite <- E. eapply lo_lt_hi; eauto.
        + apply (ok_inter _ _ _ Hev) in H as (l' & Hl' & Ho & N1 & N2). assert (l' = l) by (eapply ln_fun; eauto). subst l'.
          pose proof (g_steep _ G _ _ Hl) as Hs. split; auto. split; auto. split.
          * intros K. exact (klt_asym _ _ K (on_after_lo _ _ Ho Hs N1)).
          * apply on_before_hi; auto.
      - intros (Hl & Ho & [A1 A2]). split; auto. destruct (pt_dec key (lo l)) as [E|N].
        + left. apply (ok_add _ _ _ Hev). eauto.
        + right. apply (key_inter i l); auto. apply klt_ne; auto.
    Qed.
    Definition nb (i : nat) (l : line) (x : R) : Prop :=
      In i act /\ ~ In i (e_drop e) /\ ~ In i (e_inter e) /\ ln i l /\ exists s, sweepline_intersection (S := RS) inf key l = Some (x, s).
    Lemma nb_x i l x : nb i l x -> x = XX l (vy key).
    Proof. intros (_ & _ & _ & Hl & s & E). destruct (sweep_x i l key Hl) as (s' & E'). rewrite E in E'. congruence. Qed.
    Lemma nb_active i l x : nb i l x -> ln i l /\ active key l.
    Proof.
      intros (Ha & Hd & _ & Hl & _). split; auto. apply (i_act _ _ _ _ HI) in Ha as (l' & Hl' & Na & Hh). assert (l' = l) by (eapply ln_fun; eauto). subst l'.
      pose proof HN as (_ & Hk & Hmin). pose proof (lo_lt_hi _ G _ _ Hl) as Hlh. split.
      - intros K. apply Na. destruct pos as [p|]; cbn in *; auto. eapply klt_trans; eauto.
      - destruct Hh as [Hh|E]; [|rewrite E in Hlh; destruct (klt_irrefl _ Hlh)].
        destruct (Hmin (hi l)) as [E|K]; auto. { eapply tev_hi; eauto. } destruct Hd. apply (ok_drop _ _ _ Hev). exists l. auto.
    Qed.
    Lemma nb_intro i l : ln i l -> active key l -> ~ on_line key l -> nb i l (XX l (vy key)).
    Proof.
      intros Hl [A1 A2] No. pose proof HN as (_ & Hk & Hmin). split; [|split; [|split; [|split]]]; auto.
      - apply (i_act _ _ _ _ HI). exists l. split; auto. split.
        + intros K. destruct (Hmin (lo l)) as [E|K2]; auto. { eapply tev_lo; eauto. } apply No. rewrite <- E. apply on_lo.
        + left. destruct pos as [p|]; cbn in *; auto. eapply klt_trans; eauto.
      - intros K. apply (ok_drop _ _ _ Hev) in K as (l' & Hl' & E). assert (l' = l) by (eapply ln_fun; eauto). subst l'. rewrite E in A2. exact (klt_irrefl _ A2).
      - intros K. apply (ok_inter _ _ _ Hev) in K as (l' & Hl' & Ho & _). assert (l' = l) by (eapply ln_fun; eauto). subst l'. auto.
      - apply (sweep_x i); auto.
    Qed.

    (* a pair of lines handed to the pair test is in the queue *)
    Lemma pair_cov (tested : Prop) i j a b p : i <> j -> ln i a -> ln j b -> active key a -> active key b -> on_line p a -> on_line p b -> klt key p -> tested ->
      (tested -> lend a <> lend b -> forall it, intersection_point a b = Some it -> klt key (isingle it) ->
        forall k l, (k = i /\ l = a) \/ (k = j /\ l = b) -> isingle it <> lo l -> covered (st_queue st') (isingle it) k) ->
      covered (st_queue st') p i /\ covered (st_queue st') p j.
    Proof.
      intros Hij Ha Hb [A1 A2] [B1 B2] Oa Ob Hk Ht Hcov.
      assert (Nlo : forall l, ~ klt key (lo l) -> p <> lo l) by (intros l H E; rewrite E in Hk; auto).
      destruct (pt_dec (lend a) (lend b)) as [E|E].
      - assert (Eon : forall l : line, on_line (lend l) l) by (intros l; apply on_segment_end).
        assert (Ep : lend a = p). { apply (g_once _ G i j a b); auto. rewrite E. auto. }
        assert (Hh : forall k l, ln k l -> lend l = p -> ~ klt key (lo l) -> covered (st_queue st') p k).
        { intros k l Hl El Nl. assert (Ehi : hi l = p).
          { destruct (lohi l) as [[E1 E2]|[E1 E2]]; [congruence|]. exfalso. apply (Nlo l Nl). congruence. }
          pose proof (i_q _ _ _ _ HI') as Q'. pose proof (q_hi _ _ _ Q' k l Hl) as Hq. rewrite Ehi in Hq. specialize (Hq Hk).
          destruct (get (st_queue st') p) as [e'|] eqn:Ge; [|congruence]. exists e'. split; auto. left.
          apply (ok_drop _ _ _ (q_ev _ _ _ Q' _ _ Ge)). exists l. auto. }
        split; [apply (Hh i a); auto|apply (Hh j b); auto; congruence].
      - pose proof (common_single i j a b p Hij Ha Hb Oa Ob) as Ei. specialize (Hcov Ht E (IPoint p) Ei Hk). cbn [isingle] in Hcov.
        split; [apply (Hcov i a)|apply (Hcov j b)]; auto.
    Qed.

    Lemma tail_cov p i : klt key p -> covered ((key, e) :: q) p i -> covered (st_queue st') p i.
    Proof.
      intros Hk (e' & Ge & Hin). apply (covered_mono _ _ _ _ (s_mono _ _ _ _ _ _ _ _ _ HS)). exists e'. split; auto.
      rewrite get_cons in Ge. destruct (pt_dec key p) as [<-|]; auto. destruct (klt_irrefl _ Hk).
    Qed.

    Lemma XX_key i l : ln i l -> active key l -> (on_line key l <-> XX l (vy key) = vx key).
    Proof.
      intros Hl Ha. pose proof (g_steep _ G _ _ Hl) as Hs. rewrite (on_XX key l Hs). split; [intros [_ K]; auto|].
      intros K. split; auto. eapply active_y; eauto.
    Qed.

    Lemma step_found : found key (st_queue st').
    Proof.
      intros i j a b p Ha Hb Aa Ab Adj Oa Ob Hkp Hblk.
      assert (Hij : i <> j). { intros ->. assert (a = b) by (eapply ln_fun; eauto). subst b. destruct Adj as [Adj _]. exact (olt_irrefl _ _ Adj). }
      pose proof HN as (Htk & Hka & Hmin). pose proof con_spec as CS.
      destruct (s_cover _ _ _ _ _ _ _ _ _ HS) as (nl & nr & cl & cr & N1 & N2 & N3 & N4 & C1 & C2 & C3 & Cov). cbv zeta in *.
      fold nb in *. 
      assert (HyP : forall l k, ln k l -> active key l -> on_line p l -> XX l (vy key) <= vx key -> vy key < vy p).
      { intros l k Hl Al Ol Hx. destruct Hkp as [|[E K]]; auto. exfalso. apply on_XX in Ol as [_ Ol]; [|apply (g_steep _ G _ _ Hl)]. rewrite <- E in Ol. lra. }
      (* the left neighbour *)
      assert (Left : forall k l, ln k l -> active key l -> XX l (vy key) < vx key ->
                (forall k' c, ln k' c -> active key c -> olt key l c -> XX c (vy key) < vx key -> False) -> In k nl).
      { intros k l Hl Al Hx Hmax. assert (No : ~ on_line key l) by (rewrite (XX_key k l Hl Al); lra).
        destruct nl as [|k' nl'] eqn:En.
        - exfalso. apply N2; auto. exists k, l, (XX l (vy key)). split; auto. apply nb_intro; auto.
        - destruct (N1 k' (or_introl eq_refl)) as (l' & x & Hnb & Hxk & Hmx). pose proof (nb_x _ _ _ Hnb) as Ex. destruct (nb_active _ _ _ Hnb) as [Hl' Al'].
          specialize (Hmx k l _ (nb_intro k l Hl Al No) Hx). rewrite Ex in *. destruct (Nat.eq_dec k' k) as [->|Nk]; [left; auto|]. exfalso.
          destruct (Rle_lt_or_eq_dec _ _ Hmx) as [Hlt|Heq]; [apply (Hmax k' l'); auto; left; auto|].
          set (c := @mkV2 RS (XX l (vy key)) (vy key)).
          assert (Kc : klt c key) by (right; cbn; auto).
          apply (g_row _ G k k' l l' c key); auto.
          + apply (active_on lines G key k); auto.
          + unfold c. rewrite Heq. apply (active_on lines G key k'); auto.
          + intros E. destruct Al as [_ K]. rewrite <- E in K. exact (klt_asym _ _ K Kc).
          + intros E. destruct Al' as [_ K]. rewrite <- E in K. exact (klt_asym _ _ K Kc). }
      (* the right neighbour *)
      assert (Right : forall k l, ln k l -> active key l -> vx key < XX l (vy key) -> on_line p l -> vy key < vy p -> l = a \/ l = b ->
                (forall k' c, ln k' c -> active key c -> olt key c l -> vx key < XX c (vy key) -> False) -> In k nr).
      { intros k l Hl Al Hx Olp Hyp Hab Hmax. assert (No : ~ on_line key l) by (rewrite (XX_key k l Hl Al); lra).
        destruct nr as [|k' nr'] eqn:En.
        - exfalso. apply N4; auto. exists k, l, (XX l (vy key)). split; auto. apply nb_intro; auto.
        - destruct (N3 k' (or_introl eq_refl)) as (l' & x & Hnb & Hxk & Hmx). pose proof (nb_x _ _ _ Hnb) as Ex. destruct (nb_active _ _ _ Hnb) as [Hl' Al'].
          specialize (Hmx k l _ (nb_intro k l Hl Al No) Hx). rewrite Ex in *. destruct (Nat.eq_dec k' k) as [->|Nk]; [left; auto|]. exfalso.
          destruct (Rle_lt_or_eq_dec _ _ Hmx) as [Hlt|Heq]; [apply (Hmax k' l'); auto; left; auto|].
          set (c := @mkV2 RS (XX l (vy key)) (vy key)).
          assert (Oc : on_line c l) by (apply (active_on lines G key k); auto).
          assert (Oc' : on_line c l') by (unfold c; rewrite <- Heq; apply (active_on lines G key k'); auto).
          apply (Hblk c).
          + right. exists k', k, l', l. auto.
          + destruct Hab as [<-|<-]; auto.
          + right. cbn. auto.
          + left. cbn. auto.
          + reflexivity. }
      destruct (classic (on_line key a)) as [Ka|Ka]; destruct (classic (on_line key b)) as [Kb|Kb].
      - (* both through key *)
        exfalso. assert (E : key = p) by (apply (g_once _ G i j a b); auto). rewrite E in Hkp. exact (klt_irrefl _ Hkp).
      - (* a through key, b on the right *)
        pose proof (proj1 (XX_key i a Ha Aa) Ka) as Xa.
        assert (Xb : vx key < XX b (vy key)).
        { pose proof (olt_le _ _ _ (proj1 Adj)) as H. assert (XX b (vy key) <> vx key) by (rewrite <- (XX_key j b Hb Ab); auto). lra. }
        assert (Hyp : vy key < vy p) by (apply (HyP a i); auto; lra).
        assert (Inr : In j nr).
        { apply (Right j b); auto. intros k' c Hc Ac Oc Xc. apply (proj2 Adj k' c Hc Ac). split; auto. left. lra. }
        assert (Ca : con i a) by (apply con_spec; auto).
        assert (Inc : In i cr).
        { destruct cr as [|k' cr'] eqn:Ec.
          - exfalso. destruct C3 as [K1 K2]; [exists i, a; exact Ca|congruence].
          - destruct (C2 k' (or_introl eq_refl)) as (l' & Cl' & Hmx). specialize (Hmx i a Ca). apply con_spec in Cl' as (Hl' & Ol' & Al').
            rewrite (cslope_sl i a Ha), (cslope_sl k' l' Hl') in Hmx. destruct (Nat.eq_dec k' i) as [->|Nk]; [left; auto|]. exfalso.
            pose proof (proj1 (XX_key k' l' Hl' Al') Ol') as Xl'.
            assert (sl a <> sl l'). { apply (slopes_differ lines G key i k'); auto. lra. }
            apply (proj2 Adj k' l' Hl' Al'). split; [|left; lra]. right. split; [lra|]. left. lra. }
        destruct (pair_cov (In j nr /\ In i cr) j i b a p) as [P1 P2]; auto.
        intros [H1 H2]. apply (Cov j i b a); auto.
      - (* b through key, a on the left *)
        pose proof (proj1 (XX_key j b Hb Ab) Kb) as Xb.
        assert (Xa : XX a (vy key) < vx key).
        { pose proof (olt_le _ _ _ (proj1 Adj)) as H. assert (XX a (vy key) <> vx key) by (rewrite <- (XX_key i a Ha Aa); auto). lra. }
        assert (Inl : In i nl).
        { apply (Left i a); auto. intros k' c Hc Ac Oc Xc. apply (proj2 Adj k' c Hc Ac). split; auto. left. lra. }
        assert (Cb : con j b) by (apply con_spec; auto).
        assert (Inc : In j cl).
        { destruct cl as [|k' cl'] eqn:Ec.
          - exfalso. destruct C3 as [K1 K2]; [exists j, b; exact Cb|congruence].
          - destruct (C1 k' (or_introl eq_refl)) as (l' & Cl' & Hmx). specialize (Hmx j b Cb). apply con_spec in Cl' as (Hl' & Ol' & Al').
            rewrite (cslope_sl j b Hb), (cslope_sl k' l' Hl') in Hmx. destruct (Nat.eq_dec k' j) as [->|Nk]; [left; auto|]. exfalso.
            pose proof (proj1 (XX_key k' l' Hl' Al') Ol') as Xl'.
            assert (sl b <> sl l'). { apply (slopes_differ lines G key j k'); auto. lra. }
            apply (proj2 Adj k' l' Hl' Al'). split; [left; lra|]. right. split; [lra|]. left. lra. }
        destruct (pair_cov (In i nl /\ In j cl) i j a b p) as [P1 P2]; auto.
        intros [H1 H2]. apply (Cov i j a b); auto.
      - (* neither through key *)
        destruct pos as [p0|].
        2: { exfalso. destruct Aa as [A1 _]. destruct (Hmin (lo a)) as [E|K]; [eapply tev_lo; eauto|exact I| |contradiction]. apply Ka. rewrite <- E. apply on_lo. }
        cbn [found_at after] in *. assert (Hnx : next lines p0 key) by exact (conj Htk (conj Hka Hmin)).
        assert (Back : forall k l, ln k l -> active key l -> ~ on_line key l -> active p0 l).
        { intros k l Hl [L1 L2] No. split.
          - intros K. destruct (Hmin (lo l)) as [E|K2]; auto. { eapply tev_lo; eauto. } apply No. rewrite <- E. apply on_lo.
          - eapply klt_trans; eauto. }
        pose proof (Back i a Ha Aa Ka) as Aa0. pose proof (Back j b Hb Ab Kb) as Ab0.
        assert (O0 : olt p0 a b).
        { destruct (olt_total lines G p0 i j a b) as [|O]; auto. exfalso. apply (olt_irrefl key a). eapply olt_trans; [apply Adj|].
          apply (order_kept lines G p0 key j i b a); auto. tauto. }
        destruct (classic (exists k c, ln k c /\ active p0 c /\ olt p0 a c /\ olt p0 c b)) as [(k & c & Hc & Ac & Oac & Ocb)|Nadj].
        + (* a line between them ended at key *)
          assert (Nik : i <> k). { intros ->. assert (c = a) by (eapply ln_fun; eauto). subst c. exact (olt_irrefl _ _ Oac). }
          assert (Nkj : k <> j). { intros ->. assert (c = b) by (eapply ln_fun; eauto). subst c. exact (olt_irrefl _ _ Ocb). }
          assert (Kc : on_line key c).
          { apply NNPP. intros No. assert (Ac' : active key c).
            { split.
              - intros K. destruct Ac as [K1 _]. apply K1. eapply klt_trans; eauto.
              - destruct (next_hi lines p0 key k c Hnx Hc Ac) as [E|]; auto. destruct No. rewrite <- E. apply on_hi. }
            apply (proj2 Adj k c Hc Ac'). split.
            - apply (order_kept lines G p0 key i k a c); auto. tauto.
            - apply (order_kept lines G p0 key k j c b); auto. tauto. }
          assert (Xc : XX c (vy key) = vx key). { apply on_XX in Kc as [_ Kc]; auto. apply (g_steep _ G _ _ Hc). }
          pose proof (order_at_next lines G p0 key i k a c Nik Ha Hc Aa0 Ac Hnx Oac) as X1.
          pose proof (order_at_next lines G p0 key k j c b Nkj Hc Hb Ac Ab0 Hnx Ocb) as X2.
          assert (XX a (vy key) <> vx key) by (rewrite <- (XX_key i a Ha Aa); auto).
          assert (XX b (vy key) <> vx key) by (rewrite <- (XX_key j b Hb Ab); auto).
          assert (Xa : XX a (vy key) < vx key) by lra. assert (Xb : vx key < XX b (vy key)) by lra.
          assert (Ncon : ~ exists k l, con k l).
          { intros (k' & l' & Cl'). apply CS in Cl' as (Hl' & Ol' & Al'). pose proof (proj1 (XX_key k' l' Hl' Al') Ol').
            apply (proj2 Adj k' l' Hl' Al'). split; left; lra. }
          assert (Hyp : vy key < vy p) by (apply (HyP a i); auto; lra).
          assert (Inl : In i nl).
          { apply (Left i a); auto. intros k' c' Hc' Ac' Oc' Xc'. apply (proj2 Adj k' c' Hc' Ac'). split; auto. left. lra. }
          assert (Inr : In j nr).
          { apply (Right j b); auto. intros k' c' Hc' Ac' Oc' Xc'. apply (proj2 Adj k' c' Hc' Ac'). split; auto. left. lra. }
          destruct (pair_cov (In i nl /\ In j nr) i j a b p) as [P1 P2]; auto.
          intros [H1 H2]. apply (Cov i j a b); auto.
        + destruct (HF i j a b p) as [P1 P2]; auto.
          * split; auto. intros k c Hc Ac [O1 O2]. apply Nadj. exists k, c. auto.
          * eapply klt_trans; eauto.
          * intros r Hr Hon Kr1 Kr2 Ey. destruct (Hmin r Hr Kr1) as [->|K].
            -- tauto.
            -- apply (Hblk r Hr Hon K Kr2). pose proof (klt_y _ _ K). pose proof (klt_y _ _ Hka). lra.
          * split; apply tail_cov; auto.
    Qed.
  End Step.
End Complete.
