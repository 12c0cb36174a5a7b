(* Proofs about Ramer-Douglas-Peucker, for any scalar type. *)
From Verif Require Import Prelude Scalar Geo2 Geo3 Simplify GeoSpec.

(* ---- order laws on the values satisfying D (all reals; all non-NaN floats) ---- *)
Record OrdOn (S : Scalar) (D : car S -> Prop) : Prop := {
  ord_irrefl : forall a, D a -> sltb a a = false;
  ord_trans : forall a b c, D a -> D b -> D c -> sltb a b = true -> sltb b c = true -> sltb a c = true;
  ord_neg_trans : forall a b c, D a -> D b -> D c -> sltb a b = false -> sltb b c = false -> sltb a c = false;
  ord_leb : forall a b, D a -> D b -> sleb a b = negb (sltb b a);
  ord_eqb : forall a b, D a -> D b -> seqb a b = (negb (sltb a b) && negb (sltb b a))%bool
}.

Section Max.
  Context {S : Scalar}.
  Notation F := (car S).

  Lemma max_fold_in (l : list (F * nat)) a : In (fold_left max_step l a) (a :: l).
  Proof.
    revert a; induction l as [|x l IH]; intros a; cbn [fold_left]; [left; auto|].
    destruct (IH (max_step a x)) as [E|H]; [|right; right; auto].
    rewrite <- E. unfold max_step. destruct (spcmp (fst a) (fst x)) as [[]|]; simpl; auto.
  Qed.

  Lemma max_by_in (l : list (F * nat)) m : max_by l = Some m -> In m l.
  Proof. destruct l; simpl; intros H; [discriminate|]. injection H as <-. apply max_fold_in. Qed.

  Lemma max_by_some (l : list (F * nat)) : l <> [] -> exists m, max_by l = Some m.
  Proof. destruct l; [congruence|]; simpl; eauto. Qed.

  Context (D : F -> Prop) (HO : OrdOn S D).

  Lemma max_step_ord x y : D (fst x) -> D (fst y) ->
    max_step x y = if sltb (fst y) (fst x) then x else y.
  Proof.
    intros Dx Dy. unfold max_step, spcmp.
    destruct (sltb (fst x) (fst y)) eqn:E1.
    - destruct (sltb (fst y) (fst x)) eqn:E2; auto.
      pose proof (ord_trans _ _ HO _ _ _ Dx Dy Dx E1 E2) as E. rewrite (ord_irrefl _ _ HO _ Dx) in E. discriminate.
    - rewrite (ord_eqb _ _ HO) by auto. rewrite E1. destruct (sltb (fst y) (fst x)) eqn:E2; simpl; auto.
  Qed.

  (* the last of the greatest *)
  Lemma max_fold_ord (l : list (F * nat)) a m :
    D (fst a) -> Forall (fun x => D (fst x)) l -> fold_left max_step l a = m ->
    exists l1 l2, a :: l = l1 ++ m :: l2 /\
      Forall (fun x => sltb (fst m) (fst x) = false) l1 /\ Forall (fun x => sltb (fst x) (fst m) = true) l2.
  Proof.
    intros Da Dl. revert a Da m. induction Dl as [|y l Dy Dl IH]; intros a Da m; cbn [fold_left].
    - intros <-. exists [], []. auto.
    - intros E. rewrite max_step_ord in E by auto.
      destruct (sltb (fst y) (fst a)) eqn:Ey.
      + destruct (IH a Da m E) as (l1 & l2 & E1 & F1 & F2).
        destruct l1 as [|b l1].
        * injection E1 as -> ->. exists [], (y :: l2). repeat split; auto.
        * injection E1 as <- ->. exists (a :: y :: l1), l2. repeat split; auto.
          inversion F1 as [|? ? Ha F1']; subst. constructor; [exact Ha|]. constructor; auto.
          assert (Dm : D (fst m)).
          { assert (Hin : In m (l1 ++ m :: l2)) by (apply in_app_iff; right; left; auto).
            eapply Forall_forall in Dl; eauto. }
          destruct (sltb (fst m) (fst y)) eqn:Em; auto.
          pose proof (ord_trans _ _ HO _ _ _ Dm Dy Da Em Ey). congruence.
      + destruct (IH y Dy m E) as (l1 & l2 & E1 & F1 & F2).
        assert (Dm : D (fst m)).
        { assert (Hin : In m (y :: l)) by (rewrite E1; apply in_app_iff; right; left; auto).
          destruct Hin as [<-|Hin]; auto. eapply Forall_forall in Dl; eauto. }
        exists (a :: l1), l2. split; [rewrite E1; reflexivity|]. split; auto. constructor; auto.
        assert (Hmy : sltb (fst m) (fst y) = false).
        { destruct l1 as [|b l1]; injection E1 as -> E1.
          - apply (ord_irrefl _ _ HO); auto.
          - inversion F1; auto. }
        eapply (ord_neg_trans _ _ HO); [| | |exact Hmy|exact Ey]; auto.
  Qed.

  Lemma max_fold_uniq (l1 l2 : list (F * nat)) a m :
    D (fst a) -> D (fst m) -> Forall (fun x => D (fst x)) l1 -> Forall (fun x => D (fst x)) l2 ->
    sltb (fst m) (fst a) = false ->
    Forall (fun x => sltb (fst m) (fst x) = false) l1 -> Forall (fun x => sltb (fst x) (fst m) = true) l2 ->
    fold_left max_step (l1 ++ m :: l2) a = m.
  Proof.
    intros Da Dm D1 D2. revert a Da. induction D1 as [|x l1 Dx D1 IH]; intros a Da Ha F1 F2.
    - cbn [app fold_left]. rewrite max_step_ord, Ha by auto.
      clear F1. induction F2 as [|y l2 Hy F2 IH2]; [reflexivity|]. inversion D2; subst.
      cbn [fold_left]. rewrite max_step_ord, Hy by auto. auto.
    - inversion F1; subst. cbn [app fold_left]. apply IH; auto;
        rewrite max_step_ord by auto; destruct (sltb (fst x) (fst a)); auto.
  Qed.

  Lemma max_by_ord l m : Forall (fun x => D (fst x)) l -> max_by l = Some m ->
    exists l1 l2, l = l1 ++ m :: l2 /\
      Forall (fun x => sltb (fst m) (fst x) = false) l1 /\ Forall (fun x => sltb (fst x) (fst m) = true) l2.
  Proof.
    destruct l as [|a l]; simpl; intros H E; [discriminate|]. injection E as E. inversion H; subst.
    eapply max_fold_ord; eauto.
  Qed.

  Lemma max_by_uniq l1 m l2 :
    D (fst m) -> Forall (fun x => D (fst x)) l1 -> Forall (fun x => D (fst x)) l2 ->
    Forall (fun x => sltb (fst m) (fst x) = false) l1 -> Forall (fun x => sltb (fst x) (fst m) = true) l2 ->
    max_by (l1 ++ m :: l2) = Some m.
  Proof.
    intros Dm D1 D2 F1 F2. destruct l1 as [|a l1]; simpl.
    - f_equal. clear F1 D1. induction F2 as [|y l2 Hy F2 IH2]; [reflexivity|]. inversion D2; subst.
      cbn [fold_left]. rewrite max_step_ord, Hy by auto. auto.
    - inversion D1; inversion F1; subst. f_equal. apply max_fold_uniq; auto.
  Qed.
End Max.

Lemma enumerate_interior {A} (a : A) mid b :
  firstn (length (a :: mid ++ [b]) - 2) (skipn 1 (enumerate (a :: mid ++ [b])))
  = combine (seq 1 (length mid)) mid.
Proof.
  unfold enumerate. cbn [length seq combine skipn].
  assert (G : forall (l : list A) s,
    firstn (length l) (combine (seq s (length (l ++ [b]))) (l ++ [b])) = combine (seq s (length l)) l).
  { induction l as [|x l IH]; intros s; simpl; [reflexivity|]. f_equal. apply IH. }
  replace (Datatypes.S (length (mid ++ [b])) - 2) with (length mid) by (rewrite app_length; simpl; lia).
  apply G.
Qed.

Lemma list_3 {A} (l : list A) : 2 < length l -> exists a m mid b, l = a :: (m :: mid) ++ [b].
Proof.
  intros H. destruct l as [|a l]; [simpl in H; lia|].
  destruct (exists_last (l := l)) as (l' & b & E); [destruct l; simpl in *; [lia|congruence]|].
  subst. rewrite app_comm_cons in H. rewrite app_length in H. simpl in H.
  destruct l' as [|m mid]; [simpl in H; lia|]. eauto.
Qed.

Section RdpProofs.
  Context {S : Scalar} {T : Type} (dist : T -> T -> T -> car S).
  Notation F := (car S).

  (* relational form of the recursion *)
  Inductive Rdp (d2 : F) : list T -> list T -> Prop :=
  | R_one a : Rdp d2 [a] [a]
  | R_two a b : Rdp d2 [a; b] [b]
  | R_drop a mid b :
      mid <> [] -> sleb (fst (farthest dist (a :: mid ++ [b]) a b)) d2 = true ->
      Rdp d2 (a :: mid ++ [b]) [b]
  | R_split a m1 p m2 b l r :
      farthest dist (a :: (m1 ++ p :: m2) ++ [b]) a b = (dist a b p, Datatypes.S (length m1)) ->
      sleb (dist a b p) d2 = false ->
      Rdp d2 (a :: m1 ++ [p]) l -> Rdp d2 (p :: m2 ++ [b]) r ->
      Rdp d2 (a :: (m1 ++ p :: m2) ++ [b]) (l ++ r).

  Definition cand (a b : T) (mid : list T) : list (F * nat) :=
    map (fun ip => (dist a b (snd ip), fst ip)) (combine (seq 1 (length mid)) mid).

  Lemma farthest_cand a mid b :
    farthest dist (a :: mid ++ [b]) a b = match max_by (cand a b mid) with Some m => m | None => (sneg s1, 0) end.
  Proof. unfold farthest. rewrite enumerate_interior. reflexivity. Qed.

  Lemma combine_seq_in (mid : list T) : forall s i p, In (i, p) (combine (seq s (length mid)) mid) ->
    exists m1 m2, mid = m1 ++ p :: m2 /\ i = s + length m1.
  Proof.
    induction mid as [|m mid IH]; simpl; [tauto|].
    intros s i p [E|H].
    - injection E as <- <-. exists [], mid. simpl. split; auto; lia.
    - apply IH in H as (m1 & m2 & -> & ->). exists (m :: m1), m2. simpl. split; auto; lia.
  Qed.

  Lemma farthest_split a mid b v i : mid <> [] -> farthest dist (a :: mid ++ [b]) a b = (v, i) ->
    exists m1 p m2, mid = m1 ++ p :: m2 /\ v = dist a b p /\ i = Datatypes.S (length m1).
  Proof.
    intros Hm. rewrite farthest_cand.
    destruct (max_by_some (cand a b mid)) as (m & E).
    { unfold cand. destruct mid; [congruence|]. simpl. discriminate. }
    rewrite E. intros ->. apply max_by_in in E. unfold cand in E.
    apply in_map_iff in E as ((j & p) & E & Hin). injection E as <- <-.
    apply combine_seq_in in Hin as (m1 & m2 & -> & ->). exists m1, p, m2. auto.
  Qed.

  Lemma slice_to_mid (a : T) m1 p m2 b :
    slice_to (a :: (m1 ++ p :: m2) ++ [b]) (Datatypes.S (length m1) + 1) = Val (a :: m1 ++ [p]).
  Proof.
    unfold slice_to. replace (Nat.leb _ _) with true.
    - f_equal. replace (Datatypes.S (length m1) + 1) with (Datatypes.S (length m1 + 1)) by lia.
      cbn [firstn]. f_equal. rewrite <- app_assoc. rewrite firstn_app_2. reflexivity.
    - symmetry. apply Nat.leb_le. simpl. repeat (rewrite app_length; simpl). lia.
  Qed.
  Lemma slice_from_mid (a : T) m1 p m2 b :
    slice_from (a :: (m1 ++ p :: m2) ++ [b]) (Datatypes.S (length m1)) = Val (p :: m2 ++ [b]).
  Proof.
    unfold slice_from. replace (Nat.leb _ _) with true.
    - f_equal. cbn [skipn]. rewrite <- app_assoc.
      rewrite skipn_app. rewrite skipn_all, Nat.sub_diag. reflexivity.
    - symmetry. apply Nat.leb_le. simpl. repeat (rewrite app_length; simpl). lia.
  Qed.

  Lemma idx_last_mid (a : T) mid b : idx (a :: mid ++ [b]) (length (a :: mid ++ [b]) - 1) = Val b.
  Proof.
    unfold idx. rewrite app_comm_cons, app_length. simpl.
    replace (length mid + 1 - 0) with (Datatypes.S (length mid)) by lia.
    simpl. rewrite nth_error_app2, Nat.sub_diag by lia. reflexivity.
  Qed.

  Lemma rdp_rec_step fuel a mid b d2 : mid <> [] ->
    rdp_rec dist (Datatypes.S fuel) (a :: mid ++ [b]) d2 =
    let '(v, i) := farthest dist (a :: mid ++ [b]) a b in
    if sleb v d2 then Val [b]
    else let* lo := slice_to (a :: mid ++ [b]) (i + 1) in
         let* l := rdp_rec dist fuel lo d2 in
         let* hi := slice_from (a :: mid ++ [b]) i in
         let* r := rdp_rec dist fuel hi d2 in Val (l ++ r).
  Proof.
    intros Hm. cbn [rdp_rec].
    replace (Nat.leb (length (a :: mid ++ [b])) 2) with false.
    2:{ symmetry. apply Nat.leb_gt. destruct mid; [congruence|]. simpl. rewrite app_length. simpl. lia. }
    rewrite idx_last_mid. reflexivity.
  Qed.

  Lemma rdp_rec_total d2 : forall fuel pts, pts <> [] -> length pts <= fuel ->
    exists out, rdp_rec dist fuel pts d2 = Val out /\ Rdp d2 pts out.
  Proof.
    induction fuel as [|fuel IH]; intros pts Hn Hl; [destruct pts; simpl in *; [congruence|lia]|].
    destruct (le_lt_dec (length pts) 2) as [H2|H2].
    - destruct pts as [|a [|b [|c pts]]]; simpl in *; try congruence; try lia;
        eexists; (split; [reflexivity|constructor]).
    - apply list_3 in H2 as (a & m & mid & b & ->).
      rewrite rdp_rec_step by discriminate.
      destruct (farthest dist (a :: (m :: mid) ++ [b]) a b) as [v i] eqn:Ef.
      destruct (farthest_split a (m :: mid) b v i) as (m1 & p & m2 & Em & -> & ->); [discriminate|auto|].
      destruct (sleb (dist a b p) d2) eqn:Es.
      + eexists; split; [reflexivity|]. apply R_drop; [discriminate|]. rewrite Ef. exact Es.
      + rewrite Em in *. rewrite slice_to_mid. cbn [obind].
        assert (Hlen : length (a :: (m1 ++ p :: m2) ++ [b]) = 3 + length m1 + length m2).
        { simpl. repeat (rewrite app_length; simpl). lia. }
        rewrite Hlen in Hl.
        destruct (IH (a :: m1 ++ [p])) as (l & El & Rl); [discriminate|simpl; rewrite app_length; simpl; lia|].
        rewrite El. cbn [obind]. rewrite slice_from_mid. cbn [obind].
        destruct (IH (p :: m2 ++ [b])) as (r & Er & Rr); [discriminate|simpl; rewrite app_length; simpl; lia|].
        rewrite Er. cbn [obind]. eexists; split; [reflexivity|]. apply R_split; auto.
  Qed.

  (* the relation is realised by the function *)
  Lemma Rdp_rdp_rec d2 pts out : Rdp d2 pts out -> forall fuel, length pts <= fuel ->
    rdp_rec dist fuel pts d2 = Val out.
  Proof.
    intros H; induction H as [a|a b|a mid b Hm Hs|a m1 p m2 b l r Hf Hs Hl IHl Hr IHr]; intros fuel Hfu.
    - destruct fuel; [simpl in *; lia|reflexivity].
    - destruct fuel; [simpl in *; lia|reflexivity].
    - destruct fuel; [simpl in *; lia|]. rewrite rdp_rec_step by auto.
      destruct (farthest _ _ _ _) as [v i]. simpl in Hs. rewrite Hs. reflexivity.
    - destruct fuel; [simpl in *; lia|].
      assert (Hlen : length (a :: (m1 ++ p :: m2) ++ [b]) = 3 + length m1 + length m2).
      { simpl. repeat (rewrite app_length; simpl). lia. }
      rewrite Hlen in Hfu.
      rewrite rdp_rec_step by (destruct m1; discriminate). rewrite Hf, Hs.
      rewrite slice_to_mid. cbn [obind].
      rewrite IHl by (simpl; rewrite app_length; simpl; lia). cbn [obind].
      rewrite slice_from_mid. cbn [obind].
      rewrite IHr by (simpl; rewrite app_length; simpl; lia). reflexivity.
  Qed.

  Lemma simplify_rdp_rel pts d : 2 < length pts ->
    exists a t out, pts = a :: t /\ Rdp (smul d d) pts out /\ simplify_rdp dist pts d = Val (a :: out).
  Proof.
    intros H. destruct pts as [|a t]; [simpl in H; lia|].
    destruct (rdp_rec_total (smul d d) (length (a :: t)) (a :: t)) as (out & E & R); [discriminate|lia|].
    exists a, t, out. repeat split; auto. unfold simplify_rdp.
    replace (Nat.leb _ 2) with false by (symmetry; apply Nat.leb_gt; auto).
    unfold idx at 1. simpl nth_error. cbn [obind]. rewrite E. reflexivity.
  Qed.

  Lemma Rdp_last d2 pts out : Rdp d2 pts out -> exists o p, out = o ++ [p] /\ last pts p = p.
  Proof.
    intros H; induction H as [a|a b|a mid b Hm Hs|a m1 p m2 b l r Hf Hs Hl IHl Hr IHr].
    - exists [], a; auto.
    - exists [], b; auto.
    - exists [], b. split; auto. rewrite app_comm_cons. apply last_last.
    - destruct IHr as (o & q & -> & E). exists (l ++ o), q. rewrite app_assoc. split; auto.
      rewrite app_comm_cons in E. rewrite last_last in E. subst.
      rewrite app_comm_cons. apply last_last.
  Qed.

  (* no laws: dropped points satisfy P whenever "the candidate maximum is within d2" entails P *)
  Lemma Rdp_thinned d2 (P : T -> T -> T -> Prop) pts out :
    (forall a mid b p, In p mid -> (forall q, In q mid -> In q pts) -> In a pts -> In b pts ->
       sleb (fst (farthest dist (a :: mid ++ [b]) a b)) d2 = true -> P a b p) ->
    Rdp d2 pts out -> forall a t, pts = a :: t -> t <> [] -> thinned P pts (a :: out).
  Proof.
    intros HP H; induction H as [a|a b|a mid b Hm Hs|a m1 p m2 b l r Hf Hs Hl IHl Hr IHr]; intros a' t' E Hn.
    - injection E as <- <-. congruence.
    - injection E as <- <-. apply (thin_step P a [] b [] []); constructor.
    - injection E as <- <-. apply thin_step; [|constructor].
      apply Forall_forall. intros p Hp. eapply HP; eauto.
      + intros q Hq; right; apply in_app_iff; auto.
      + left; auto.
      + right; apply in_app_iff; right; left; auto.
    - injection E as <- <-.
      assert (L : thinned P (a :: m1 ++ [p]) (a :: l)).
      { eapply IHl; [|reflexivity|destruct m1; discriminate].
        assert (Hinc : forall q, In q (a :: m1 ++ [p]) -> In q (a :: (m1 ++ p :: m2) ++ [b])).
        { intros q [<-|Hq]; [left; auto|right]. rewrite !in_app_iff in *. simpl in *. tauto. }
        intros x mid y q Hq Hall Hx Hy Hle. eapply HP; eauto. }
      assert (R : thinned P (p :: m2 ++ [b]) (p :: r)).
      { eapply IHr; [|reflexivity|destruct m2; discriminate].
        assert (Hinc : forall q, In q (p :: m2 ++ [b]) -> In q (a :: (m1 ++ p :: m2) ++ [b])).
        { intros q Hq. right. rewrite !in_app_iff. simpl in *. rewrite in_app_iff in Hq. simpl in Hq. tauto. }
        intros x mid y q Hq Hall Hx Hy Hle. eapply HP; eauto. }
      replace (a :: (m1 ++ p :: m2) ++ [b]) with ((a :: m1 ++ [p]) ++ m2 ++ [b])
        by (simpl; rewrite <- !app_assoc; reflexivity).
      change (a :: l ++ r) with ((a :: l) ++ r).
      eapply thinned_app; eauto. rewrite app_comm_cons. apply last_last.
  Qed.

  (* farthest is an upper bound of the candidate distances *)
  Context (D : F -> Prop) (HO : OrdOn S D).

  Lemma cand_D (a b : T) mid : (forall p, In p mid -> D (dist a b p)) -> Forall (fun x => D (fst x)) (cand a b mid).
  Proof.
    intros H. apply Forall_forall. intros x Hx. unfold cand in Hx.
    apply in_map_iff in Hx as ((j & p) & <- & Hin). apply combine_seq_in in Hin as (m1 & m2 & -> & _).
    simpl. apply H, in_app_iff. right; left; auto.
  Qed.

  Lemma cand_in a b mid p : In p mid -> exists j, In (dist a b p, j) (cand a b mid).
  Proof.
    intros H. apply in_split in H as (m1 & m2 & ->). exists (1 + length m1). unfold cand.
    apply in_map_iff. exists (1 + length m1, p). split; auto.
    generalize 1 as s. induction m1 as [|m m1 IH]; intros s; simpl.
    - left. f_equal; lia.
    - right. replace (s + Datatypes.S (length m1)) with (Datatypes.S s + length m1) by lia. apply IH.
  Qed.

  Lemma farthest_max a mid b : mid <> [] -> (forall p, In p mid -> D (dist a b p)) ->
    D (fst (farthest dist (a :: mid ++ [b]) a b)) /\
    forall p, In p mid -> sltb (fst (farthest dist (a :: mid ++ [b]) a b)) (dist a b p) = false.
  Proof.
    intros Hm HD. rewrite farthest_cand.
    destruct (max_by_some (cand a b mid)) as (m & E); [unfold cand; destruct mid; simpl; congruence|].
    rewrite E. pose proof (cand_D a b mid HD) as FD.
    destruct (max_by_ord D HO _ _ FD E) as (l1 & l2 & El & F1 & F2).
    assert (Dm : D (fst m)).
    { eapply Forall_forall in FD; [exact FD|]. rewrite El. apply in_app_iff; right; left; auto. }
    split; auto. intros p Hp. destruct (cand_in a b mid p Hp) as (j & Hj). rewrite El in Hj.
    apply in_app_iff in Hj as [Hj|[->|Hj]].
    - eapply Forall_forall in F1; eauto. exact F1.
    - apply (ord_irrefl _ _ HO); auto.
    - eapply Forall_forall in F2; eauto. simpl in F2.
      destruct (sltb (fst m) (dist a b p)) eqn:Ec; auto.
      assert (Dp : D (dist a b p)) by auto.
      pose proof (ord_trans _ _ HO _ _ _ Dm Dp Dm Ec F2) as X. rewrite (ord_irrefl _ _ HO _ Dm) in X. discriminate.
  Qed.

  (* farthest is determined by a strict-after / weak-before maximum *)
  Lemma cand_app a b m1 p m2 :
    exists c1 c2, cand a b (m1 ++ p :: m2) = c1 ++ (dist a b p, Datatypes.S (length m1)) :: c2 /\
      (forall x, In x c1 -> exists q, In q m1 /\ fst x = dist a b q) /\
      (forall x, In x c2 -> exists q, In q m2 /\ fst x = dist a b q) /\
      (forall q, In q m1 -> exists x, In x c1 /\ fst x = dist a b q) /\
      (forall q, In q m2 -> exists x, In x c2 /\ fst x = dist a b q) /\
      length c1 = length m1.
  Proof.
    unfold cand.
    assert (G : forall s, exists c1 c2,
      map (fun ip => (dist a b (snd ip), fst ip)) (combine (seq s (length (m1 ++ p :: m2))) (m1 ++ p :: m2))
      = c1 ++ (dist a b p, s + length m1) :: c2 /\
      (forall x, In x c1 -> exists q, In q m1 /\ fst x = dist a b q) /\
      (forall x, In x c2 -> exists q, In q m2 /\ fst x = dist a b q) /\
      (forall q, In q m1 -> exists x, In x c1 /\ fst x = dist a b q) /\
      (forall q, In q m2 -> exists x, In x c2 /\ fst x = dist a b q) /\
      length c1 = length m1).
    { induction m1 as [|m m1 IH]; intros s.
      - exists [], (map (fun ip => (dist a b (snd ip), fst ip)) (combine (seq (Datatypes.S s) (length m2)) m2)).
        simpl. split; [f_equal; f_equal; lia|]. repeat split; try tauto.
        + intros x Hx. apply in_map_iff in Hx as ((j & q) & <- & Hin).
          apply in_combine_r in Hin. eauto.
        + intros q Hq. apply in_split in Hq as (u1 & u2 & ->).
          exists (dist a b q, Datatypes.S s + length u1). split; auto.
          apply in_map_iff. exists (Datatypes.S s + length u1, q). split; auto.
          generalize (Datatypes.S s) as k. induction u1 as [|u u1 IHu]; intros k; simpl.
          * left; f_equal; lia.
          * right. replace (k + Datatypes.S (length u1)) with (Datatypes.S k + length u1) by lia. apply IHu.
      - destruct (IH (Datatypes.S s)) as (c1 & c2 & E & H1 & H2 & H3 & H4 & H5).
        exists ((dist a b m, s) :: c1), c2. simpl. split.
        { rewrite E. replace (s + Datatypes.S (length m1)) with (Datatypes.S s + length m1) by lia. reflexivity. }
        repeat split; auto; simpl.
        + intros x [<-|Hx]; [exists m; auto|]. destruct (H1 x Hx) as (q & ? & ?); eauto.
        + intros q [<-|Hq]; [eexists; split; [left; reflexivity|reflexivity]|].
          destruct (H3 q Hq) as (x & ? & ?); eauto.
        }
    destruct (G 1) as (c1 & c2 & E & R). exists c1, c2. split; [exact E|exact R].
  Qed.

  Lemma farthest_uniq a m1 p m2 b :
    (forall q, In q (m1 ++ p :: m2) -> D (dist a b q)) ->
    (forall q, In q m1 -> sltb (dist a b p) (dist a b q) = false) ->
    (forall q, In q m2 -> sltb (dist a b q) (dist a b p) = true) ->
    farthest dist (a :: (m1 ++ p :: m2) ++ [b]) a b = (dist a b p, Datatypes.S (length m1)).
  Proof.
    intros HD H1 H2. rewrite farthest_cand.
    destruct (cand_app a b m1 p m2) as (c1 & c2 & E & K1 & K2 & _). rewrite E.
    rewrite (max_by_uniq D HO c1 (dist a b p, Datatypes.S (length m1)) c2); auto; try (simpl);
      try apply Forall_forall.
    - apply HD, in_app_iff; right; left; auto.
    - intros x Hx. destruct (K1 x Hx) as (q & Hq & ->). apply HD, in_app_iff; auto.
    - intros x Hx. destruct (K2 x Hx) as (q & Hq & ->). apply HD, in_app_iff; right; right; auto.
    - intros x Hx. destruct (K1 x Hx) as (q & Hq & ->). auto.
    - intros x Hx. destruct (K2 x Hx) as (q & Hq & ->). auto.
  Qed.

  Lemma farthest_split_ord a m1 p m2 b :
    (forall q, In q (m1 ++ p :: m2) -> D (dist a b q)) ->
    farthest dist (a :: (m1 ++ p :: m2) ++ [b]) a b = (dist a b p, Datatypes.S (length m1)) ->
    (forall q, In q m1 -> sltb (dist a b p) (dist a b q) = false) /\
    (forall q, In q m2 -> sltb (dist a b q) (dist a b p) = true).
  Proof.
    intros HD. rewrite farthest_cand.
    destruct (max_by_some (cand a b (m1 ++ p :: m2))) as (m & Em).
    { unfold cand. destruct m1; simpl; discriminate. }
    rewrite Em. intros ->. pose proof (cand_D a b _ HD) as FD.
    destruct (max_by_ord D HO _ _ FD Em) as (l1 & l2 & El & F1 & F2).
    destruct (cand_app a b m1 p m2) as (c1 & c2 & E & K1 & K2 & K3 & K4 & K5).
    (* the indices of candidates are increasing, hence the positions agree *)
    assert (Hpos : length l1 = length c1).
    { assert (Hs : map snd (cand a b (m1 ++ p :: m2)) = seq 1 (length (m1 ++ p :: m2))).
      { unfold cand. rewrite map_map. generalize 1 as s. generalize (m1 ++ p :: m2) as l.
        induction l as [|x l IH]; intros s; simpl; auto. f_equal. apply IH. }
      assert (Hn : nth_error (map snd (cand a b (m1 ++ p :: m2))) (length l1) = Some (Datatypes.S (length m1))).
      { rewrite El, map_app. rewrite nth_error_app2 by (rewrite map_length; lia).
        rewrite map_length, Nat.sub_diag. reflexivity. }
      rewrite Hs in Hn.
      assert (Hlt : length l1 < length (m1 ++ p :: m2)).
      { rewrite <- (seq_length (length (m1 ++ p :: m2)) 1). apply nth_error_Some. congruence. }
      assert (Hv : nth_error (seq 1 (length (m1 ++ p :: m2))) (length l1) = Some (1 + length l1)).
      { rewrite (nth_error_nth' _ 0) by (rewrite seq_length; auto). rewrite seq_nth; auto. }
      rewrite K5. rewrite Hn in Hv. injection Hv. lia. }
    rewrite E in El.
    assert (c1 = l1 /\ c2 = l2) as [<- <-].
    { clear -El Hpos. revert l1 Hpos El. induction c1 as [|c c1 IH]; intros [|x l1] Hpos El; simpl in *; try lia.
      - injection El as <-. auto.
      - injection El as <- El. destruct (IH l1) as [-> ->]; auto. }
    split; intros q Hq.
    - destruct (K3 q Hq) as (x & Hx & Ex). eapply Forall_forall in F1; eauto. simpl in F1. rewrite <- Ex. auto.
    - destruct (K4 q Hq) as (x & Hx & Ex). eapply Forall_forall in F2; eauto. simpl in F2. rewrite <- Ex. auto.
  Qed.

  (* idempotence *)
  Lemma Rdp_subseq d2 pts out : Rdp d2 pts out -> forall a t, pts = a :: t -> t <> [] -> subseq out t.
  Proof.
    intros H a t -> Hn. assert (Th : thinned (fun _ _ _ => True) (a :: t) (a :: out)).
    { eapply Rdp_thinned; eauto. }
    apply thinned_subseq in Th. inversion Th as [| |? ? ? Hs]; subst; auto.
    clear -Hs. revert Hs. generalize out as o. intros o Hs.
    remember (a :: o) as x. revert o Heqx. induction Hs; intros; subst; try discriminate.
    - injection Heqx as -> ->. constructor; auto.
    - constructor. eauto.
  Qed.

  Lemma Rdp_idem d2 pts out : (forall a b p, In a pts -> In b pts -> In p pts -> D (dist a b p)) ->
    Rdp d2 pts out -> forall a t, pts = a :: t -> t <> [] -> Rdp d2 (a :: out) out.
  Proof.
    intros HD H; induction H as [a|a b|a mid b Hm Hs|a m1 p m2 b l r Hf Hs Hl IHl Hr IHr]; intros a' t' E Hn.
    - injection E as <- <-; congruence.
    - injection E as <- <-; constructor.
    - injection E as <- <-; constructor.
    - injection E as <- <-.
      assert (IL : forall q, In q (a :: m1 ++ [p]) -> In q (a :: (m1 ++ p :: m2) ++ [b])).
      { intros q [<-|Hq]; [left; auto|right]. rewrite !in_app_iff in *. simpl in *. tauto. }
      assert (IR : forall q, In q (p :: m2 ++ [b]) -> In q (a :: (m1 ++ p :: m2) ++ [b])).
      { intros q Hq. right. rewrite !in_app_iff. simpl in *. rewrite in_app_iff in Hq. simpl in Hq. tauto. }
      assert (L' : Rdp d2 (a :: l) l) by (eapply IHl; [|reflexivity|destruct m1; discriminate]; auto).
      assert (R' : Rdp d2 (p :: r) r) by (eapply IHr; [|reflexivity|destruct m2; discriminate]; auto).
      destruct (Rdp_last _ _ _ Hl) as (l0 & p' & -> & Ep).
      rewrite app_comm_cons, last_last in Ep. subst p'.
      destruct (Rdp_last _ _ _ Hr) as (r0 & b' & -> & Eb).
      rewrite app_comm_cons, last_last in Eb. subst b'.
      assert (Sl : subseq (l0 ++ [p]) (m1 ++ [p])) by (eapply (Rdp_subseq _ _ _ Hl); [reflexivity|destruct m1; discriminate]).
      assert (Sr : subseq (r0 ++ [b]) (m2 ++ [b])) by (eapply (Rdp_subseq _ _ _ Hr); [reflexivity|destruct m2; discriminate]).
      assert (Sl0 : subseq l0 m1).
      { clear -Sl. remember (l0 ++ [p]) as x. remember (m1 ++ [p]) as y. revert l0 m1 Heqx Heqy.
        induction Sl; intros l0 m1 E1 E2.
        - destruct l0; discriminate.
        - destruct l0 as [|x l0]; [apply subseq_nil_l|]. injection E1 as <- ->.
          destruct m1 as [|y m1]; [injection E2 as -> ->; inversion Sl; destruct l0; discriminate|].
          injection E2 as <- ->. constructor. apply IHSl; auto.
        - destruct m1 as [|y m1]; [injection E2 as -> ->; inversion Sl; subst; destruct l0; discriminate|].
          injection E2 as <- ->. constructor. apply IHSl; auto. }
      assert (Sr0 : subseq r0 m2).
      { clear -Sr. remember (r0 ++ [b]) as x. remember (m2 ++ [b]) as y. revert r0 m2 Heqx Heqy.
        induction Sr; intros l0 m1 E1 E2.
        - destruct l0; discriminate.
        - destruct l0 as [|x l0]; [apply subseq_nil_l|]. injection E1 as <- ->.
          destruct m1 as [|y m1]; [injection E2 as -> ->; inversion Sr; destruct l0; discriminate|].
          injection E2 as <- ->. constructor. apply IHSr; auto.
        - destruct m1 as [|y m1]; [injection E2 as -> ->; inversion Sr; subst; destruct l0; discriminate|].
          injection E2 as <- ->. constructor. apply IHSr; auto. }
      assert (HDab : forall q, In q (m1 ++ p :: m2) -> D (dist a b q)).
      { intros q Hq. apply HD.
        - left; auto.
        - right; apply in_app_iff; right; left; auto.
        - right; apply in_app_iff; auto. }
      destruct (farthest_split_ord a m1 p m2 b HDab Hf) as [B1 B2].
      replace (a :: (l0 ++ [p]) ++ r0 ++ [b]) with (a :: (l0 ++ p :: r0) ++ [b])
        by (rewrite <- !app_assoc; reflexivity).
      apply R_split; auto.
      apply farthest_uniq.
      + intros q Hq. apply HDab. rewrite in_app_iff in *. simpl in *.
        destruct Hq as [Hq|[<-|Hq]]; auto; [left|right; right]; eapply subseq_In; eauto.
      + intros q Hq. apply B1. eapply subseq_In; eauto.
      + intros q Hq. apply B2. eapply subseq_In; eauto.
  Qed.

  (* a list in which every sub-stretch has a point beyond the tolerance is left alone *)
  Lemma Rdp_unchanged d2 pts out :
    (forall pre a mid b post, pts = pre ++ a :: mid ++ b :: post -> mid <> [] ->
       sleb (fst (farthest dist (a :: mid ++ [b]) a b)) d2 = false) ->
    Rdp d2 pts out -> forall a t, pts = a :: t -> t <> [] -> out = t.
  Proof.
    intros HK H; induction H as [a|a b|a mid b Hm Hs|a m1 p m2 b l r Hf Hs Hl IHl Hr IHr]; intros a' t' E Hn.
    - injection E as <- <-; congruence.
    - injection E as <- <-; auto.
    - rewrite (HK [] a mid b []) in Hs; auto. discriminate.
    - injection E as <- <-.
      rewrite (IHl) with (a := a) (t := m1 ++ [p]); auto; [|
        intros pre x mid y post E Hmid; apply (HK pre x mid y (post ++ m2 ++ [b])); auto;
        transitivity ((a :: m1 ++ [p]) ++ m2 ++ [b]);
        [simpl; rewrite <- !app_assoc; reflexivity|rewrite E; rewrite <- !app_assoc; simpl; rewrite <- !app_assoc; reflexivity]
        | destruct m1; discriminate].
      rewrite (IHr) with (a := p) (t := m2 ++ [b]); auto; [|
        intros pre x mid y post E Hmid; apply (HK (a :: m1 ++ pre) x mid y post); auto;
        transitivity ((a :: m1) ++ (p :: m2 ++ [b]));
        [simpl; rewrite <- !app_assoc; reflexivity|rewrite E; simpl; rewrite <- !app_assoc; reflexivity]
        | destruct m2; discriminate].
      rewrite <- !app_assoc. reflexivity.
  Qed.
End RdpProofs.
