From Verif Require Import Prelude Shape ShapeSpec ShapeProofs ShapeProofs2.

Lemma und_eq a b c d : undirected (a, b) = undirected (c, d) <-> (a = c /\ b = d) \/ (a = d /\ b = c).
Proof. unfold undirected; simpl. split.
  - intros [= H1 H2]. lia.
  - intros [[-> ->]|[-> ->]]; f_equal; lia. Qed.

Lemma in_und_windows L a b : In (undirected (a, b)) (map undirected (windows L)) <->
  In (a, b) (windows L) \/ In (b, a) (windows L).
Proof.
  rewrite in_map_iff. split.
  - intros ([x y] & E & Hi). apply und_eq in E as [[-> ->]|[-> ->]]; auto.
  - intros [H|H]; [exists (a, b)|exists (b, a)]; split; auto. apply und_eq; auto.
Qed.

Lemma in_walked gs a b : In (undirected (a, b)) (walked gs) <->
  exists g, In g gs /\ (In (a, b) (windows g) \/ In (b, a) (windows g)).
Proof.
  unfold walked. rewrite in_map_iff. split.
  - intros ([x y] & E & Hi). apply in_concat in Hi as (w & Hw & Hi). apply in_map_iff in Hw as (g & <- & Hg).
    exists g; split; auto. apply und_eq in E as [[-> ->]|[-> ->]]; auto.
  - intros (g & Hg & [H|H]); [exists (a, b)|exists (b, a)]; (split; [apply und_eq; auto|]);
      apply in_concat; exists (windows g); split; auto; apply in_map; auto.
Qed.

Lemma walked_snoc gs g : walked (gs ++ [g]) = walked gs ++ map undirected (windows g).
Proof. unfold walked. rewrite map_app, concat_app, map_app. simpl. rewrite app_nil_r. auto. Qed.

Lemma nodup_path l : NoDup l -> NoDup (map undirected (windows l)).
Proof.
  induction l as [|a [|b r] IH]; intros H; try constructor.
  - inversion H as [|? ? Ha Hr]; subst. intros Hi.
    rewrite (in_und_windows (b :: r) a b) in Hi. destruct Hi as [Hi|Hi]; apply windows_In_l in Hi; tauto.
  - inversion H; auto.
Qed.

Lemma nodup_line c Q t : NoDup Q -> Q <> [] -> ~ In c Q -> ~ In t Q -> (forall q, Q = [q] -> t <> c) ->
  NoDup (map undirected (windows (c :: Q ++ [t]))).
Proof.
  intros HQ Hne Hc Ht Hone.
  assert (HQt : NoDup (Q ++ [t])).
  { apply NoDup_app_intro; auto. constructor; auto; constructor. intros x Hx [<-|[]]; auto. }
  destruct (Nat.eq_dec c t) as [->|Hct].
  - destruct Q as [|q1 Q]; [tauto|]. simpl app.
    change (windows (t :: q1 :: Q ++ [t])) with ((t, q1) :: windows ((q1 :: Q) ++ [t])).
    cbn [map]. constructor; [|apply nodup_path; auto].
    intros Hi. apply in_und_windows in Hi.
    destruct (exists_last (l := q1 :: Q)) as (Q' & ql & EQ); [discriminate|].
    rewrite EQ in Hi, Ht, HQ. rewrite <- app_assoc in Hi. simpl in Hi. rewrite windows_snoc in Hi.
    rewrite !in_app_iff in Hi. simpl in Hi.
    destruct Hi as [[Hi|[[= E1 E2]|[]]]|[Hi|[[= E1]|[]]]].
    + apply windows_In_l in Hi. tauto.
    + apply Ht. rewrite in_app_iff; simpl; auto.
    + apply windows_In_l in Hi. tauto.
    + destruct Q' as [|z Q'].
      * injection EQ as -> ->. apply (Hone ql); auto.
      * injection EQ as -> EQ. subst ql. inversion HQ as [|? ? Hz _]; subst. apply Hz.
        rewrite in_app_iff; simpl; auto.
  - apply nodup_path. constructor; auto. rewrite in_app_iff; simpl. intuition.
Qed.

Lemma split_mid {A} (c t : A) (Q P R : list A) (a : A) : Q = P ++ a :: R ->
  exists l y z r, c :: Q ++ [t] = l ++ y :: a :: z :: r /\
    (l = [] -> y = c /\ P = []) /\ (l <> [] -> In y P) /\
    ((z = t /\ r = [] /\ R = []) \/ In z R).
Proof.
  intros ->.
  assert (HP : exists l y, c :: P = l ++ [y] /\ (l = [] -> y = c /\ P = []) /\ (l <> [] -> In y P)).
  { destruct P as [|p P]; [exists [], c; repeat split; auto; tauto|].
    destruct (exists_last (l := p :: P)) as (l & y & E); [discriminate|].
    exists (c :: l), y. rewrite E. repeat split; try discriminate.
    intros _. rewrite in_app_iff; simpl; auto. }
  destruct HP as (l & y & E & H1 & H2).
  assert (HR : exists z r, R ++ [t] = z :: r /\ ((z = t /\ r = [] /\ R = []) \/ In z R)).
  { destruct R as [|z R]; [exists t, []; auto|]. exists z, (R ++ [t]); simpl; auto. }
  destruct HR as (z & r & E2 & H3).
  exists l, y, z, r. split; [|auto].
  rewrite <- app_assoc. simpl. rewrite E2.
  change (c :: P ++ a :: z :: r) with ((c :: P) ++ a :: z :: r). rewrite E, <- app_assoc. reflexivity.
Qed.

Lemma windows_mid {A} (l : list A) y a z r :
  In (y, a) (windows (l ++ y :: a :: z :: r)) /\ In (a, z) (windows (l ++ y :: a :: z :: r)).
Proof.
  rewrite windows_app. simpl. rewrite !in_app_iff; simpl; tauto.
Qed.

Section G.
  Context (m : adjm) (n : nat) (term : setvob).
  Context (Hnd : forall q, NoDup (nb m q)).
  Context (Hsym : forall v w, In w (nb m v) -> In v (nb m w)).
  Context (Hirr : forall v, length (nb m v) = 2 -> ~ In v (nb m v)).
  Context (Hran : forall v w, In w (nb m v) -> v < n /\ w < n).
  Context (Hwt : wfv n term).
  Context (Hterm : forall v, isset term v <-> v < n /\ isterm m v).

  Notation T := (isset term).
  Definition deg2 v := length (nb m v) = 2.

  Lemma nonterm_deg2 v : v < n -> ~ T v -> deg2 v.
  Proof. intros H Hn. rewrite Hterm in Hn. unfold isterm in Hn. unfold deg2.
    destruct (Nat.eq_dec (length (nb m v)) 2); auto. exfalso; auto. Qed.
  Lemma deg2_nonterm v : deg2 v -> ~ T v.
  Proof. rewrite Hterm. unfold isterm, deg2. tauto. Qed.

  Lemma deg2_pair v y z : deg2 v -> In y (nb m v) -> In z (nb m v) -> y <> z ->
    forall b, In b (nb m v) -> b = y \/ b = z.
  Proof.
    unfold deg2. intros H Hy Hz Hyz b Hb. destruct (nb m v) as [|p [|q [|? ?]]]; try discriminate.
    simpl in *. intuition congruence.
  Qed.

  Definition edges (l : list nat) := forall a b, In (a, b) (windows l) -> In b (nb m a).

  (* the successor of cur on a simple path is fresh or the first vertex *)
  Lemma fresh c P cur x : edges (c :: P ++ [cur]) -> NoDup P -> ~ In c P -> ~ In cur P -> 
    (forall p, In p P -> deg2 p) -> cur <> c \/ P = [] ->
    In x (nb m cur) -> In x P -> exists A, P = A ++ [x].
  Proof.
    intros He HnP HcP HcurP Hdeg Hcc Hx HxP.
    apply in_split in HxP as (A & B & ->).
    destruct B as [|b B]; [exists A; auto|exfalso].
    destruct Hcc as [Hcc|E]; [|destruct A; discriminate].
    destruct (split_mid c cur (A ++ x :: b :: B) A (b :: B) x eq_refl) as (l & y & z & r & E & E1 & E2 & E3).
    destruct (windows_mid l y x z r) as [W1 W2]. rewrite <- E in W1, W2.
    apply He in W1, W2. apply Hsym in W1.
    assert (Hd : deg2 x). { apply Hdeg. rewrite in_app_iff; simpl; auto. }
    apply NoDup_remove in HnP as [HnP1 HnP2].
    assert (Hz : In z (b :: B)). { destruct E3 as [(_ & _ & ?)|?]; [discriminate|auto]. }
    assert (Hyz : y <> z).
    { intros ->. destruct l as [|l0 l].
      - destruct (E1 eq_refl) as [-> ->]. apply HcP. simpl in *. tauto.
      - assert (In z A) by (apply E2; discriminate).
        apply NoDup_app_inv in HnP1 as (_ & _ & HH). apply (HH z); auto. }
    destruct (deg2_pair x y z Hd W1 W2 Hyz cur (Hsym _ _ Hx)) as [->| ->].
    - destruct l as [|l0 l].
      + destruct (E1 eq_refl) as [-> _]. auto.
      + apply HcurP. rewrite in_app_iff. left. apply E2. discriminate.
    - apply HcurP. rewrite in_app_iff. simpl in Hz |- *. tauto.
  Qed.

  (* one step of the walk: what unwind_loop does at an unvisited vertex with two neighbours *)
  Lemma unwind_step fuel visited prev cur line vis1 x :
    wfv n visited -> ~ isset visited cur -> ~ T cur -> cur < n ->
    vset visited cur = Val vis1 -> In prev (nb m cur) -> In x (nb m cur) -> x <> prev ->
    unwind_loop (S fuel) m term visited (Some prev) cur line =
    (if isset_dec vis1 x then Val (line ++ [cur], vis1)
     else unwind_loop fuel m term vis1 (Some cur) x (line ++ [cur])).
  Proof.
    intros Hw Nv Nt Hc Ev Hp Hx Hxp. cbn [unwind_loop].
    destruct (vget_spec n visited cur Hw Hc) as (b1 & E1 & B1).
    destruct (vget_spec n term cur Hwt Hc) as (b2 & E2 & B2).
    destruct b1; [exfalso; apply Nv, B1; auto|]. destruct b2; [exfalso; apply Nt, B2; auto|].
    rewrite E1, E2. unfold oor at 1. cbn [obind]. rewrite Ev. cbn [obind].
    destruct (vset_spec n visited cur Hw Hc) as (v' & Ev' & Hw1 & Hs1).
    rewrite Ev in Ev'. injection Ev' as <-.
    assert (Hd := nonterm_deg2 cur Hc Nt). unfold deg2, nb in Hd.
    destruct (adj_get m cur) as [ns|] eqn:Ea; [|discriminate].
    apply adj_nb in Ea. rewrite Ea in Hp, Hx. rewrite Hd. cbn [negb Nat.eqb].
    assert (Hxn : x < n) by (apply (Hran cur x); rewrite Ea; auto).
    assert (Hpn : prev < n) by (apply (Hran cur prev); rewrite Ea; auto).
    destruct (vget_spec n vis1 x Hw1 Hxn) as (bx & Ex & Bx).
    destruct (vget_spec n vis1 prev Hw1 Hpn) as (bp & Ep & _).
    assert (Sp : oor (vget vis1 prev) (Val (prev_is (Some prev) prev)) = Val true).
    { rewrite Ep. unfold oor. simpl. rewrite Nat.eqb_refl. destruct bp; auto. }
    assert (Sx : oor (vget vis1 x) (Val (prev_is (Some prev) x)) = Val bx).
    { rewrite Ex. unfold oor. simpl. destruct (Nat.eqb_spec prev x); [congruence|]. destruct bx; auto. }
    assert (Hns : ns = [prev; x] \/ ns = [x; prev]).
    { destruct ns as [|p [|q [|? ?]]]; try discriminate. simpl in *. intuition congruence. }
    assert (Hb : (if isset_dec vis1 x then true else false) = bx).
    { destruct (isset_dec vis1 x) as [I|I]; destruct bx; auto; exfalso.
      - apply Bx in I; discriminate. - apply I, Bx; auto. }
    destruct Hns as [-> | ->]; unfold idx; simpl nth_error; cbn iota; cbn [obind].
    - rewrite Sp. cbn [obind negb]. rewrite Sx. cbn [obind]. rewrite <- Hb. destruct (isset_dec vis1 x); auto.
    - rewrite Sx. cbn [obind]. rewrite <- Hb. destruct (isset_dec vis1 x); cbn [negb]; auto.
      rewrite Sp. cbn [obind negb]. auto.
  Qed.

  Lemma unwind_stop fuel visited prev cur line :
    cur < n -> wfv n visited -> ~ isset visited cur -> T cur ->
    unwind_loop (S fuel) m term visited prev cur line = Val (line ++ [cur], visited).
  Proof.
    intros Hc Hw Nv Ht. cbn [unwind_loop].
    destruct (vget_spec n visited cur Hw Hc) as (b1 & E1 & B1).
    destruct (vget_spec n term cur Hwt Hc) as (b2 & E2 & B2).
    destruct b1; [exfalso; apply Nv, B1; auto|].
    rewrite (proj2 B2 Ht) in E2. rewrite E1, E2. reflexivity.
  Qed.

  Definition closed (V : nat -> Prop) := forall v w, V v -> In w (nb m v) -> V w \/ T w.

  Lemma other_nb v p : deg2 v -> In p (nb m v) -> exists x, In x (nb m v) /\ x <> p /\
     forall w, In w (nb m v) -> w = p \/ w = x.
  Proof.
    unfold deg2. intros H Hp. specialize (Hnd v). destruct (nb m v) as [|a [|b [|? ?]]]; try discriminate.
    inversion Hnd as [|? ? Ha _]; subst. simpl in *.
    destruct Hp as [<-|[<-|[]]]; [exists b|exists a]; repeat split; auto; intuition congruence.
  Qed.

  Lemma last_split {A} (c : A) P : exists l, c :: P = l ++ [last P c].
  Proof. revert c. induction P as [|p P IH]; intros c; [exists []; auto|].
    destruct (IH p) as (l & E). exists (c :: l). simpl app. f_equal.
    rewrite E. f_equal. f_equal. destruct P as [|q P]; auto.
    assert (H : forall (d e : A), last (q :: P) d = last (q :: P) e).
    { clear. revert q; induction P as [|r P IH]; intros q d e; auto. change (last (r :: P) d = last (r :: P) e). auto. }
    simpl. apply (H p c).
  Qed.

  Lemma last_snoc' {A} (P : list A) a d : last (P ++ [a]) d = a.
  Proof. induction P as [|p P IH]; auto. simpl. rewrite IH. destruct (P ++ [a]) eqn:E; auto.
    destruct P; discriminate. Qed.

  Lemma edges_snoc l a b : edges (l ++ [a]) -> In b (nb m a) -> edges (l ++ [a; b]).
  Proof. intros H Hb x y. rewrite windows_snoc, in_app_iff. simpl.
    intros [Hi|[[= <- <-]|[]]]; auto. Qed.

  Lemma edges_last c P cur : edges (c :: P ++ [cur]) -> In cur (nb m (last P c)).
  Proof.
    intros H. destruct (last_split c P) as (l & E).
    apply H. change (c :: P ++ [cur]) with ((c :: P) ++ [cur]). rewrite E, <- app_assoc. simpl.
    rewrite windows_snoc, in_app_iff; simpl; auto.
  Qed.

  (* walk that starts at a termination node *)
  Lemma walk_open c V0 : T c -> closed V0 -> forall fuel P cur visited line vis',
    wfv n visited -> (forall v, isset visited v <-> V0 v \/ In v P) ->
    (forall v, V0 v -> ~ T v) ->
    edges (c :: P ++ [cur]) -> NoDup P -> (forall p, In p P -> p < n /\ deg2 p /\ ~ V0 p) ->
    ~ In cur P -> ~ V0 cur -> cur < n -> (forall q, P = [q] -> cur <> c) -> (P = [] -> cur <> c) ->
    unwind_loop fuel m term visited (Some (last P c)) cur (c :: P) = Val (line, vis') ->
    exists R Q t, Q = P ++ R /\ line = c :: Q ++ [t] /\ T t /\ edges line /\ NoDup Q /\
      (forall p, In p Q -> p < n /\ deg2 p /\ ~ V0 p) /\ (forall q, Q = [q] -> t <> c) /\
      (forall v, isset vis' v <-> V0 v \/ In v Q) /\ (~ T cur -> In cur Q) /\ wfv n vis'.
  Proof.
    intros Tc Hcl. induction fuel as [|fuel IH];
      intros P cur visited line vis' Hw Hvis HV0 He HnP HP HcP HcV Hcn Hone Hnil H; [discriminate|].
    destruct (isset_dec term cur) as [Tcur|Tcur].
    - rewrite unwind_stop in H; auto.
      2: { rewrite Hvis. tauto. }
      injection H as <- <-. exists [], P, cur. rewrite app_nil_r.
      repeat split; auto; try apply HP; auto; try apply Hw; try apply Hvis. tauto.
    - assert (Nv : ~ isset visited cur) by (rewrite Hvis; tauto).
      assert (Hd := nonterm_deg2 cur Hcn Tcur).
      assert (Hp : In (last P c) (nb m cur)) by (apply Hsym, edges_last; auto).
      destruct (other_nb cur _ Hd Hp) as (x & Hx & Hxp & Hxall).
      destruct (vset_spec n visited cur Hw Hcn) as (vis1 & Ev & Hw1 & Hs1).
      rewrite (unwind_step fuel visited (last P c) cur (c :: P) vis1 x) in H; auto.
      assert (HcP' : ~ In c P).
      { intros Hi. apply HP in Hi as (_ & Hi & _). apply deg2_nonterm in Hi. auto. }
      assert (Hcc : cur <> c) by congruence.
      assert (HxP : ~ In x P).
      { intros Hi. destruct (fresh c P cur x) as (A & EA); auto.
        - intros p Hpp. apply HP in Hpp. tauto.
        - rewrite EA, last_snoc' in Hxp. congruence. }
      assert (HxV : ~ V0 x).
      { intros Hv. destruct (Hcl x cur Hv (Hsym _ _ Hx)); auto. }
      assert (Hxc : x <> cur) by (intros ->; apply (Hirr cur); auto).
      assert (HxN : ~ isset vis1 x). { rewrite Hs1, Hvis. tauto. }
      destruct (isset_dec vis1 x) as [I|_]; [tauto|].
      assert (Hlast : last (P ++ [cur]) c = cur) by apply last_snoc'.
      rewrite <- Hlast in H at 1.
      change ((c :: P) ++ [cur]) with (c :: (P ++ [cur])) in H.
      apply IH in H.
      + destruct H as (R & Q & t & -> & -> & H). exists (cur :: R), (P ++ cur :: R), t.
        assert (EQ : (P ++ [cur]) ++ R = P ++ cur :: R) by (rewrite <- app_assoc; reflexivity).
        rewrite EQ in *.
        destruct H as (H1 & H2 & H3 & H4 & H5 & H6 & H7 & H8).
        split; [reflexivity|]. split; [reflexivity|].
        split; [auto|]. split; [auto|].
        split; [auto|]. split; [auto|]. split; [auto|]. split; [auto|]. split; [|auto].
        intros _. rewrite in_app_iff; simpl; auto.
      + auto.
      + intros v. rewrite Hs1, Hvis, in_app_iff. simpl. intuition.
      + auto.
      + rewrite <- app_assoc. simpl. change (c :: P ++ [cur; x]) with ((c :: P) ++ [cur; x]).
        apply edges_snoc; auto.
      + apply NoDup_app_intro; auto. constructor; auto; constructor. intros q Hq [<-|[]]; auto.
      + intros p. rewrite in_app_iff; simpl. intros [Hi|[<-|[]]]; auto.
      + rewrite in_app_iff; simpl. intuition.
      + auto.
      + apply (Hran cur x); auto.
      + intros q E. destruct P as [|p P]; [|destruct P; discriminate]. simpl in Hxp. auto.
      + intros E. destruct P; discriminate.
  Qed.

  (* walk round a pure loop *)
  Lemma walk_closed c V0 : deg2 c -> closed V0 -> ~ V0 c -> c < n ->
    (forall v w, v < n -> ~ V0 v -> ~ T v -> In w (nb m v) -> ~ T w) ->
    forall fuel P cur visited line vis',
    wfv n visited -> (forall v, isset visited v <-> V0 v \/ In v (c :: P)) ->
    edges (c :: P ++ [cur]) -> NoDup (c :: P) -> (forall p, In p P -> p < n /\ deg2 p /\ ~ V0 p) ->
    ~ In cur (c :: P) -> ~ V0 cur -> ~ T cur -> cur < n ->
    unwind_loop fuel m term visited (Some (last P c)) cur (c :: P) = Val (line, vis') ->
    exists Q, line = c :: Q /\ edges (c :: Q ++ [c]) /\ NoDup (c :: Q) /\ 2 <= length Q /\
      (forall p, In p Q -> p < n /\ deg2 p /\ ~ V0 p) /\
      (forall v, isset vis' v <-> V0 v \/ In v (c :: Q)) /\ wfv n vis'.
  Proof.
    intros Dc Hcl HcV0 Hcn0 HNT. induction fuel as [|fuel IH];
      intros P cur visited line vis' Hw Hvis He HnP HP HcP HcV Tcur Hcn H; [discriminate|].
    assert (Nv : ~ isset visited cur) by (rewrite Hvis; tauto).
    assert (Hd := nonterm_deg2 cur Hcn Tcur).
    assert (Hp : In (last P c) (nb m cur)) by (apply Hsym, edges_last; auto).
    destruct (other_nb cur _ Hd Hp) as (x & Hx & Hxp & Hxall).
    destruct (vset_spec n visited cur Hw Hcn) as (vis1 & Ev & Hw1 & Hs1).
    rewrite (unwind_step fuel visited (last P c) cur (c :: P) vis1 x) in H; auto.
    inversion HnP as [|? ? HcP' HnP']; subst.
    assert (HcP2 : cur <> c /\ ~ In cur P) by (simpl in HcP; intuition).
    assert (HxP : ~ In x P).
    { intros Hi. destruct (fresh c P cur x) as (A & EA); auto; try tauto.
      - intros p Hpp. apply HP in Hpp. tauto.
      - rewrite EA, last_snoc' in Hxp. congruence. }
    assert (HxV : ~ V0 x).
    { intros Hv. destruct (Hcl x cur Hv (Hsym _ _ Hx)); auto. }
    assert (HxT : ~ T x) by (eapply HNT; eauto).
    assert (Hxc : x <> cur) by (intros ->; apply (Hirr cur); auto).
    assert (He' : edges (c :: (P ++ [cur]) ++ [x])).
    { rewrite <- app_assoc. simpl. change (c :: P ++ [cur; x]) with ((c :: P) ++ [cur; x]).
      apply edges_snoc; auto. }
    assert (HnP2 : NoDup (c :: P ++ [cur])).
    { constructor; [rewrite in_app_iff; simpl; intuition|].
      apply NoDup_app_intro; auto. constructor; auto; constructor. intros q Hq [<-|[]]; tauto. }
    assert (HP' : forall p, In p (P ++ [cur]) -> p < n /\ deg2 p /\ ~ V0 p).
    { intros p. rewrite in_app_iff; simpl. intros [Hi|[<-|[]]]; auto. }
    destruct (isset_dec vis1 x) as [I|I].
    - assert (Exc : x = c).
      { apply Hs1 in I as [I|I]; [|congruence]. apply Hvis in I as [I|[I|I]]; [tauto|auto|tauto]. }
      subst x. injection H as <- <-. exists (P ++ [cur]).
      split; [reflexivity|]. split; [auto|]. split; [auto|].
      split. { rewrite app_length; simpl. destruct P; simpl in *; [congruence|lia]. }
      split; [auto|]. split; [|auto].
      intros v. rewrite Hs1, Hvis. simpl. rewrite in_app_iff. simpl. intuition.
    - assert (Hlast : last (P ++ [cur]) c = cur) by apply last_snoc'.
      rewrite <- Hlast in H at 1.
      change ((c :: P) ++ [cur]) with (c :: (P ++ [cur])) in H.
      apply IH in H; auto.
      + intros v. rewrite Hs1, Hvis. simpl. rewrite in_app_iff. simpl. intuition.
      + simpl. rewrite in_app_iff; simpl. intros [E|[E|[E|[]]]]; auto.
        apply I, Hs1. left. apply Hvis. simpl; auto.
      + apply (Hran cur x); auto.
  Qed.

  (* ---- invariant of the first stage ---- *)
  Definition shape_ok (g : list nat) : Prop :=
    edges g /\ 2 <= length g /\
    (forall l v r, g = l ++ v :: r -> l <> [] -> r <> [] -> deg2 v) /\
    (exists a b mid, g = a :: mid ++ [b] /\ (a = b \/ (T a /\ T b))).

  Record Inv (vis : setvob) (F : list (nat * nat)) (gs : list (list nat)) : Prop := {
    i_wf : wfv n vis;
    i_disj : forall v, isset vis v -> ~ T v;
    i_closed : closed (isset vis);
    i_shapes : forall g, In g gs -> shape_ok g;
    i_nodup : NoDup (walked gs);
    i_sound : forall a b, In (undirected (a, b)) (walked gs) ->
       isset vis a \/ isset vis b \/ (T a /\ T b /\ a <> b /\ ~ In (Nat.min a b, Nat.max a b) F);
    i_vis : forall a b, isset vis a -> In b (nb m a) -> In (undirected (a, b)) (walked gs);
    i_done : forall c w, T c -> In w (nb m c) -> ~ In (c, w) F ->
       (T w -> c < w -> In (undirected (c, w)) (walked gs)) /\ (~ T w -> isset vis w);
    i_F : forall c w, In (c, w) F -> T c /\ In w (nb m c);
    i_Fnd : NoDup F
  }.

  Lemma shape_ok_line c Q t : T c -> T t -> edges (c :: Q ++ [t]) -> (forall q, In q Q -> deg2 q) ->
    shape_ok (c :: Q ++ [t]).
  Proof.
    intros Tc Tt He HQ. split; auto. split; [simpl; rewrite app_length; simpl; lia|]. split.
    - intros l v r E Hl Hr. destruct l as [|l0 l]; [tauto|]. injection E as <- E.
      destruct (exists_last Hr) as (r' & r1 & ->). 
      change (v :: r' ++ [r1]) with ((v :: r') ++ [r1]) in E. rewrite app_assoc in E.
      apply app_inj_tail in E as [E _]. apply HQ. rewrite E, in_app_iff; simpl; auto.
    - exists c, t, Q. auto.
  Qed.

  Lemma shape_ok_loop c Q : edges (c :: Q ++ [c]) -> (forall q, In q Q -> deg2 q) ->
    shape_ok (c :: Q ++ [c]).
  Proof.
    intros He HQ. split; auto. split; [simpl; rewrite app_length; simpl; lia|]. split.
    - intros l v r E Hl Hr. destruct l as [|l0 l]; [tauto|]. injection E as <- E.
      destruct (exists_last Hr) as (r' & r1 & ->). 
      change (v :: r' ++ [r1]) with ((v :: r') ++ [r1]) in E. rewrite app_assoc in E.
      apply app_inj_tail in E as [E _]. apply HQ. rewrite E, in_app_iff; simpl; auto.
    - exists c, c, Q. auto.
  Qed.

  (* windows of c::Q++[t] touch Q *)
  Lemma windows_touch (c : nat) Q t a b : Q <> [] -> In (a, b) (windows (c :: Q ++ [t])) -> In a Q \/ In b Q.
  Proof.
    destruct Q as [|q Q]; [tauto|]. intros _. simpl app.
    change (windows (c :: q :: Q ++ [t])) with ((c, q) :: windows ((q :: Q) ++ [t])).
    intros [[= <- <-]|Hi]; [simpl; auto|].
    destruct (exists_last (l := q :: Q)) as (Q' & ql & E); [discriminate|]. rewrite E in *.
    rewrite <- app_assoc in Hi. simpl in Hi. rewrite windows_snoc, in_app_iff in Hi.
    destruct Hi as [Hi|[[= <- <-]|[]]].
    - apply windows_In_l in Hi. tauto.
    - left. rewrite in_app_iff; simpl; auto.
  Qed.

  (* every edge at an inner vertex of the line is walked by the line *)
  Lemma inner_edges c Q t a b : edges (c :: Q ++ [t]) -> NoDup Q -> ~ In c Q -> ~ In t Q ->
    (forall q, Q = [q] -> t <> c) -> (forall q, In q Q -> deg2 q) ->
    In a Q -> In b (nb m a) -> In (undirected (a, b)) (map undirected (windows (c :: Q ++ [t]))).
  Proof.
    intros He HQ Hc Ht Hone Hdeg Ha Hb.
    apply in_und_windows. assert (Da := Hdeg a Ha).
    apply in_split in Ha as (P & R & EQ).
    destruct (split_mid c t Q P R a EQ) as (l & y & z & r & E & E1 & E2 & E3).
    destruct (windows_mid l y a z r) as [W1 W2]. rewrite <- E in W1, W2.
    assert (N1 := He _ _ W1). assert (N2 := He _ _ W2). apply Hsym in N1.
    assert (Hyz : y <> z).
    { intros ->. subst Q. apply NoDup_remove_1 in HQ. rewrite in_app_iff in Hc, Ht. simpl in Hc, Ht.
      apply NoDup_app_inv in HQ as (_ & _ & HH).
      destruct l as [|l0 l].
      - destruct (E1 eq_refl) as [-> ->].
        destruct E3 as [(-> & -> & ->)|Hz]; [|tauto]. apply (Hone a); auto.
      - assert (In z P) by (apply E2; discriminate).
        destruct E3 as [(-> & -> & ->)|Hz]; [tauto|]. apply (HH z); auto. }
    destruct (deg2_pair a y z Da N1 N2 Hyz b Hb) as [->| ->]; auto.
  Qed.

  (* adding a line of fresh vertices *)
  Lemma inv_line vis F gs c Q t vis' F' :
    Inv vis F gs -> Q <> [] -> edges (c :: Q ++ [t]) -> NoDup Q -> ~ In c Q -> ~ In t Q ->
    (forall q, Q = [q] -> t <> c) -> shape_ok (c :: Q ++ [t]) ->
    (forall q, In q Q -> q < n /\ deg2 q /\ ~ isset vis q) -> 
    wfv n vis' -> 
    ((T c /\ T t /\ (forall v, isset vis' v <-> isset vis v \/ In v Q)) \/
     (c = t /\ deg2 c /\ ~ isset vis c /\ 2 <= length Q /\ (forall v, isset vis' v <-> isset vis v \/ In v (c :: Q)))) ->
    (F = F' \/ exists p, F = (c, p) :: F' /\ In p Q) ->
    Inv vis' F' (gs ++ [c :: Q ++ [t]]).
  Proof.
    intros I Hne He HQ Hc Ht Hone Hok HQf Hw' Hcase HF.
    assert (HFin : forall p, In p F' -> In p F).
    { destruct HF as [->|(p & -> & _)]; simpl; auto. }
    assert (Hsub : forall v, isset vis v -> isset vis' v).
    { intros v Hv. destruct Hcase as [(_ & _ & H)|(_ & _ & _ & _ & H)]; apply H; auto. }
    assert (HQv : forall v, In v Q -> isset vis' v).
    { intros v Hv. destruct Hcase as [(_ & _ & H)|(_ & _ & _ & _ & H)]; apply H; simpl; auto. }
    assert (Hnew : forall v, isset vis' v -> isset vis v \/ (deg2 v /\ ~ isset vis v /\ In v (c :: Q))).
    { intros v Hv. destruct Hcase as [(_ & _ & H)|(_ & D & N & _ & H)]; apply H in Hv as [Hv|Hv]; auto; right.
      - destruct (HQf v Hv) as (_ & ? & ?). simpl; auto.
      - destruct Hv as [<-|Hv]; [simpl; auto|]. destruct (HQf v Hv) as (_ & ? & ?). simpl; auto. }
    (* all edges at a new vertex are walked by the new line *)
    assert (Hedge : forall v b, In v (c :: Q) -> isset vis' v -> ~ isset vis v -> In b (nb m v) ->
               In (undirected (v, b)) (map undirected (windows (c :: Q ++ [t])))).
    { intros v b Hv Hv' Hnv Hb.
      destruct (in_dec Nat.eq_dec v Q) as [HvQ|HvQ].
      - apply inner_edges; auto. intros q Hq; apply HQf in Hq; tauto.
      - destruct Hv as [<-|Hv]; [|tauto].
        destruct Hcase as [(Tc & _ & H)|(Ect & D & N & L2 & H)].
        { apply H in Hv' as [?|?]; tauto. }
        subst t. apply in_und_windows.
        destruct Q as [|q1 Q]; [tauto|].
        destruct (exists_last (l := q1 :: Q)) as (Q' & ql & E); [discriminate|].
        assert (W1 : In (c, q1) (windows (c :: (q1 :: Q) ++ [c]))) by (simpl; auto).
        assert (W2 : In (ql, c) (windows (c :: (q1 :: Q) ++ [c]))).
        { rewrite E, <- app_assoc. change (c :: Q' ++ [ql] ++ [c]) with ((c :: Q') ++ [ql; c]).
          rewrite windows_snoc, in_app_iff; simpl; auto. }
        assert (q1 <> ql).
        { intros ->. destruct Q' as [|z Q']; [injection E as ->; simpl in L2; lia|].
          injection E as E0 E. inversion HQ as [|? ? Hz _]. apply Hz.
          rewrite E, in_app_iff; simpl; auto. }
        destruct (deg2_pair c q1 ql D (He _ _ W1) (Hsym _ _ (He _ _ W2)) H0 b Hb) as [->| ->]; auto. }
    destruct I as [I1 I2 I3 I4 I5 I6 I7 I8 I9 I10].
    constructor; auto.
    - intros v Hv. apply Hnew in Hv as [Hv|(D & _)]; [auto|apply deg2_nonterm; auto].
    - (* closed *)
      intros v w Hv Hw. destruct (Hnew v Hv) as [Ho|(D & N & Hin)].
      { destruct (I3 v w Ho Hw); auto. }
      assert (Hi := Hedge v w Hin Hv N Hw). apply in_und_windows in Hi.
      assert (In w (c :: Q ++ [t])) by (destruct Hi as [Hi|Hi]; apply windows_In_l in Hi; tauto).
      simpl in H. rewrite in_app_iff in H. simpl in H.
      destruct Hcase as [(Tc & Tt & HH)|(Ect & D' & N' & L2 & HH)].
      + destruct H as [<-|[H|[<-|[]]]]; auto.
      + subst t. left. apply HH. simpl. tauto.
    - intros g. rewrite in_app_iff. simpl. intros [?|[<-|[]]]; auto.
    - rewrite walked_snoc. apply NoDup_app_intro; auto.
      + apply nodup_line; auto.
      + intros [x y] H1 H2. 
        apply in_map_iff in H2 as ([a b] & E & H2).
        rewrite <- E in H1. apply I6 in H1.
        assert (Hab := He _ _ H2).
        apply windows_touch in H2; auto.
        assert (HV : forall q o, In q Q -> In o (nb m q) -> isset vis o -> False).
        { intros q o Hq Ho Hvo. destruct (HQf q Hq) as (_ & Dq & Nq).
          destruct (I3 o q Hvo (Hsym _ _ Ho)); [auto|]. apply deg2_nonterm in Dq; auto. }
        assert (HTQ : forall q, In q Q -> ~ T q /\ ~ isset vis q).
        { intros q Hq. destruct (HQf q Hq) as (_ & Dq & Nq). split; auto. apply deg2_nonterm; auto. }
        destruct H2 as [Hq|Hq].
        * destruct (HTQ a Hq) as [? ?]. destruct H1 as [H1|[H1|(Ta & _)]]; [auto|eapply (HV a b); eauto|auto].
        * destruct (HTQ b Hq) as [? ?]. destruct H1 as [H1|[H1|(_ & Tb & _)]]; [eapply (HV b a); eauto|auto|auto].
    - intros a b. rewrite walked_snoc, in_app_iff. intros [Hi|Hi].
      + apply I6 in Hi as [?|[?|(? & ? & ? & ?)]]; auto. right; right. repeat split; auto.
      + apply in_und_windows in Hi as [Hi|Hi]; apply windows_touch in Hi as [?|?]; auto.
    - intros a b Ha Hb. rewrite walked_snoc, in_app_iff.
      destruct (Hnew a Ha) as [Ho|(D & N & Hin)]; [left; auto|]. right. apply Hedge; auto.
    - intros c' w Tc' Hw HnF.
      assert (Hcase2 : ~ In (c', w) F \/ (c' = c /\ In w Q)).
      { destruct HF as [->|(p & -> & Hp)]; [auto|].
        destruct (Nat.eq_dec c' c) as [->|]; [|left; simpl; intros [[= ]|?]; auto].
        destruct (Nat.eq_dec w p) as [->|]; [auto|left; simpl; intros [[= ]|?]; auto]. }
      destruct Hcase2 as [Hn|[-> Hin]].
      + destruct (I8 c' w Tc' Hw Hn) as [H1 H2]. split.
        * intros Tw Hlt. rewrite walked_snoc, in_app_iff. auto.
        * auto.
      + split; [|auto]. intros Tw. destruct (HQf w Hin) as (_ & Dw & _). apply deg2_nonterm in Dw. tauto.
    - destruct HF as [->|(p & -> & _)]; auto. inversion I10; auto.
  Qed.

  Lemma inv_pop vis c w F gs : Inv vis ((c, w) :: F) gs ->
    ((T w /\ ~ c < w) \/ (~ T w /\ isset vis w)) -> Inv vis F gs.
  Proof.
    intros [I1 I2 I3 I4 I5 I6 I7 I8 I9 I10] H. constructor; auto.
    - intros a b Hi. apply I6 in Hi as [?|[?|(? & ? & ? & Hn)]]; auto. right; right. repeat split; auto.
      intros Hi. apply Hn. simpl; auto.
    - intros c' w' Tc' Hw' Hn.
      destruct (Nat.eq_dec c' c) as [->|]; [destruct (Nat.eq_dec w' w) as [->|]|].
      + destruct H as [[? ?]|[? ?]]; split; tauto.
      + apply I8; auto. simpl. intros [[=]|?]; auto.
      + apply I8; auto. simpl. intros [[=]|?]; auto.
    - intros c' w' Hi. apply I9. simpl; auto.
    - inversion I10; auto.
  Qed.

  Lemma inv_tt vis c w F gs : Inv vis ((c, w) :: F) gs -> T w -> c < w -> Inv vis F (gs ++ [[c; w]]).
  Proof.
    intros I Tw Hlt. assert (I' := I). destruct I' as [I1 I2 I3 I4 I5 I6 I7 I8 I9 I10].
    destruct (I9 c w (or_introl eq_refl)) as [Tc Hw].
    inversion I10 as [|? ? HF I10']; subst.
    assert (Hmn : (Nat.min c w, Nat.max c w) = (c, w)) by (f_equal; lia).
    constructor; auto.
    - intros g. rewrite in_app_iff. simpl. intros [?|[<-|[]]]; auto.
      apply (shape_ok_line c [] w); simpl; auto; try tauto.
      intros a b [[= <- <-]|[]]; auto.
    - rewrite walked_snoc. apply NoDup_app_intro; auto.
      + simpl. constructor; auto; constructor.
      + simpl. intros x Hx [<-|[]]. apply I6 in Hx as [Hx|[Hx|(_ & _ & _ & Hx)]].
        * apply I2 in Hx; auto. * apply I2 in Hx; auto.
        * apply Hx. rewrite Hmn. simpl; auto.
    - intros a b. rewrite walked_snoc, in_app_iff. intros [Hi|Hi].
      + apply I6 in Hi as [?|[?|(? & ? & ? & Hn)]]; auto. right; right. repeat split; auto.
        intros Hi. apply Hn. simpl; auto.
      + simpl in Hi. destruct Hi as [Hi|[]]. apply und_eq in Hi as [[<- <-]|[<- <-]]; right; right;
          (split; [auto|split; [auto|split; [lia|]]]).
        * rewrite Hmn; auto. * rewrite Nat.min_comm, Nat.max_comm, Hmn; auto.
    - intros a b Ha Hb. rewrite walked_snoc, in_app_iff. left; auto.
    - intros c' w' Tc' Hw' Hn. rewrite walked_snoc, in_app_iff.
      destruct (Nat.eq_dec c' c) as [->|]; [destruct (Nat.eq_dec w' w) as [->|]|].
      + split; [intros; right; simpl; auto|tauto].
      + destruct (I8 c w') as [H1 H2]; auto. simpl. intros [[=]|?]; auto.
      + destruct (I8 c' w') as [H1 H2]; auto. simpl. intros [[=]|?]; auto.
    - intros c' w' Hi. apply I9. simpl; auto.
  Qed.

  Lemma flat_cons c arr cands : flat ((c, arr) :: cands) = map (pair c) arr ++ flat cands.
  Proof. reflexivity. Qed.

  Lemma scan_array_inv vis c rest arr : forall gs nx arr' gs',
    Inv vis (flat ((c, arr) :: rest)) gs ->
    scan_array term vis c arr gs = Val (nx, arr', gs') ->
    match nx with
    | None => arr' = [] /\ Inv vis (flat rest) gs'
    | Some x => Inv vis ((c, x) :: flat ((c, arr') :: rest)) gs' /\ ~ T x /\ ~ isset vis x
    end.
  Proof.
    induction arr as [|w arr IH]; intros gs nx arr' gs' I H; cbn [scan_array] in H.
    - injection H as <- <- <-. auto.
    - apply obind_val in H as (t & Et & H). apply vget_val in Et.
      change (flat ((c, w :: arr) :: rest)) with ((c, w) :: flat ((c, arr) :: rest)) in I.
      destruct t.
      + apply IH in H; auto. destruct (Nat.ltb_spec c w).
        * apply inv_tt; auto. apply Et; auto.
        * apply inv_pop in I; auto. left. split; [apply Et; auto|lia].
      + apply obind_val in H as (v & Ev & H). apply vget_val in Ev.
        assert (~ T w) by (rewrite <- Et; discriminate).
        destruct v.
        * apply IH in H; auto. apply inv_pop in I; auto. right. split; auto. apply Ev; auto.
        * injection H as <- <- <-. split; auto. split; auto. rewrite <- Ev; discriminate.
  Qed.

  Lemma find_next_inv vis cands : forall cur gs nx cur' cands' gs',
    Inv vis (flat cands) gs ->
    find_next term vis cur cands gs = Val (nx, cur', cands', gs') ->
    match nx with
    | None => cands' = [] /\ Inv vis [] gs'
    | Some x => Inv vis ((cur', x) :: flat cands') gs' /\ ~ T x /\ ~ isset vis x
    end.
  Proof.
    induction cands as [|[c arr] cands IH]; intros cur gs nx cur' cands' gs' I H; cbn [find_next] in H.
    - injection H as <- <- <- <-. auto.
    - apply obind_val in H as ([[nx1 arr1] gs1] & E & H).
      apply (scan_array_inv vis c cands) in E; auto. destruct nx1 as [x|].
      + injection H as <- <- <- <-. auto.
      + destruct E as [-> E]. eapply IH; eauto.
  Qed.

  Lemma stage1_inv ufuel fuel : forall vis cur cands gs gs' vis',
    Inv vis (flat cands) gs ->
    stage1 fuel ufuel m term vis cur cands gs = Val (gs', vis') -> Inv vis' [] gs'.
  Proof.
    induction fuel as [|fuel IH]; intros vis cur cands gs gs' vis' I H; [discriminate|].
    cbn [stage1] in H. destruct cands as [|ca cands].
    { injection H as <- <-. auto. }
    apply obind_val in H as ([[[nx cur1] cands1] gs1] & E & H).
    apply find_next_inv in E; auto.
    destruct nx as [x|].
    - destruct E as (I1 & Tx & Vx).
      apply obind_val in H as ([line vis1] & E & H).
      destruct (i_F _ _ _ I1 cur1 x (or_introl eq_refl)) as [Tc Hx].
      destruct (Hran _ _ Hx) as [Hcn Hxn].
      unfold unwind_line in E. apply obind_val in E as (t & Et & E). apply vget_val in Et.
      destruct t; [|exfalso; apply Et in Tc; discriminate]. cbn in E.
      apply (walk_open cur1 (isset vis) Tc (i_closed _ _ _ I1) ufuel [] x vis line vis1) in E; auto.
      + destruct E as (R & Q & t & EQ & -> & Tt & He & HQ & HQf & Hone & Hv & HxQ & Hw).
        specialize (HxQ Tx). simpl in EQ. subst R.
        eapply IH; [|exact H].
        apply inv_line with (vis := vis) (F := (cur1, x) :: flat cands1); auto.
        * intros ->. destruct HxQ.
        * intros Hi. apply HQf in Hi as (_ & Hi & _). apply deg2_nonterm in Hi; auto.
        * intros Hi. apply HQf in Hi as (_ & Hi & _). apply deg2_nonterm in Hi; auto.
        * apply shape_ok_line; auto. intros q Hq. apply HQf in Hq. tauto.
        * right. exists x. auto.
      + apply I1.
      + intros v; simpl; tauto.
      + apply I1.
      + simpl. intros a b [[= <- <-]|[]]; auto.
      + constructor.
      + simpl; tauto.
      + discriminate.
      + intros _ ->. auto.
    - destruct E as [-> I1]. eapply IH; [|exact H]. auto.
  Qed.

  Context (mx : nat) (Hmx : n = mx + 1).

  Lemma not_term_nb vis gs v w : Inv vis [] gs -> v < n -> ~ isset vis v -> ~ T v ->
    In w (nb m v) -> ~ T w /\ ~ isset vis w.
  Proof.
    intros I Hv Nv Nt Hw. split.
    - intros Tw. apply Nv. destruct (i_done _ _ _ I w v Tw (Hsym _ _ Hw)); auto.
    - intros Vw. destruct (i_closed _ _ _ I w v Vw (Hsym _ _ Hw)); auto.
  Qed.

  Lemma scan_unused_val vis fuel : forall cur mn c mn', wfv n vis ->
    scan_unused fuel term vis mx cur mn = Val (c, mn') -> cur <= mx -> 
    c <= mx \/ (c = mx + 1 /\ mn' = c).
  Proof.
    induction fuel as [|fuel IH]; intros cur mn c mn' Hw H Hc; [discriminate|].
    cbn [scan_unused] in H. apply obind_val in H as (b & Eb & H).
    destruct b.
    - destruct (Nat.leb_spec mx (cur + 1)).
      + injection H as <- <-. lia.
      + apply IH in H; auto. lia.
    - injection H as <- <-. auto.
  Qed.

  Lemma unwind_from_none fuel vis c line vis' : wfv n vis -> c < n -> ~ isset vis c -> ~ T c ->
    (forall w, In w (nb m c) -> ~ isset vis w) ->
    unwind_loop fuel m term vis None c [] = Val (line, vis') ->
    exists fuel' vis1 x, vset vis c = Val vis1 /\ In x (nb m c) /\
      unwind_loop fuel' m term vis1 (Some c) x [c] = Val (line, vis').
  Proof.
    intros Hw Hc Nv Nt Hnb H. destruct fuel as [|fuel]; [discriminate|]. cbn [unwind_loop] in H.
    destruct (vget_spec n vis c Hw Hc) as (b1 & E1 & B1).
    destruct (vget_spec n term c Hwt Hc) as (b2 & E2 & B2).
    destruct b1; [exfalso; apply Nv, B1; auto|]. destruct b2; [exfalso; apply Nt, B2; auto|].
    rewrite E1, E2 in H. unfold oor at 1 in H. cbn [obind] in H.
    apply obind_val in H as (vis1 & Ev & H).
    destruct (vset_spec n vis c Hw Hc) as (v' & Ev' & Hw1 & Hs1).
    rewrite Ev in Ev'. injection Ev' as <-.
    assert (Hd := nonterm_deg2 c Hc Nt). unfold deg2, nb in Hd.
    destruct (adj_get m c) as [ns|] eqn:Ea; [|discriminate].
    apply adj_nb in Ea. rewrite Hd in H. cbn [negb Nat.eqb] in H.
    destruct ns as [|x ns]; [discriminate|]. unfold idx in H. simpl nth_error in H. cbn iota in H.
    cbn [obind] in H.
    assert (Hx : In x (nb m c)) by (rewrite Ea; simpl; auto).
    destruct (vget_spec n vis1 x Hw1 (proj2 (Hran _ _ Hx))) as (bx & Ex & Bx).
    destruct bx.
    { exfalso. assert (H0 : isset vis1 x) by (apply Bx; auto).
      apply Hs1 in H0 as [H0|H0]; [exact (Hnb x Hx H0)|]. subst x. exact (Hirr c (nonterm_deg2 c Hc Nt) Hx). }
    rewrite Ex in H. unfold oor at 1 in H. cbn in H. eauto 6.
  Qed.

  Lemma stage2_inv sfuel ufuel fuel : forall vis mn gs gs' vis',
    Inv vis [] gs -> mn <= mx -> nset vis + nset term < n ->
    (forall i, i < mn -> isset vis i \/ T i) -> n < sfuel ->
    stage2 fuel sfuel ufuel m term vis mx mn gs = Val (gs', vis') ->
    Inv vis' [] gs' /\ forall v, v < n -> isset vis' v \/ T v.
  Proof.
    induction fuel as [|fuel IH]; intros vis mn gs gs' vis' I Hmn Hlt Hall Hsf H; [discriminate|].
    cbn [stage2] in H.
    assert (D : disj term vis) by (intros i Hi; apply (i_disj _ _ _ I i Hi)).
    destruct (scan_unused_spec n term Hwt mx Hmx vis sfuel (i_wf _ _ _ I) D Hlt mn Hmn Hall ltac:(lia))
      as (c & Ec & Hc & Nv & Nt & Hall').
    rewrite Ec in H. cbn [obind] in H.
    destruct (Nat.ltb_spec mx c) as [L|L]; [lia|]. cbn [andb] in H.
    apply obind_val in H as (b & Eb & H). destruct b; [discriminate|].
    apply obind_val in H as ([line vis1] & E & H).
    unfold unwind_line in E. 
    assert (HNT : forall v w, v < n -> ~ isset vis v -> ~ T v -> In w (nb m v) -> ~ T w).
    { intros v w A1 A2 A3 A4. exact (proj1 (not_term_nb vis gs v w I A1 A2 A3 A4)). }
    assert (Hcn : c < n) by lia.
    apply unwind_from_none in E; auto; [|apply I|intros w Hw; exact (proj2 (not_term_nb vis gs c w I Hcn Nv Nt Hw))].
    destruct E as (fuel' & vis0 & x & E0 & Hx & E).
    destruct (vset_spec n vis c (i_wf _ _ _ I) Hcn) as (v' & Ev' & Hw1 & Hs1).
    rewrite E0 in Ev'. injection Ev' as <-.
    destruct (not_term_nb vis gs c x I Hcn Nv Nt Hx) as [Tx Vx].
    assert (Dc := nonterm_deg2 c Hcn Nt).
    apply (walk_closed c (isset vis) Dc (i_closed _ _ _ I) Nv Hcn HNT fuel' [] x vis0 line vis1) in E; auto.
    - destruct E as (Q & -> & He & HQ & HQ2 & HQf & Hv & Hw).
      inversion HQ as [|? ? HcQ HQ']; subst.
      assert (HcondQ : Q <> []) by (destruct Q; simpl in *; [lia|discriminate]).
      assert (I1 : Inv vis1 [] (gs ++ [c :: Q ++ [c]])).
      { apply inv_line with (vis := vis) (F := []); auto.
        - intros q ->. simpl in HQ2. lia.
        - apply shape_ok_loop; auto. intros q Hq. apply HQf in Hq. tauto.
        - right. repeat split; auto; apply Hv. }
      destruct Q as [|q1 Q]; [tauto|].
      change ((c :: q1 :: Q) ++ [c]) with (c :: (q1 :: Q) ++ [c]) in H.
      assert (D1 : disj term vis1) by (intros i Hi; apply (i_disj _ _ _ I1 i Hi)).
      destruct (Nat.leb_spec mx (nset vis1 + nset term)) as [L2|L2].
      + injection H as <- <-. split; auto.
        intros v Hvn. destruct (isset_dec vis1 v) as [|N1]; auto.
        destruct (isset_dec term v) as [|N2]; auto. exfalso.
        (* an unused vertex has an unused neighbour: at least two are left *)
        assert (Dv := nonterm_deg2 v Hvn N2). unfold deg2 in Dv.
        destruct (nb m v) as [|w ?] eqn:En; [discriminate|].
        assert (Hwv : In w (nb m v)) by (rewrite En; simpl; auto).
        destruct (not_term_nb vis1 _ v w I1 Hvn N1 N2 Hwv) as [Tw Vw].
        destruct (Hran _ _ Hwv) as [_ Hwn].
        assert (v <> w) by (intros ->; apply (Hirr w); auto; exact (nonterm_deg2 w Hvn N2)).
        assert (HH := counts_two n vis1 term Hw Hwt D1 v w Hvn Hwn H N1 N2 Vw Tw). lia.
      + eapply IH; [exact I1| | | | |exact H]; try lia.
        intros i Hi. destruct (Hall' i Hi); auto. left. apply Hv; auto.
    - intros v. rewrite Hs1. simpl. intuition.
    - simpl. intros a b' [[= <- <-]|[]]; auto.
    - constructor; auto; constructor.
    - simpl; tauto.
    - simpl. intros [->|[]]. apply (Hirr x); auto.
    - apply (Hran _ _ Hx).
  Qed.
End G.

Lemma deg2_two_neighbours indices m v :
  (forall q, NoDup (nb m q)) -> (forall a b, In b (nb m a) <-> edge indices a b) ->
  (two_neighbours indices v <-> length (nb m v) = 2).
Proof.
  intros Hn He. unfold two_neighbours. split.
  - intros (a & b & Hab & H).
    assert (Ha : In a (nb m v)) by (apply He, H; auto).
    assert (Hb : In b (nb m v)) by (apply He, H; auto).
    assert (L1 : length (nb m v) <= 2).
    { apply (NoDup_incl_length (l' := [a; b])); auto.
      intros w Hw. apply He, H in Hw. simpl. intuition. }
    assert (L2 : 2 <= length (nb m v)).
    { apply (NoDup_incl_length (l := [a; b])).
      - constructor; [simpl; intuition|]. constructor; auto; constructor.
      - intros w [<-|[<-|[]]]; auto. }
    lia.
  - intros L. specialize (Hn v). destruct (nb m v) as [|a [|b [|? ?]]] eqn:E; try discriminate.
    exists a, b. inversion Hn as [|? ? Ha _]; subst. split; [simpl in Ha; intuition|].
    intros w. rewrite <- He, E. simpl. intuition.
Qed.

Theorem divide_correct indices shapes visited : no_looped_pair indices ->
  divide_into_shapes indices = Val (shapes, visited) ->
  (forall s a b, In s shapes -> In (a, b) (windows s) -> edge indices a b) /\
  NoDup (walked shapes) /\
  (forall a b, edge indices a b -> a <> b -> In (undirected (a, b)) (walked shapes)) /\
  (forall s a, In s shapes -> ~ In (a, a) (windows s)) /\
  (forall s, In s shapes -> maximal_chain indices s) /\
  (exists mx, is_highest indices mx /\ length visited = mx + 1) /\
  (forall v, nth_error visited v = Some true <-> two_neighbours indices v).
Proof.
  intros Hlf H. unfold divide_into_shapes in H. destruct (adjacency_map indices) as [mx m] eqn:Em.
  destruct (setup _ _ _ Em) as (A1 & A2 & A3 & A4 & A5 & term & cands & E & W & T & F1 & F2 & F3).
  rewrite E in H. cbn [obind] in H.
  assert (Hirr : forall v, length (nb m v) = 2 -> ~ In v (nb m v)).
  { intros v Hl Hv. apply A2 in Hv. unfold edge in Hv. apply (Hlf v); [tauto|].
    apply (deg2_two_neighbours indices m); auto. }
  apply obind_val in H as ([gs1 v1] & E1 & H).
  apply (stage1_inv m (mx + 1) term A1 A3 Hirr A4 W T) in E1.
  2: { constructor; auto.
    - apply wfv_fill.
    - intros v Hv. apply isset_fill in Hv. tauto.
    - intros v w Hv. apply isset_fill in Hv. tauto.
    - simpl; tauto.
    - constructor.
    - simpl; tauto.
    - intros a b Hv. apply isset_fill in Hv. tauto.
    - intros c w Tc Hw Hn. exfalso. apply Hn, F2. apply T in Tc. tauto.
    - intros c w Hi. apply F2 in Hi. rewrite T. tauto. }
  assert (HF : exists gs v2, Val (shapes, visited) = Val (gs, bits v2) /\
     Inv m (mx + 1) term v2 [] gs /\ forall v, v < mx + 1 -> isset v2 v \/ isset term v).
  { destruct (Nat.ltb_spec (nset v1 + nset term) (mx + 1)) as [L|L].
    - apply obind_val in H as ([gs2 v2] & E2 & H).
      apply (stage2_inv m (mx + 1) term A1 A3 Hirr A4 W T mx eq_refl) in E2; auto; try lia.
      + exists gs2, v2. injection H as <- <-. tauto.
      + unfold divide_fuel. lia.
    - exists gs1, v1. injection H as <- <-. split; auto. split; auto.
      intros v Hv. destruct (isset_dec v1 v) as [|N1]; auto. destruct (isset_dec term v) as [|N2]; auto.
      assert (D1 : forall i, isset v1 i -> isset term i -> False) by (intros i Hi; apply (i_disj _ _ _ _ _ _ E1 i Hi)).
      assert (HH := counts_one (mx + 1) v1 term (i_wf _ _ _ _ _ _ E1) W D1 v Hv N1 N2). lia. }
  clear H E1. destruct HF as (gs & v2 & [= -> ->] & [I1 I2 I3 I4 I5 I6 I7 I8 I9 I10] & Hall).
  assert (Htn : forall v, two_neighbours indices v <-> length (nb m v) = 2).
  { intros v. apply deg2_two_neighbours; auto. }
  assert (HT : forall v, isset term v -> ~ two_neighbours indices v).
  { intros v Hv. apply T in Hv as [_ Hv]. rewrite Htn. auto. }
  split; [|split; [|split; [|split; [|split; [|split]]]]].
  - intros s a b Hs Hi. destruct (I4 s Hs) as (He & _). apply A2, He; auto.
  - auto.
  - intros a b Hab Hne. apply A2 in Hab. destruct (A4 _ _ Hab) as [Ha Hb].
    destruct (Hall a Ha) as [Va|Ta]; [apply I7; auto|].
    assert (E' : undirected (a, b) = undirected (b, a)) by (apply und_eq; auto).
    destruct (Hall b Hb) as [Vb|Tb]; [rewrite E'; apply I7; auto|].
    destruct (Nat.lt_trichotomy a b) as [L|[->|L]].
    + apply I8; auto.
    + tauto.
    + rewrite E'. destruct (I8 b a) as [H1 _]; auto.
  - intros s a Hs Hi.
    assert (Hw : In (undirected (a, a)) (walked gs)) by (apply in_walked; exists s; auto).
    assert (Haa : In a (nb m a)). { destruct (I4 s Hs) as (He & _). apply He; auto. }
    assert (Hd : forall i, isset v2 i -> length (nb m i) = 2).
    { intros i Hi2. assert (Hn := I2 i Hi2). assert (Hl : i < mx + 1) by (eapply isset_lt; eauto).
      rewrite T in Hn. unfold isterm in Hn. destruct (Nat.eq_dec (length (nb m i)) 2); auto. exfalso; auto. }
    apply I6 in Hw as [Hv|[Hv|(_ & _ & Hne & _)]]; [|  |tauto]; apply Hd in Hv; apply (Hirr a); auto.
  - intros s Hs. destruct (I4 s Hs) as (_ & L & Hin & a & b & mid & -> & Hend).
    split; auto. split.
    + intros l v r Es Hl Hr. apply Htn, (Hin l v r); auto.
    + exists a, b, mid. split; auto. destruct Hend as [?|[? ?]]; auto.
  - exists mx. split; auto. apply I1.
  - intros v. change (isset v2 v <-> two_neighbours indices v). rewrite Htn. split.
    + intros Hv. assert (Hn := I2 v Hv). assert (Hl : v < mx + 1) by (eapply isset_lt; eauto).
      rewrite T in Hn. unfold isterm in Hn. destruct (Nat.eq_dec (length (nb m v)) 2); auto. exfalso; auto.
    + intros L. assert (Hv : v < mx + 1).
      { destruct (nb m v) as [|w ?] eqn:En; [discriminate|]. apply (A4 v w). rewrite En; simpl; auto. }
      destruct (Hall v Hv) as [|Tv]; auto. apply T in Tv as [_ Tv]. unfold isterm in Tv. tauto.
Qed.

Lemma loop_free_nlp indices : loop_free indices -> no_looped_pair indices.
Proof. intros H a Hi. destruct (H a Hi). Qed.

Lemma divide_selfloop_partial indices shapes visited :
  (forall a, In (a, a) (chunks2 indices) -> ~ two_neighbours indices a) ->
  divide_into_shapes indices = Val (shapes, visited) ->
  NoDup (walked shapes) /\
  (forall a b, In (undirected (a, b)) (walked shapes) <-> edge indices a b /\ a <> b) /\
  (forall s, In s shapes -> maximal_chain indices s).
Proof.
  intros Hlf H. destruct (divide_correct _ _ _ Hlf H) as (H1 & H2 & H3 & H4 & H5 & _).
  split; auto. split; auto. intros a b. split; [|intros []; auto].
  rewrite in_walked. intros (g & Hg & Hi). 
  destruct Hi as [Hi|Hi]; split.
  - eapply H1; eauto.
  - intros ->. eapply H4; eauto.
  - apply (H1 g) in Hi; auto. unfold edge in *; tauto.
  - intros ->. eapply H4; eauto.
Qed.

Lemma divide_edges_once indices shapes visited :
  loop_free indices -> divide_into_shapes indices = Val (shapes, visited) ->
  NoDup (walked shapes) /\
  forall a b, In (undirected (a, b)) (walked shapes) <-> edge indices a b.
Proof.
  intros Hlf H. destruct (divide_selfloop_partial _ _ _ (loop_free_nlp _ Hlf) H) as (H1 & H2 & _).
  split; auto. intros a b. rewrite H2. split; [tauto|]. intros He. split; auto.
  intros ->. apply (Hlf b). unfold edge in He. tauto.
Qed.

Lemma divide_maximal indices shapes visited :
  loop_free indices -> divide_into_shapes indices = Val (shapes, visited) ->
  forall s, In s shapes -> maximal_chain indices s.
Proof.
  intros Hlf H. exact (proj2 (proj2 (divide_selfloop_partial _ _ _ (loop_free_nlp _ Hlf) H))).
Qed.

Lemma divide_bits indices shapes visited :
  loop_free indices -> divide_into_shapes indices = Val (shapes, visited) ->
  (exists mx, is_highest indices mx /\ length visited = mx + 1) /\
  (forall v, nth_error visited v = Some true <-> two_neighbours indices v).
Proof.
  intros Hlf H. destruct (divide_correct _ _ _ (loop_free_nlp _ Hlf) H) as (_ & _ & _ & _ & _ & H6). exact H6.
Qed.

Lemma divide_selfloop_refuted :
  (exists indices shapes visited s a b, divide_into_shapes indices = Val (shapes, visited) /\
     In s shapes /\ In (a, b) (windows s) /\ ~ edge indices a b) /\
  (exists indices shapes visited a b, divide_into_shapes indices = Val (shapes, visited) /\
     edge indices a b /\ a <> b /\ ~ In (undirected (a, b)) (walked shapes)).
Proof.
  split.
  - exists [0; 0; 0; 1; 1; 2; 2; 3; 3; 3], [[0; 1; 2; 3; 0]], [true; true; true; true], [0; 1; 2; 3; 0], 3, 0.
    split; [vm_compute; reflexivity|]. split; [simpl; auto|]. split; [simpl; auto|].
    unfold edge; simpl. intros [H|H]; repeat destruct H as [H|H]; try discriminate; auto.
  - exists [2; 0; 0; 1; 1; 1; 2; 2].
    assert (H : exists s v, divide_into_shapes [2; 0; 0; 1; 1; 1; 2; 2] = Val (s, v) /\
       ~ In (undirected (0, 1)) (walked s)).
    { eexists; eexists. split; [vm_compute; reflexivity|].
      vm_compute. intros H. repeat destruct H as [H|H]; try discriminate; auto. }
    destruct H as (s & v & H & Hn). exists s, v, 0, 1. split; auto. split; [|split; auto].
    left; simpl; auto.
Qed.
