(* Proofs about the Visvalingam-Whyatt loop, for any scalar type and point type. *)
From Coq Require Import Sorting.Permutation Sorting.Sorted.
From Verif Require Import Prelude Scalar Geo2 Geo3 Simplify GeoSpec Rdp1 VwSpec.

(* ---- consecutive pairs of a duplicate-free list ---- *)
Lemma windows_cons {A} (a b : A) l : windows (a :: b :: l) = (a, b) :: windows (b :: l).
Proof. reflexivity. Qed.

Lemma windows_split {A} (l : list A) a b : In (a, b) (windows l) <-> exists l1 l2, l = l1 ++ a :: b :: l2.
Proof.
  split.
  - induction l as [|x [|y l] IH]; [simpl; tauto|simpl; tauto|]. rewrite windows_cons. intros [E|H].
    + injection E as -> ->. exists [], l. reflexivity.
    + destruct (IH H) as (l1 & l2 & E). rewrite E. exists (x :: l1), l2. reflexivity.
  - intros (l1 & l2 & ->). rewrite windows_app. apply in_app_iff. right. left. reflexivity.
Qed.

Lemma nodup_split {A} (l1 l2 l1' l2' : list A) x :
  NoDup (l1 ++ x :: l2) -> l1 ++ x :: l2 = l1' ++ x :: l2' -> l1 = l1' /\ l2 = l2'.
Proof.
  revert l1'. induction l1 as [|a l1 IH]; intros [|a' l1'] N E; simpl in *.
  - injection E as ->. auto.
  - injection E as <- E. inversion N as [|? ? N1 N2]; subst. exfalso. apply N1. apply in_app_iff. right. left. auto.
  - injection E as -> E. inversion N as [|? ? N1 N2]; subst. exfalso. apply N1. apply in_app_iff. right. left. auto.
  - injection E as <- E. inversion N as [|? ? N1 N2]; subst. destruct (IH l1' N2 E) as [-> ->]. auto.
Qed.

Lemma windows_fun_r {A} (l : list A) a b b' : NoDup l -> In (a, b) (windows l) -> In (a, b') (windows l) -> b = b'.
Proof.
  intros N (l1 & l2 & E1)%windows_split (l1' & l2' & E2)%windows_split. subst l.
  destruct (nodup_split _ _ _ _ _ N E2) as [_ E]. congruence.
Qed.
Lemma windows_fun_l {A} (l : list A) a a' b : NoDup l -> In (a, b) (windows l) -> In (a', b) (windows l) -> a = a'.
Proof.
  intros N (l1 & l2 & E1)%windows_split (l1' & l2' & E2)%windows_split. subst l.
  replace (l1 ++ a :: b :: l2) with ((l1 ++ [a]) ++ b :: l2) in * by (rewrite <- app_assoc; auto).
  replace (l1' ++ a' :: b :: l2') with ((l1' ++ [a']) ++ b :: l2') in * by (rewrite <- app_assoc; auto).
  destruct (nodup_split _ _ _ _ _ N E2) as [E _]. apply app_inj_tail in E. tauto.
Qed.

Lemma triple_split {A} (l : list A) a b c : NoDup l -> In (a, b) (windows l) -> In (b, c) (windows l) ->
  exists l1 l2, l = l1 ++ a :: b :: c :: l2.
Proof.
  intros N (l1 & l2 & E1)%windows_split (l1' & l2' & E2)%windows_split. subst l.
  replace (l1 ++ a :: b :: l2) with ((l1 ++ [a]) ++ b :: l2) in * by (rewrite <- app_assoc; auto).
  destruct (nodup_split _ _ _ _ _ N E2) as [<- ->]. exists l1, l2'. rewrite <- app_assoc. auto.
Qed.

Lemma triple_windows {A} (l1 : list A) a b c l2 :
  In (a, b) (windows (l1 ++ a :: b :: c :: l2)) /\ In (b, c) (windows (l1 ++ a :: b :: c :: l2)).
Proof.
  split; apply windows_split.
  - exists l1, (c :: l2). auto.
  - exists (l1 ++ [a]), l2. rewrite <- app_assoc. auto.
Qed.

Lemma interior_iff {A} (x z b : A) ps : NoDup (x :: ps ++ [z]) ->
  In b ps <-> exists a c, In (a, b) (windows (x :: ps ++ [z])) /\ In (b, c) (windows (x :: ps ++ [z])).
Proof.
  intros N. split.
  - intros (l1 & l2 & ->)%in_split.
    replace (x :: (l1 ++ b :: l2) ++ [z]) with ((x :: l1) ++ b :: (l2 ++ [z])) in * by (simpl; rewrite <- app_assoc; auto).
    destruct (exists_last (l := x :: l1)) as (l1' & a & E); [congruence|].
    destruct (l2 ++ [z]) as [|c r] eqn:E2; [destruct l2; discriminate|].
    exists a, c. rewrite E, <- app_assoc. apply (triple_windows l1' a b c r).
  - intros (a & c & H1 & H2).
    destruct (triple_split _ _ _ _ N H1 H2) as (l1 & l2 & E).
    destruct l1 as [|y l1]; simpl in E; injection E as -> E.
    + destruct ps as [|p ps]; simpl in E; [discriminate|]. injection E as -> E. left; auto.
    + destruct (exists_last (l := c :: l2)) as (l2' & w & E2); [congruence|].
      rewrite E2 in E. replace (l1 ++ a :: b :: l2' ++ [w]) with ((l1 ++ a :: b :: l2') ++ [w]) in E by (rewrite <- app_assoc; auto).
      apply app_inj_tail in E as [-> ->]. apply in_app_iff. right. right. left. auto.
Qed.

Lemma windows_delete {A} (l1 : list A) a b c l2 x y :
  NoDup (l1 ++ a :: b :: c :: l2) ->
  In (x, y) (windows (l1 ++ a :: c :: l2)) <->
  (x = a /\ y = c) \/ (In (x, y) (windows (l1 ++ a :: b :: c :: l2)) /\ x <> b /\ y <> b).
Proof.
  intros N. rewrite !windows_app, windows_cons, !in_app_iff. cbn [In].
  assert (Hb : ~ In b (l1 ++ a :: c :: l2)).
  { replace (l1 ++ a :: b :: c :: l2) with ((l1 ++ [a]) ++ b :: c :: l2) in N by (rewrite <- app_assoc; auto).
    apply NoDup_remove_2 in N. rewrite <- app_assoc in N. exact N. }
  assert (Hl : In (x, y) (windows (l1 ++ [a])) -> x <> b /\ y <> b).
  { intros [H1 H2]%windows_In_l. split; intros ->; apply Hb; rewrite in_app_iff in *; simpl in *; tauto. }
  assert (Hr : In (x, y) (windows (c :: l2)) -> x <> b /\ y <> b).
  { intros [H1 H2]%windows_In_l. split; intros ->; apply Hb; rewrite in_app_iff in *; simpl in *; tauto. }
  split.
  - intros [H|[E|H]]; [right; tauto|injection E as -> ->; tauto|right; tauto].
  - intros [[-> ->]|[[H|[E|[E|H]]] [H1 H2]]]; auto; injection E as -> ->; tauto.
Qed.

(* ---- links ---- *)
Section Links.
  Context {S : Scalar}.
  Notation links := (@links S).

  Lemma lget_lremove (m : links) k k' : lget (lremove m k) k' = if Nat.eqb k k' then None else lget m k'.
  Proof.
    unfold lget, lremove. induction m as [|[i v] m IH]; simpl; [destruct (Nat.eqb k k'); auto|].
    destruct (Nat.eqb_spec i k) as [->|Hik]; simpl.
    - rewrite IH. destruct (Nat.eqb_spec k k'); auto.
    - destruct (Nat.eqb_spec i k') as [->|]; simpl.
      + destruct (Nat.eqb_spec k k'); [congruence|auto].
      + exact IH.
  Qed.
  Lemma lget_linsert (m : links) k v k' : lget (linsert m k v) k' = if Nat.eqb k k' then Some v else lget m k'.
  Proof.
    unfold linsert. unfold lget at 1. simpl. destruct (Nat.eqb_spec k k') as [->|H]; auto.
    change (option_map snd _) with (lget (lremove m k) k'). rewrite lget_lremove.
    destruct (Nat.eqb_spec k k'); congruence.
  Qed.
  Lemma lget_keys (m : links) k : In k (map fst m) <-> exists v, lget m k = Some v.
  Proof.
    unfold lget. split.
    - intros ([i v] & <- & H)%in_map_iff. simpl.
      destruct (find (fun e => Nat.eqb (fst e) i) m) as [e|] eqn:E; [simpl; eauto|].
      pose proof (find_none _ _ E _ H) as F. simpl in F. rewrite Nat.eqb_refl in F. discriminate.
    - intros (v & E). destruct (find _ m) as [e|] eqn:F; [|discriminate].
      apply find_some in F as [F1 F2]. apply Nat.eqb_eq in F2. subst. apply in_map. auto.
  Qed.
  Lemma keys_lremove_sub (m : links) k x : In x (map fst (lremove m k)) -> In x (map fst m) /\ x <> k.
  Proof.
    unfold lremove. intros ([i v] & <- & H)%in_map_iff. apply filter_In in H as [H1 H2]. simpl in *.
    apply negb_true_iff, Nat.eqb_neq in H2. split; auto. apply in_map_iff. exists (i, v); auto.
  Qed.
  Lemma nodup_lremove (m : links) k : NoDup (map fst m) -> NoDup (map fst (lremove m k)).
  Proof.
    unfold lremove. induction m as [|[i v] m IH]; simpl; intros N; auto. inversion N as [|? ? N1 N2]; subst.
    destruct (Nat.eqb i k); simpl; auto. constructor; auto. intros H. apply N1.
    apply (keys_lremove_sub m k). exact H.
  Qed.
  Lemma nodup_linsert (m : links) k v : NoDup (map fst m) -> NoDup (map fst (linsert m k v)).
  Proof.
    intros N. simpl. constructor; [|apply nodup_lremove; auto]. intros H.
    apply keys_lremove_sub in H. tauto.
  Qed.
End Links.

(* ---- sorting of the remaining keys ---- *)
Lemma nat_insert_perm x l : Permutation (nat_insert x l) (x :: l).
Proof.
  induction l as [|y l IH]; simpl; auto. destruct (Nat.leb x y); auto.
  rewrite IH. apply perm_swap.
Qed.
Lemma nat_sort_perm l : Permutation (nat_sort l) l.
Proof. induction l as [|x l IH]; simpl; auto. rewrite nat_insert_perm. auto. Qed.
Lemma nat_insert_sorted x l : StronglySorted le l -> StronglySorted le (nat_insert x l).
Proof.
  induction 1 as [|y l Hl IH Hy]; simpl; [repeat constructor|].
  destruct (Nat.leb_spec x y).
  - constructor; [constructor; auto|]. constructor; auto. eapply Forall_impl; [|exact Hy]. intros; lia.
  - constructor; auto. apply Forall_forall. intros z Hz.
    apply (Permutation_in _ (nat_insert_perm x l)) in Hz as [<-|Hz]; [lia|]. rewrite Forall_forall in Hy. auto.
Qed.
Lemma nat_sort_sorted l : StronglySorted le (nat_sort l).
Proof. induction l; simpl; [constructor|apply nat_insert_sorted; auto]. Qed.
Lemma sorted_unique l1 : forall l2, StronglySorted le l1 -> StronglySorted lt l2 -> Permutation l1 l2 -> l1 = l2.
Proof.
  induction l1 as [|x l1 IH]; intros l2 H1 H2 P; [apply Permutation_nil in P; auto|].
  destruct l2 as [|y l2]; [apply Permutation_sym, Permutation_nil in P; discriminate|].
  inversion H1 as [|? ? A1 B1]; inversion H2 as [|? ? A2 B2]; subst. rewrite Forall_forall in B1, B2.
  assert (E : x = y).
  { assert (Hx : In x (y :: l2)) by (eapply Permutation_in; [exact P|left; auto]).
    assert (Hy : In y (x :: l1)) by (eapply Permutation_in; [symmetry; exact P|left; auto]).
    destruct Hx as [|Hx]; auto. destruct Hy as [|Hy]; auto. specialize (B1 _ Hy). specialize (B2 _ Hx). lia. }
  subst y. f_equal. apply IH; auto. eapply Permutation_cons_inv; eauto.
Qed.
Lemma ssorted_nodup l : StronglySorted lt l -> NoDup l.
Proof.
  induction 1 as [|x l H IH Hx]; constructor; auto. intros Hi. rewrite Forall_forall in Hx.
  specialize (Hx _ Hi). lia.
Qed.
Lemma ssorted_app l1 l2 : StronglySorted lt (l1 ++ l2) <->
  StronglySorted lt l1 /\ StronglySorted lt l2 /\ forall x y, In x l1 -> In y l2 -> x < y.
Proof.
  induction l1 as [|a l1 IH]; simpl.
  - split; [intros; repeat split; auto; [constructor|tauto]|tauto].
  - split.
    + intros H. inversion H as [|? ? A B]; subst. rewrite Forall_forall in B. apply IH in A as (A1 & A2 & A3).
      repeat split; auto.
      * constructor; auto. apply Forall_forall. intros y Hy. apply B, in_app_iff; auto.
      * intros x y [<-|Hx] Hy; auto. apply B, in_app_iff; auto.
    + intros (H1 & H2 & H3). inversion H1 as [|? ? A B]; subst. constructor.
      * apply IH. repeat split; auto.
      * apply Forall_app. split; auto. apply Forall_forall. auto.
Qed.
Lemma ssorted_delete l1 (b : nat) l2 : StronglySorted lt (l1 ++ b :: l2) -> StronglySorted lt (l1 ++ l2).
Proof.
  rewrite !ssorted_app. intros (H1 & H2 & H3). inversion H2; subst. repeat split; auto.
  intros; apply H3; auto. right; auto.
Qed.
Lemma ssorted_seq n : forall s, StronglySorted lt (seq s n).
Proof.
  induction n; simpl; intros s; constructor; auto. apply Forall_forall. intros y Hy. apply in_seq in Hy. lia.
Qed.

Section Loop.
  Context {S : Scalar} {T : Type} (area : T -> T -> T -> car S).
  Notation F := (car S).
  Context (line : list T) (d0 : T).
  Notation n := (length line).
  Definition gp (i : nat) : T := nth (i mod n) line d0.
  Definition ar (i j k : nat) : F := area (gp i) (gp j) (gp k).

  Lemma idx_gp i : n <> 0 -> idx line (i mod n) = Val (gp i).
  Proof.
    intros Hn. unfold idx, gp. rewrite (nth_error_nth' line d0); auto. apply Nat.mod_upper_bound; auto.
  Qed.
  Lemma idx_gp_lt i : i < n -> idx line i = Val (gp i).
  Proof. intros H. rewrite <- (Nat.mod_small i n H) at 1. apply idx_gp. lia. Qed.
  Lemma areaM_ar i j k : i < n -> areaM area line i (j mod n) (k mod n) = Val (ar i j k).
  Proof.
    intros H. unfold areaM. rewrite idx_gp_lt, !idx_gp by lia. reflexivity.
  Qed.
  Lemma areaM_ar2 i j k : i < n -> j < n -> areaM area line i j (k mod n) = Val (ar i j k).
  Proof.
    intros H1 H2. unfold areaM. rewrite !idx_gp_lt, !idx_gp by lia. reflexivity.
  Qed.

  (* the link table describes the current path x :: ps ++ [z] *)
  Record LInv (path : list nat) (m : @links S) : Prop := {
    li_sorted : StronglySorted lt path;
    li_keys : NoDup (map fst m);
    li_get : forall a b c, In (a, b) (windows path) -> In (b, c) (windows path) ->
             lget m b = Some (a, c, ar a b c);
    li_in : forall b v, lget m b = Some v -> exists a c, In (a, b) (windows path) /\ In (b, c) (windows path)
  }.
  (* every inner vertex has a heap entry with its current area *)
  Definition HInv (path : list nat) (h : list (@entry S)) : Prop :=
    forall a b c, In (a, b) (windows path) -> In (b, c) (windows path) -> In (ar a b c, b) h.

  Lemma LInv_keys x z ps m : LInv (x :: ps ++ [z]) m -> nat_sort (map fst m) = ps /\ length m = length ps.
  Proof.
    intros [Hs Hk Hg Hi]. pose proof (ssorted_nodup _ Hs) as N.
    assert (P : Permutation (map fst m) ps).
    { apply NoDup_Permutation; auto.
      - inversion N as [|? ? ? N2]; subst. apply (proj1 (NoDup_app_inv _ _ N2)).
      - intros b. rewrite lget_keys, (interior_iff x z b ps N). split.
        + intros (v & E). eapply Hi; eauto.
        + intros (a & c & H1 & H2). eauto. }
    split.
    - apply sorted_unique; [apply nat_sort_sorted| |].
      + inversion Hs; subst. apply ssorted_app in H1. tauto.
      + rewrite nat_sort_perm. exact P.
    - rewrite <- (map_length fst m). apply Permutation_length. exact P.
  Qed.

  (* what one relinking does *)
  Definition links_after (m : @links S) prev next : @links S :=
    let prev_prev := option_map (fun l => fst (fst l)) (lget m prev) in
    let next_next := option_map (fun l => snd (fst l)) (lget m next) in
    let m := match next_next with Some nn => linsert m next (prev, nn, ar prev next nn) | None => m end in
    match prev_prev with Some pp => linsert m prev (pp, next, ar pp prev next) | None => m end.
  Definition pushed (m : @links S) prev next : list (@entry S) :=
    let prev_prev := option_map (fun l => fst (fst l)) (lget m prev) in
    let next_next := option_map (fun l => snd (fst l)) (lget m next) in
    match next_next with Some nn => [(ar prev next nn, next)] | None => [] end ++
    match prev_prev with Some pp => [(ar pp prev next, prev)] | None => [] end.

  Lemma heap_push_val (h h' : list (@entry S)) e : heap_push h e = Val h' -> h' = h ++ [e].
  Proof. unfold heap_push. match goal with |- (if ?x then _ else _) = _ -> _ => destruct x end; congruence. Qed.

  Lemma relink_val h m prev next h' m' :
    prev < n -> (forall pp, option_map (fun l => fst (fst l)) (lget m prev) = Some pp -> pp < n) ->
    vw_relink area line h m prev next = Val (h', m') ->
    h' = h ++ pushed m prev next /\ m' = links_after m prev next.
  Proof.
    intros Hp Hpp. unfold vw_relink, pushed, links_after.
    destruct (option_map _ (lget m next)) as [nn|] eqn:En;
      destruct (option_map _ (lget m prev)) as [pp|] eqn:Ep;
      try (specialize (Hpp _ eq_refl)); try rewrite !areaM_ar by auto;
      try rewrite !areaM_ar2 by auto; cbn [obind].
    - intros H. apply obind_val in H as (h1 & E1 & H). apply heap_push_val in E1.
      apply obind_val in H as (h2 & E2 & H). apply heap_push_val in E2. injection H as <- <-.
      subst. rewrite <- app_assoc. auto.
    - intros H. apply obind_val in H as (h1 & E1 & H). apply heap_push_val in E1. injection H as <- <-.
      subst. auto.
    - intros H. apply obind_val in H as (h1 & E1 & H). apply heap_push_val in E1. injection H as <- <-.
      subst. auto.
    - intros H. injection H as <- <-. rewrite app_nil_r. auto.
  Qed.

  (* deleting b between prev and next *)
  Lemma LInv_delete l1 prev b next l2 m :
    LInv (l1 ++ prev :: b :: next :: l2) m ->
    LInv (l1 ++ prev :: next :: l2) (links_after (lremove m b) prev next).
  Proof.
    intros [Hs Hk Hg Hi]. pose proof (ssorted_nodup _ Hs) as N.
    set (W := windows (l1 ++ prev :: b :: next :: l2)) in *.
    assert (WD := fun x y => windows_delete l1 prev b next l2 x y N). fold W in WD.
    pose proof (triple_windows l1 prev b next l2) as [Wpb Wbn]. fold W in Wpb, Wbn.
    assert (Hpb : prev <> b /\ b <> next /\ prev <> next).
    { rewrite ssorted_app in Hs. destruct Hs as (_ & Hs & _).
      inversion Hs as [|? ? A B]; subst. inversion A as [|? ? A' B']; subst.
      inversion B as [|? ? C1 C2]; subst. inversion C2 as [|? ? C3 C4]; subst. inversion B' as [|? ? C5 C6]; subst. lia. }
    destruct Hpb as (Npb & Nbn & Npn).
    assert (Fr : forall x y y', In (x, y) W -> In (x, y') W -> y = y') by (intros; eapply windows_fun_r; eauto).
    assert (Fl : forall x x' y, In (x, y) W -> In (x', y) W -> x = x') by (intros; eapply windows_fun_l; eauto).
    (* the two option values *)
    assert (Gp : forall pp, In (pp, prev) W -> lget (lremove m b) prev = Some (pp, b, ar pp prev b)).
    { intros pp H. rewrite lget_lremove. destruct (Nat.eqb_spec b prev); [congruence|]. apply Hg; auto. }
    assert (Gn : forall nn, In (next, nn) W -> lget (lremove m b) next = Some (b, nn, ar b next nn)).
    { intros nn H. rewrite lget_lremove. destruct (Nat.eqb_spec b next); [congruence|]. apply Hg; auto. }
    assert (Gp' : forall v, lget (lremove m b) prev = Some v -> exists pp, In (pp, prev) W).
    { intros v. rewrite lget_lremove. destruct (Nat.eqb_spec b prev); [congruence|]. intros (a & c & ? & ?)%Hi; eauto. }
    assert (Gn' : forall v, lget (lremove m b) next = Some v -> exists nn, In (next, nn) W).
    { intros v. rewrite lget_lremove. destruct (Nat.eqb_spec b next); [congruence|]. intros (a & c & ? & ?)%Hi; eauto. }
    assert (Get : forall k, lget (links_after (lremove m b) prev next) k =
      if Nat.eqb prev k then match lget (lremove m b) prev with Some (pp, _, _) => Some (pp, next, ar pp prev next) | None => None end
      else if Nat.eqb next k then match lget (lremove m b) next with Some (_, nn, _) => Some (prev, nn, ar prev next nn) | None => None end
      else if Nat.eqb b k then None else lget m k).
    { intros k. unfold links_after.
      destruct (lget (lremove m b) prev) as [[[pp pq] pa]|] eqn:Ep;
        destruct (lget (lremove m b) next) as [[[np nn] na]|] eqn:En; cbn [option_map fst snd];
        rewrite ?lget_linsert, ?lget_lremove.
      - destruct (Nat.eqb_spec prev k); auto.
      - destruct (Nat.eqb_spec prev k); auto. destruct (Nat.eqb_spec next k) as [<-|]; auto.
        rewrite lget_lremove in En. auto.
      - destruct (Nat.eqb_spec prev k) as [<-|]; auto.
        destruct (Nat.eqb_spec next prev); [congruence|]. rewrite lget_lremove in Ep. auto.
      - destruct (Nat.eqb_spec prev k) as [<-|]; [rewrite lget_lremove in Ep; auto|].
        destruct (Nat.eqb_spec next k) as [<-|]; auto. rewrite lget_lremove in En. auto. }
    constructor.
    - replace (l1 ++ prev :: next :: l2) with ((l1 ++ [prev]) ++ next :: l2) by (rewrite <- app_assoc; auto).
      replace (l1 ++ prev :: b :: next :: l2) with ((l1 ++ [prev]) ++ b :: next :: l2) in Hs by (rewrite <- app_assoc; auto).
      eapply ssorted_delete; eauto.
    - unfold links_after. pose proof (nodup_lremove m b Hk) as N1.
      destruct (option_map _ (lget (lremove m b) next)); destruct (option_map _ (lget (lremove m b) prev));
        repeat apply nodup_linsert; auto.
    - intros x y z Hxy Hyz. apply WD in Hxy, Hyz. rewrite Get.
      destruct (Nat.eqb_spec prev y) as [<-|Hy1].
      + destruct Hxy as [[-> E]|(Hxy & ? & ?)]; [congruence|].
        rewrite (Gp _ Hxy). destruct Hyz as [[_ ->]|(Hyz & ? & ?)]; auto.
        assert (z = b) by (eapply Fr; eauto). congruence.
      + destruct (Nat.eqb_spec next y) as [<-|Hy2].
        * destruct Hyz as [[E ->]|(Hyz & ? & ?)]; [congruence|].
          rewrite (Gn _ Hyz). destruct Hxy as [[-> _]|(Hxy & ? & ?)]; auto.
          assert (x = b) by (eapply Fl; eauto). congruence.
        * destruct Hxy as [[_ ?]|(Hxy & ? & ?)]; [congruence|].
          destruct Hyz as [[? _]|(Hyz & ? & ?)]; [congruence|].
          destruct (Nat.eqb_spec b y); [congruence|]. apply Hg; auto.
    - intros y v. rewrite Get.
      destruct (Nat.eqb_spec prev y) as [<-|Hy1].
      + destruct (lget (lremove m b) prev) as [[[pp pq] pa]|] eqn:E; [|discriminate]. intros _.
        destruct (Gp' _ eq_refl) as (pp' & H). exists pp', next. rewrite !WD. split; [right|left; auto].
        repeat split; auto. intros ->. assert (prev = next) by (eapply Fr; eauto). congruence.
      + destruct (Nat.eqb_spec next y) as [<-|Hy2].
        * destruct (lget (lremove m b) next) as [[[np nn] na]|] eqn:E; [|discriminate]. intros _.
          destruct (Gn' _ eq_refl) as (nn' & H). exists prev, nn'. rewrite !WD. split; [left; auto|right].
          repeat split; auto. intros ->. assert (next = prev) by (eapply Fl; eauto). congruence.
        * destruct (Nat.eqb_spec b y) as [|Hy3]; [discriminate|].
          intros (a & c & H1 & H2)%Hi. exists a, c. rewrite !WD. split; right; repeat split; auto.
          -- intros ->. assert (y = next) by (eapply Fr; eauto). congruence.
          -- intros ->. assert (y = prev) by (eapply Fl; eauto). congruence.
  Qed.

  Lemma LInv_lget_split path m b prev next a : LInv path m -> lget m b = Some (prev, next, a) ->
    (exists l1 l2, path = l1 ++ prev :: b :: next :: l2) /\ a = ar prev b next.
  Proof.
    intros [Hs Hk Hg Hi] E. destruct (Hi _ _ E) as (x & y & H1 & H2).
    pose proof (Hg _ _ _ H1 H2) as E'. rewrite E in E'. injection E' as -> -> ->.
    split; auto. apply triple_split; auto. apply ssorted_nodup; auto.
  Qed.

  Lemma HInv_delete l1 prev b next l2 m (h h1 : list (@entry S)) :
    LInv (l1 ++ prev :: b :: next :: l2) m ->
    HInv (l1 ++ prev :: b :: next :: l2) h ->
    (forall e, In e h -> snd e <> b -> In e h1) ->
    HInv (l1 ++ prev :: next :: l2) (h1 ++ pushed (lremove m b) prev next).
  Proof.
    intros L H Hh. pose proof (LInv_delete _ _ _ _ _ _ L) as L'. destruct L as [Hs Hk Hg Hi].
    pose proof (ssorted_nodup _ Hs) as N.
    assert (WD := fun x y => windows_delete l1 prev b next l2 x y N).
    pose proof (triple_windows l1 prev b next l2) as [Wpb Wbn].
    intros x y z Hxy Hyz. apply WD in Hxy, Hyz. apply in_app_iff.
    destruct Hxy as [[-> ->]|(Hxy & Hx1 & Hy1)].
    - destruct Hyz as [[E _]|(Hyz & Hx2 & Hy2)].
      + exfalso. rewrite ssorted_app in Hs. destruct Hs as (_ & Hs & _).
        inversion Hs as [|? ? A B]; subst. rewrite Forall_forall in B. specialize (B prev).
        cbn [In] in B. specialize (B (or_intror (or_introl eq_refl))). lia.
      + right. unfold pushed. rewrite lget_lremove. destruct (Nat.eqb_spec b next); [congruence|].
        rewrite (Hg _ _ _ Wbn Hyz). simpl. left; auto.
    - destruct Hyz as [[-> ->]|(Hyz & Hx2 & Hy2)].
      + right. unfold pushed. apply in_app_iff. right. rewrite (lget_lremove m b prev).
        destruct (Nat.eqb_spec b prev); [congruence|]. rewrite (Hg _ _ _ Hxy Wpb). simpl. left; auto.
      + left. apply Hh; auto.
  Qed.

  (* greedy steps on index paths *)
  Definition istep (p q : list nat) : Prop :=
    exists l1 a b c l2, p = l1 ++ a :: b :: c :: l2 /\ q = l1 ++ a :: c :: l2 /\
      forall a' b' c', In (a', b') (windows p) -> In (b', c') (windows p) -> sltb (ar a' b' c') (ar a b c) = false.
  Inductive isteps : nat -> list nat -> list nat -> Prop :=
  | is_done p : isteps 0 p p
  | is_more k p q r : istep p q -> isteps k q r -> isteps (Datatypes.S k) p r.

  Lemma istep_points p q : istep p q -> vw_step area (map gp p) (map gp q).
  Proof.
    intros (l1 & a & b & c & l2 & -> & -> & Hm).
    exists (map gp l1), (gp a), (gp b), (gp c), (map gp l2). rewrite !map_app. split; [reflexivity|].
    split; [reflexivity|]. intros l1' a' b' c' l2' E. rewrite <- map_app in E.
    apply map_eq_app in E as (u & v & E & <- & E2).
    destruct v as [|ia [|ib [|ic v]]]; try discriminate. injection E2 as <- <- <- _.
    pose proof (triple_windows u ia ib ic v) as [W1 W2]. rewrite E in Hm. apply (Hm ia ib ic W1 W2).
  Qed.
  Lemma isteps_points k p q : isteps k p q -> vw_steps area k (map gp p) (map gp q).
  Proof. induction 1; econstructor; eauto. apply istep_points; auto. Qed.

  (* unconditional part: whatever the heap does, if the loop returns then the links describe a path
     with the same ends that is a subsequence of the initial one *)
  Lemma in_path_prev l1 prev b next (l2 : list nat) x ps z :
    l1 ++ prev :: b :: next :: l2 = x :: ps ++ [z] -> exists ps', l1 ++ prev :: next :: l2 = x :: ps' ++ [z] /\
      length ps = Datatypes.S (length ps') /\ subseq ps' ps.
  Proof.
    intros E.
    destruct (exists_last (l := next :: l2)) as (r & w & Er); [congruence|].
    rewrite Er in *.
    destruct l1 as [|y l1]; simpl in E; injection E as -> E.
    - change (b :: r ++ [w]) with ((b :: r) ++ [w]) in E. apply app_inj_tail in E as [<- ->].
      exists r. split; [reflexivity|]. split; auto. constructor. apply subseq_refl.
    - replace (l1 ++ prev :: b :: r ++ [w]) with ((l1 ++ prev :: b :: r) ++ [w]) in E by (rewrite <- app_assoc; auto).
      apply app_inj_tail in E as [<- ->]. exists (l1 ++ prev :: r). split; [simpl; rewrite <- app_assoc; auto|].
      split; [rewrite !app_length; simpl; lia|]. apply subseq_app; [apply subseq_refl|]. constructor. constructor. apply subseq_refl.
  Qed.

  Lemma mid_lt path l1 prev b next l2 z : path = l1 ++ prev :: b :: next :: l2 -> StronglySorted lt path ->
    (forall i, In i path -> i <= z) -> prev < b /\ b < next /\ next <= z.
  Proof.
    intros -> Hs Hz. rewrite ssorted_app in Hs. destruct Hs as (_ & Hs & _).
    inversion Hs as [|? ? A B]; subst. inversion A as [|? ? A' B']; subst.
    inversion B as [|? ? C1 C2]; subst. inversion B' as [|? ? C5 C6]; subst. repeat split; auto.
    apply Hz, in_app_iff. right. right. right. left. auto.
  Qed.

  Lemma loop_sound stop2 pick k : forall fuel h m deleted x ps z m',
    LInv (x :: ps ++ [z]) m -> (forall i, In i (x :: ps ++ [z]) -> i <= n) ->
    vw_loop area stop2 pick fuel line k h m deleted = Val m' ->
    exists ps', LInv (x :: ps' ++ [z]) m' /\ subseq ps' ps.
  Proof.
    induction fuel as [|fuel IH]; intros h m deleted x ps z m' L Hn; [discriminate|]. cbn [vw_loop].
    destruct (_ || _ || _)%bool.
    { intros E; injection E as <-. exists ps. split; auto. apply subseq_refl. }
    intros E. apply obind_val in E as ([[[key i] h1]|] & Ep & E); [|eapply IH; eauto].
    cbn [fst snd] in E. destruct (lget m i) as [[[prev next] a]|] eqn:Eg; [|eapply IH; eauto].
    destruct (negb (seqb key a)); [eapply IH; eauto|].
    apply obind_val in E as ([h2 m2] & Er & E). cbn [fst snd] in E.
    destruct (LInv_lget_split _ _ _ _ _ _ L Eg) as ((l1 & l2 & Epath) & ->).
    pose proof (mid_lt _ _ _ _ _ _ n Epath (li_sorted _ _ L) Hn) as (M1 & M2 & M3).
    destruct (in_path_prev _ _ _ _ _ _ _ _ (eq_sym Epath)) as (ps' & E' & Hl & Hsub).
    rewrite Epath in L.
    apply relink_val in Er as [-> ->].
    - pose proof (LInv_delete _ _ _ _ _ _ L) as L'. rewrite E' in L'.
      assert (Hn' : forall j, In j (x :: ps' ++ [z]) -> j <= n).
      { intros j Hj. rewrite <- E' in Hj. apply Hn. rewrite Epath. rewrite in_app_iff in *. simpl in *. tauto. }
      destruct (IH _ _ _ _ _ _ _ L' Hn' E) as (ps2 & L2 & Hs2).
      exists ps2. split; auto. eapply subseq_trans; eauto.
    - lia.
    - intros pp. rewrite lget_lremove. destruct (Nat.eqb i prev); [discriminate|].
      destruct (lget m prev) as [[[q1 q2] q3]|] eqn:Eq; [|discriminate]. simpl. intros Q; injection Q as <-.
      destruct (LInv_lget_split _ _ _ _ _ _ L Eq) as ((l3 & l4 & Ep') & _).
      rewrite Epath in Hn. pose proof (mid_lt _ _ _ _ _ _ n Ep' (li_sorted _ _ L) Hn). lia.
  Qed.

  (* ---- totality and greediness under the order laws ---- *)
  Context (D : F -> Prop) (HO : OrdOn S D) (HD : forall a b c, In a line -> In b line -> In c line -> D (area a b c)).

  Lemma D_ar i j k : n <> 0 -> D (ar i j k).
  Proof.
    intros Hn. apply HD; unfold gp; apply nth_In; apply Nat.mod_upper_bound; auto.
  Qed.
  Lemma spcmp_some a b : D a -> D b -> spcmp a b <> None.
  Proof.
    intros Da Db. unfold spcmp. destruct (sltb a b) eqn:E1; [congruence|].
    rewrite (ord_eqb _ _ HO) by auto. rewrite E1. destruct (sltb b a) eqn:E2; simpl; congruence.
  Qed.
  Lemma heap_push_ok (h : list (@entry S)) e : Forall (fun e => D (fst e)) h -> D (fst e) -> heap_push h e = Val (h ++ [e]).
  Proof.
    intros Hh De. unfold heap_push. match goal with |- (if ?x then _ else _) = _ => destruct x eqn:E end; auto.
    apply existsb_exists in E as (x & Hx & E). rewrite Forall_forall in Hh.
    pose proof (spcmp_some _ _ (Hh _ Hx) De). destruct (spcmp (fst x) (fst e)); congruence.
  Qed.
  Lemma relink_ok h m prev next : n <> 0 -> Forall (fun e => D (fst e)) h ->
    prev < n -> (forall pp, option_map (fun l => fst (fst l)) (lget m prev) = Some pp -> pp < n) ->
    vw_relink area line h m prev next = Val (h ++ pushed m prev next, links_after m prev next) /\
    Forall (fun e => D (fst e)) (h ++ pushed m prev next) /\ length (pushed m prev next) <= 2.
  Proof.
    intros Hn Hh Hp Hpp. unfold vw_relink, pushed, links_after.
    destruct (option_map _ (lget m next)) as [nn|] eqn:En;
      destruct (option_map _ (lget m prev)) as [pp|] eqn:Ep;
      try (specialize (Hpp _ eq_refl)); try rewrite !areaM_ar by auto;
      try rewrite !areaM_ar2 by auto; cbn [obind app length].
    - rewrite heap_push_ok by (auto; apply D_ar; auto). cbn [obind].
      rewrite heap_push_ok; [|apply Forall_app; split; auto; constructor; auto; apply D_ar; auto|apply D_ar; auto].
      cbn [obind]. rewrite <- app_assoc. repeat split; auto.
      apply Forall_app; split; auto. repeat constructor; apply D_ar; auto.
    - rewrite heap_push_ok by (auto; apply D_ar; auto). cbn [obind]. repeat split; auto.
      apply Forall_app; split; auto. repeat constructor; apply D_ar; auto.
    - rewrite heap_push_ok by (auto; apply D_ar; auto). cbn [obind]. repeat split; auto.
      apply Forall_app; split; auto. repeat constructor; apply D_ar; auto.
    - rewrite app_nil_r. repeat split; auto.
  Qed.

  Lemma remove_nth_other {A} (h : list A) i e x : nth_error h i = Some e -> In x h -> x <> e -> In x (remove_nth i h).
  Proof.
    revert i; induction h as [|y h IH]; intros [|i] E Hx Hne; simpl in *; try discriminate.
    - injection E as ->. destruct Hx; congruence || auto.
    - destruct Hx as [<-|Hx]; [left; auto|right; eauto].
  Qed.
  Lemma remove_nth_length {A} (h : list A) i e : nth_error h i = Some e -> length h = Datatypes.S (length (remove_nth i h)).
  Proof. revert i; induction h as [|y h IH]; intros [|i] E; simpl in *; try discriminate; eauto. Qed.
  Lemma remove_nth_incl {A} (h : list A) i x : In x (remove_nth i h) -> In x h.
  Proof. revert i; induction h as [|y h IH]; intros [|i] E; simpl in *; auto. destruct E; eauto. Qed.

  Lemma heap_pop_some (pk : list (@entry S) -> nat) h e : nth_error h (pk h) = Some e ->
    heap_pop pk h = Val (Some (e, remove_nth (pk h) h)).
  Proof. unfold heap_pop. destruct h; [destruct (pk []); discriminate|]. intros ->. reflexivity. Qed.

  (* number of vertices that may still go *)
  Definition avail (stop2 : bool) (len : nat) : nat := if stop2 then (if Nat.leb 2 len then len - 2 else len) else len.

  Lemma loop_total stop2 pick k : pops_smallest D pick -> n <> 0 -> forall fuel h m deleted x ps z,
    LInv (x :: ps ++ [z]) m -> HInv (x :: ps ++ [z]) h -> Forall (fun e => D (fst e)) h ->
    (forall i, In i (x :: ps ++ [z]) -> i <= n) -> deleted <= k ->
    length h + 2 * length ps < fuel ->
    exists m' ps' j, vw_loop area stop2 pick fuel line k h m deleted = Val m' /\ LInv (x :: ps' ++ [z]) m' /\
      isteps j (x :: ps ++ [z]) (x :: ps' ++ [z]) /\ j = Nat.min (k - deleted) (avail stop2 (length ps)).
  Proof.
    intros Hpick Hn0. induction fuel as [|fuel IH]; intros h m deleted x ps z L H Hh Hn Hk Hf; [lia|].
    cbn [vw_loop]. pose proof (LInv_keys _ _ _ _ L) as [_ Hlen].
    destruct (_ || _ || _)%bool eqn:Estop.
    - exists m, ps, 0. repeat split; try apply L; auto; [constructor|].
      apply orb_true_iff in Estop as [Estop|Estop]; [apply orb_true_iff in Estop as [Estop|Estop]|].
      + destruct h; [|discriminate]. assert (ps = []) as ->.
        { destruct ps as [|p ps]; auto. exfalso. pose proof (ssorted_nodup _ (li_sorted _ _ L)) as N.
          destruct (proj1 (interior_iff x z p (p :: ps) N) (or_introl eq_refl)) as (a & c & H1 & H2).
          destruct (H _ _ _ H1 H2). }
        unfold avail; destruct stop2; simpl; lia.
      + apply andb_true_iff in Estop as [-> E2]. apply Nat.eqb_eq in E2. unfold avail. rewrite <- Hlen, E2. simpl. lia.
      + apply Nat.leb_le in Estop. lia.
    - apply orb_false_iff in Estop as [Estop E3]. apply orb_false_iff in Estop as [E1 E2].
      apply Nat.leb_gt in E3.
      assert (Hne : h <> []) by (destruct h; congruence).
      destruct (Hpick fuel h Hne Hh) as ([key i] & En & Hmin).
      rewrite (heap_pop_some _ _ _ En). cbn [obind fst snd].
      set (h1 := remove_nth (pick fuel h) h) in *.
      pose proof (remove_nth_length (A := @entry S) _ _ _ En) as Hl1. fold h1 in Hl1.
      assert (Hh1 : Forall (fun e => D (fst e)) h1).
      { apply Forall_forall. intros e He. apply remove_nth_incl in He. rewrite Forall_forall in Hh. auto. }
      assert (Dkey : D key). { rewrite Forall_forall in Hh. apply (Hh (key, i)). eapply nth_error_In; eauto. }
      destruct (lget m i) as [[[prev next] a]|] eqn:Eg.
      2:{ apply IH; auto; [|lia]. intros u v w H1 H2. eapply remove_nth_other; eauto.
          intros E. injection E as E E'. subst v. rewrite (li_get _ _ L _ _ _ H1 H2) in Eg. discriminate. }
      destruct (LInv_lget_split _ _ _ _ _ _ L Eg) as ((l1 & l2 & Epath) & ->).
      destruct (negb (seqb key (ar prev i next))) eqn:Eneq.
      { apply IH; auto; [|lia]. intros u v w H1 H2. eapply remove_nth_other; eauto.
        intros E. injection E as E E'. subst v. rewrite (li_get _ _ L _ _ _ H1 H2) in Eg. injection Eg as -> -> _.
        rewrite E in Eneq. rewrite (ord_eqb _ _ HO), !(ord_irrefl _ _ HO) in Eneq by auto. discriminate. }
      assert (Keq : sltb key (ar prev i next) = false /\ sltb (ar prev i next) key = false).
      { rewrite (ord_eqb _ _ HO) in Eneq by (auto; apply D_ar; auto).
        destruct (sltb key (ar prev i next)), (sltb (ar prev i next) key); simpl in *; auto; discriminate. }
      pose proof (mid_lt _ _ _ _ _ _ n Epath (li_sorted _ _ L) Hn) as (M1 & M2 & M3).
      destruct (in_path_prev _ _ _ _ _ _ _ _ (eq_sym Epath)) as (ps' & E' & Hl & Hsub).
      pose proof L as L0. rewrite Epath in L, H.
      destruct (relink_ok h1 (lremove m i) prev next) as (Er & Hh2 & Hl2); auto; [lia| |].
      { intros pp. rewrite lget_lremove. destruct (Nat.eqb i prev); [discriminate|].
        destruct (lget m prev) as [[[q1 q2] q3]|] eqn:Eq; [|discriminate]. simpl. intros Q; injection Q as <-.
        destruct (LInv_lget_split _ _ _ _ _ _ L Eq) as ((l3 & l4 & Ep') & _).
        rewrite Epath in Hn. pose proof (mid_lt _ _ _ _ _ _ n Ep' (li_sorted _ _ L) Hn). lia. }
      rewrite Er. cbn [obind fst snd].
      pose proof (LInv_delete _ _ _ _ _ _ L) as L'. rewrite E' in L'.
      assert (H' := HInv_delete _ _ _ _ _ m h h1 L H). rewrite E' in H'.
      destruct (IH (h1 ++ pushed (lremove m i) prev next) (links_after (lremove m i) prev next) (deleted + 1) x ps' z)
        as (m' & ps2 & j & R1 & R2 & R3 & R4); auto.
      + apply H'. intros e He Hne2. eapply remove_nth_other; eauto. intros ->. apply Hne2. reflexivity.
      + intros j Hj. rewrite <- E' in Hj. apply Hn. rewrite Epath. rewrite in_app_iff in *. simpl in *. tauto.
      + lia.
      + rewrite app_length. lia.
      + exists m', ps2, (Datatypes.S j). repeat split; try apply R2; auto.
        * econstructor; [|exact R3]. rewrite <- E'. exists l1, prev, i, next, l2. repeat split; auto.
          intros u v w H1 H2.
          rewrite Epath in H1, H2.
          pose proof (Hmin _ (H _ _ _ H1 H2)) as Hm. cbn [fst] in Hm.
          eapply (ord_neg_trans _ _ HO); [| | |exact Hm|apply Keq]; auto; apply D_ar; auto.
        * rewrite R4, Hl. apply andb_false_iff in E2. rewrite Hlen in E2. unfold avail. clear - Hl E2 E3.
          destruct stop2; simpl in *.
          -- destruct E2 as [|E2]; [discriminate|]. rewrite Hl in E2. apply Nat.eqb_neq in E2.
             destruct ps' as [|p ps']; simpl in *; [lia|]. destruct ps'; simpl in *; lia.
          -- lia.
  Qed.
End Loop.
