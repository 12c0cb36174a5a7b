(* The decomposition into maximal chains is unique up to direction, start of closed chains, and order (C115). *)
From Coq Require Import Sorting.Permutation.
From Verif Require Import Prelude Shape ShapeSpec ShapeProofs ShapeProofs2 ShapeProofs3.

Lemma windows_split {A} (l : list A) x r : windows (l ++ x :: r) = windows (l ++ [x]) ++ windows (x :: r).
Proof. destruct r as [|y r]; [rewrite app_nil_r; auto|]. apply windows_app. Qed.
Lemma windows_rev {A} (l : list A) : windows (rev l) = rev (map (fun e => (snd e, fst e)) (windows l)).
Proof.
  induction l as [|a [|b l] IH]; auto. cbn [rev] in *. rewrite <- app_assoc. cbn [app windows map rev fst snd]. rewrite windows_snoc, IH. auto.
Qed.
Lemma in_windows_split {A} (l : list A) a b : In (a, b) (windows l) -> exists p r, l = p ++ a :: b :: r.
Proof.
  induction l as [|x [|y l] IH]; cbn; try tauto. intros [E|H].
  - injection E as -> ->. exists [], l. auto.
  - destruct (IH H) as (p & r & E). exists (x :: p), r. cbn. rewrite E. auto.
Qed.
Lemma und_swap e : undirected (snd e, fst e) = undirected e.
Proof. destruct e as [a b]. apply und_eq. cbn. auto. Qed.

Section U.
  Context (i : list nat) (Hlf : loop_free i).
  Notation two := (two_neighbours i).
  Lemma edge_sym a b : edge i a b -> edge i b a.
  Proof. unfold edge. tauto. Qed.
  Lemma edge_ne a b : edge i a b -> a <> b.
  Proof. intros [H|H] ->; apply (Hlf b); auto. Qed.

  Lemma two_dec v : {two v} + {~ two v}.
  Proof.
    set (N := nodup Nat.eq_dec (flat_map (fun e => (if Nat.eqb (fst e) v then [snd e] else []) ++ (if Nat.eqb (snd e) v then [fst e] else [])) (chunks2 i))).
    assert (HN : forall w, In w N <-> edge i v w).
    { intros w. unfold N. rewrite nodup_In, in_flat_map. unfold edge. split.
      - intros ([x y] & Hin & H). cbn [fst snd] in H. apply in_app_iff in H as [H|H].
        + destruct (Nat.eqb_spec x v) as [->|]; [|destruct H]. destruct H as [<-|[]]. auto.
        + destruct (Nat.eqb_spec y v) as [->|]; [|destruct H]. destruct H as [<-|[]]. auto.
      - intros [H|H]; [exists (v, w)|exists (w, v)]; (split; [auto|]); cbn [fst snd]; rewrite Nat.eqb_refl; apply in_app_iff; [left|right]; left; auto. }
    assert (Nn : NoDup N) by apply NoDup_nodup.
    destruct (Nat.eq_dec (length N) 2) as [E|E].
    - left. destruct N as [|a [|b [|]]]; cbn in E; try lia. exists a, b. split.
      + inversion Nn as [|? ? K]; subst. intros ->. apply K. left. auto.
      + intros w. rewrite <- HN. cbn. split; [intros [<-|[<-|[]]]; auto|intros [->| ->]; auto].
    - right. intros (a & b & Hab & H). apply E. change 2 with (length [a; b]). apply Permutation_length. apply NoDup_Permutation; auto.
      + constructor; [intros [K|[]]; congruence|]. constructor; [intros []|constructor].
      + intros w. rewrite HN, H. cbn. split; [intros [->| ->]; auto|intros [<-|[<-|[]]]; auto].
  Qed.

  (* a walk along edges without turning round, whose inner vertices have two neighbours *)
  Inductive walk : list nat -> Prop :=
  | walk_two a b : edge i a b -> walk [a; b]
  | walk_more a b c l : edge i a b -> two b -> a <> c -> walk (b :: c :: l) -> walk (a :: b :: c :: l).
  Lemma walk_det : forall l m a b, walk (a :: b :: l) -> walk (a :: b :: m) -> length l = length m -> l = m.
  Proof.
    induction l as [|c l IH]; intros [|d m] a b H1 H2 Hl; cbn in Hl; try lia; auto.
    inversion H1 as [|? ? ? ? E1 T1 N1 W1]; subst. inversion H2 as [|? ? ? ? E2 T2 N2 W2]; subst.
    assert (c = d).
    { destruct T1 as (x & y & Hxy & T). assert (Ba : a = x \/ a = y) by (apply T, edge_sym; auto).
      assert (Bc : c = x \/ c = y) by (apply T; inversion W1; auto). assert (Bd : d = x \/ d = y) by (apply T; inversion W2; auto). lia. }
    subst d. f_equal. apply (IH m b c); auto.
  Qed.

  Definition chain (s : list nat) : Prop :=
    maximal_chain i s /\ (forall a b, In (a, b) (windows s) -> edge i a b) /\ NoDup (map undirected (windows s)).
  Lemma no_turn l a b c r : NoDup (map undirected (windows (l ++ a :: b :: c :: r))) -> a <> c.
  Proof.
    rewrite windows_app. cbn [windows]. rewrite map_app. intros H ->. apply NoDup_remove_2 in H || idtac.
    cbn [map] in H. assert (E : undirected (b, c) = undirected (c, b)) by (apply und_eq; auto). rewrite E in H.
    apply H. apply in_or_app. right. left. auto.
  Qed.
  Lemma walk_of s : 2 <= length s -> (forall l v r, s = l ++ v :: r -> l <> [] -> r <> [] -> two v) ->
    (forall a b, In (a, b) (windows s) -> edge i a b) -> NoDup (map undirected (windows s)) -> walk s.
  Proof.
    induction s as [|a [|b s] IH]; cbn [length]; intros Hl Ht He Hn; try lia.
    destruct s as [|c s].
    - constructor. apply He. left. auto.
    - constructor.
      + apply He. left. auto.
      + apply (Ht [a] b (c :: s)); [auto|discriminate|discriminate].
      + apply (no_turn [] a b c s). exact Hn.
      + apply IH; [cbn; lia| | |].
        * intros l v r E Hl' Hr. apply (Ht (a :: l) v r); [cbn; rewrite <- E; auto|discriminate|auto].
        * intros x y Hxy. apply He. right. auto.
        * cbn in Hn. inversion Hn; auto.
  Qed.
  Lemma chain_walk s : chain s -> walk s.
  Proof. intros ((Hl & Ht & _) & He & Hn). apply walk_of; auto. Qed.
  Lemma chain_rev s : chain s -> chain (rev s).
  Proof.
    intros ((Hl & Ht & a & b & mid & E & Hab) & He & Hn). split; [split; [rewrite rev_length; auto|split]|split].
    - intros l v r E' Hl' Hr'. apply (f_equal (@rev nat)) in E'. rewrite rev_involutive, rev_app_distr in E'. cbn [rev] in E'. rewrite <- app_assoc in E'.
      apply (Ht (rev r) v (rev l)); auto; intros K; apply (f_equal (@rev nat)) in K; rewrite rev_involutive in K; auto.
    - exists b, a, (rev mid). split; [rewrite E; cbn [rev]; rewrite rev_app_distr; cbn; auto|]. destruct Hab as [->|[H1 H2]]; auto.
    - intros x y H. rewrite windows_rev in H. apply in_rev in H. apply in_map_iff in H as ([p q] & E' & H). injection E' as <- <-. apply edge_sym. auto.
    - rewrite windows_rev, map_rev, map_map. apply NoDup_rev. rewrite (map_ext _ undirected); auto. intros e. apply und_swap.
  Qed.
  Lemma rev_edges s e : In e (map undirected (windows (rev s))) <-> In e (map undirected (windows s)).
  Proof. rewrite windows_rev, map_rev, <- in_rev, map_map. rewrite (map_ext _ undirected); [tauto|]. intros x. apply und_swap. Qed.
  (* a closed chain all of whose vertices have two neighbours can be begun anywhere *)
  Lemma chain_rot v w p q : two v -> chain (v :: p ++ w :: q ++ [v]) -> chain (w :: q ++ v :: p ++ [w]).
  Proof.
    intros Hv ((Hl & Ht & _) & He & Hn).
    assert (Hall : forall x, In x (v :: p ++ w :: q ++ [v]) -> two x).
    { assert (E0 : p ++ w :: q ++ [v] = (p ++ w :: q) ++ [v]) by (rewrite <- app_assoc; auto).
      intros x Hx. destruct Hx as [<-|Hx]; auto. rewrite E0 in Hx. apply in_app_iff in Hx as [Hx|[<-|[]]]; auto.
      apply in_split in Hx as (l1 & l2 & E). apply (Ht (v :: l1) x (l2 ++ [v])); [|discriminate|destruct l2; discriminate].
      rewrite E0, E, <- app_assoc. auto. }
    assert (Ew1 : windows (v :: p ++ w :: q ++ [v]) = windows (v :: p ++ [w]) ++ windows (w :: q ++ [v])).
    { rewrite app_comm_cons, windows_split. auto. }
    assert (Ew2 : windows (w :: q ++ v :: p ++ [w]) = windows (w :: q ++ [v]) ++ windows (v :: p ++ [w])).
    { rewrite app_comm_cons, windows_split. auto. }
    split; [split; [cbn; rewrite app_length; cbn; lia|split]|split].
    - intros l x r E _ _. apply Hall. assert (Hx : In x (w :: q ++ v :: p ++ [w])) by (rewrite E; apply in_or_app; right; left; auto).
      cbn in *. rewrite in_app_iff in *. cbn in *. rewrite in_app_iff in *. cbn in *. tauto.
    - exists w, w, (q ++ v :: p). split; [cbn; rewrite <- app_assoc; auto|auto].
    - intros a b H. apply He. rewrite Ew2 in H. rewrite Ew1. apply in_app_iff. apply in_app_iff in H. tauto.
    - rewrite Ew2, map_app. rewrite Ew1, map_app in Hn. eapply Permutation_NoDup; [apply Permutation_app_comm|exact Hn].
  Qed.
  Lemma rot_edges v w p q e : In e (map undirected (windows (w :: q ++ v :: p ++ [w]))) <-> In e (map undirected (windows (v :: p ++ w :: q ++ [v]))).
  Proof.
    change (w :: q ++ v :: p ++ [w]) with ((w :: q) ++ v :: p ++ [w]). change (v :: p ++ w :: q ++ [v]) with ((v :: p) ++ w :: q ++ [v]).
    rewrite (windows_split (w :: q) v (p ++ [w])), (windows_split (v :: p) w (q ++ [v])), !map_app, !in_app_iff. cbn [app]. tauto.
  Qed.

  (* vertices that do not have exactly two neighbours occur only at the ends *)
  Lemma end_only l a r : chain (l ++ a :: r) -> ~ two a -> l = [] \/ r = [].
  Proof. intros ((_ & Ht & _) & _) Ha. destruct l as [|x l]; auto. destruct r as [|y r]; auto. exfalso. apply Ha. apply (Ht (x :: l) a (y :: r)); auto; discriminate. Qed.
  Definition same_edges (s t : list nat) : Prop := forall e, In e (map undirected (windows s)) <-> In e (map undirected (windows t)).
  Lemma same_length s t : chain s -> chain t -> same_edges s t -> length s = length t.
  Proof.
    intros ((Hs & _) & _ & Ns) ((Ht & _) & _ & Nt) H. assert (P : Permutation (map undirected (windows s)) (map undirected (windows t))) by (apply NoDup_Permutation; auto).
    apply Permutation_length in P. rewrite !map_length, !windows_length in P. lia.
  Qed.
  Lemma from_start s' t' a b : chain (a :: b :: s') -> chain (a :: b :: t') -> same_edges (a :: b :: s') (a :: b :: t') -> a :: b :: s' = a :: b :: t'.
  Proof.
    intros Hs Ht He. assert (L := same_length _ _ Hs Ht He). cbn in L. do 2 f_equal.
    apply (walk_det s' t' a b); [apply chain_walk; auto|apply chain_walk; auto|lia].
  Qed.
  (* either the chain starts at a vertex without exactly two neighbours, or it is a closed chain of such vertices *)
  Lemma start_case a s : chain (a :: s) -> two a -> exists mid, s = mid ++ [a] /\ forall x, In x (a :: s) -> two x.
  Proof.
    intros ((_ & Ht & x & y & mid & E & H) & _) Ha. injection E as <- ->. destruct H as [<-|[H _]]; [|contradiction]. exists mid. split; auto.
    intros z [<-|Hz]; auto. apply in_app_iff in Hz as [Hz|[<-|[]]]; auto. apply in_split in Hz as (l1 & l2 & ->).
    apply (Ht (a :: l1) z (l2 ++ [a])); [cbn; rewrite <- app_assoc; auto|discriminate|destruct l2; discriminate].
  Qed.
  Lemma unique_end a b s t : chain (a :: b :: s) -> chain t -> same_edges (a :: b :: s) t -> ~ two a -> t = a :: b :: s \/ rev t = a :: b :: s.
  Proof.
    intros Hs Ht He Ha. assert (Hin : In (undirected (a, b)) (map undirected (windows t))) by (apply He; left; auto).
    apply in_und_windows in Hin as [H|H]; apply in_windows_split in H as (l & r & E); subst t.
    - destruct (end_only l a (b :: r) Ht Ha) as [->|K]; [|discriminate]. left. cbn in *. symmetry. apply from_start; auto.
    - assert (K : l ++ [b] = [] \/ r = []) by (apply (end_only (l ++ [b]) a r); [rewrite <- app_assoc; auto|auto]).
      destruct K as [K| ->]; [destruct l; discriminate|]. right.
      assert (Er : rev (l ++ [b; a]) = a :: b :: rev l) by (rewrite rev_app_distr; auto). rewrite Er. symmetry.
      apply from_start; auto; [rewrite <- Er; apply chain_rev; auto|]. intros e. rewrite (He e), <- Er, rev_edges. tauto.
  Qed.
  Lemma unique_two a b s t : chain (a :: b :: s) -> chain t -> same_edges (a :: b :: s) t -> two a -> In (a, b) (windows t) -> rotation (a :: b :: s) t.
  Proof.
    intros Hs Ht He Ha Hin. apply in_windows_split in Hin as (l & r & E). destruct l as [|c l].
    - subst t. left. apply from_start; auto.
    - cbn in E. assert (Hc : two c).
      { destruct (start_case a (b :: s) Hs Ha) as (mid & _ & Hall). 
        assert (Dc : two c \/ ~ two c) by (destruct (two_dec c); auto). destruct Dc as [Dc|Dc]; auto. exfalso.
        destruct t as [|c' [|d t']]; [discriminate|destruct l; discriminate|]. injection E as -> E.
        destruct (unique_end c d t' (a :: b :: s)) as [K|K]; auto.
        - intros e. rewrite (He e). tauto.
        - apply Dc, Hall. rewrite K. left. auto.
        - apply Dc, Hall. apply in_rev. rewrite K. left. auto. }
      subst t. destruct (start_case c (l ++ a :: b :: r) Ht Hc) as (mid & E & _).
      destruct (@exists_last _ (b :: r)) as (q & z & Eq); [discriminate|].
      assert (z = c /\ mid = l ++ a :: q).
      { rewrite Eq in E. replace (l ++ a :: q ++ [z]) with ((l ++ a :: q) ++ [z]) in E by (rewrite <- app_assoc; auto). apply app_inj_tail in E as [E1 E2]. auto. }
      destruct H as [-> ->]. rewrite Eq in *. right. exists a, c, q, l. split; [|auto].
      assert (Hrot : chain (a :: q ++ c :: l ++ [a])) by (apply (chain_rot c a l q); auto).
      assert (Eb : exists m, a :: q ++ c :: l ++ [a] = a :: b :: m).
      { destruct q as [|q0 q]; cbn in Eq; injection Eq as -> _; cbn; eauto. }
      destruct Eb as (m & Em). rewrite Em in *. apply from_start; auto. intros e. rewrite (He e), <- Em. symmetry. apply rot_edges.
  Qed.
  Theorem chain_unique s t : chain s -> chain t -> same_edges s t -> same_chain s t.
  Proof.
    intros Hs Ht He. assert (L := proj1 (proj1 Hs)). destruct s as [|a [|b s]]; cbn in L; try lia. destruct (two_dec a) as [Ha|Ha].
    - assert (Hin : In (undirected (a, b)) (map undirected (windows t))) by (apply He; left; auto).
      apply in_und_windows in Hin as [H|H]; [left; apply unique_two; auto|right]. apply unique_two; auto.
      + apply chain_rev; auto.
      + intros e. rewrite (He e), rev_edges. tauto.
      + rewrite windows_rev, <- in_rev. apply in_map_iff. exists (b, a). auto.
    - destruct (unique_end a b s t Hs Ht He Ha) as [K|K]; [left|right]; left; auto.
  Qed.
  (* every edge that shares a two-neighbour vertex with an edge of a chain belongs to the chain *)
  Lemma chain_full s u v w : chain s -> In (undirected (u, v)) (map undirected (windows s)) -> two v -> edge i v w -> In (undirected (v, w)) (map undirected (windows s)).
  Proof.
    assert (G : forall s, chain s -> In (u, v) (windows s) -> two v -> edge i v w -> In (undirected (v, w)) (map undirected (windows s))).
    { clear s. intros s Hs H Hv Hw. apply in_windows_split in H as (l & r & E).
      assert (K : exists x, x <> u /\ edge i v x /\ In (undirected (v, x)) (map undirected (windows s))).
      { destruct r as [|x r].
        - destruct Hs as ((Hl & Ht & a & b & mid & E0 & Hab) & Hed & Hn).
          assert (E2 : l ++ [u; v] = a :: mid ++ [b]) by congruence. clear E0. subst s.
          assert (b = v) by (pose proof E2 as E0; change (a :: mid ++ [b]) with ((a :: mid) ++ [b]) in E0; replace (l ++ [u; v]) with ((l ++ [u]) ++ [v]) in E0 by (rewrite <- app_assoc; auto); apply app_inj_tail in E0 as [_ E0]; auto). subst b.
          destruct Hab as [->|[_ K]]; [|contradiction]. destruct l as [|v' l].
          + exfalso. cbn in E2. injection E2 as -> E3. destruct mid as [|? [|]]; try discriminate. cbn in *.
            assert (Euv : edge i v v) by (apply Hed; auto). apply (edge_ne v v Euv); auto.
          + cbn in E2. injection E2 as -> E3. destruct l as [|x l].
            * exfalso. cbn in Hn. inversion Hn as [|? ? K _]. apply K. left. apply und_eq. auto.
            * exists x. assert (Hvx : In (v, x) (windows (v :: x :: l ++ [u; v]))) by (left; auto). split; [|split; [apply Hed; auto|apply in_und_windows; auto]].
              intros ->. assert (Hn' : NoDup (undirected (v, u) :: map undirected (windows ((u :: l) ++ [u; v])))) by exact Hn. apply NoDup_cons_iff in Hn' as [K _]. apply K. rewrite windows_snoc, map_app, in_app_iff. right. left. apply und_eq. auto.
        - exists x. subst s. destruct Hs as (_ & Hed & Hn).
          assert (Hvx : In (v, x) (windows (l ++ u :: v :: x :: r))) by (apply windows_mid). split; [|split; [auto|apply in_und_windows; auto]].
          apply not_eq_sym. apply (no_turn l u v x r). auto. }
      destruct K as (x & Hxu & Hex & Hx). assert (Heu : edge i v u).
      { apply edge_sym. apply Hs. rewrite E, windows_app. apply in_or_app. right. left. auto. }
      destruct Hv as (p & q & Hpq & T). assert (Tu : u = p \/ u = q) by (apply T; auto). assert (Tx : x = p \/ x = q) by (apply T; auto).
      assert (Tw : w = p \/ w = q) by (apply T; auto). assert (D : w = u \/ w = x) by lia. destruct D as [->| ->]; auto.
      apply in_und_windows. right. rewrite E, windows_app. apply in_or_app. right. left. auto. }
    intros Hs H Hv Hw. apply in_und_windows in H as [H|H]; [apply G; auto|].
    apply rev_edges. apply G; auto; [apply chain_rev; auto|]. rewrite windows_rev, <- in_rev. apply in_map_iff. exists (v, u). auto.
  Qed.
  (* so a chain that shares one edge with another contains all its edges *)
  Lemma chain_absorbs s t a b : chain s -> chain t -> In (undirected (a, b)) (map undirected (windows s)) -> In (undirected (a, b)) (map undirected (windows t)) ->
    forall e, In e (map undirected (windows s)) -> In e (map undirected (windows t)).
  Proof.
    intros Hs Ht H1 H2. apply in_und_windows in H1.
    assert (G : forall s a b, chain s -> In (a, b) (windows s) -> In (undirected (a, b)) (map undirected (windows t)) ->
       forall r l, s = l ++ a :: b :: r -> forall e, In e (map undirected (windows (a :: b :: r))) -> In e (map undirected (windows t))).
    { clear s a b Hs H1 H2. intros s a b Hs _ H2 r. revert a b H2. induction r as [|c r IH]; intros a b H2 l E e He.
      - destruct He as [<-|[]]. auto.
      - destruct He as [<-|He]; auto. assert (Hb : two b).
        { apply (proj1 (proj2 (proj1 Hs)) (l ++ [a]) b (c :: r)); [rewrite <- app_assoc; auto|destruct l; discriminate|discriminate]. }
        apply (IH b c) with (l := l ++ [a]); auto; [|rewrite <- app_assoc; auto].
        apply (chain_full t a b c); auto. apply Hs. rewrite E. apply windows_mid. }
    assert (G2 : forall s a b, chain s -> In (a, b) (windows s) -> In (undirected (a, b)) (map undirected (windows t)) ->
       forall e, In e (map undirected (windows s)) -> In e (map undirected (windows t))).
    { clear s a b Hs H1 H2. intros s a b Hs H1 H2 e He. destruct (in_windows_split _ _ _ H1) as (l & r & E).
      assert (Er : rev s = rev r ++ b :: a :: rev l) by (rewrite E, rev_app_distr; cbn; rewrite <- !app_assoc; auto).
      assert (D : In e (map undirected (windows (a :: b :: r))) \/ In e (map undirected (windows (b :: a :: rev l)))).
      { rewrite E, windows_app, map_app, in_app_iff in He. destruct He as [He|He]; [right|left; exact He].
        assert (K : In e (map undirected (windows (rev (l ++ [a]))))) by (apply rev_edges; auto). rewrite rev_app_distr in K. cbn in K |- *. right. exact K. }
      destruct D as [D|D]; [apply (G s a b Hs H1 H2 r l E e D)|].
      apply (G (rev s) b a) with (r := rev l) (l := rev r); auto; [apply chain_rev; auto| |].
      - rewrite windows_rev, <- in_rev. apply in_map_iff. exists (a, b). auto.
      - replace (undirected (b, a)) with (undirected (a, b)) by (apply und_eq; auto). auto. }
    destruct H1 as [H1|H1]; [apply (G2 s a b); auto|apply (G2 s b a); auto].
    replace (undirected (b, a)) with (undirected (a, b)) by (apply und_eq; auto). auto.
  Qed.
End U.

Notation eset s := (map undirected (windows s)).
Lemma walked_app g h : walked (g ++ h) = walked g ++ walked h.
Proof. unfold walked. rewrite map_app, concat_app, map_app. auto. Qed.
Lemma walked_cons s h : walked (s :: h) = eset s ++ walked h.
Proof. unfold walked. cbn. rewrite map_app. auto. Qed.
Lemma in_walked_shape g e : In e (walked g) <-> exists s, In s g /\ In e (eset s).
Proof.
  induction g as [|s g IH]; [cbn; split; [tauto|intros (? & [] & _)]|]. rewrite walked_cons, in_app_iff, IH. cbn. split.
  - intros [H|(t & H1 & H2)]; eauto.
  - intros (t & [<-|H1] & H2); eauto.
Qed.
Lemma walked_apart p s q s' e : NoDup (walked (p ++ s :: q)) -> In s' (p ++ q) -> In e (eset s) -> In e (eset s') -> False.
Proof.
  rewrite walked_app, walked_cons. intros Hn Hs He He'.
  assert (P : Permutation (walked p ++ eset s ++ walked q) (eset s ++ walked (p ++ q))).
  { rewrite walked_app, !app_assoc. apply Permutation_app_tail, Permutation_app_comm. }
  apply (Permutation_NoDup P) in Hn. revert Hn He He' Hs. generalize (eset s). clear. intros l Hn He He' Hs.
  assert (Hw : In e (walked (p ++ q))) by (apply in_walked_shape; eauto).
  induction l as [|x l IH]; [destruct He|]. cbn in Hn. apply NoDup_cons_iff in Hn as [K Hn]. destruct He as [->|He]; [|auto].
  apply K, in_or_app. auto.
Qed.
Lemma walked_remove p s q : NoDup (walked (p ++ s :: q)) -> NoDup (walked (p ++ q)).
Proof.
  rewrite !walked_app, walked_cons. intros H. assert (P : Permutation (walked p ++ eset s ++ walked q) (eset s ++ (walked p ++ walked q))).
  { rewrite !app_assoc. apply Permutation_app_tail, Permutation_app_comm. }
  apply (Permutation_NoDup P) in H. revert H. generalize (eset s). clear. induction l as [|x l IH]; cbn; auto. intros H. apply NoDup_cons_iff in H. tauto.
Qed.
Lemma match_up : forall l1 l2, NoDup (walked l1) -> NoDup (walked l2) -> (forall s, In s (l1 ++ l2) -> 2 <= length s) ->
  (forall s, In s l1 -> exists t, In t l2 /\ same_edges s t) -> (forall t, In t l2 -> exists s, In s l1 /\ same_edges s t) ->
  exists l2', Permutation l2 l2' /\ Forall2 same_edges l1 l2'.
Proof.
  assert (Hne : forall s : list nat, 2 <= length s -> exists e, In e (eset s)).
  { intros [|a [|b s]] H; cbn in H; try lia. eexists. left. reflexivity. }
  induction l1 as [|s l1 IH]; intros l2 N1 N2 Hl H1 H2.
  - destruct l2 as [|t l2]; [exists []; auto|]. destruct (H2 t) as (s & [] & _). left; auto.
  - destruct (H1 s) as (t & Ht & E); [left; auto|]. apply in_split in Ht as (p & q & ->).
    destruct (IH (p ++ q)) as (l2' & P & F).
    + rewrite walked_cons in N1. clear -N1. induction (eset s) as [|x l IH]; cbn in *; auto. apply NoDup_cons_iff in N1. tauto.
    + apply walked_remove in N2. auto.
    + intros x Hx. apply Hl. rewrite in_app_iff in *. cbn. rewrite in_app_iff in *. cbn. tauto.
    + intros s' Hs'. destruct (H1 s') as (t' & Ht' & E'); [right; auto|]. exists t'. split; auto.
      apply in_app_iff in Ht' as [Ht'|[<-|Ht']]; [apply in_or_app; auto| |apply in_or_app; auto]. exfalso.
      destruct (Hne s') as (e & He); [apply Hl; apply in_or_app; left; right; auto|].
      apply (walked_apart [] s l1 s' e); auto. apply E, E'. auto.
    + intros t' Ht'. destruct (H2 t') as (s' & [<-|Hs'] & E'); [|exfalso|eauto].
      * apply in_app_iff. apply in_app_iff in Ht'. cbn. tauto.
      * destruct (Hne s) as (e & He); [apply Hl; apply in_or_app; left; left; auto|].
        apply (walked_apart p t q t' e); auto; [apply E; auto|apply E'; auto].
    + exists (t :: l2'). split; [|constructor; auto]. rewrite <- P. symmetry. apply Permutation_middle.
Qed.

Lemma divide_chains i shapes visited : loop_free i -> divide_into_shapes i = Val (shapes, visited) ->
  NoDup (walked shapes) /\ (forall s, In s shapes -> chain i s).
Proof.
  intros Hl E. destruct (divide_edges_once i shapes visited Hl E) as [Hn _]. split; auto. intros s Hs. split; [|split].
  - eapply divide_maximal; eauto.
  - intros a b H. exact (proj1 (divide_correct i shapes visited (fun a Hi => False_ind _ (Hl a Hi)) E) s a b Hs H).
  - apply in_split in Hs as (p & q & ->). rewrite walked_app, walked_cons in Hn. clear -Hn. induction (walked p) as [|x l IH]; cbn in *.
    + induction (eset s) as [|y m IH]; constructor; cbn in Hn; apply NoDup_cons_iff in Hn as [K Hn]; auto. intros Hy. apply K, in_or_app; auto.
    + apply NoDup_cons_iff in Hn. tauto.
Qed.
Theorem divide_unique i1 i2 sh1 v1 sh2 v2 : loop_free i1 -> (forall a b, edge i1 a b <-> edge i2 a b) ->
  divide_into_shapes i1 = Val (sh1, v1) -> divide_into_shapes i2 = Val (sh2, v2) ->
  (exists sh, Permutation sh2 sh /\ Forall2 same_chain sh1 sh) /\ v1 = v2.
Proof.
  intros L1 He E1 E2. assert (L2 : loop_free i2) by (intros a H; assert (K : edge i1 a a) by (apply He; left; auto); destruct K as [K|K]; apply (L1 a K)).
  assert (T : forall v, two_neighbours i1 v <-> two_neighbours i2 v).
  { intros v. split; intros (a & b & Hab & H); exists a, b; (split; [auto|]); intros w; [rewrite <- He|rewrite He]; auto. }
  assert (M : forall s, chain i2 s -> chain i1 s).
  { intros s ((Hl & Ht & a & b & mid & Em & Hab) & Hed & Hn). split; [split; [auto|split]|split; auto].
    - intros l v r E Hl' Hr'. apply T. eapply Ht; eauto.
    - exists a, b, mid. split; auto. rewrite !T. auto.
    - intros x y H. apply He. auto. }
  destruct (divide_chains i1 sh1 v1 L1 E1) as [N1 C1]. destruct (divide_chains i2 sh2 v2 L2 E2) as [N2 C2].
  destruct (divide_edges_once i1 sh1 v1 L1 E1) as [_ W1]. destruct (divide_edges_once i2 sh2 v2 L2 E2) as [_ W2]. 
  assert (Hst : forall s t, In s sh1 -> In t sh2 -> forall a b, In (undirected (a, b)) (eset s) -> In (undirected (a, b)) (eset t) -> same_edges s t).
  { intros s t Hs Ht a b H1 H2 e. split; apply (chain_absorbs i1 L1 _ _ a b); auto. }
  assert (Hfirst : forall i s, chain i s -> exists a b, In (undirected (a, b)) (eset s)).
  { intros i [|a [|b s]] ((H & _) & _); cbn in H; try lia. exists a, b. left; auto. }
  split.
  - destruct (match_up sh1 sh2 N1 N2) as (sh & P & F).
    + intros s H. apply in_app_iff in H as [H|H]; [apply C1 in H|apply C2 in H]; apply H.
    + intros s Hs. destruct (Hfirst i1 s (C1 s Hs)) as (a & b & Hab).
      assert (H : In (undirected (a, b)) (walked sh2)) by (apply W2, He, W1, in_walked_shape; eauto).
      apply in_walked_shape in H as (t & Ht & Hab'). exists t. split; auto. apply (Hst s t Hs Ht a b); auto.
    + intros t Ht. destruct (Hfirst i2 t (C2 t Ht)) as (a & b & Hab).
      assert (H : In (undirected (a, b)) (walked sh1)) by (apply W1, He, W2, in_walked_shape; eauto).
      apply in_walked_shape in H as (s & Hs & Hab'). exists s. split; auto. apply (Hst s t Hs Ht a b); auto.
    + exists sh. split; auto. assert (Hsh : forall t, In t sh -> chain i1 t).
      { intros t Ht. apply M, C2. apply (Permutation_in _ (Permutation_sym P)). auto. }
      clear - F C1 Hsh L1. induction F as [|s t l1 l2 H F IH]; constructor.
      * apply (chain_unique i1); auto; [apply C1; left; auto|apply Hsh; left; auto].
      * apply IH; intros x Hx; [apply C1; right; auto|apply Hsh; right; auto].
  - destruct (divide_bits i1 sh1 v1 L1 E1) as ((m1 & H1 & K1) & B1). destruct (divide_bits i2 sh2 v2 L2 E2) as ((m2 & H2 & K2) & B2).
    assert (m1 = m2).
    { assert (G : forall i j m n, (forall a b, edge i a b -> edge j a b) -> is_highest i m -> is_highest j n -> m <= n).
      { intros i j m n H [_ [[_ ->]|(b & Hb)]] [Hn _]; [lia|]. eapply Hn, H; eauto. }
      assert (m1 <= m2) by (apply (G i1 i2); auto; intros; apply He; auto). assert (m2 <= m1) by (apply (G i2 i1); auto; intros; apply He; auto). lia. }
    subst m2. assert (Hnth : forall k, nth_error v1 k = nth_error v2 k).
    { intros k. specialize (B1 k). specialize (B2 k). rewrite T in B1.
      destruct (nth_error v1 k) as [[]|] eqn:X1, (nth_error v2 k) as [[]|] eqn:X2; auto; exfalso;
        try (apply nth_error_None in X1; assert (nth_error v2 k <> None) by congruence; apply nth_error_Some in H; lia);
        try (apply nth_error_None in X2; assert (nth_error v1 k <> None) by congruence; apply nth_error_Some in H; lia).
      - assert (Some false = Some true) by (apply B2, B1; auto). discriminate.
      - assert (Some false = Some true) by (apply B1, B2; auto). discriminate. }
    clear - Hnth. revert v2 Hnth. induction v1 as [|a l IH]; intros [|b m] H; auto; try (specialize (H 0); discriminate).
    assert (E := H 0). injection E as ->. f_equal. apply IH. intros k. apply (H (S k)).
Qed.
