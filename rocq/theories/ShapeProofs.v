From Verif Require Import Prelude Shape ShapeSpec.
From Coq Require Import FinFun.

(* ---------- bit vectors ---------- *)
Definition count_true (l : list bool) : nat := length (filter (fun b => b) l).
Definition isset (v : setvob) (i : nat) : Prop := nth_error (bits v) i = Some true.
Definition wfv (n : nat) (v : setvob) : Prop := length (bits v) = n /\ nset v = count_true (bits v).

Lemma count_true_le l : count_true l <= length l.
Proof. unfold count_true. induction l as [|[] l IH]; simpl; lia. Qed.

Lemma count_true_set l i : nth_error l i = Some false ->
  count_true (set_nth l i true) = S (count_true l).
Proof.
  unfold count_true. revert i; induction l as [|b l IH]; intros [|i]; simpl; try discriminate.
  - intros [= ->]. reflexivity.
  - intros H. destruct b; simpl; rewrite IH; auto.
Qed.

Lemma set_nth_same {A} (l : list A) i a : nth_error l i = Some a -> set_nth l i a = l.
Proof. revert i; induction l; intros [|i]; simpl; try discriminate; try congruence.
  intros H. f_equal; auto. Qed.

Lemma wfv_fill n : wfv n (fill_with_false n).
Proof. split; simpl. apply repeat_length. unfold count_true.
  induction n; simpl; auto. Qed.

Lemma isset_fill n i : ~ isset (fill_with_false n) i.
Proof. unfold isset; simpl. intros H. apply nth_error_In in H. apply repeat_spec in H. discriminate. Qed.

Lemma isset_lt n v i : wfv n v -> isset v i -> i < n.
Proof. intros [H _] Hi. rewrite <- H. apply nth_error_Some. unfold isset in Hi. congruence. Qed.

Lemma vget_spec n v i : wfv n v -> i < n ->
  exists b, vget v i = Val b /\ (b = true <-> isset v i).
Proof.
  intros [H _] Hi. unfold vget, isset, idx.
  destruct (nth_error (bits v) i) as [b|] eqn:E.
  - exists b; split; auto. split; congruence.
  - apply nth_error_None in E. lia.
Qed.

Lemma vget_val v i b : vget v i = Val b -> (b = true <-> isset v i).
Proof. unfold vget, isset. rewrite idx_val. intros ->. split; congruence. Qed.

Lemma isset_dec v i : {isset v i} + {~ isset v i}.
Proof. unfold isset. destruct (nth_error (bits v) i) as [[]|]; [left|right|right]; congruence. Qed.

Lemma vset_spec n v i : wfv n v -> i < n ->
  exists v', vset v i = Val v' /\ wfv n v' /\ (forall j, isset v' j <-> isset v j \/ j = i).
Proof.
  intros [H Hc] Hi. unfold vset, idx.
  destruct (nth_error (bits v) i) as [b|] eqn:E; [|apply nth_error_None in E; lia].
  simpl. eexists; split; [reflexivity|]. split; [split; simpl|].
  - rewrite set_nth_length; auto.
  - destruct b. rewrite set_nth_same; auto. rewrite count_true_set; auto.
  - intros j. unfold isset; simpl. rewrite nth_error_set_nth.
    destruct (Nat.eqb_spec i j) as [->|Hn].
    + destruct (Nat.ltb_spec j (length (bits v))); [|lia]. split; auto.
    + split; auto. intros [?|?]; [auto|congruence].
Qed.

Lemma vset_count n v i v' : wfv n v -> ~ isset v i -> vset v i = Val v' -> nset v' = S (nset v).
Proof.
  intros [H Hc] Hi. unfold vset, isset, idx in *.
  destruct (nth_error (bits v) i) as [[]|] eqn:E; simpl; try discriminate; try congruence.
  intros [= <-]; reflexivity.
Qed.

Lemma vset_val v i v' : vset v i = Val v' -> forall j, isset v' j <-> isset v j \/ j = i.
Proof.
  unfold vset, idx. destruct (nth_error (bits v) i) as [b|] eqn:E; simpl; try discriminate.
  intros [= <-] j. unfold isset; simpl. rewrite nth_error_set_nth.
  assert (i < length (bits v)) by (apply nth_error_Some; congruence).
  destruct (Nat.eqb_spec i j) as [->|Hn].
  - destruct (Nat.ltb_spec j (length (bits v))); [|lia]. split; auto.
  - split; auto. intros [?|?]; [auto|congruence].
Qed.

(* two disjoint bit vectors *)
Lemma count_disjoint l1 : forall l2, length l1 = length l2 ->
  (forall i, nth_error l1 i = Some true -> nth_error l2 i = Some true -> False) ->
  count_true l1 + count_true l2 <= length l1 /\
  (count_true l1 + count_true l2 < length l1 ->
   exists i, i < length l1 /\ nth_error l1 i = Some false /\ nth_error l2 i = Some false) /\
  (forall i j, i < j -> j < length l1 -> nth_error l1 i = Some false -> nth_error l2 i = Some false ->
     nth_error l1 j = Some false -> nth_error l2 j = Some false ->
     count_true l1 + count_true l2 + 2 <= length l1) /\
  (forall i, i < length l1 -> nth_error l1 i = Some false -> nth_error l2 i = Some false ->
     count_true l1 + count_true l2 + 1 <= length l1).
Proof.
  unfold count_true.
  induction l1 as [|b l1 IH]; intros [|b2 l2]; simpl; try discriminate.
  - intros _ _. repeat split; intros; lia.
  - intros [= HL] Hd.
    destruct (IH l2 HL) as (I1 & I2 & I3 & I4).
    { intros i Ha Hb. apply (Hd (S i)); auto. }
    assert (Hbb : b = true -> b2 = true -> False).
    { intros -> ->. apply (Hd 0); auto. }
    repeat split.
    + destruct b, b2; simpl; try lia; exfalso; auto.
    + intros Hlt. destruct b, b2; simpl in *.
      * exfalso; auto.
      * destruct I2 as (i & ? & ? & ?); [lia|]. exists (S i); simpl; repeat split; auto; lia.
      * destruct I2 as (i & ? & ? & ?); [lia|]. exists (S i); simpl; repeat split; auto; lia.
      * exists 0; simpl; repeat split; auto; lia.
    + intros [|i] [|j]; simpl; try lia; intros Hij Hj H1 H2 H3 H4.
      * injection H1 as ->; injection H2 as ->. simpl.
        specialize (I4 j ltac:(lia) H3 H4). lia.
      * specialize (I3 i j ltac:(lia) ltac:(lia) H1 H2 H3 H4).
        destruct b, b2; simpl; try lia; exfalso; auto.
    + intros [|i]; simpl; intros Hi H1 H2.
      * injection H1 as ->; injection H2 as ->. simpl. lia.
      * specialize (I4 i ltac:(lia) H1 H2). destruct b, b2; simpl; try lia; exfalso; auto.
Qed.

Lemma not_isset n v i : wfv n v -> i < n -> ~ isset v i -> nth_error (bits v) i = Some false.
Proof. intros [H _] Hi Hn. unfold isset in Hn. destruct (nth_error (bits v) i) as [[]|] eqn:E; auto.
  congruence. apply nth_error_None in E. lia. Qed.

Section counts.
  Context (n : nat) (a b : setvob) (Ha : wfv n a) (Hb : wfv n b)
          (Hd : forall i, isset a i -> isset b i -> False).
  Lemma counts_unused : nset a + nset b < n -> exists i, i < n /\ ~ isset a i /\ ~ isset b i.
  Proof.
    destruct Ha as [La Ca], Hb as [Lb Cb].
    destruct (count_disjoint (bits a) (bits b)) as (_ & H & _); [congruence|exact Hd|].
    rewrite Ca, Cb. intros Hl. destruct H as (i & Hi & H1 & H2); [congruence|].
    exists i. unfold isset. rewrite <- La. repeat split; auto; congruence.
  Qed.
  Lemma counts_two i j : i < n -> j < n -> i <> j -> ~ isset a i -> ~ isset b i ->
    ~ isset a j -> ~ isset b j -> nset a + nset b + 2 <= n.
  Proof.
    intros Hi Hj Hij A1 B1 A2 B2.
    apply (not_isset n) in A1, B1, A2, B2; auto.
    destruct Ha as [La Ca], Hb as [Lb Cb].
    destruct (count_disjoint (bits a) (bits b)) as (_ & _ & H & _); [congruence|exact Hd|].
    rewrite Ca, Cb, <- La.
    destruct (Nat.lt_ge_cases i j) as [Hlt|Hge].
    - apply (H i j); auto; lia.
    - apply (H j i); auto; lia.
  Qed.
  Lemma counts_one i : i < n -> ~ isset a i -> ~ isset b i -> nset a + nset b + 1 <= n.
  Proof.
    intros Hi A1 B1. apply (not_isset n) in A1, B1; auto.
    destruct Ha as [La Ca], Hb as [Lb Cb].
    destruct (count_disjoint (bits a) (bits b)) as (_ & _ & _ & H); [congruence|exact Hd|].
    rewrite Ca, Cb, <- La. apply (H i); auto; lia.
  Qed.
End counts.

(* ---------- adjacency map ---------- *)
Definition nb (m : adjm) (v : nat) : list nat := match adj_get m v with Some l => l | None => [] end.

Lemma existsb_eqb_In v l : existsb (Nat.eqb v) l = true <-> In v l.
Proof. rewrite existsb_exists. split.
  - intros (x & Hx & E). apply Nat.eqb_eq in E. congruence.
  - intros H. exists v. rewrite Nat.eqb_refl. auto. Qed.

Lemma adj_add_spec m k v k' :
  adj_get (adj_add m k v) k' =
  if Nat.eqb k' k then Some (if existsb (Nat.eqb v) (nb m k) then nb m k else nb m k ++ [v])
  else adj_get m k'.
Proof.
  unfold nb. induction m as [|[q l] m IH]; simpl.
  - destruct (Nat.eqb_spec k' k); auto.
  - destruct (Nat.eqb_spec k q) as [E1|E1]; simpl;
    destruct (Nat.eqb_spec k' q) as [E2|E2]; destruct (Nat.eqb_spec k' k) as [E3|E3];
      try congruence; simpl; auto.
Qed.

Lemma nb_adj_add m k v k' w :
  In w (nb (adj_add m k v) k') <-> In w (nb m k') \/ (k' = k /\ w = v).
Proof.
  unfold nb at 1. rewrite adj_add_spec. destruct (Nat.eqb_spec k' k) as [->|Hk].
  - destruct (existsb (Nat.eqb v) (nb m k)) eqn:E.
    + apply existsb_eqb_In in E. split; [tauto|]. intros [?|[_ ->]]; auto.
    + rewrite in_app_iff. simpl. intuition congruence.
  - fold (nb m k'). intuition congruence.
Qed.

Lemma nodup_adj_add m k v : (forall q, NoDup (nb m q)) -> forall q, NoDup (nb (adj_add m k v) q).
Proof.
  intros H q. unfold nb. rewrite adj_add_spec. destruct (Nat.eqb_spec q k) as [->|Hk].
  - destruct (existsb (Nat.eqb v) (nb m k)) eqn:E; [apply H|].
    rewrite <- (rev_involutive (nb m k ++ [v])). apply NoDup_rev. rewrite rev_app_distr. simpl.
    constructor. rewrite <- in_rev. intros Hi. apply existsb_eqb_In in Hi. congruence.
    apply NoDup_rev, H.
  - apply H.
Qed.

Lemma nonempty_adj_add m k v : (forall q l, adj_get m q = Some l -> l <> []) ->
  forall q l, adj_get (adj_add m k v) q = Some l -> l <> [].
Proof.
  intros H q l. rewrite adj_add_spec. destruct (Nat.eqb_spec q k) as [->|Hk]; [|apply H].
  intros [= <-]. destruct (existsb (Nat.eqb v) (nb m k)) eqn:E.
  - intros E2. rewrite E2 in E. discriminate.
  - destruct (nb m k); discriminate.
Qed.

Lemma fold_adj_spec es : forall mx m,
  (forall q, NoDup (nb m q)) -> (forall q l, adj_get m q = Some l -> l <> []) ->
  forall mx' m', fold_left adj_step es (mx, m) = (mx', m') ->
  (forall q, NoDup (nb m' q)) /\ (forall q l, adj_get m' q = Some l -> l <> []) /\
  (forall v w, In w (nb m' v) <-> In w (nb m v) \/ In (v, w) es \/ In (w, v) es) /\
  mx <= mx' /\ (forall a b, In (a, b) es -> a <= mx' /\ b <= mx') /\
  (mx' = mx \/ exists b, In (mx', b) es \/ In (b, mx') es).
Proof.
  induction es as [|[a b] es IH]; intros mx m Hn He mx' m'; simpl.
  - intros [= <- <-]. repeat split; auto; try tauto.
  - intros H. apply IH in H as (Hn' & He' & Hin & Hle & Hall & Hmx).
    2: { intros q. do 2 apply nodup_adj_add; auto. }
    2: { intros q l. do 2 (apply nonempty_adj_add); auto. }
    split; [auto|]. split; [auto|]. split; [|split; [lia|split]].
    + intros v w. rewrite Hin. rewrite !nb_adj_add.
      assert (forall x y x' y' : nat, (x,y) = (x',y') <-> x = x' /\ y = y') as PE.
      { intros; split; [intros [=]; auto| intros [-> ->]; auto]. }
      rewrite !PE. intuition congruence.
    + intros a' b' [[= <- <-]|Hi]; [lia|]. apply Hall in Hi. lia.
    + destruct Hmx as [->|(q & Hq)].
      * destruct (Nat.max_spec mx a) as [[? E]|[? E]]; rewrite E;
        match goal with |- context [Nat.max ?x b] => destruct (Nat.max_spec x b) as [[? E2]|[? E2]] end;
        rewrite E2; auto; right; first [exists a; tauto|exists b; tauto].
      * right. exists q. tauto.
Qed.

Lemma adjacency_map_spec indices mx m : adjacency_map indices = (mx, m) ->
  (forall q, NoDup (nb m q)) /\ (forall q l, adj_get m q = Some l -> l <> []) /\
  (forall v w, In w (nb m v) <-> edge indices v w) /\ is_highest indices mx.
Proof.
  unfold adjacency_map. intros H.
  destruct (chunks2 indices) as [|e es] eqn:E.
  - simpl in H. injection H as <- <-. repeat split; try discriminate.
    + intros; constructor.
    + simpl; tauto.
    + unfold edge; rewrite E; simpl; tauto.
    + unfold edge; rewrite E; simpl; tauto.
    + left; auto.
  - rewrite <- E in H. apply fold_adj_spec in H as (H1 & H2 & H3 & _ & H5 & H6).
    2: { intros; constructor. } 2: { discriminate. }
    repeat split; auto.
    + intros Hi. apply H3 in Hi. simpl in Hi. unfold edge. tauto.
    + intros Hi. apply H3. simpl. unfold edge in Hi. tauto.
    + intros a b [Hi|Hi]; apply H5 in Hi; lia.
    + right. destruct H6 as [->|(b & Hb)]; [|exists b; unfold edge; tauto].
      destruct e as [a b]. assert (Hi : In (a, b) (chunks2 indices)) by (rewrite E; simpl; auto).
      assert (Ha := H5 a b Hi). destruct a; [|lia]. exists b. left; auto.
Qed.

(* ---------- termination nodes ---------- *)
Definition isterm (m : adjm) (v : nat) : Prop := length (nb m v) <> 2.

Definition flat (cands : list (nat * list nat)) : list (nat * nat) :=
  concat (map (fun ca => map (pair (fst ca)) (snd ca)) cands).

Lemma in_flat cands c w : In (c, w) (flat cands) <-> exists arr, In (c, arr) cands /\ In w arr.
Proof.
  unfold flat. rewrite in_concat. split.
  - intros (l & Hl & Hi). apply in_map_iff in Hl as ([c' arr] & <- & Hc). simpl in Hi.
    apply in_map_iff in Hi as (w' & [= -> ->] & Hw). eauto.
  - intros (arr & Hc & Hw). exists (map (pair c) arr). split.
    + apply in_map_iff. exists (c, arr). auto.
    + apply in_map; auto.
Qed.

Lemma nodup_flat cands : NoDup (map fst cands) -> (forall c arr, In (c, arr) cands -> NoDup arr) ->
  NoDup (flat cands).
Proof.
  unfold flat. induction cands as [|[c arr] cands IH]; simpl; intros Hn Ha; [constructor|].
  inversion Hn as [|? ? Hc Hn']; subst.
  assert (Hd : NoDup (map (pair c) arr)).
  { apply FinFun.Injective_map_NoDup. intros x y [=]; auto. eapply Ha; eauto. }
  assert (IH' := IH Hn' (fun c arr H => Ha c arr (or_intror H))).
  apply NoDup_app_intro; auto.
  intros [c' w] Hi Hf. apply in_map_iff in Hi as (w' & [= <- <-] & _).
  change (In (c, w') (flat cands)) in Hf. apply in_flat in Hf as (arr' & Hi & _).
  apply Hc. apply in_map_iff. exists (c, arr'); auto.
Qed.

Lemma term_fold m n : (forall q, NoDup (nb m q)) -> (forall q l, adj_get m q = Some l -> l <> []) ->
  forall k s term cands, wfv n term -> s + k <= n ->
  (forall v, isset term v <-> v < s /\ isterm m v) ->
  NoDup (map fst cands) -> (forall c, In c (map fst cands) -> c < s) ->
  (forall c arr, In (c, arr) cands <-> (c < s /\ isterm m c /\ nb m c <> [] /\ arr = rev (nb m c))) ->
  exists term' cands', foldM (term_step m) (seq s k) (term, cands) = Val (term', cands') /\
  wfv n term' /\ (forall v, isset term' v <-> v < s + k /\ isterm m v) /\
  NoDup (map fst cands') /\
  (forall c arr, In (c, arr) cands' <-> (c < s + k /\ isterm m c /\ nb m c <> [] /\ arr = rev (nb m c))).
Proof.
  intros Hnd Hne. induction k as [|k IH]; intros s term cands Hw Hs Ht Hc1 Hc2 Hc3; simpl.
  - exists term, cands. rewrite Nat.add_0_r. auto.
  - unfold term_step at 1. destruct (adj_get m s) as [ns|] eqn:E.
    + assert (En : nb m s = ns) by (unfold nb; rewrite E; auto).
      destruct (Nat.eqb_spec (length ns) 2) as [E2|E2]; simpl.
      * replace (s + S k) with (S s + k) by lia.
        apply IH; auto; try lia.
        -- intros v. rewrite Ht. split; [intros []; split; auto; lia|].
           intros [Hv Hi]. split; auto. assert (v <> s); [|lia].
           intros ->. unfold isterm in Hi. congruence.
        -- intros c Hc. apply Hc2 in Hc. lia.
        -- intros c arr. rewrite Hc3. split; [intros []; split; auto; lia|].
           intros [Hv Hi]. split; auto. assert (c <> s); [|lia].
           intros ->. unfold isterm in Hi. destruct Hi; congruence.
      * destruct (vset_spec n term s Hw ltac:(lia)) as (term1 & E1 & Hw1 & Hs1). rewrite E1. simpl.
        replace (s + S k) with (S s + k) by lia.
        apply IH; auto; try lia.
        -- intros v. rewrite Hs1, Ht. split.
           ++ intros [[]| ->]; split; auto; try lia. unfold isterm; congruence.
           ++ intros [Hv Hi]. destruct (Nat.eq_dec v s); auto. left; split; auto; lia.
        -- simpl. constructor; auto. intros Hi. apply Hc2 in Hi. lia.
        -- simpl. intros c [<-|Hc]; [lia|]. apply Hc2 in Hc. lia.
        -- intros c arr. simpl. rewrite Hc3. split.
           ++ intros [[= <- <-]|[]]; split; auto; try lia.
              rewrite En. unfold isterm. rewrite En. repeat split; auto.
              apply (Hne _ _ E).
           ++ intros (Hv & Hi & Hr & ->). destruct (Nat.eq_dec c s) as [->|].
              ** left. rewrite En. auto.
              ** right. repeat split; auto. lia.
    + assert (En : nb m s = []) by (unfold nb; rewrite E; auto).
      destruct (vset_spec n term s Hw ltac:(lia)) as (term1 & E1 & Hw1 & Hs1). rewrite E1. simpl.
      replace (s + S k) with (S s + k) by lia.
      apply IH; auto; try lia.
      * intros v. rewrite Hs1, Ht. split.
        -- intros [[]| ->]; split; auto; try lia. unfold isterm. rewrite En. discriminate.
        -- intros [Hv Hi]. destruct (Nat.eq_dec v s); auto. left; split; auto; lia.
      * intros c Hc. apply Hc2 in Hc. lia.
      * intros c arr. rewrite Hc3. split; [intros []; split; auto; lia|].
        intros (Hv & Hi & Hr & ->). repeat split; auto. assert (c <> s); [|lia]. congruence.
Qed.

Lemma termination_spec m mx : (forall q, NoDup (nb m q)) -> (forall q l, adj_get m q = Some l -> l <> []) ->
  exists term cands, termination_candidate_nodes mx m = Val (term, cands) /\
  wfv (mx + 1) term /\ (forall v, isset term v <-> v <= mx /\ isterm m v) /\
  NoDup (flat cands) /\
  (forall c w, In (c, w) (flat cands) <-> c <= mx /\ isterm m c /\ In w (nb m c)).
Proof.
  intros Hnd Hne.
  destruct (term_fold m (mx + 1) Hnd Hne (mx + 1) 0 (fill_with_false (mx + 1)) [])
    as (term & cands & E & Hw & Ht & Hn & Hc); auto; try lia.
  - apply wfv_fill.
  - intros v; split; [intros H; apply isset_fill in H; tauto|lia].
  - constructor.
  - simpl; tauto.
  - intros; simpl; split; [tauto|lia].
  - exists term, cands. split; [exact E|]. split; [auto|]. split.
    { intros v; rewrite Ht. split; intros []; split; auto; lia. }
    split.
    + apply nodup_flat; auto. intros c arr Hi. apply Hc in Hi as (_ & _ & _ & ->).
      apply NoDup_rev, Hnd.
    + intros c w. rewrite in_flat. split.
      * intros (arr & Hi & Hw'). apply Hc in Hi as (? & ? & ? & ->). rewrite <- in_rev in Hw'.
        repeat split; auto. lia.
      * intros (? & ? & Hw'). exists (rev (nb m c)). rewrite Hc. rewrite <- in_rev.
        repeat split; auto; try lia. intros E'; rewrite E' in Hw'; auto.
Qed.
