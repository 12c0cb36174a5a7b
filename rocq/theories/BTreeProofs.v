(* The B-tree of BTree.v is a lawful map: whatever was inserted and removed, its entries are the expected list, and a search
   ends at a key it found equal, or between two keys it compared. *)
From Verif Require Import Prelude Scalar Geo2 Sweep SweepTree BTree.

Section Lists.
  Context {A : Type}.
  Implicit Types (a b l : list A) (x y : A).
  Lemma insert_at_len a b x : insert_at (length a) x (a ++ b) = a ++ x :: b.
  Proof. unfold insert_at. rewrite firstn_app, Nat.sub_diag, firstn_all, skipn_app, Nat.sub_diag, skipn_all. cbn. rewrite app_nil_r. reflexivity. Qed.
  Lemma replace_at_len a b x y : replace_at (length a) y (a ++ x :: b) = a ++ y :: b.
  Proof.
    unfold replace_at. rewrite firstn_app, Nat.sub_diag, firstn_all. cbn [firstn]. rewrite app_nil_r. f_equal. f_equal.
    rewrite skipn_app. replace (S (length a) - length a) with 1 by lia. rewrite skipn_all2 by lia. reflexivity.
  Qed.
  Lemma remove_at_len a b x : remove_at (length a) (a ++ x :: b) = a ++ b.
  Proof.
    unfold remove_at. rewrite firstn_app, Nat.sub_diag, firstn_all. cbn [firstn]. rewrite app_nil_r. f_equal.
    rewrite skipn_app. replace (S (length a) - length a) with 1 by lia. rewrite skipn_all2 by lia. reflexivity.
  Qed.
  Lemma insert_at_l i x a b : i <= length a -> insert_at i x (a ++ b) = insert_at i x a ++ b.
  Proof. intros H. unfold insert_at. rewrite firstn_app, skipn_app. replace (i - length a) with 0 by lia. cbn. rewrite app_nil_r, <- app_assoc. reflexivity. Qed.
  Lemma insert_at_r i x a b : insert_at (length a + i) x (a ++ b) = a ++ insert_at i x b.
  Proof.
    unfold insert_at. rewrite firstn_app, skipn_app. replace (length a + i - length a) with i by lia. rewrite firstn_all2, skipn_all2 by lia. rewrite <- app_assoc. reflexivity.
  Qed.
  Lemma replace_at_l i x a b : i < length a -> replace_at i x (a ++ b) = replace_at i x a ++ b.
  Proof. intros H. unfold replace_at. rewrite firstn_app, skipn_app. replace (i - length a) with 0 by lia. replace (S i - length a) with 0 by lia. cbn. rewrite app_nil_r, <- app_assoc. reflexivity. Qed.
  Lemma replace_at_r i x a b : replace_at (length a + i) x (a ++ b) = a ++ replace_at i x b.
  Proof.
    unfold replace_at. rewrite firstn_app, skipn_app. replace (length a + i - length a) with i by lia. replace (S (length a + i) - length a) with (S i) by lia. rewrite firstn_all2, skipn_all2 by lia. rewrite <- app_assoc. reflexivity.
  Qed.
  Lemma remove_at_l i a b : i < length a -> remove_at i (a ++ b) = remove_at i a ++ b.
  Proof. intros H. unfold remove_at. rewrite firstn_app, skipn_app. replace (i - length a) with 0 by lia. replace (S i - length a) with 0 by lia. cbn. rewrite app_nil_r, <- app_assoc. reflexivity. Qed.
  Lemma remove_at_r i a b : remove_at (length a + i) (a ++ b) = a ++ remove_at i b.
  Proof.
    unfold remove_at. rewrite firstn_app, skipn_app. replace (length a + i - length a) with i by lia. replace (S (length a + i) - length a) with (S i) by lia. rewrite firstn_all2, skipn_all2 by lia. rewrite <- app_assoc. reflexivity.
  Qed.
  Lemma insert_at_mid l a b y i i' x : l = a ++ y :: b -> i = S (length a) + i' -> insert_at i x l = a ++ y :: insert_at i' x b.
  Proof.
    intros -> ->. change (y :: b) with ([y] ++ b). rewrite app_assoc. replace (S (length a) + i') with (length (a ++ [y]) + i') by (rewrite app_length; cbn; lia). rewrite insert_at_r, <- app_assoc. reflexivity.
  Qed.
  Lemma insert_at_r' l a b i i' x : l = a ++ b -> i = length a + i' -> insert_at i x l = a ++ insert_at i' x b.
  Proof. intros -> ->. apply insert_at_r. Qed.
  Lemma insert_at_l' l a b i x : l = a ++ b -> i <= length a -> insert_at i x l = insert_at i x a ++ b.
  Proof. intros ->. apply insert_at_l. Qed.
  Lemma insert_at_length i x l : length (insert_at i x l) = S (length l).
  Proof. unfold insert_at. rewrite app_length. cbn [length]. rewrite <- (firstn_skipn i l) at 3. rewrite app_length. lia. Qed.
  Lemma remove_at_length i l : i < length l -> length (remove_at i l) = length l - 1.
  Proof. intros H. unfold remove_at. rewrite app_length, firstn_length, skipn_length. lia. Qed.
  Lemma replace_at_length i x l : i < length l -> length (replace_at i x l) = length l.
  Proof. intros H. unfold replace_at. rewrite app_length, firstn_length. cbn [length]. rewrite skipn_length. lia. Qed.
  Lemma nth_split' i l x : nth_error l i = Some x -> exists a b, l = a ++ x :: b /\ length a = i.
  Proof. apply nth_error_split. Qed.
  Lemma last_split l : l <> [] -> forall d, l = removelast l ++ [last l d].
  Proof. intros H d. apply app_removelast_last; auto. Qed.
  Lemma nth_split2 i l x : nth_error l i = Some x -> l = firstn i l ++ x :: skipn (S i) l.
  Proof. revert l. induction i as [|i IH]; intros [|y l] H; try discriminate; cbn in *; [congruence|]. f_equal. auto. Qed.
End Lists.

Section Proofs.
  Context {K E : Type}.
  Notation KV := (K * E)%type.
  Notation node := (@node K E).
  Implicit Types (t c l r : node) (kvs : list KV) (es : list node).

  Fixpoint join es kvs : list KV :=
    match es with
    | [] => []
    | e :: es' => node_list e ++ match kvs with [] => [] | kv :: kvs' => kv :: join es' kvs' end
    end.
  Fixpoint pre es kvs : list KV := match es, kvs with e :: es', kv :: kvs' => node_list e ++ kv :: pre es' kvs' | _, _ => [] end.
  Fixpoint suf kvs es : list KV := match kvs, es with kv :: kvs', e :: es' => kv :: node_list e ++ suf kvs' es' | _, _ => [] end.
  Lemma node_list_inner kvs es : node_list (Inner kvs es) = join es kvs.
  Proof. reflexivity. Qed.
  Lemma join_suf : forall es kvs e, length es = length kvs -> join (e :: es) kvs = node_list e ++ suf kvs es.
  Proof. induction es as [|e' es IH]; intros [|kv kvs] e H; try discriminate; cbn in *; auto. f_equal. f_equal. apply (IH kvs e'). lia. Qed.
  Lemma join_split : forall e1 k1 c e2 k2, length e1 = length k1 -> length e2 = length k2 -> join (e1 ++ c :: e2) (k1 ++ k2) = pre e1 k1 ++ node_list c ++ suf k2 e2.
  Proof.
    induction e1 as [|e e1 IH]; intros [|kv k1] c e2 k2 H1 H2; try discriminate; cbn [app pre].
    - apply join_suf; auto.
    - cbn [join app]. rewrite <- app_assoc. cbn [app]. f_equal. f_equal. apply IH; auto.
  Qed.
  Lemma join_app : forall ea ka x eb kb, length ea = S (length ka) -> join (ea ++ eb) (ka ++ x :: kb) = join ea ka ++ x :: join eb kb.
  Proof.
    induction ea as [|e ea IH]; intros ka x eb kb H; [discriminate|]. destruct ka as [|k0 ka]; cbn [app join].
    - destruct ea; [|discriminate]. cbn. rewrite app_nil_r. reflexivity.
    - cbn in H. rewrite IH by lia. rewrite <- app_assoc. reflexivity.
  Qed.

  Fixpoint wf (h lo : nat) t : Prop :=
    match h, t with
    | O, Leaf kvs => lo <= length kvs <= 11
    | Datatypes.S h', Inner kvs es => lo <= length kvs <= 11 /\ length es = Datatypes.S (length kvs) /\ Forall (wf h' 5) es
    | _, _ => False
    end.
  Lemma wf_weak h lo lo' t : lo' <= lo -> wf h lo t -> wf h lo' t.
  Proof. intros H. destruct h, t; cbn; try tauto; [lia|]. intros (H1 & H2 & H3). repeat split; auto; lia. Qed.
  Lemma wf_entries h lo t : wf h lo t -> lo <= length (entries t) <= 11.
  Proof. destruct h, t; cbn; try tauto; lia. Qed.
  Lemma wf_strong h lo lo' t : wf h lo t -> lo' <= length (entries t) -> wf h lo' t.
  Proof. destruct h, t; cbn; try tauto. Qed.
  Lemma join_size : forall es kvs, length es = Datatypes.S (length kvs) -> length kvs <= length (join es kvs).
  Proof.
    induction es as [|e es IH]; intros kvs H; [discriminate|]. destruct kvs as [|kv kvs]; cbn [join length]; [lia|]. cbn in H. rewrite app_length. cbn [length]. specialize (IH kvs ltac:(lia)). lia.
  Qed.
  Lemma wf_size h lo t : wf h lo t -> lo <= size t.
  Proof.
    unfold size. destruct h as [|h], t as [kvs|kvs es]; try (cbn; tauto).
    intros (H1 & H2 & _). rewrite node_list_inner. pose proof (join_size _ _ H2). lia.
  Qed.

  (* ---- insertion ---- *)
  Definition ins_go (x : KV) := fix go (edges : list node) (i : nat) : nat * inserted :=
    match edges with
    | [] => (0, Fit (Leaf []))
    | e :: es => if Nat.leb i (size e) then (0, insert_node e i x) else let '(j, r) := go es (i - size e - 1) in (Datatypes.S j, r)
    end.
  Lemma insert_inner kvs es i x : insert_node (Inner kvs es) i x =
    let '(j, r) := ins_go x es i in match r with Fit t' => Fit (Inner kvs (replace_at j t' es)) | Split l kv r => inner_insert j l kv r kvs es end.
  Proof. reflexivity. Qed.
  Lemma ins_go_spec x : forall es kvs i, length es = Datatypes.S (length kvs) -> i <= length (join es kvs) -> exists e1 c e2 k1 k2 i',
    es = e1 ++ c :: e2 /\ kvs = k1 ++ k2 /\ length e1 = length k1 /\ length e2 = length k2 /\ i = length (pre e1 k1) + i' /\ i' <= size c /\
    ins_go x es i = (length e1, insert_node c i' x).
  Proof.
    induction es as [|e es IH]; intros kvs i Hl Hi; [discriminate|]. cbn [ins_go]. destruct (Nat.leb_spec i (size e)) as [Hle|Hgt].
    - exists [], e, es, [], kvs, i. cbn in *. repeat split; auto; lia.
    - destruct kvs as [|kv kvs]; cbn [join] in Hi; rewrite app_length in Hi; fold (size e) in Hi; cbn [length] in Hi; [lia|]. cbn in Hl.
      destruct (IH kvs (i - size e - 1) ltac:(lia) ltac:(lia)) as (e1 & c & e2 & k1 & k2 & i' & -> & -> & H1 & H2 & H3 & H4 & H5).
      exists (e :: e1), c, e2, (kv :: k1), k2, i'. cbn [app length pre]. fold (ins_go x). rewrite H5. repeat split; auto. rewrite app_length. cbn [length]. fold (size e). lia.
  Qed.
  Definition inserted_ok (h lo : nat) (o : inserted) (ls : list KV) : Prop :=
    match o with
    | Fit t' => wf h lo t' /\ node_list t' = ls
    | Split l y r => wf h 5 l /\ wf h 5 r /\ node_list l ++ y :: node_list r = ls
    end.
  Lemma splitpoint_cases i : (i < 5 /\ splitpoint i = 4) \/ (5 <= i <= 6 /\ splitpoint i = 5) \/ (6 < i /\ splitpoint i = 6).
  Proof. unfold splitpoint. destruct (Nat.ltb_spec i 5); [auto|]. destruct (Nat.leb_spec i 6); [right; left|right; right]; split; auto; lia. Qed.
  Lemma leaf_insert_ok lo i x kvs : lo <= length kvs <= 11 -> i <= length kvs -> inserted_ok 0 lo (leaf_insert i x kvs) (insert_at i x kvs).
  Proof.
    intros Hl Hi. unfold leaf_insert, CAPACITY. destruct (Nat.ltb_spec (length kvs) 11).
    - cbn. rewrite insert_at_length. split; [lia|auto].
    - assert (Len : length kvs = 11) by lia. destruct (nth_error kvs (splitpoint i)) as [mid|] eqn:En.
      + pose proof (nth_split2 _ _ _ En) as Es. set (m := splitpoint i) in *.
        assert (Hf : length (firstn m kvs) = m) by (rewrite firstn_length; pose proof (splitpoint_cases i); fold m in H0; lia).
        assert (Hk : length (skipn (Datatypes.S m) kvs) = 10 - m) by (rewrite skipn_length; lia).
        pose proof (splitpoint_cases i) as Hm. fold m in Hm. destruct (Nat.leb_spec i m); cbn [inserted_ok wf node_list].
        * rewrite insert_at_length, Hf, Hk. split; [lia|]. split; [lia|]. symmetry. apply insert_at_l'; [exact Es|lia].
        * rewrite insert_at_length, Hf, Hk. split; [lia|]. split; [lia|]. symmetry. apply insert_at_mid; [exact Es|lia].
      + apply nth_error_None in En. pose proof (splitpoint_cases i). lia.
  Qed.
  Lemma inner_insert_ok h lo e1 e2 k1 k2 c l x r : length e1 = length k1 -> length e2 = length k2 -> lo <= length (k1 ++ k2) <= 11 -> Forall (wf h 5) (e1 ++ l :: r :: e2) ->
    inserted_ok (Datatypes.S h) lo (inner_insert (length e1) l x r (k1 ++ k2) (e1 ++ c :: e2)) (pre e1 k1 ++ (node_list l ++ x :: node_list r) ++ suf k2 e2).
  Proof.
    intros H1 H2 Hl Hw. unfold inner_insert, CAPACITY. rewrite replace_at_len.
    assert (Ek : insert_at (length e1) x (k1 ++ k2) = k1 ++ x :: k2) by (rewrite H1; apply insert_at_len).
    assert (Ee : insert_at (Datatypes.S (length e1)) r (e1 ++ l :: e2) = e1 ++ l :: r :: e2).
    { change (l :: e2) with ([l] ++ e2). rewrite app_assoc. replace (Datatypes.S (length e1)) with (length (e1 ++ [l])) by (rewrite app_length; cbn; lia). rewrite insert_at_len, <- app_assoc. reflexivity. }
    assert (El : pre e1 k1 ++ (node_list l ++ x :: node_list r) ++ suf k2 e2 = join (e1 ++ l :: r :: e2) (k1 ++ x :: k2)).
    { rewrite join_split by (cbn; lia). cbn [suf]. rewrite <- !app_assoc. reflexivity. }
    rewrite El. clear El. set (j := length e1) in *. rewrite app_length in Hl.
    destruct (Nat.ltb_spec (length (k1 ++ k2)) 11) as [Hlt|Hge]; rewrite app_length in *.
    - cbn [inserted_ok wf]. rewrite Ek, Ee, node_list_inner. split; auto. rewrite !app_length. cbn [length]. split; [lia|]. split; [lia|auto].
    - assert (Len : length k1 + length k2 = 11) by lia. destruct (nth_error (k1 ++ k2) (splitpoint j)) as [mid|] eqn:En.
      + pose proof (nth_split2 _ _ _ En) as Es. pose proof (splitpoint_cases j) as Hm. set (m := splitpoint j) in *.
        set (kvs := k1 ++ k2) in *. assert (Lk : length kvs = 11) by (unfold kvs; rewrite app_length; auto).
        set (es := e1 ++ l :: e2) in *. assert (Le : length es = 12) by (unfold es; rewrite app_length; cbn; lia).
        assert (Hf : length (firstn m kvs) = m) by (rewrite firstn_length; lia). assert (Hk : length (skipn (Datatypes.S m) kvs) = 10 - m) by (rewrite skipn_length; lia).
        assert (Hf' : length (firstn (Datatypes.S m) es) = Datatypes.S m) by (rewrite firstn_length; lia). assert (Hk' : length (skipn (Datatypes.S m) es) = 11 - m) by (rewrite skipn_length; lia).
        destruct (Nat.leb_spec j m) as [Hjm|Hjm]; cbn [inserted_ok wf].
        * assert (A1 : insert_at j x (firstn m kvs) ++ mid :: skipn (Datatypes.S m) kvs = k1 ++ x :: k2) by (rewrite <- Ek; symmetry; apply insert_at_l'; [exact Es|lia]).
          assert (A2 : insert_at (Datatypes.S j) r (firstn (Datatypes.S m) es) ++ skipn (Datatypes.S m) es = e1 ++ l :: r :: e2) by (rewrite <- Ee; symmetry; apply insert_at_l'; [symmetry; apply firstn_skipn|lia]).
          rewrite <- A2 in Hw. apply Forall_app in Hw as [W1 W2]. rewrite !insert_at_length, Hf, Hk, Hf', Hk'. rewrite !node_list_inner, <- join_app, A1, A2 by (rewrite !insert_at_length; lia).
          repeat split; auto; lia.
        * assert (A1 : firstn m kvs ++ mid :: insert_at (j - Datatypes.S m) x (skipn (Datatypes.S m) kvs) = k1 ++ x :: k2).
          { rewrite <- Ek. symmetry. apply insert_at_mid; [exact Es|lia]. }
          assert (A2 : firstn (Datatypes.S m) es ++ insert_at (Datatypes.S (j - Datatypes.S m)) r (skipn (Datatypes.S m) es) = e1 ++ l :: r :: e2).
          { rewrite <- Ee. symmetry. apply insert_at_r'; [symmetry; apply firstn_skipn|lia]. }
          rewrite <- A2 in Hw. apply Forall_app in Hw as [W1 W2]. rewrite !insert_at_length, Hf, Hk, Hf', Hk'. rewrite !node_list_inner, <- join_app, A1, A2 by lia.
          repeat split; auto; lia.
      + apply nth_error_None in En. pose proof (splitpoint_cases j). rewrite app_length in En. lia.
  Qed.
  Lemma insert_node_ok : forall h lo t i x, wf h lo t -> i <= size t -> inserted_ok h lo (insert_node t i x) (insert_at i x (node_list t)).
  Proof.
    induction h as [|h IH]; intros lo t i x Hw Hi; destruct t as [kvs|kvs es]; try (cbn in Hw; tauto).
    - cbn [insert_node node_list]. apply leaf_insert_ok; auto.
    - destruct Hw as (Hl & He & Hf). unfold size in Hi. rewrite node_list_inner in Hi. rewrite insert_inner.
      destruct (ins_go_spec x es kvs i He Hi) as (e1 & c & e2 & k1 & k2 & i' & -> & -> & H1 & H2 & -> & Hi' & ->).
      apply Forall_app in Hf as [F1 F2]. inversion_clear F2 as [|? ? Fc F2']. specialize (IH 5 c i' x Fc Hi').
      rewrite node_list_inner, join_split, insert_at_r, insert_at_l by (auto; fold (size c); lia).
      destruct (insert_node c i' x) as [t'|l y r]; cbn [inserted_ok] in IH.
      + destruct IH as [W' <-]. rewrite replace_at_len. cbn [inserted_ok wf]. rewrite node_list_inner, join_split by auto. split; auto.
        rewrite !app_length in *. cbn [length] in *. repeat split; try lia. apply Forall_app. auto.
      + destruct IH as (Wl & Wr & <-). apply inner_insert_ok; auto. apply Forall_app. auto.
  Qed.

  (* ---- replacing a value ---- *)
  Definition put (e : E) kvs (j : nat) := match nth_error kvs j with Some (k, _) => replace_at j (k, e) kvs | None => kvs end.
  Definition set_go (e : E) := fix go (edges : list node) (i : nat) : nat * option node :=
    match edges with
    | [] => (0, None)
    | c :: es => if Nat.ltb i (size c) then (0, Some (set_node c i e)) else if Nat.eqb i (size c) then (0, None) else let '(j, o) := go es (i - size c - 1) in (Datatypes.S j, o)
    end.
  Lemma set_inner kvs es i e : set_node (Inner kvs es) i e =
    let '(j, o) := set_go e es i in match o with Some c => Inner kvs (replace_at j c es) | None => Inner (put e kvs j) es end.
  Proof. reflexivity. Qed.
  (* the i-th entry of a node: in a child, or between two *)
  Lemma locate : forall es kvs i, length es = Datatypes.S (length kvs) -> i < length (join es kvs) ->
    (exists e1 c e2 k1 k2 i', es = e1 ++ c :: e2 /\ kvs = k1 ++ k2 /\ length e1 = length k1 /\ length e2 = length k2 /\ i = length (pre e1 k1) + i' /\ i' < size c) \/
    (exists e1 c e2 k1 kv k2, es = e1 ++ c :: e2 /\ kvs = k1 ++ kv :: k2 /\ length e1 = length k1 /\ length e2 = Datatypes.S (length k2) /\ i = length (pre e1 k1) + size c).
  Proof.
    induction es as [|e es IH]; intros kvs i Hl Hi; [discriminate|]. destruct (Nat.lt_trichotomy i (size e)) as [H|[H|H]].
    - left. exists [], e, es, [], kvs, i. cbn in *. repeat split; auto; lia.
    - right. destruct kvs as [|kv kvs]; cbn [join] in Hi; rewrite app_length in Hi; fold (size e) in Hi; cbn [length] in Hi; [lia|]. exists [], e, es, [], kv, kvs. cbn in *. repeat split; auto; lia.
    - destruct kvs as [|kv kvs]; cbn [join] in Hi; rewrite app_length in Hi; fold (size e) in Hi; cbn [length] in Hi; [lia|]. cbn in Hl.
      destruct (IH kvs (i - size e - 1) ltac:(lia) ltac:(lia)) as [(e1 & c & e2 & k1 & k2 & i' & -> & -> & H1 & H2 & H3 & H4)|(e1 & c & e2 & k1 & kv' & k2 & -> & -> & H1 & H2 & H3)].
      + left. exists (e :: e1), c, e2, (kv :: k1), k2, i'. cbn [app length pre]. repeat split; auto. rewrite app_length. cbn [length]. fold (size e). lia.
      + right. exists (e :: e1), c, e2, (kv :: k1), kv', k2. cbn [app length pre]. repeat split; auto. rewrite app_length. cbn [length]. fold (size e). lia.
  Qed.
  Lemma set_go_in e : forall e1 k1 c e2 i', length e1 = length k1 -> i' < size c -> set_go e (e1 ++ c :: e2) (length (pre e1 k1) + i') = (length e1, Some (set_node c i' e)).
  Proof.
    induction e1 as [|e0 e1 IH]; intros [|kv k1] c e2 i' H1 Hi; try discriminate; cbn [app pre set_go length].
    - cbn [Nat.add length]. destruct (Nat.ltb_spec i' (size c)); [auto|lia].
    - fold (set_go e). rewrite app_length. cbn [length]. fold (size e0). destruct (Nat.ltb_spec (size e0 + Datatypes.S (length (pre e1 k1)) + i') (size e0)); [lia|].
      destruct (Nat.eqb_spec (size e0 + Datatypes.S (length (pre e1 k1)) + i') (size e0)); [lia|].
      replace (size e0 + Datatypes.S (length (pre e1 k1)) + i' - size e0 - 1) with (length (pre e1 k1) + i') by lia. rewrite IH by auto. auto.
  Qed.
  Lemma set_go_at e : forall e1 k1 c e2, length e1 = length k1 -> set_go e (e1 ++ c :: e2) (length (pre e1 k1) + size c) = (length e1, None).
  Proof.
    induction e1 as [|e0 e1 IH]; intros [|kv k1] c e2 H1; try discriminate; cbn [app pre set_go length].
    - cbn [Nat.add length]. rewrite Nat.ltb_irrefl, Nat.eqb_refl. auto.
    - fold (set_go e). rewrite app_length. cbn [length]. fold (size e0). destruct (Nat.ltb_spec (size e0 + Datatypes.S (length (pre e1 k1)) + size c) (size e0)); [lia|].
      destruct (Nat.eqb_spec (size e0 + Datatypes.S (length (pre e1 k1)) + size c) (size e0)); [lia|].
      replace (size e0 + Datatypes.S (length (pre e1 k1)) + size c - size e0 - 1) with (length (pre e1 k1) + size c) by lia. rewrite IH by auto. auto.
  Qed.
  Lemma put_at e a k e0 b : put e (a ++ (k, e0) :: b) (length a) = a ++ (k, e) :: b.
  Proof. unfold put. rewrite nth_error_app2, Nat.sub_diag by auto. cbn [nth_error]. apply replace_at_len. Qed.
  Lemma put_r e a b i : put e (a ++ b) (length a + i) = a ++ put e b i.
  Proof. unfold put. rewrite nth_error_app2 by lia. replace (length a + i - length a) with i by lia. destruct (nth_error b i) as [[k ?]|]; auto. apply replace_at_r. Qed.
  Lemma put_l e a b i : i < length a -> put e (a ++ b) i = put e a i ++ b.
  Proof. intros H. unfold put. rewrite nth_error_app1 by auto. destruct (nth_error a i) as [[k ?]|] eqn:En; auto. apply replace_at_l; auto. Qed.
  Lemma put_length e a i : length (put e a i) = length a.
  Proof. unfold put. destruct (nth_error a i) as [[k ?]|] eqn:En; auto. apply replace_at_length. apply nth_error_Some. congruence. Qed.
  Lemma set_node_ok e : forall h lo t i, wf h lo t -> i < size t -> wf h lo (set_node t i e) /\ node_list (set_node t i e) = put e (node_list t) i.
  Proof.
    induction h as [|h IH]; intros lo t i Hw Hi; destruct t as [kvs|kvs es]; try (cbn in Hw; tauto).
    - cbn [set_node node_list wf]. change (match nth_error kvs i with Some (k, _) => replace_at i (k, e) kvs | None => kvs end) with (put e kvs i). rewrite put_length. auto.
    - destruct Hw as (Hl & He & Hf). unfold size in Hi. rewrite node_list_inner in Hi. rewrite set_inner.
      destruct (locate es kvs i He Hi) as [(e1 & c & e2 & k1 & k2 & i' & -> & -> & H1 & H2 & -> & Hi')|(e1 & c & e2 & k1 & [k e0] & k2 & -> & -> & H1 & H2 & ->)].
      + rewrite set_go_in by auto. rewrite replace_at_len. apply Forall_app in Hf as [F1 F2]. inversion_clear F2 as [|? ? Fc F2'].
        destruct (IH 5 c i' Fc Hi') as [W' E']. rewrite !node_list_inner, !join_split by auto. rewrite put_r, put_l, E' by (auto; fold (size c); lia). split; auto.
        cbn [wf]. rewrite !app_length in *. cbn [length] in *. repeat split; try lia. apply Forall_app. auto.
      + rewrite set_go_at by auto. rewrite H1, put_at. split.
        * cbn [wf]. rewrite !app_length in *. cbn [length] in *. repeat split; auto; lia.
        * rewrite !node_list_inner, !join_split by (cbn; auto). destruct e2 as [|d e2]; [discriminate|]. cbn [suf].
          rewrite put_r. f_equal. unfold size. symmetry. apply put_at.
  Qed.

  (* ---- removal ---- *)
  Definition rem_go := fix go (edges : list node) (i : nat) : nat * node * option KV :=
    match edges with
    | [] => (0, Leaf [], None)
    | c :: es =>
        if Nat.ltb i (size c) then (0, remove_node c i, None)
        else if Nat.eqb i (size c) then (0, remove_node c (size c - 1), nth_error (node_list c) (size c - 1))
        else let '(j, c, o) := go es (i - size c - 1) in (Datatypes.S j, c, o)
    end.
  Lemma remove_inner kvs es i : remove_node (Inner kvs es) i =
    let '(j, c, o) := rem_go es i in fix_child j (match o with Some kv => replace_at j kv kvs | None => kvs end) (replace_at j c es).
  Proof. reflexivity. Qed.
  Lemma rem_go_in : forall e1 k1 c e2 i', length e1 = length k1 -> i' < size c -> rem_go (e1 ++ c :: e2) (length (pre e1 k1) + i') = (length e1, remove_node c i', None).
  Proof.
    induction e1 as [|e0 e1 IH]; intros [|kv k1] c e2 i' H1 Hi; try discriminate; cbn [app pre rem_go length].
    - cbn [Nat.add length]. destruct (Nat.ltb_spec i' (size c)); [auto|lia].
    - fold rem_go. rewrite app_length. cbn [length]. fold (size e0). destruct (Nat.ltb_spec (size e0 + Datatypes.S (length (pre e1 k1)) + i') (size e0)); [lia|].
      destruct (Nat.eqb_spec (size e0 + Datatypes.S (length (pre e1 k1)) + i') (size e0)); [lia|].
      replace (size e0 + Datatypes.S (length (pre e1 k1)) + i' - size e0 - 1) with (length (pre e1 k1) + i') by lia. rewrite IH by auto. auto.
  Qed.
  Lemma rem_go_at : forall e1 k1 c e2, length e1 = length k1 -> rem_go (e1 ++ c :: e2) (length (pre e1 k1) + size c) = (length e1, remove_node c (size c - 1), nth_error (node_list c) (size c - 1)).
  Proof.
    induction e1 as [|e0 e1 IH]; intros [|kv k1] c e2 H1; try discriminate; cbn [app pre rem_go length].
    - cbn [Nat.add length]. rewrite Nat.ltb_irrefl, Nat.eqb_refl. auto.
    - fold rem_go. rewrite app_length. cbn [length]. fold (size e0). destruct (Nat.ltb_spec (size e0 + Datatypes.S (length (pre e1 k1)) + size c) (size e0)); [lia|].
      destruct (Nat.eqb_spec (size e0 + Datatypes.S (length (pre e1 k1)) + size c) (size e0)); [lia|].
      replace (size e0 + Datatypes.S (length (pre e1 k1)) + size c - size e0 - 1) with (length (pre e1 k1) + size c) by lia. rewrite IH by auto. auto.
  Qed.
  Lemma merge_ok h l x r : wf h 4 l -> wf h 4 r -> 9 <= length (entries l) + length (entries r) <= 10 -> wf h 5 (merge l x r) /\ node_list (merge l x r) = node_list l ++ x :: node_list r.
  Proof.
    destruct h as [|h], l as [a|a ae], r as [b|b be]; cbn [wf entries merge]; try tauto.
    - intros H1 H2 H. rewrite app_length. cbn [length node_list]. split; [lia|auto].
    - intros (H1 & H2 & H3) (G1 & G2 & G3) H. rewrite !node_list_inner, join_app by auto. rewrite !app_length. cbn [length]. repeat split; try lia. apply Forall_app; auto.
  Qed.
  Lemma removelast_length {A} (a : list A) : length (removelast a) = length a - 1.
  Proof. induction a as [|x [|y a] IH]; cbn [removelast length] in *; lia. Qed.
  Lemma steal_left_ok h l x r : wf h 6 l -> wf h 4 r -> length (entries r) = 4 -> let '(l', x', r') := steal_left l x r in
    wf h 5 l' /\ wf h 5 r' /\ node_list l' ++ x' :: node_list r' = node_list l ++ x :: node_list r.
  Proof.
    destruct h as [|h], l as [a|a ae], r as [b|b be]; cbn [wf entries steal_left]; try tauto.
    - intros H1 H2 H. cbn [node_list wf length]. rewrite removelast_length. split; [lia|]. split; [lia|].
      assert (N : a <> []) by (intros ->; cbn in H1; lia). rewrite (last_split a N x) at 3. rewrite <- app_assoc. reflexivity.
    - intros (H1 & H2 & H3) (G1 & G2 & G3) H. assert (N : a <> []) by (intros ->; cbn in H1; lia). assert (N' : ae <> []) by (intros ->; discriminate H2).
      assert (W : Forall (wf h 5) (removelast ae ++ [last ae (Leaf [])])) by (rewrite <- last_split; auto). apply Forall_app in W as [W1 W2]. inversion_clear W2.
      cbn [wf length]. rewrite !removelast_length. split; [repeat split; auto; lia|]. split; [repeat split; auto; lia|].
      assert (La : length (removelast ae) = Datatypes.S (length (removelast a))) by (rewrite !removelast_length; lia).
      rewrite !node_list_inner, <- !join_app by auto. f_equal.
      + rewrite (last_split ae N' (Leaf [])) at 3. rewrite <- app_assoc. reflexivity.
      + rewrite (last_split a N x) at 3. rewrite <- app_assoc. reflexivity.
  Qed.
  Lemma steal_right_ok h l x r : wf h 4 l -> wf h 6 r -> length (entries l) = 4 -> let '(l', x', r') := steal_right l x r in
    wf h 5 l' /\ wf h 5 r' /\ node_list l' ++ x' :: node_list r' = node_list l ++ x :: node_list r.
  Proof.
    destruct h as [|h], l as [a|a ae], r as [b|b be]; cbn [wf entries steal_right]; try tauto.
    - intros H1 H2 H. destruct b as [|y b]; [cbn in H2; lia|]. cbn [length] in *. cbn [node_list wf]. rewrite app_length. cbn [length]. split; [lia|]. split; [lia|]. rewrite <- app_assoc. reflexivity.
    - intros (H1 & H2 & H3) (G1 & G2 & G3) H. destruct b as [|y b]; [cbn in G1; lia|]. destruct be as [|d be]; [discriminate|]. cbn [length] in *. cbn [wf]. rewrite !app_length. cbn [length].
      inversion_clear G3. split; [repeat split; try lia; apply Forall_app; auto|]. split; [repeat split; auto; lia|].
      rewrite !node_list_inner, <- !join_app by (rewrite ?app_length; cbn; lia). rewrite <- !app_assoc. reflexivity.
  Qed.
  (* the children l and r, x between them *)
  Lemma two_split a ka l x r b kb : length a = length ka -> length b = length kb -> join (a ++ l :: r :: b) (ka ++ x :: kb) = pre a ka ++ (node_list l ++ x :: node_list r) ++ suf kb b.
  Proof. intros H1 H2. rewrite join_split by (cbn; lia). cbn [suf]. rewrite <- !app_assoc. reflexivity. Qed.
  Lemma fix_child_ok h lo e1 e2 k1 k2 c : length e1 = length k1 -> length e2 = length k2 -> lo <= length (k1 ++ k2) <= 11 -> 1 <= lo ->
    Forall (wf h 5) e1 -> Forall (wf h 5) e2 -> wf h 4 c ->
    let t := fix_child (length e1) (k1 ++ k2) (e1 ++ c :: e2) in wf (Datatypes.S h) (lo - 1) t /\ node_list t = join (e1 ++ c :: e2) (k1 ++ k2).
  Proof.
    intros H1 H2 Hl Hlo F1 F2 Fc. cbv zeta. unfold fix_child, MIN_LEN, CAPACITY. rewrite nth_error_app2, Nat.sub_diag by auto. cbn [nth_error].
    destruct (Nat.leb_spec 5 (length (entries c))) as [H5|H5].
    { split; auto. cbn [wf]. rewrite !app_length in *. cbn [length]. repeat split; try lia. apply Forall_app. split; auto. constructor; auto. apply (wf_strong h 4); auto. }
    pose proof (wf_entries _ _ _ Fc) as Hc. assert (H4 : length (entries c) = 4) by lia. clear H5 Hc.
    (* the result for a given pair of siblings *)
    assert (Put : forall a ka l x r b kb (l' : node) (x' : KV) (r' : node), length a = length ka -> length b = length kb -> lo <= length (ka ++ x :: kb) <= 11 -> Forall (wf h 5) a -> Forall (wf h 5) b -> wf h 5 l' -> wf h 5 r' ->
      node_list l' ++ x' :: node_list r' = node_list l ++ x :: node_list r ->
      let t := Inner (replace_at (length a) x' (ka ++ x :: kb)) (replace_at (Datatypes.S (length a)) r' (replace_at (length a) l' (a ++ l :: r :: b))) in
      wf (Datatypes.S h) (lo - 1) t /\ node_list t = join (a ++ l :: r :: b) (ka ++ x :: kb)).
    { intros a ka l x r b kb l' x' r' La Lb Hn Fa Fb Wl Wr Eq'. cbv zeta. assert (Rk : replace_at (length a) x' (ka ++ x :: kb) = ka ++ x' :: kb) by (rewrite La; apply replace_at_len). rewrite Rk, replace_at_len. clear Rk.
      change (l' :: r :: b) with ([l'] ++ r :: b). rewrite app_assoc. replace (Datatypes.S (length a)) with (length (a ++ [l'])) by (rewrite app_length; cbn; lia). rewrite replace_at_len, <- app_assoc. cbn [app].
      rewrite node_list_inner, !two_split, Eq' by auto. split; auto. cbn [wf]. rewrite !app_length in *. cbn [length] in *. repeat split; try lia. apply Forall_app; auto. }
    assert (Mrg : forall a ka l x r b kb, length a = length ka -> length b = length kb -> lo <= length (ka ++ x :: kb) <= 11 -> Forall (wf h 5) a -> Forall (wf h 5) b -> wf h 4 l -> wf h 4 r ->
      9 <= length (entries l) + length (entries r) <= 10 ->
      let t := Inner (remove_at (length a) (ka ++ x :: kb)) (remove_at (Datatypes.S (length a)) (replace_at (length a) (merge l x r) (a ++ l :: r :: b))) in
      wf (Datatypes.S h) (lo - 1) t /\ node_list t = join (a ++ l :: r :: b) (ka ++ x :: kb)).
    { intros a ka l x r b kb La Lb Hn Fa Fb Wl Wr He. cbv zeta. destruct (merge_ok h l x r Wl Wr He) as [Wm Em]. assert (Rk : remove_at (length a) (ka ++ x :: kb) = ka ++ kb) by (rewrite La; apply remove_at_len). rewrite Rk, replace_at_len. clear Rk.
      change (merge l x r :: r :: b) with ([merge l x r] ++ r :: b). rewrite app_assoc. replace (Datatypes.S (length a)) with (length (a ++ [merge l x r])) by (rewrite app_length; cbn; lia). rewrite remove_at_len, <- app_assoc. cbn [app].
      rewrite node_list_inner, two_split, join_split, Em by auto. split; auto. cbn [wf]. rewrite !app_length in *. cbn [length] in *. repeat split; try lia. apply Forall_app; auto. }
    destruct e1 as [|e0 e1'].
    - destruct k1; [|discriminate]. cbn [app length] in *. destruct e2 as [|r b]; [destruct k2; [cbn in Hl; lia|discriminate]|]. destruct k2 as [|x kb]; [discriminate|]. cbn [nth_error].
      inversion_clear F2 as [|? ? Fr Fb]. pose proof (wf_entries _ _ _ Fr) as Hr.
      destruct (Nat.leb_spec (length (entries c) + 1 + length (entries r)) 11).
      + apply (Mrg [] [] c x r b kb); auto; try (cbn in *; lia). apply (wf_weak h 5); auto.
      + pose proof (steal_right_ok h c x r Fc (wf_strong h 5 6 r Fr ltac:(lia)) H4) as St. destruct (steal_right c x r) as [[l' x'] r']. destruct St as (S1 & S2 & S3).
        apply (Put [] [] c x r b kb l' x' r'); auto; cbn in *; lia.
    - assert (Na : e0 :: e1' <> []) by discriminate. set (e1 := e0 :: e1') in *. assert (Nk : k1 <> []) by (intros ->; discriminate H1).
      pose proof (last_split e1 Na (Leaf [])) as Ea. set (a := removelast e1) in *. set (l := last e1 (Leaf [])) in *.
      destruct (exists_last Nk) as (ka & x & Ek). assert (La : length a = length ka) by (apply (f_equal (@length _)) in Ea; rewrite Ek in H1; rewrite app_length in *; cbn in *; lia).
      replace (match length e1 with 0 => 0 | Datatypes.S j' => j' end) with (length a) by (rewrite Ea, app_length; cbn [length]; rewrite Nat.add_1_r; auto).
      rewrite Ea in F1. apply Forall_app in F1 as [Fa Fl]. inversion_clear Fl as [|? ? Wl _]. pose proof (wf_entries _ _ _ Wl) as Hl'.
      assert (Es : e1 ++ c :: e2 = a ++ l :: c :: e2) by (rewrite Ea, <- app_assoc; reflexivity). assert (Ekk : k1 ++ k2 = ka ++ x :: k2) by (rewrite Ek, <- app_assoc; reflexivity).
      rewrite Es, Ekk in *.
      assert (N1 : nth_error (a ++ l :: c :: e2) (length a) = Some l) by (rewrite nth_error_app2, Nat.sub_diag by auto; reflexivity).
      assert (N2 : nth_error (ka ++ x :: k2) (length a) = Some x) by (rewrite La, nth_error_app2, Nat.sub_diag by auto; reflexivity).
      assert (N3 : nth_error (a ++ l :: c :: e2) (Datatypes.S (length a)) = Some c) by (rewrite nth_error_app2 by lia; replace (Datatypes.S (length a) - length a) with 1 by lia; reflexivity).
      rewrite N1, N2. cbn [nth_error] in N3. rewrite N3.
      destruct (Nat.leb_spec (length (entries l) + 1 + length (entries c)) 11).
      + apply (Mrg a ka l x c e2 k2); auto; try lia. apply (wf_weak h 5); auto.
      + pose proof (steal_left_ok h l x c (wf_strong h 5 6 l Wl ltac:(lia)) Fc H4) as St. unfold e1 at 1. cbn [length]. destruct (steal_left l x c) as [[l' x'] r']. destruct St as (S1 & S2 & S3).
        apply (Put a ka l x c e2 k2 l' x' r'); auto.
  Qed.
  Lemma remove_node_ok : forall h lo t i, 1 <= lo \/ h = 0 -> wf h lo t -> i < size t -> wf h (lo - 1) (remove_node t i) /\ node_list (remove_node t i) = remove_at i (node_list t).
  Proof.
    induction h as [|h IH]; intros lo t i Hlo Hw Hi; destruct t as [kvs|kvs es]; try (cbn in Hw; tauto).
    - cbn [remove_node node_list wf] in *. unfold size in Hi. cbn [node_list] in Hi. rewrite remove_at_length by auto. split; [lia|auto].
    - destruct Hlo as [Hlo|Hlo]; [|discriminate]. destruct Hw as (Hl & He & Hf). unfold size in Hi. rewrite node_list_inner in Hi. rewrite remove_inner.
      destruct (locate es kvs i He Hi) as [(e1 & c & e2 & k1 & k2 & i' & -> & -> & H1 & H2 & -> & Hi')|(e1 & c & e2 & k1 & kv & k2 & -> & -> & H1 & H2 & ->)].
      + rewrite rem_go_in by auto. rewrite replace_at_len. apply Forall_app in Hf as [F1 F2]. inversion_clear F2 as [|? ? Fc F2'].
        destruct (IH 5 c i' (or_introl (le_n_S 0 4 (Nat.le_0_l 4))) Fc Hi') as [W' E']. destruct (fix_child_ok h lo e1 e2 k1 k2 (remove_node c i')) as [T1 T2]; auto. split; auto. rewrite T2.
        rewrite !node_list_inner, !join_split by auto. rewrite remove_at_r, remove_at_l, E' by (auto; fold (size c); lia). auto.
      + rewrite rem_go_at by auto. rewrite replace_at_len. apply Forall_app in Hf as [F1 F2]. inversion_clear F2 as [|? ? Fc F2'].
        pose proof (wf_size _ _ _ Fc) as Hs. destruct (IH 5 c (size c - 1) (or_introl (le_n_S 0 4 (Nat.le_0_l 4))) Fc ltac:(lia)) as [W' E'].
        destruct (nth_error (node_list c) (size c - 1)) as [y|] eqn:En; [|apply nth_error_None in En; unfold size in *; lia].
        assert (Rk : replace_at (length e1) y (k1 ++ kv :: k2) = k1 ++ y :: k2) by (rewrite H1; apply replace_at_len). rewrite Rk. clear Rk. destruct (fix_child_ok h lo e1 e2 k1 (y :: k2) (remove_node c (size c - 1))) as [T1 T2]; auto; [rewrite app_length in *; cbn in *; lia|]. split; auto. rewrite T2.
        rewrite !node_list_inner, !join_split by (cbn; auto). rewrite E', remove_at_r. f_equal. destruct e2 as [|d e2]; [discriminate|]. cbn [suf].
        apply nth_split' in En as (u & w & Eu & Lu). assert (w = []) by (apply (f_equal (@length _)) in Eu; rewrite app_length in Eu; cbn in Eu; unfold size in *; destruct w; auto; cbn in *; lia). subst w.
        unfold size in *. rewrite remove_at_len. rewrite Eu in Lu |- *. rewrite <- Lu, remove_at_len, app_nil_r, <- app_assoc. reflexivity.
  Qed.

  (* ---- the whole tree ---- *)
  Definition root_lo (h : nat) : nat := match h with O => 0 | _ => 1 end.
  Definition tree_ok t : Prop := exists h, wf h (root_lo h) t.
  Lemma tree_insert_ok t i k e : tree_ok t -> i <= size t -> tree_ok (tree_insert t i k e) /\ node_list (tree_insert t i k e) = insert_at i (k, e) (node_list t).
  Proof.
    intros (h & Hw) Hi. unfold tree_insert. pose proof (insert_node_ok h _ t i (k, e) Hw Hi) as H. destruct (insert_node t i (k, e)) as [t'|l y r]; cbn [inserted_ok] in H.
    - destruct H as [H1 H2]. split; auto. exists h; auto.
    - destruct H as (H1 & H2 & H3). split; [|rewrite <- H3, node_list_inner; cbn; rewrite app_nil_r; auto]. exists (Datatypes.S h). cbn. repeat split; auto; lia.
  Qed.
  Lemma tree_remove_ok t i : tree_ok t -> i < size t -> tree_ok (tree_remove t i) /\ node_list (tree_remove t i) = remove_at i (node_list t).
  Proof.
    intros (h & Hw) Hi. unfold tree_remove. destruct (remove_node_ok h (root_lo h) t i) as [H1 H2]; auto; [destruct h; cbn; auto|]. rewrite <- H2.
    destruct h as [|h]; cbn [root_lo Nat.sub] in H1; destruct (remove_node t i) as [kvs|kvs es]; cbn in H1; try tauto.
    - split; auto. exists 0. exact H1.
    - destruct H1 as (L1 & L2 & L3). destruct kvs as [|kv kvs].
      + destruct es as [|c [|c' es]]; try discriminate. cbn [node_list]. rewrite app_nil_r. split; auto. inversion_clear L3. exists h. apply (wf_weak h 5); auto. destruct h; cbn; lia.
      + split; auto. exists (Datatypes.S h). cbn in *. repeat split; auto; lia.
  Qed.
  Lemma tree_set_ok t i e : tree_ok t -> i < size t -> tree_ok (set_node t i e) /\ node_list (set_node t i e) = put e (node_list t) i.
  Proof. intros (h & Hw) Hi. destruct (set_node_ok e h _ t i Hw Hi). split; auto. exists h; auto. Qed.
End Proofs.

(* ---- searching ---- *)
Section Search.
  Context {S : Scalar} {K E : Type} (pos : K -> V2 S).
  Notation V := (V2 S).
  Notation node := (@node K E).
  Notation keys := (map (fun ke : K * E => pos (fst ke))).
  Notation search := (search key_cmp pos).
  Lemma spot_context (A B C : list V) k s : valid_spot B k s -> (forall A' a, A = A' ++ [a] -> key_cmp k a = Some Gt) -> (forall c C', C = c :: C' -> key_cmp k c = Some Lt) ->
    valid_spot (A ++ B ++ C) k (shift (length A) s).
  Proof.
    intros Hv HA HC. destruct s as [i|i|]; cbn [shift valid_spot] in *.
    - destruct Hv as (k' & H1 & H2). exists k'. split; auto. rewrite nth_error_app2 by lia. replace (length A + i - length A) with i by lia. rewrite nth_error_app1; auto. apply nth_error_Some. congruence.
    - destruct Hv as (H1 & H2 & H3). rewrite !app_length. split; [lia|]. split.
      + intros j k' Hj Hn. destruct i as [|i].
        * destruct A as [|a0 A0] eqn:EA; [cbn in Hj; lia|]. rewrite <- EA in *. assert (NA : A <> []) by (rewrite EA; discriminate). destruct (exists_last NA) as (A' & a & Ea).
          rewrite Ea in Hj, Hn. rewrite app_length in Hj. cbn in Hj. rewrite <- !app_assoc in Hn. replace j with (length A') in Hn by lia. rewrite nth_error_app2, Nat.sub_diag in Hn by auto. cbn in Hn. injection Hn as <-. apply (HA A' a Ea).
        * rewrite nth_error_app2 in Hn by lia. replace (j - length A) with i in Hn by lia. rewrite nth_error_app1 in Hn by lia. apply (H2 i); auto.
      + intros k' Hn. rewrite nth_error_app2 in Hn by lia. replace (length A + i - length A) with i in Hn by lia. destruct (Nat.lt_ge_cases i (length B)) as [Hi|Hi].
        * rewrite nth_error_app1 in Hn by auto. auto.
        * rewrite nth_error_app2 in Hn by auto. replace (i - length B) with 0 in Hn by lia. destruct C as [|c C]; [discriminate|]. injection Hn as <-. apply (HC c C). auto.
    - destruct Hv as (k' & H1 & H2). exists k'. split; auto. rewrite !in_app_iff. auto.
  Qed.
  Lemma leaf_search k : forall (kvs : list (K * E)) off,
    (fix go (kvs : list (K * E)) (off : nat) : spot :=
       match kvs with
       | [] => Gap off
       | kv :: kvs' => match key_cmp k (pos (fst kv)) with None => Stuck | Some Gt => go kvs' (Datatypes.S off) | Some Eq => Found off | Some Lt => Gap off end
       end) kvs off = shift off (front (keys kvs) k).
  Proof.
    induction kvs as [|kv kvs IH]; intros off; cbn [map front shift]; [f_equal; lia|]. destruct (key_cmp k (pos (fst kv))) as [[]|]; cbn [shift]; auto; try (f_equal; lia).
    rewrite IH. destruct (front (keys kvs) k); cbn [shift]; auto; f_equal; lia.
  Qed.
  Definition search_go (k : V) := fix go (edges : list node) (kvs : list (K * E)) (off : nat) : spot :=
    match edges with
    | [] => Gap off
    | e :: es =>
        match kvs with
        | [] => shift off (search e k)
        | kv :: kvs' =>
            match key_cmp k (pos (fst kv)) with
            | None => Stuck
            | Some Gt => go es kvs' (off + size e + 1)
            | Some Eq => Found (off + size e)
            | Some Lt => shift off (search e k)
            end
        end
    end.
  Lemma search_inner kvs es k : search (Inner kvs es) k = search_go k es kvs 0.
  Proof. reflexivity. Qed.
  Lemma search_go_ok k : forall es kvs A, length es = Datatypes.S (length kvs) -> Forall (fun c => valid_spot (keys (node_list c)) k (search c k)) es ->
    (forall A' a, A = A' ++ [a] -> key_cmp k a = Some Gt) -> valid_spot (A ++ keys (join es kvs)) k (search_go k es kvs (length A)).
  Proof.
    induction es as [|e es IH]; intros kvs A Hl Hs HA; [discriminate|]. inversion_clear Hs as [|? ? He Hes]. cbn [search_go]. destruct kvs as [|kv kvs]; cbn [join].
    - rewrite map_app. apply spot_context; auto. intros c C'. discriminate.
    - rewrite map_app. cbn [map]. destruct (key_cmp k (pos (fst kv))) as [[]|] eqn:Ec.
      + cbn [valid_spot]. exists (pos (fst kv)). split; auto. rewrite nth_error_app2 by lia. replace (length A + size e - length A) with (length (keys (node_list e))) by (rewrite map_length; unfold size; lia).
        rewrite nth_error_app2, Nat.sub_diag by auto. reflexivity.
      + apply spot_context; auto. intros c C' [= <- <-]. auto.
      + fold (search_go k). cbn in Hl. specialize (IH kvs (A ++ keys (node_list e) ++ [pos (fst kv)]) ltac:(lia) Hes). rewrite !app_length in IH. cbn [length] in IH. rewrite map_length in IH.
        replace (length A + size e + 1) with (length A + (length (node_list e) + 1)) by (unfold size; lia). rewrite <- !app_assoc in IH. cbn [app] in IH. apply IH.
        intros A' a E0. rewrite app_assoc in E0. apply app_inj_tail in E0 as [_ <-]. auto.
      + cbn [valid_spot]. exists (pos (fst kv)). split; auto. rewrite !in_app_iff. cbn. auto.
  Qed.
  Lemma search_ok k : forall h lo (t : node), wf h lo t -> valid_spot (keys (node_list t)) k (search t k).
  Proof.
    induction h as [|h IH]; intros lo t Hw; destruct t as [kvs|kvs es]; try (cbn in Hw; tauto).
    - cbn [node_list BTree.search]. rewrite leaf_search. assert (Z : forall s, shift 0 s = s) by (intros []; auto). rewrite Z. apply front_valid.
    - destruct Hw as (_ & He & Hf). rewrite search_inner, node_list_inner. apply (search_go_ok k es kvs []); auto; [|intros [|] ?; discriminate].
      eapply Forall_impl; [|exact Hf]. intros c. apply IH.
  Qed.
  (* a new value changes no search *)
  Lemma put_keys e : forall (kvs : list (K * E)) i, keys (put e kvs i) = keys kvs.
  Proof.
    intros kvs i. unfold put. destruct (nth_error kvs i) as [[k0 e0]|] eqn:En; auto. apply nth_error_split in En as (a & b & -> & <-).
    rewrite replace_at_len, !map_app. reflexivity.
  Qed.
  Lemma search_go_keys k : forall es kvs kvs' off, keys kvs = keys kvs' -> search_go k es kvs off = search_go k es kvs' off.
  Proof.
    induction es as [|c es IH]; intros [|kv kvs] [|kv' kvs'] off H; try discriminate; cbn [search_go]; auto. cbn [map] in H. injection H as H0 H. rewrite H0.
    fold (search_go k). rewrite (IH kvs kvs') by auto. reflexivity.
  Qed.
  Lemma search_go_child k : forall e1 c c' e2 kvs off, search c k = search c' k -> size c = size c' -> search_go k (e1 ++ c :: e2) kvs off = search_go k (e1 ++ c' :: e2) kvs off.
  Proof.
    induction e1 as [|e e1 IH]; intros c c' e2 kvs off H1 H2; cbn [app search_go]; [rewrite H1, H2; auto|]. fold (search_go k).
    destruct kvs as [|kv kvs]; auto. rewrite (IH c c') by auto. reflexivity.
  Qed.
  Lemma set_search k e : forall h lo (t : node) i, wf h lo t -> i < size t -> search (set_node t i e) k = search t k.
  Proof.
    induction h as [|h IH]; intros lo t i Hw Hi; destruct t as [kvs|kvs es]; try (cbn in Hw; tauto).
    - cbn [set_node BTree.search]. change (match nth_error kvs i with Some (k, _) => replace_at i (k, e) kvs | None => kvs end) with (put e kvs i). rewrite !leaf_search, put_keys. auto.
    - destruct Hw as (_ & He & Hf). unfold size in Hi. rewrite node_list_inner in Hi. rewrite set_inner.
      destruct (locate es kvs i He Hi) as [(e1 & c & e2 & k1 & k2 & i' & -> & -> & H1 & H2 & -> & Hi')|(e1 & c & e2 & k1 & [k0 e0] & k2 & -> & -> & H1 & H2 & ->)].
      + rewrite set_go_in by auto. rewrite replace_at_len. apply Forall_app in Hf as [F1 F2]. inversion_clear F2 as [|? ? Fc F2']. rewrite !search_inner. symmetry. apply search_go_child.
        * symmetry. eapply IH; eauto.
        * unfold size. rewrite (proj2 (set_node_ok e h 5 c i' Fc Hi')), put_length. auto.
      + rewrite set_go_at by auto. rewrite !search_inner. apply search_go_keys, put_keys.
  Qed.
  Theorem btree_lawful : lawful_map pos (@btree_map V K E key_cmp pos).
  Proof.
    exists tree_ok. constructor; cbn [btree_map store m_empty m_list m_search m_insert m_set m_remove].
    - exists 0. cbn. lia.
    - intros m i k e Hm Hi. apply tree_insert_ok; auto.
    - intros m i e Hm Hi. apply tree_set_ok; auto.
    - intros m i Hm Hi. apply tree_remove_ok; auto.
    - reflexivity.
    - intros m k (h & Hw). eapply search_ok; eauto.
    - intros m i k e Hm Hi. apply tree_insert_ok; auto.
    - intros m i k e e' Hm Hn. rewrite (proj2 (tree_set_ok m i e' Hm ltac:(unfold size; apply nth_error_Some; congruence))). unfold put. rewrite Hn. reflexivity.
    - intros m i e k (h & Hw) Hi. eapply set_search; eauto.
    - intros m i Hm Hi. apply tree_remove_ok; auto.
  Qed.
End Search.
