(* Visvalingam-Whyatt: more deletions keep fewer points; scaling all areas changes nothing. *)
From Coq Require Import Reals Lra Psatz Sorting.Permutation Sorting.Sorted.
From Verif Require Import Prelude Scalar RInst Geo2 Geo3 Simplify GeoSpec DistR Rdp1 Rdp2 Rdp3 VwSpec VwProofs VwProofs2.

Lemma ssorted_le_lt l : StronglySorted le l -> NoDup l -> StronglySorted lt l.
Proof.
  induction 1 as [|x l H IH Hx]; intros N; constructor; inversion N as [|? ? N1 N2]; subst; auto.
  rewrite Forall_forall in *. intros y Hy. specialize (Hx y Hy). assert (x <> y) by (intros ->; auto). lia.
Qed.
Lemma sorted_incl_subseq (l2 : list nat) : forall l1, StronglySorted lt l1 -> StronglySorted lt l2 -> (forall x, In x l1 -> In x l2) -> subseq l1 l2.
Proof.
  induction l2 as [|y l2 IH]; intros l1 H1 H2 Hi.
  - destruct l1 as [|x l1]; [constructor|destruct (Hi x); left; auto].
  - inversion H2 as [|? ? A2 B2]; subst. rewrite Forall_forall in B2.
    destruct l1 as [|x l1]; [apply subseq_nil_l|]. inversion H1 as [|? ? A1 B1]; subst. rewrite Forall_forall in B1.
    destruct (Nat.eq_dec x y) as [->|Hn].
    + constructor. apply IH; auto. intros z Hz. destruct (Hi z (or_intror Hz)) as [<-|]; auto. specialize (B1 _ Hz). lia.
    + assert (Hx : In x l2) by (destruct (Hi x (or_introl eq_refl)); congruence || auto).
      pose proof (B2 _ Hx). apply sub_drop. apply IH; auto.
      intros z Hz. destruct (Hi z Hz) as [<-|]; auto. destruct Hz as [->|Hz]; [lia|]. specialize (B1 _ Hz). lia.
Qed.
Lemma nat_sort_subseq l1 l2 : NoDup l1 -> NoDup l2 -> (forall x, In x l1 -> In x l2) -> subseq (nat_sort l1) (nat_sort l2).
Proof.
  intros N1 N2 Hi. apply sorted_incl_subseq.
  - apply ssorted_le_lt; [apply nat_sort_sorted|]. eapply Permutation_NoDup; [symmetry; apply nat_sort_perm|auto].
  - apply ssorted_le_lt; [apply nat_sort_sorted|]. eapply Permutation_NoDup; [symmetry; apply nat_sort_perm|auto].
  - intros x Hx. eapply Permutation_in; [symmetry; apply nat_sort_perm|]. apply Hi. eapply Permutation_in; [apply nat_sort_perm|auto].
Qed.
Lemma mapM_subseq {A B} (f : A -> outcome B) l1 l2 : subseq l1 l2 -> forall o1 o2, mapM f l1 = Val o1 -> mapM f l2 = Val o2 -> subseq o1 o2.
Proof.
  induction 1 as [|a l m H IH|a l m H IH]; intros o1 o2 E1 E2; cbn [mapM] in *.
  - injection E1 as <-. injection E2 as <-. constructor.
  - apply obind_val in E1 as (b & Eb & E1). apply obind_val in E1 as (bs & Ebs & E1). injection E1 as <-.
    rewrite Eb in E2. cbn [obind] in E2. apply obind_val in E2 as (cs & Ecs & E2). injection E2 as <-. constructor. eauto.
  - apply obind_val in E2 as (b & Eb & E2). apply obind_val in E2 as (cs & Ecs & E2). injection E2 as <-. constructor. eauto.
Qed.

Section Nested.
  Context {S : Scalar} {T : Type} (area : T -> T -> T -> car S).
  Notation links := (@links S).

  Definition shrunk (m' m : links) : Prop := NoDup (map fst m') /\ forall x, In x (map fst m') -> In x (map fst m).

  Lemma shrunk_refl m : NoDup (map fst m) -> shrunk m m.
  Proof. split; auto. Qed.
  Lemma shrunk_trans a b c : shrunk a b -> shrunk b c -> shrunk a c.
  Proof. intros [A B] [_ C]; split; auto. Qed.
  Lemma shrunk_lremove m k : NoDup (map fst m) -> shrunk (lremove m k) m.
  Proof. intros N. split; [apply nodup_lremove; auto|]. intros x Hx. apply keys_lremove_sub in Hx. tauto. Qed.
  Lemma shrunk_linsert m0 (m : links) k v : shrunk m m0 -> In k (map fst m0) -> shrunk (linsert m k v) m0.
  Proof.
    intros [N I] H. split; [apply nodup_linsert; auto|].
    intros x [<-|Hx]; auto. apply keys_lremove_sub in Hx. apply I; tauto.
  Qed.
  Lemma relink_shrunk line h m prev next h' m' : NoDup (map fst m) -> vw_relink area line h m prev next = Val (h', m') -> shrunk m' m.
  Proof.
    intros N. unfold vw_relink.
    destruct (lget m next) as [[[np nn] na]|] eqn:En; destruct (lget m prev) as [[[pp pn] pa]|] eqn:Ep; cbn [option_map fst snd];
      intros E; repeat (let a := fresh "a" in let E' := fresh "E" in apply obind_val in E as (a & E' & E)); injection E as <- <-;
      repeat apply shrunk_linsert; try apply shrunk_refl; auto; apply lget_keys; eauto.
  Qed.
  Lemma loop_shrunk stop2 pick line k : forall fuel h m deleted m', NoDup (map fst m) ->
    vw_loop area stop2 pick fuel line k h m deleted = Val m' -> shrunk m' m.
  Proof.
    induction fuel as [|fuel IH]; intros h m deleted m' N; [discriminate|]. cbn [vw_loop].
    destruct (_ || _ || _)%bool; [intros E; injection E as <-; apply shrunk_refl; auto|].
    intros E. apply obind_val in E as ([[[key i] h1]|] & Ep & E); [|eapply IH; eauto].
    cbn [fst snd] in E. destruct (lget m i) as [[[prev next] a]|] eqn:Eg; [|eapply IH; eauto].
    destruct (negb (seqb key a)); [eapply IH; eauto|].
    apply obind_val in E as ([h2 m2] & Er & E). cbn [fst snd] in E.
    pose proof (shrunk_lremove m i N) as S1. pose proof (relink_shrunk _ _ _ _ _ _ _ (proj1 S1) Er) as S2.
    eapply shrunk_trans; [eapply IH; [apply S2|exact E]|]. eapply shrunk_trans; eauto.
  Qed.
  (* the run that deletes more points continues the one that deletes fewer *)
  Lemma loop_nested stop2 pick line k1 k2 : k1 <= k2 -> forall fuel h m deleted m1 m2, NoDup (map fst m) ->
    vw_loop area stop2 pick fuel line k1 h m deleted = Val m1 -> vw_loop area stop2 pick fuel line k2 h m deleted = Val m2 ->
    NoDup (map fst m1) /\ shrunk m2 m1.
  Proof.
    intros Hk. induction fuel as [|fuel IH]; intros h m deleted m1 m2 N E1 E2; [discriminate|].
    pose proof (loop_shrunk _ _ _ _ _ _ _ _ _ N E2) as X2.
    cbn [vw_loop] in E1, E2.
    destruct (_ || _ || Nat.leb k1 _)%bool eqn:C1; [injection E1 as <-; auto|].
    apply orb_false_iff in C1 as [C1 C1']. rewrite C1 in E2. cbn [orb] in E2.
    destruct (Nat.leb k2 deleted) eqn:C2; [apply Nat.leb_le in C2; apply Nat.leb_gt in C1'; lia|].
    apply obind_val in E1 as ([[[key i] h1]|] & Ep & E1); rewrite Ep in E2; cbn [obind] in E2; [|eapply IH; eauto].
    cbn [fst snd] in E1, E2. destruct (lget m i) as [[[prev next] a]|] eqn:Eg; [|eapply IH; eauto].
    destruct (negb (seqb key a)); [eapply IH; eauto|].
    apply obind_val in E1 as ([h2 m3] & Er & E1). rewrite Er in E2. cbn [obind fst snd] in E1, E2.
    pose proof (shrunk_lremove m i N) as S1. pose proof (relink_shrunk _ _ _ _ _ _ _ (proj1 S1) Er) as S2.
    eapply IH; [exact (proj1 S2)| |]; eauto.
  Qed.
  Lemma init_nodup line js : forall h m h' m', NoDup (map fst m) -> vw_init area line js h m = Val (h', m') -> NoDup (map fst m').
  Proof.
    induction js as [|j js IH]; intros h m h' m' N E; cbn [vw_init] in E.
    - injection E as <- <-. auto.
    - apply obind_val in E as (a & _ & E). apply obind_val in E as (h1 & _ & E). eapply IH; [|exact E]. apply nodup_linsert; auto.
  Qed.
End Nested.

Section NestedEntry.
  Context {S : Scalar}.
  Lemma vw2_nested pick (line out1 out2 : list (V2 S)) k1 k2 : k1 <= k2 ->
    simplify_vw_2d pick line k1 = Val out1 -> simplify_vw_2d pick line k2 = Val out2 -> subseq out2 out1.
  Proof.
    intros Hk. unfold simplify_vw_2d. destruct (Nat.leb (length line) 2).
    { intros E1 E2. injection E1 as <-. injection E2 as <-. apply subseq_refl. }
    destruct (vw_init area2 line (seq 1 (length line - 2)) [] []) as [[h m]| | |] eqn:Ei; cbn [obind]; try discriminate.
    assert (N : NoDup (map fst m)) by (eapply init_nodup; [|exact Ei]; constructor).
    destruct (is_connected line).
    - intros E1 E2. apply obind_val in E1 as ([h1 m1] & Eh & E1). rewrite Eh in E2. cbn [obind fst snd] in E1, E2.
      assert (N1 : NoDup (map fst m1)).
      { apply obind_val in Eh as (a & _ & Eh). apply obind_val in Eh as (h2 & _ & Eh). injection Eh as <- <-. apply nodup_linsert; auto. }
      apply obind_val in E1 as (ma & Ea & E1). apply obind_val in E2 as (mb & Eb & E2).
      destruct (loop_nested area2 true pick line k1 k2 Hk _ _ _ _ _ _ N1 Ea Eb) as [Na [Nb Sh]].
      eapply mapM_subseq; [|exact E2|exact E1]. constructor. apply nat_sort_subseq; auto.
    - cbn [obind fst snd]. intros E1 E2. apply obind_val in E1 as (ma & Ea & E1). apply obind_val in E2 as (mb & Eb & E2).
      destruct (loop_nested area2 true pick line k1 k2 Hk _ _ _ _ _ _ N Ea Eb) as [Na [Nb Sh]].
      eapply mapM_subseq; [|exact E2|exact E1]. constructor. apply subseq_app; [apply nat_sort_subseq; auto|apply subseq_refl].
  Qed.
  Lemma vw3_nested pick (line out1 out2 : list (V3 S)) k1 k2 : k1 <= k2 ->
    simplify_vw_3d pick line k1 = Val out1 -> simplify_vw_3d pick line k2 = Val out2 -> subseq out2 out1.
  Proof.
    intros Hk. unfold simplify_vw_3d. destruct (Nat.leb (length line) 2).
    { intros E1 E2. injection E1 as <-. injection E2 as <-. apply subseq_refl. }
    destruct (vw_init area3 line (seq 1 (length line - 2)) [] []) as [[h m]| | |] eqn:Ei; cbn [obind]; try discriminate.
    assert (N : NoDup (map fst m)) by (eapply init_nodup; [|exact Ei]; constructor).
    cbn [fst snd]. intros E1 E2. apply obind_val in E1 as (ma & Ea & E1). apply obind_val in E2 as (mb & Eb & E2).
    destruct (loop_nested area3 false pick line k1 k2 Hk _ _ _ _ _ _ N Ea Eb) as [Na [Nb Sh]].
    eapply mapM_subseq; [|exact E2|exact E1]. constructor. apply nat_sort_subseq; auto.
  Qed.
End NestedEntry.

(* a line whose triangle areas are all multiplied by k > 0 *)
Section Scale.
  Context {A B : Type} (f : A -> B) (areaA : A -> A -> A -> car RS) (areaB : B -> B -> B -> car RS) (k : R) (Hk : (0 < k)%R).
  Hypothesis Harea : forall a b c, areaB (f a) (f b) (f c) = (k * areaA a b c)%R.
  Definition sc (e : @entry RS) : @entry RS := ((k * fst e)%R : car RS, snd e).
  Definition sl (e : nat * (nat * nat * car RS)) : nat * (nat * nat * car RS) := (fst e, (fst (snd e), (k * snd (snd e))%R)).
  Context (pickA pickB : nat -> list (@entry RS) -> nat) (Hpick : forall s h, pickB s (map sc h) = pickA s h).

  Lemma sc_areaM line i j l : areaM (S := RS) areaB (map f line) i j l = omap (fun a => (k * a)%R) (areaM (S := RS) areaA line i j l).
  Proof.
    unfold areaM, idx. rewrite !nth_error_map.
    destruct (nth_error line i); cbn; auto. destruct (nth_error line j); cbn; auto. destruct (nth_error line l); cbn; auto. rewrite Harea. auto.
  Qed.
  Lemma sc_push h e : heap_push (map sc h) (sc e) = omap (map sc) (heap_push h e).
  Proof.
    unfold heap_push. match goal with |- (if ?x then _ else _) = omap _ (if ?y then _ else _) => assert (E : x = y); [|rewrite E; destruct y] end.
    - induction h as [|x h IH]; cbn [existsb map]; auto. rewrite IH. f_equal. cbn [sc fst]. rewrite (spcmp_scale k Hk). auto.
    - reflexivity.
    - cbn [omap obind]. rewrite map_app. reflexivity.
  Qed.
  Lemma sl_lget m i : lget (map sl m) i = option_map (fun v => (fst v, (k * snd v)%R)) (lget (S := RS) m i).
  Proof.
    unfold lget. induction m as [|e m IH]; cbn [map find]; auto. cbn [sl fst]. destruct (Nat.eqb (fst e) i); [reflexivity|exact IH].
  Qed.
  Lemma sl_lremove m i : lremove (S := RS) (map sl m) i = map sl (lremove (S := RS) m i).
  Proof. unfold lremove. induction m as [|e m IH]; cbn [map filter]; auto. cbn [sl fst]. destruct (negb (Nat.eqb (fst e) i)); cbn [map]; rewrite IH; auto. Qed.
  Lemma sl_linsert m i v : linsert (S := RS) (map sl m) i (fst v, (k * snd v)%R) = map sl (linsert (S := RS) m i v).
  Proof. unfold linsert. cbn [map]. rewrite sl_lremove. destruct v as [v a]. reflexivity. Qed.
  Lemma sl_keys m : map fst (map sl m) = map (@fst nat (nat * nat * car RS)) m.
  Proof. rewrite map_map. reflexivity. Qed.
  Definition shm (p : list (@entry RS) * @links RS) : list (@entry RS) * @links RS := (map sc (fst p), map sl (snd p)).

  Lemma sc_push' h (a : car RS) i : heap_push (S := RS) (map sc h) ((k * a)%R : car RS, i) = omap (map sc) (heap_push (S := RS) h (a, i)).
  Proof. apply (sc_push h (a, i)). Qed.
  Lemma sl_linsert' m i p n (a : car RS) : linsert (S := RS) (map sl m) i (p, n, (k * a)%R) = map sl (linsert (S := RS) m i (p, n, a)).
  Proof. apply (sl_linsert m i ((p, n), a)). Qed.

  Lemma sc_init line js : forall h m, vw_init (S := RS) areaB (map f line) js (map sc h) (map sl m) = omap shm (vw_init (S := RS) areaA line js h m).
  Proof.
    induction js as [|j js IH]; intros h m; cbn [vw_init]; [reflexivity|].
    rewrite sc_areaM. destruct (areaM (S := RS) areaA line (j - 1) j (j + 1)) as [a| | |]; cbn [omap obind]; auto.
    rewrite sc_push'. destruct (heap_push (S := RS) h (a, j)) as [h'| | |]; cbn [omap obind]; auto.
    rewrite sl_linsert'. apply IH.
  Qed.
  Lemma sc_relink line h m prev next : vw_relink (S := RS) areaB (map f line) (map sc h) (map sl m) prev next = omap shm (vw_relink (S := RS) areaA line h m prev next).
  Proof.
    unfold vw_relink. rewrite !sl_lget, map_length.
    destruct (lget m next) as [[[np nn] na]|]; destruct (lget m prev) as [[[pp pn] pa]|]; cbn [option_map fst snd]; rewrite ?sc_areaM.
    - destruct (areaM (S := RS) areaA line prev _ _) as [a| | |]; cbn [omap obind]; auto.
      rewrite sc_push'. destruct (heap_push (S := RS) h (a, next)) as [h'| | |]; cbn [omap obind]; auto.
      destruct (areaM (S := RS) areaA line pp _ _) as [b| | |]; cbn [omap obind]; auto.
      rewrite sc_push'. destruct (heap_push (S := RS) h' (b, prev)) as [h''| | |]; cbn [omap obind]; auto.
      rewrite !sl_linsert'. reflexivity.
    - destruct (areaM (S := RS) areaA line prev _ _) as [a| | |]; cbn [omap obind]; auto.
      rewrite sc_push'. destruct (heap_push (S := RS) h (a, next)) as [h'| | |]; cbn [omap obind]; auto.
      rewrite !sl_linsert'. reflexivity.
    - destruct (areaM (S := RS) areaA line pp _ _) as [a| | |]; cbn [omap obind]; auto.
      rewrite sc_push'. destruct (heap_push (S := RS) h (a, prev)) as [h'| | |]; cbn [omap obind]; auto.
      rewrite !sl_linsert'. reflexivity.
    - reflexivity.
  Qed.
  Lemma sc_remove_nth i h : remove_nth i (map sc h) = map sc (remove_nth i h).
  Proof. revert i; induction h as [|x h IH]; intros [|i]; cbn [remove_nth map]; auto. rewrite IH. auto. Qed.
  Lemma sc_pop s h : heap_pop (S := RS) (pickB s) (map sc h) = omap (option_map (fun p => (sc (fst p), map sc (snd p)))) (heap_pop (S := RS) (pickA s) h).
  Proof.
    unfold heap_pop. destruct h as [|e h]; [reflexivity|]. rewrite Hpick, nth_error_map. cbn [map].
    change (sc e :: map sc h) with (map sc (e :: h)). rewrite sc_remove_nth.
    destruct (nth_error (e :: h) (pickA s (e :: h))); reflexivity.
  Qed.
  Lemma seqb_scale (x y : car RS) : seqb (s := RS) (k * x)%R (k * y)%R = seqb (s := RS) x y.
  Proof.
    rsimp. destruct (Reqb_spec x y) as [->|Hn]; [apply Reqb_true; auto|]. apply Reqb_false. intros E. apply Hn.
    apply Rmult_eq_reg_l in E; auto. lra.
  Qed.
  Lemma sc_loop stop2 line n : forall fuel h m deleted,
    vw_loop (S := RS) areaB stop2 pickB fuel (map f line) n (map sc h) (map sl m) deleted =
    omap (map sl) (vw_loop (S := RS) areaA stop2 pickA fuel line n h m deleted).
  Proof.
    induction fuel as [|fuel IH]; intros h m deleted; [reflexivity|]. cbn [vw_loop]. rewrite map_length.
    assert (Eh : (match map sc h with [] => true | _ => false end) = match h with [] => true | _ => false end) by (destruct h; reflexivity).
    rewrite Eh. destruct (_ || _ || _)%bool; [reflexivity|].
    rewrite sc_pop. destruct (heap_pop (S := RS) (pickA fuel) h) as [[[[key i] h1]|]| | |]; cbn [omap obind option_map fst snd]; auto.
    cbn [sc fst snd]. rewrite sl_lget. destruct (lget m i) as [[[prev next] a]|]; cbn [option_map fst snd]; auto.
    rewrite seqb_scale. destruct (negb (seqb (s := RS) key a)); auto.
    rewrite sl_lremove, sc_relink. destruct (vw_relink (S := RS) areaA line h1 (lremove (S := RS) m i) prev next) as [[h2 m2]| | |]; cbn [omap obind]; auto.
    cbn [shm fst snd]. apply IH.
  Qed.
  Lemma points_at_map line is : points_at (map f line) is = omap (map f) (points_at line is).
  Proof.
    unfold points_at. induction is as [|i is IH]; cbn [mapM]; [reflexivity|]. unfold idx at 1 3. rewrite nth_error_map.
    destruct (nth_error line i); cbn [option_map omap obind]; auto. rewrite IH. destruct (mapM (idx line) is); reflexivity.
  Qed.
End Scale.

Lemma vw2_scale (f : pt -> pt) k pickA pickB : (0 < k)%R -> (forall p q, f p = f q -> p = q) ->
  (forall a b c, area2 (S := RS) (f a) (f b) (f c) = k * area2 (S := RS) a b c)%R -> (forall s h, pickB s (map (sc k) h) = pickA s h) ->
  forall line n, simplify_vw_2d (S := RS) pickB (map f line) n = omap (map f) (simplify_vw_2d (S := RS) pickA line n).
Proof.
  intros Hk Hf Ha Hp line n. unfold simplify_vw_2d. rewrite map_length.
  destruct (Nat.leb (length line) 2) eqn:E2; [reflexivity|].
  assert (Ec : is_connected (map f line) = is_connected line).
  { destruct line as [|a l]; auto. cbn [map is_connected]. 
    assert (El : last (f a :: map f l) (f a) = f (last (a :: l) a)).
    { change (f a :: map f l) with (map f (a :: l)). generalize (a :: l) as w. clear. induction w as [|x [|y w] IH]; [reflexivity|reflexivity|exact IH]. }
    rewrite El. apply Bool.eq_iff_eq_true. rewrite !veqb_R. split; [apply Hf|apply (f_equal f)]. }
  rewrite Ec. pose proof (sc_init f _ _ k Hk Ha line (seq 1 (length line - 2)) [] []) as Ei. cbn [map] in Ei. rewrite Ei.
  destruct (vw_init area2 line (seq 1 (length line - 2)) [] []) as [[h m]| | |]; cbn [omap obind shm]; auto. cbn [shm fst snd].
  destruct (is_connected line).
  - rewrite (sc_areaM f _ _ k Ha). destruct (areaM (S := RS) area2 line (length line - 2) (length line - 1) 0) as [a| | |]; cbn [omap obind]; auto.
    rewrite (sc_push' k Hk). destruct (heap_push (S := RS) h (a, length line - 1)) as [h'| | |]; cbn [omap obind fst snd]; auto.
    rewrite sl_linsert'. rewrite (sc_loop f _ _ k Hk Ha pickA pickB Hp).
    destruct (vw_loop (S := RS) area2 true pickA (vw_fuel (length line)) line n h' (linsert m (length line - 1) (length line - 2, length line, a)) 0) as [m'| | |]; cbn [omap obind]; auto.
    rewrite sl_keys. apply points_at_map.
  - cbn [obind fst snd]. rewrite (sc_loop f _ _ k Hk Ha pickA pickB Hp).
    destruct (vw_loop (S := RS) area2 true pickA (vw_fuel (length line)) line n h m 0) as [m'| | |]; cbn [omap obind]; auto.
    rewrite sl_keys. apply points_at_map.
Qed.
Lemma vw3_scale (f : pt3 -> pt3) k pickA pickB : (0 < k)%R ->
  (forall a b c, area3 (S := RS) (f a) (f b) (f c) = k * area3 (S := RS) a b c)%R -> (forall s h, pickB s (map (sc k) h) = pickA s h) ->
  forall line n, simplify_vw_3d (S := RS) pickB (map f line) n = omap (map f) (simplify_vw_3d (S := RS) pickA line n).
Proof.
  intros Hk Ha Hp line n. unfold simplify_vw_3d. rewrite map_length.
  destruct (Nat.leb (length line) 2) eqn:E2; [reflexivity|].
  pose proof (sc_init f _ _ k Hk Ha line (seq 1 (length line - 2)) [] []) as Ei. cbn [map] in Ei. rewrite Ei.
  destruct (vw_init area3 line (seq 1 (length line - 2)) [] []) as [[h m]| | |]; cbn [omap obind shm]; auto. cbn [shm fst snd].
  rewrite (sc_loop f _ _ k Hk Ha pickA pickB Hp).
  destruct (vw_loop (S := RS) area3 false pickA (vw_fuel (length line)) line n h m 0) as [m'| | |]; cbn [omap obind]; auto.
  rewrite sl_keys. apply points_at_map.
Qed.
