(* The entry points of Visvalingam-Whyatt: initial state, result, and the choice of a smallest entry. *)
From Coq Require Import Sorting.Permutation Sorting.Sorted.
From Verif Require Import Prelude Scalar Geo2 Geo3 Simplify GeoSpec Rdp1 VwSpec VwProofs.

Lemma windows_seq len : forall s a b, In (a, b) (windows (seq s len)) <-> b = a + 1 /\ s <= a /\ b < s + len.
Proof.
  induction len as [|len IH]; intros s a b; [simpl; lia|].
  destruct len as [|len]; [simpl; lia|].
  change (seq s (S (S len))) with (s :: S s :: seq (S (S s)) len). rewrite windows_cons.
  cbn [In]. change (S s :: seq (S (S s)) len) with (seq (S s) (S len)). rewrite IH. split.
  - intros [E|?]; [injection E as <- <-|]; lia.
  - intros H. destruct (Nat.eq_dec a s) as [->|]; [left; f_equal; lia|right; lia].
Qed.

Lemma seq_ends z : 1 <= z -> seq 0 (z + 1) = 0 :: seq 1 (z - 1) ++ [z].
Proof.
  intros H. replace (z + 1) with (S ((z - 1) + 1)) by lia. cbn [seq]. rewrite seq_app. simpl. repeat f_equal. lia.
Qed.

Section Init.
  Context {S : Scalar} {T : Type} (area : T -> T -> T -> car S).
  Notation F := (car S).
  Context (line : list T) (d0 : T).
  Notation n := (length line).
  Notation gp := (gp line d0).
  Notation ar := (ar area line d0).

  Definition ins (m : @links S) (j : nat) := linsert m j (j - 1, j + 1, ar (j - 1) j (j + 1)).
  Definition ent (j : nat) : @entry S := (ar (j - 1) j (j + 1), j).

  Lemma init_val js : forall h m h' m', (forall j, In j js -> 1 <= j /\ j + 1 < n) ->
    vw_init area line js h m = Val (h', m') -> h' = h ++ map ent js /\ m' = fold_left ins js m.
  Proof.
    induction js as [|j js IH]; intros h m h' m' Hj; cbn [vw_init map fold_left].
    - intros E; injection E as <- <-. rewrite app_nil_r. auto.
    - destruct (Hj j (or_introl eq_refl)) as [H1 H2].
      rewrite <- (Nat.mod_small (j + 1) n) at 1 by auto.
      rewrite (areaM_ar2 area line d0) by lia. cbn [obind].
      intros E. apply obind_val in E as (h1 & E1 & E). apply heap_push_val in E1. subst h1.
      apply IH in E as [-> ->]; [|intros; apply Hj; right; auto]. rewrite <- app_assoc. auto.
  Qed.

  Lemma lget_ins js : forall m k, lget (fold_left ins js m) k =
    if in_dec Nat.eq_dec k js then Some (k - 1, k + 1, ar (k - 1) k (k + 1)) else lget m k.
  Proof.
    induction js as [|j js IH]; intros m k; cbn [fold_left]; [simpl; auto|].
    rewrite IH. destruct (in_dec Nat.eq_dec k js) as [H|H].
    - destruct (in_dec Nat.eq_dec k (j :: js)) as [|H']; auto. exfalso; apply H'; right; auto.
    - unfold ins. rewrite lget_linsert. destruct (Nat.eqb_spec j k) as [->|].
      + destruct (in_dec Nat.eq_dec k (k :: js)) as [|H']; auto. exfalso; apply H'; left; auto.
      + destruct (in_dec Nat.eq_dec k (j :: js)) as [[->|H']|]; auto; congruence.
  Qed.
  Lemma nodup_ins js : forall m, NoDup (map fst m) -> NoDup (map fst (fold_left ins js m)).
  Proof. induction js; simpl; intros m N; auto. apply IHjs. apply nodup_linsert. auto. Qed.

  Lemma init_LInv z : 1 <= z -> LInv area line d0 (0 :: seq 1 (z - 1) ++ [z]) (fold_left ins (seq 1 (z - 1)) []).
  Proof.
    intros Hz. rewrite <- seq_ends by auto. constructor.
    - apply ssorted_seq.
    - apply nodup_ins. constructor.
    - intros a b c H1 H2. rewrite windows_seq in H1, H2. rewrite lget_ins.
      destruct (in_dec Nat.eq_dec b (seq 1 (z - 1))) as [H|H].
      + replace (b - 1) with a by lia. replace (b + 1) with c by lia. auto.
      + exfalso. apply H, in_seq. lia.
    - intros b v. rewrite lget_ins. destruct (in_dec Nat.eq_dec b (seq 1 (z - 1))) as [H|H]; [|discriminate].
      intros _. apply in_seq in H. exists (b - 1), (b + 1). rewrite !windows_seq. lia.
  Qed.
  Lemma init_HInv z : 1 <= z -> HInv area line d0 (0 :: seq 1 (z - 1) ++ [z]) (map ent (seq 1 (z - 1))).
  Proof.
    intros Hz. rewrite <- seq_ends by auto. intros a b c H1 H2. rewrite windows_seq in H1, H2.
    apply in_map_iff. exists b. unfold ent. replace (b - 1) with a by lia. replace (b + 1) with c by lia.
    split; auto. apply in_seq. lia.
  Qed.

  Lemma init_snoc z : 2 <= z -> fold_left ins (seq 1 (z - 1)) [] = ins (fold_left ins (seq 1 (z - 1 - 1)) []) (z - 1) /\
    map ent (seq 1 (z - 1)) = map ent (seq 1 (z - 1 - 1)) ++ [ent (z - 1)].
  Proof.
    intros Hz. replace (seq 1 (z - 1)) with (seq 1 (z - 1 - 1) ++ [z - 1]).
    - rewrite fold_left_app, map_app. auto.
    - replace (z - 1) with ((z - 1 - 1) + 1) at 3 by lia. rewrite seq_app. simpl. do 2 f_equal. lia.
  Qed.

  Lemma gp_seq : n <> 0 -> map gp (seq 0 n) = line.
  Proof.
    intros Hn. apply nth_ext with (d := d0) (d' := d0); [rewrite map_length, seq_length; auto|].
    rewrite map_length, seq_length. intros i Hi.
    rewrite nth_indep with (d' := gp 0) by (rewrite map_length, seq_length; auto).
    rewrite map_nth. rewrite seq_nth by auto. simpl. unfold VwProofs.gp. rewrite Nat.mod_small; auto.
  Qed.
  Lemma gp_n : n <> 0 -> gp n = gp 0.
  Proof. intros H. unfold VwProofs.gp. rewrite Nat.mod_same, Nat.mod_0_l by auto. auto. Qed.
  Lemma gp_0 a t : line = a :: t -> gp 0 = a.
  Proof. intros ->. unfold VwProofs.gp. rewrite Nat.mod_0_l by (simpl; auto). auto. Qed.

  Lemma points_at_gp is : (forall i, In i is -> i < n) -> points_at line is = Val (map gp is).
  Proof.
    unfold points_at. induction is as [|i is IH]; intros H; cbn [mapM map]; auto.
    rewrite (idx_gp_lt line d0) by (apply H; left; auto). cbn [obind].
    rewrite IH by (intros; apply H; right; auto). auto.
  Qed.

  Context (D : F -> Prop) (HO : OrdOn S D) (HD : forall a b c, In a line -> In b line -> In c line -> D (area a b c)).
  Lemma init_ok js : forall h m, (forall j, In j js -> 1 <= j /\ j + 1 < n) -> Forall (fun e => D (fst e)) h ->
    vw_init area line js h m = Val (h ++ map ent js, fold_left ins js m).
  Proof.
    induction js as [|j js IH]; intros h m Hj Hh; cbn [vw_init map fold_left]; [rewrite app_nil_r; auto|].
    destruct (Hj j (or_introl eq_refl)) as [H1 H2].
    rewrite <- (Nat.mod_small (j + 1) n) at 1 by auto.
    rewrite (areaM_ar2 area line d0) by lia. cbn [obind].
    assert (Dj : D (ar (j - 1) j (j + 1))) by (apply D_ar; auto; lia).
    rewrite (heap_push_ok D HO) by auto. cbn [obind].
    rewrite IH; [rewrite <- app_assoc; auto|intros; apply Hj; right; auto|].
    apply Forall_app; split; auto.
  Qed.
  Lemma ent_D js : n <> 0 -> Forall (fun e => D (fst e)) (map ent js).
  Proof. intros Hn. apply Forall_forall. intros e (j & <- & _)%in_map_iff. apply (D_ar area line d0 D HD (j - 1) j (j + 1)); auto. Qed.
End Init.

Lemma ssorted_bound x ps z : StronglySorted lt (x :: ps ++ [z]) -> (forall i, In i (x :: ps) -> i < z) .
Proof.
  change (x :: ps ++ [z]) with ((x :: ps) ++ [z]). intros H%ssorted_app i Hi. apply H; auto. left; auto.
Qed.

Section Entry.
  Context {S : Scalar}.
  Notation F := (car S).

  Lemma subseq_snoc_l {A} (l m : list A) a : subseq l m -> subseq (l ++ [a]) (m ++ [a]).
  Proof. intros; apply subseq_app; auto; constructor; constructor. Qed.

  (* ---- any scalar type, any oracle ---- *)
  Lemma vw2_sound pick (line out : list (V2 S)) k : simplify_vw_2d pick line k = Val out ->
    subseq out line /\ hd_error out = hd_error line /\
    (is_connected line = false -> hd_error (rev out) = hd_error (rev line)).
  Proof.
    unfold simplify_vw_2d. destruct (Nat.leb_spec (length line) 2) as [|Hn].
    { intros E; injection E as <-. split; auto using subseq_refl. }
    destruct line as [|d0 tl] eqn:El; [simpl in Hn; lia|]. rewrite <- El in *. set (n := length line) in *.
    intros E. apply obind_val in E as ([h m] & Ei & E).
    apply (init_val area2 line d0) in Ei as [-> ->]; [|intros j Hj; apply in_seq in Hj; fold n; lia].
    cbn [app] in E. apply obind_val in E as ([h m] & Ec & E). apply obind_val in E as (m' & El' & E). cbn [fst snd] in *.
    assert (G : exists z, (z = n - 1 /\ is_connected line = false \/ z = n /\ is_connected line = true) /\
               m = fold_left (ins area2 line d0) (seq 1 (z - 1)) []).
    { destruct (is_connected line).
      - replace (areaM area2 line (n - 2) (n - 1) 0) with (areaM area2 line (n - 2) (n - 1) (n mod length line)) in Ec
          by (unfold n; rewrite Nat.mod_same; auto; lia).
        rewrite (areaM_ar2 area2 line d0) in Ec by (fold n; lia). cbn [obind] in Ec.
        apply obind_val in Ec as (h' & _ & Ec). injection Ec as _ <-.
        exists n. split; auto. destruct (init_snoc area2 line d0 n) as [-> _]; [lia|].
        replace (n - 1 - 1) with (n - 2) by lia. unfold ins. replace (n - 1 - 1) with (n - 2) by lia.
        replace (n - 1 + 1) with n by lia. auto.
      - injection Ec as _ <-. exists (n - 1). split; auto. replace (n - 1 - 1) with (n - 2) by lia. auto. }
    destruct G as (z & Hz & ->).
    assert (Hz1 : 1 <= z) by lia.
    pose proof (init_LInv area2 line d0 z Hz1) as L.
    pose proof (fun Hn' => loop_sound area2 line d0 true pick k (vw_fuel n) _ _ 0 _ _ _ m' L Hn' El') as LS.
    destruct LS as (ps & L' & Hsub).
    { rewrite <- seq_ends by auto. intros i Hi. apply in_seq in Hi. fold n. lia. }
    destruct (LInv_keys _ _ _ _ _ _ _ L') as [Ek _]. rewrite Ek in E.
    pose proof (ssorted_bound _ _ _ (li_sorted _ _ _ _ _ L')) as Hb.
    assert (Hgs : map (gp line d0) (seq 0 n) = line) by (apply gp_seq; fold n; lia).
    destruct Hz as [[-> Hc]|[-> Hc]]; rewrite Hc in E.
    - rewrite (points_at_gp line d0) in E.
      2:{ intros i Hi. fold n. change (0 :: ps ++ [n - 1]) with ((0 :: ps) ++ [n - 1]) in Hi.
          apply in_app_iff in Hi as [Hi|[<-|[]]]; [|lia]. specialize (Hb _ Hi). lia. }
      injection E as <-.
      assert (Hs : seq 0 n = 0 :: seq 1 (n - 1 - 1) ++ [n - 1]) by (rewrite <- seq_ends by lia; f_equal; lia).
      rewrite Hs in Hgs. split; [|split].
      + eapply eq_ind with (P := subseq _); [|exact Hgs]. apply (subseq_map (gp line d0) (0 :: ps ++ [n - 1])). constructor. apply subseq_snoc_l. auto.
      + etransitivity; [|exact (f_equal (@hd_error _) Hgs)]. reflexivity.
      + intros _. etransitivity; [|exact (f_equal (fun l => hd_error (rev l)) Hgs)].
        cbn [map]. rewrite !map_app. cbn [rev map]. rewrite !rev_app_distr. reflexivity.
    - rewrite (points_at_gp line d0) in E.
      2:{ intros i Hi. fold n. auto. }
      injection E as <-.
      assert (Hs : seq 0 n = 0 :: seq 1 (n - 1)) by (replace n with (Datatypes.S (n - 1)) at 1 by lia; reflexivity).
      rewrite Hs in Hgs. split; [|split]; [| |congruence].
      + eapply eq_ind with (P := subseq _); [|exact Hgs]. apply (subseq_map (gp line d0) (0 :: ps)). constructor. auto.
      + etransitivity; [|exact (f_equal (@hd_error _) Hgs)]. reflexivity.
  Qed.

  Lemma vw3_sound pick (line out : list (V3 S)) k : simplify_vw_3d pick line k = Val out ->
    subseq out line /\ hd_error out = hd_error line.
  Proof.
    unfold simplify_vw_3d. destruct (Nat.leb_spec (length line) 2) as [|Hn].
    { intros E; injection E as <-. split; auto using subseq_refl. }
    destruct line as [|d0 tl] eqn:El; [simpl in Hn; lia|]. rewrite <- El in *. set (n := length line) in *.
    intros E. apply obind_val in E as ([h m] & Ei & E).
    apply (init_val area3 line d0) in Ei as [-> ->]; [|intros j Hj; apply in_seq in Hj; fold n; lia].
    cbn [app fst snd] in E. apply obind_val in E as (m' & El' & E).
    pose proof (init_LInv area3 line d0 (n - 1) ltac:(lia)) as L. replace (n - 1 - 1) with (n - 2) in L by lia.
    pose proof (fun Hn' => loop_sound area3 line d0 false pick k (vw_fuel n) _ _ 0 _ _ _ m' L Hn' El') as LS.
    destruct LS as (ps & L' & Hsub).
    { replace (n - 2) with (n - 1 - 1) by lia. rewrite <- seq_ends by lia. intros i Hi. apply in_seq in Hi. fold n. lia. }
    destruct (LInv_keys _ _ _ _ _ _ _ L') as [Ek _]. rewrite Ek in E.
    pose proof (ssorted_bound _ _ _ (li_sorted _ _ _ _ _ L')) as Hb.
    assert (Hgs : map (gp line d0) (seq 0 n) = line) by (apply gp_seq; fold n; lia).
    rewrite (points_at_gp line d0) in E.
    2:{ intros i Hi. fold n. specialize (Hb _ Hi). lia. }
    injection E as <-.
    assert (Hs : seq 0 n = 0 :: seq 1 (n - 2) ++ [n - 1]).
    { replace n with ((n - 1) + 1) at 1 by lia. rewrite seq_ends by lia. do 3 f_equal. lia. }
    rewrite Hs in Hgs. split.
    - eapply eq_ind with (P := subseq _); [|exact Hgs]. apply (subseq_map (gp line d0) (0 :: ps)). constructor.
      rewrite <- (app_nil_r ps). apply subseq_app; auto. apply subseq_nil_l.
    - etransitivity; [|exact (f_equal (@hd_error _) Hgs)]. reflexivity.
  Qed.

  (* ---- ordered areas, heap pops a smallest entry ---- *)
  Context (D : F -> Prop) (HO : OrdOn S D).

  Lemma vw2_open pick (line : list (V2 S)) k : pops_smallest D pick ->
    (forall a b c, In a line -> In b line -> In c line -> D (area2 a b c)) ->
    3 <= length line -> is_connected line = false ->
    exists out, simplify_vw_2d pick line k = Val out /\
      vw_steps area2 (Nat.min k (if Nat.eqb (length line) 3 then 1 else length line - 4)) line out.
  Proof.
    intros Hp HD Hn Hc. unfold simplify_vw_2d. rewrite Hc. destruct (Nat.leb_spec (length line) 2) as [|_]; [lia|].
    destruct line as [|d0 tl] eqn:El; [simpl in Hn; lia|]. rewrite <- El in *. set (n := length line) in *.
    rewrite (init_ok area2 line d0 D HO HD); [|intros j Hj; apply in_seq in Hj; fold n; lia|constructor].
    cbn [obind app fst snd].
    pose proof (init_LInv area2 line d0 (n - 1) ltac:(lia)) as L.
    pose proof (init_HInv area2 line d0 (n - 1) ltac:(lia)) as H.
    replace (n - 1 - 1) with (n - 2) in * by lia.
    assert (Hs : seq 0 n = 0 :: seq 1 (n - 2) ++ [n - 1]).
    { replace n with ((n - 1) + 1) at 1 by lia. rewrite seq_ends by lia. do 3 f_equal. lia. }
    destruct (loop_total area2 line d0 D HO HD true pick k Hp ltac:(fold n; lia) (vw_fuel n) _ _ 0 _ _ _ L H)
      as (m' & ps & j & E & L' & Hsteps & Hj).
    - apply ent_D; auto. fold n; lia.
    - rewrite <- Hs. intros i Hi. apply in_seq in Hi. fold n. lia.
    - lia.
    - rewrite map_length, !seq_length. unfold vw_fuel. lia.
    - rewrite E. cbn [obind]. destruct (LInv_keys _ _ _ _ _ _ _ L') as [Ek _]. rewrite Ek.
      pose proof (ssorted_bound _ _ _ (li_sorted _ _ _ _ _ L')) as Hb.
      rewrite (points_at_gp line d0).
      2:{ intros i Hi. fold n. change (0 :: ps ++ [n - 1]) with ((0 :: ps) ++ [n - 1]) in Hi.
          apply in_app_iff in Hi as [Hi|[<-|[]]]; [|lia]. specialize (Hb _ Hi). lia. }
      eexists; split; [reflexivity|]. apply isteps_points in Hsteps.
      assert (Hgs : map (gp line d0) (seq 0 n) = line) by (apply gp_seq; fold n; lia).
      rewrite <- Hs, Hgs in Hsteps. rewrite Hj in Hsteps.
      rewrite seq_length in Hsteps. replace (Nat.min k _) with (Nat.min (k - 0) (avail true (n - 2))); auto.
      unfold avail. rewrite Nat.sub_0_r. f_equal. clear -Hn.
      destruct (Nat.eqb_spec n 3); destruct (Nat.leb_spec 2 (n - 2)); lia.
  Qed.

  Lemma vw2_closed pick (line : list (V2 S)) k : pops_smallest D pick ->
    (forall a b c, In a line -> In b line -> In c line -> D (area2 a b c)) ->
    3 <= length line -> is_connected line = true ->
    exists f tl out, line = f :: tl /\ simplify_vw_2d pick line k = Val out /\
      vw_steps area2 (Nat.min k (length line - 3)) (line ++ [f]) (out ++ [f]).
  Proof.
    intros Hp HD Hn Hc. unfold simplify_vw_2d. rewrite Hc. destruct (Nat.leb_spec (length line) 2) as [|_]; [lia|].
    destruct line as [|d0 tl] eqn:El; [simpl in Hn; lia|]. rewrite <- El in *. set (n := length line) in *.
    exists d0, tl.
    assert (Hn0 : length line <> 0) by (fold n; lia).
    rewrite (init_ok area2 line d0 D HO HD); [|intros j Hj; apply in_seq in Hj; fold n; lia|constructor].
    cbn [obind app fst snd].
    replace (areaM area2 line (n - 2) (n - 1) 0) with (areaM area2 line (n - 2) (n - 1) (n mod length line))
          by (unfold n; rewrite Nat.mod_same; auto; lia).
    rewrite (areaM_ar2 area2 line d0) by (fold n; lia). cbn [obind].
    rewrite (heap_push_ok D HO); [|apply ent_D; auto|apply (D_ar area2 line d0 D HD (n - 2) (n - 1) n); auto].
    cbn [obind fst snd].
    pose proof (init_LInv area2 line d0 n ltac:(lia)) as L.
    pose proof (init_HInv area2 line d0 n ltac:(lia)) as H.
    assert (Hs : seq 0 (n + 1) = 0 :: seq 1 (n - 1) ++ [n]) by (apply seq_ends; lia).
    assert (Hgs : map (gp line d0) (seq 0 (n + 1)) = line ++ [d0]).
    { rewrite seq_app, map_app. unfold n. rewrite gp_seq by auto. cbn [map seq Nat.add]. rewrite gp_n by auto.
      f_equal. f_equal. apply (gp_0 line d0 d0 tl El). }
    destruct (init_snoc area2 line d0 n) as [Em Eh]; [lia|].
    rewrite Em in L. rewrite Eh in H. unfold ins in L at 1. unfold ent in H at 2.
    replace (n - 1 - 1) with (n - 2) in L, H by lia.
    replace (n - 1 + 1) with n in L, H by lia.
    destruct (loop_total area2 line d0 D HO HD true pick k Hp ltac:(fold n; lia) (vw_fuel n) _ _ 0 _ _ _ L H)
      as (m' & ps & j & E & L' & Hsteps & Hj).
    - apply Forall_app; split; [apply ent_D; auto|]. constructor; auto. apply (D_ar area2 line d0 D HD (n - 2) (n - 1) n); auto.
    - rewrite <- Hs. intros i Hi. apply in_seq in Hi. fold n. lia.
    - lia.
    - rewrite app_length, map_length, !seq_length. unfold vw_fuel. simpl. lia.
    - match type of E with ?l = _ => match goal with |- context [obind ?v _] => change v with l end end.
      rewrite E. cbn [obind]. destruct (LInv_keys _ _ _ _ _ _ _ L') as [Ek _]. rewrite Ek.
      pose proof (ssorted_bound _ _ _ (li_sorted _ _ _ _ _ L')) as Hb.
      rewrite (points_at_gp line d0) by (intros i Hi; fold n; auto).
      eexists; split; [auto|split; [reflexivity|]]. apply isteps_points in Hsteps.
      rewrite <- Hs, Hgs in Hsteps. change (0 :: ps ++ [n]) with ((0 :: ps) ++ [n]) in Hsteps.
      rewrite map_app in Hsteps. cbn [map] in Hsteps.
      replace (gp line d0 n) with d0 in Hsteps by (unfold n; rewrite gp_n, (gp_0 line d0 d0 tl El); auto).
      rewrite Hj in Hsteps. rewrite seq_length in Hsteps.
      replace (Nat.min k _) with (Nat.min (k - 0) (avail true (n - 1))); auto.
      unfold avail. rewrite Nat.sub_0_r. f_equal. clear -Hn. destruct (Nat.leb_spec 2 (n - 1)); lia.
  Qed.

  Lemma vw3_total pick (line : list (V3 S)) k : pops_smallest D pick ->
    (forall a b c, In a line -> In b line -> In c line -> D (area3 a b c)) ->
    3 <= length line ->
    exists out z, simplify_vw_3d pick line k = Val out /\ hd_error (rev line) = Some z /\
      vw_steps area3 (Nat.min k (length line - 2)) line (out ++ [z]).
  Proof.
    intros Hp HD Hn. unfold simplify_vw_3d. destruct (Nat.leb_spec (length line) 2) as [|_]; [lia|].
    destruct line as [|d0 tl] eqn:El; [simpl in Hn; lia|]. rewrite <- El in *. set (n := length line) in *.
    rewrite (init_ok area3 line d0 D HO HD); [|intros j Hj; apply in_seq in Hj; fold n; lia|constructor].
    cbn [obind app fst snd].
    pose proof (init_LInv area3 line d0 (n - 1) ltac:(lia)) as L.
    pose proof (init_HInv area3 line d0 (n - 1) ltac:(lia)) as H.
    replace (n - 1 - 1) with (n - 2) in * by lia.
    assert (Hs : seq 0 n = 0 :: seq 1 (n - 2) ++ [n - 1]).
    { replace n with ((n - 1) + 1) at 1 by lia. rewrite seq_ends by lia. do 3 f_equal. lia. }
    destruct (loop_total area3 line d0 D HO HD false pick k Hp ltac:(fold n; lia) (vw_fuel n) _ _ 0 _ _ _ L H)
      as (m' & ps & j & E & L' & Hsteps & Hj).
    - apply ent_D; auto. fold n; lia.
    - rewrite <- Hs. intros i Hi. apply in_seq in Hi. fold n. lia.
    - lia.
    - rewrite map_length, !seq_length. unfold vw_fuel. lia.
    - rewrite E. cbn [obind]. destruct (LInv_keys _ _ _ _ _ _ _ L') as [Ek _]. rewrite Ek.
      pose proof (ssorted_bound _ _ _ (li_sorted _ _ _ _ _ L')) as Hb.
      rewrite (points_at_gp line d0) by (intros i Hi; fold n; specialize (Hb _ Hi); lia).
      assert (Hgs : map (gp line d0) (seq 0 n) = line) by (apply gp_seq; fold n; lia).
      exists (map (gp line d0) (0 :: ps)), (gp line d0 (n - 1)). split; [reflexivity|]. split.
      + etransitivity; [exact (f_equal (fun l => hd_error (rev l)) (eq_sym Hgs))|].
        rewrite Hs. cbn [map]. rewrite map_app. cbn [rev map]. rewrite rev_app_distr. reflexivity.
      + apply isteps_points in Hsteps. rewrite <- Hs, Hgs in Hsteps.
        change (0 :: ps ++ [n - 1]) with ((0 :: ps) ++ [n - 1]) in Hsteps. rewrite map_app in Hsteps.
        cbn [map] in Hsteps. rewrite Hj in Hsteps. rewrite seq_length, Nat.sub_0_r in Hsteps. exact Hsteps.
  Qed.
End Entry.

(* ---- consequences of greedy steps ---- *)
Lemma vw_steps_length {S : Scalar} {T} (area : T -> T -> T -> car S) k p q :
  vw_steps area k p q -> length p = k + length q.
Proof.
  induction 1 as [|k p q r (l1 & a & b & c & l2 & -> & -> & _) _ IH]; auto.
  rewrite app_length in *. simpl in *. lia.
Qed.

(* a concrete choice: the first entry that no other entry undercuts *)
Section Pick.
  Context {S : Scalar}.
  Fixpoint argmin (h : list (car S * nat)) (i : nat) (best : car S * nat) : nat :=
    match h with
    | [] => snd best
    | e :: t => if sltb (fst e) (fst best) then argmin t (i + 1) (fst e, i) else argmin t (i + 1) best
    end.
  Definition pick_min (_ : nat) (h : list (car S * nat)) : nat :=
    match h with [] => 0 | e :: t => argmin t 1 (fst e, 0) end.

  Lemma pick_min_ok (D : car S -> Prop) : OrdOn S D -> pops_smallest D pick_min.
  Proof.
    intros HO s h Hne Hh.
    assert (G : forall t pre best, Forall (fun e => D (fst e)) (pre ++ t) ->
      (exists e, nth_error (pre ++ t) (snd best) = Some e /\ fst e = fst best) ->
      (forall x, In x pre -> sltb (fst x) (fst best) = false) ->
      exists e, nth_error (pre ++ t) (argmin t (length pre) best) = Some e /\ forall x, In x (pre ++ t) -> sltb (fst x) (fst e) = false).
    { induction t as [|y t IH]; intros pre best HD (e & He & Hb) Hm; cbn [argmin].
      - exists e. split; auto. rewrite app_nil_r. rewrite Hb. auto.
      - assert (Dy : D (fst y)). { rewrite Forall_forall in HD. apply HD, in_app_iff; right; left; auto. }
        assert (Db : D (fst best)). { rewrite Forall_forall in HD. rewrite <- Hb. apply HD. eapply nth_error_In; eauto. }
        assert (Ea : pre ++ y :: t = (pre ++ [y]) ++ t) by (rewrite <- app_assoc; auto).
        replace (length pre + 1) with (length (pre ++ [y])) by (rewrite app_length; auto).
        destruct (sltb (fst y) (fst best)) eqn:Ey; rewrite Ea in *.
        + apply IH; auto.
          * exists y. split; auto. cbn [snd]. rewrite nth_error_app1 by (rewrite app_length; simpl; lia).
            rewrite nth_error_app2, Nat.sub_diag by lia. auto.
          * cbn [fst]. intros x Hx. apply in_app_iff in Hx as [Hx|[<-|[]]].
            -- assert (Dx : D (fst x)). { rewrite Forall_forall in HD. apply HD, in_app_iff; left. apply in_app_iff; auto. }
               destruct (sltb (fst x) (fst y)) eqn:Exy; auto.
               specialize (Hm x Hx).
               rewrite (ord_trans _ _ HO _ _ _ Dx Dy Db Exy Ey) in Hm. discriminate.
            -- apply (ord_irrefl _ _ HO); auto.
        + apply IH; auto.
          * exists e; auto.
          * intros x Hx. apply in_app_iff in Hx as [Hx|[<-|[]]]; auto. }
    destruct h as [|e t]; [congruence|].
    apply (G t [e] (fst e, 0)); auto.
    - exists e; auto.
    - intros x [<-|[]]. inversion Hh; subst. apply (ord_irrefl _ _ HO); auto.
  Qed.
End Pick.
Lemma vw_steps_0 {S : Scalar} {T} (area : T -> T -> T -> car S) p q : vw_steps area 0 p q -> p = q.
Proof. intros H. inversion H. auto. Qed.
