From Verif Require Import Prelude Shape ShapeSpec ShapeProofs.

Ltac ob H := let a := fresh "a" in let E := fresh "E" in apply obind_val in H as (a & E & H).

Lemma oor_val a b r : oor a b = Val r -> (a = Val true /\ r = true) \/ (a = Val false /\ b = Val r).
Proof. unfold oor. destruct a as [[]| | |]; simpl; intros H; try discriminate; auto.
  left; split; congruence. Qed.

Lemma oor_total a b : (exists x, a = Val x) -> (exists y, b = Val y) -> exists r, oor a b = Val r.
Proof. intros [[] ->] [y ->]; simpl; eauto. Qed.

Section G.
  Context (m : adjm) (n : nat) (term : setvob).
  Context (Hnd : forall q, NoDup (nb m q)).
  Context (Hsym : forall v w, In w (nb m v) -> In v (nb m w)).
  Context (Hran : forall v w, In w (nb m v) -> v < n /\ w < n).
  Context (Hwt : wfv n term).
  Context (Hterm : forall v, isset term v <-> v < n /\ isterm m v).

  Definition disj (v : setvob) : Prop := forall i, isset v i -> isset term i -> False.

  Lemma nset_le v : wfv n v -> nset v <= n.
  Proof. intros [<- ->]. apply count_true_le. Qed.

  Lemma vget_tot v i : wfv n v -> i < n -> exists b, vget v i = Val b.
  Proof. intros H Hi. destruct (vget_spec n v i H Hi) as (b & E & _). eauto. Qed.

  Lemma adj_nb v ns : adj_get m v = Some ns -> nb m v = ns.
  Proof. unfold nb; intros ->; auto. Qed.

  Lemma unwind_total fuel : forall visited prev cur line,
    wfv n visited -> disj visited -> cur < n -> n - nset visited < fuel ->
    exists line' vis', unwind_loop fuel m term visited prev cur line = Val (line', vis') /\
      wfv n vis' /\ disj vis' /\ (forall i, isset visited i -> isset vis' i) /\
      (~ isset term cur -> isset vis' cur) /\ nset visited <= nset vis' /\
      (~ isset visited cur -> ~ isset term cur -> nset visited < nset vis').
  Proof.
    induction fuel as [|fuel IH]; intros visited prev cur line Hw Hd Hc Hf; [lia|].
    cbn [unwind_loop].
    destruct (vget_spec n visited cur Hw Hc) as (b1 & E1 & B1).
    destruct (vget_spec n term cur Hwt Hc) as (b2 & E2 & B2).
    rewrite E1, E2. unfold oor at 1. simpl obind.
    destruct b1.
    { simpl. do 2 eexists; split; [reflexivity|]. repeat split; auto; try apply Hw; tauto. }
    simpl. destruct b2.
    { simpl. do 2 eexists; split; [reflexivity|]. repeat split; auto; try apply Hw; tauto. }
    assert (N1 : ~ isset visited cur) by (rewrite <- B1; discriminate).
    assert (N2 : ~ isset term cur) by (rewrite <- B2; discriminate).
    destruct (vset_spec n visited cur Hw Hc) as (vis1 & Ev & Hw1 & Hs1).
    assert (Hcnt := vset_count n visited cur vis1 Hw N1 Ev).
    rewrite Ev. simpl obind.
    assert (Hd1 : disj vis1).
    { intros i Hi Ht. apply Hs1 in Hi as [Hi| ->]; [eapply Hd; eauto|auto]. }
    assert (Hle : nset vis1 <= n) by (apply nset_le; auto).
    assert (Hdone : forall l, exists line' vis', Val (A:=list nat * setvob) (l, vis1) = Val (line', vis') /\
      wfv n vis' /\ disj vis' /\ (forall i, isset visited i -> isset vis' i) /\
      (~ isset term cur -> isset vis' cur) /\ nset visited <= nset vis' /\
      (~ isset visited cur -> ~ isset term cur -> nset visited < nset vis')).
    { intros l. exists l, vis1. split; auto. split; auto. split; auto.
      split; [intros i Hi; apply Hs1; auto|]. split; [intros _; apply Hs1; auto|]. lia. }
    destruct (adj_get m cur) as [ns|] eqn:Ea; [|apply Hdone].
    destruct (Nat.eqb_spec (length ns) 2) as [E3|E3]; simpl negb; cbn iota; [|apply Hdone].
    destruct ns as [|x [|y [|? ?]]]; try discriminate E3.
    apply adj_nb in Ea.
    assert (Hx : x < n) by (apply (Hran cur x); rewrite Ea; simpl; auto).
    assert (Hy : y < n) by (apply (Hran cur y); rewrite Ea; simpl; auto).
    assert (Hgo : forall p q l, q < n -> exists line' vis',
      unwind_loop fuel m term vis1 p q l = Val (line', vis') /\
      wfv n vis' /\ disj vis' /\ (forall i, isset visited i -> isset vis' i) /\
      (~ isset term cur -> isset vis' cur) /\ nset visited <= nset vis' /\
      (~ isset visited cur -> ~ isset term cur -> nset visited < nset vis')).
    { intros p q l Hq. destruct (IH vis1 p q l Hw1 Hd1 Hq) as (l' & v' & E & W & D & Mn & _ & Ln & _).
      { lia. }
      exists l', v'. split; auto. split; auto. split; auto.
      split; [intros i Hi; apply Mn, Hs1; auto|]. split; [intros _; apply Mn, Hs1; auto|]. lia. }
    unfold idx; simpl.
    destruct (vget_tot vis1 x Hw1 Hx) as (b & Eb). rewrite Eb. unfold oor at 1. simpl.
    destruct b; simpl.
    - destruct (vget_tot vis1 y Hw1 Hy) as (b' & Eb'). rewrite Eb'. unfold oor. simpl.
      destruct b'; simpl; [apply Hdone|]. destruct (prev_is prev y); simpl; [apply Hdone|apply Hgo; auto].
    - destruct (prev_is prev x); simpl; [|apply Hgo; auto].
      destruct (vget_tot vis1 y Hw1 Hy) as (b' & Eb'). rewrite Eb'. unfold oor. simpl.
      destruct b'; simpl; [apply Hdone|]. destruct (prev_is prev y); simpl; [apply Hdone|apply Hgo; auto].
  Qed.

  (* ---- first stage terminates without panic ---- *)
  Lemma scan_array_total visited cur arr : forall groups, wfv n visited ->
    (forall w, In w arr -> w < n) ->
    exists nx arr' groups', scan_array term visited cur arr groups = Val (nx, arr', groups') /\
      (exists pre, arr = pre ++ arr' /\ (forall x, nx = Some x -> exists pre', pre = pre' ++ [x])) /\
      (nx = None -> arr' = []) /\
      (forall x, nx = Some x -> ~ isset term x /\ ~ isset visited x /\ x < n).
  Proof.
    induction arr as [|w arr IH]; intros groups Hw Hr; simpl.
    - do 3 eexists; split; [reflexivity|]. split; [exists []; split; auto; discriminate|].
      split; auto. discriminate.
    - assert (Hwn : w < n) by (apply Hr; simpl; auto).
      destruct (vget_spec n term w Hwt Hwn) as (b & Eb & B). rewrite Eb. simpl.
      assert (Hr' : forall w, In w arr -> w < n) by (intros; apply Hr; simpl; auto).
      assert (HI : forall g, exists nx arr' groups', scan_array term visited cur arr g = Val (nx, arr', groups') /\
      (exists pre, w :: arr = pre ++ arr' /\ (forall x, nx = Some x -> exists pre', pre = pre' ++ [x])) /\
      (nx = None -> arr' = []) /\
      (forall x, nx = Some x -> ~ isset term x /\ ~ isset visited x /\ x < n)).
      { intros g. destruct (IH g Hw Hr') as (nx & arr' & g' & E & (pre & Hp & Hx) & HN & HS).
        do 3 eexists; split; [exact E|]. split; [|split; auto].
        exists (w :: pre). split; [rewrite Hp; auto|].
        intros x Ex. destruct (Hx x Ex) as (pre' & ->). exists (w :: pre'); auto. }
      destruct b; [apply HI|].
      destruct (vget_spec n visited w Hw Hwn) as (b & Eb' & B'). rewrite Eb'. simpl.
      destruct b; [apply HI|].
      do 3 eexists; split; [reflexivity|]. split; [exists [w]; split; auto; intros x [= <-]; exists []; auto|].
      split; [discriminate|]. intros x [= <-]. rewrite <- B, <- B'. repeat split; auto; discriminate.
  Qed.

  Lemma find_next_total visited cands : forall cur groups, wfv n visited ->
    (forall c w, In (c, w) (flat cands) -> c < n /\ w < n) ->
    exists nx cur' cands' groups', find_next term visited cur cands groups = Val (nx, cur', cands', groups') /\
      (nx = None -> cands' = []) /\
      (forall x, nx = Some x -> cur' < n /\ x < n /\ length (flat cands') < length (flat cands)
         /\ ~ isset term x /\ ~ isset visited x) /\
      (forall c w, In (c, w) (flat cands') -> In (c, w) (flat cands)).
  Proof.
    induction cands as [|[c arr] cands IH]; intros cur groups Hw Hr; simpl.
    - do 4 eexists; split; [reflexivity|]. split; auto. split; [discriminate|auto].
    - assert (Hr1 : forall w, In w arr -> w < n).
      { intros w Hi. apply (Hr c w). apply in_flat. exists arr; simpl; auto. }
      destruct (scan_array_total visited c arr groups Hw Hr1) as (nx & arr' & g' & E & (pre & Hp & Hx) & HN & HS).
      rewrite E. simpl. destruct nx as [x|].
      + do 4 eexists; split; [reflexivity|]. split; [discriminate|]. split.
        * intros x' [= <-]. destruct (HS x eq_refl) as (T & V & Hx').
          destruct (Hx x eq_refl) as (pre' & ->).
          split. { apply (Hr c x). apply in_flat. exists arr; simpl; split; auto.
                   rewrite Hp, !in_app_iff; simpl; auto. }
          split; auto. split; [|auto].
          unfold flat; simpl. rewrite !app_length, !map_length. rewrite Hp, !app_length. simpl. lia.
        * intros c' w. rewrite !in_flat. intros (a & [[= <- <-]|Hi] & Hwa).
          -- exists arr; simpl; split; auto. rewrite Hp, in_app_iff; auto.
          -- exists a; simpl; auto.
      + rewrite (HN eq_refl).
        destruct (IH c g' Hw) as (nx2 & cur2 & cands2 & g2 & E2 & N2 & S2 & F2).
        { intros c' w Hi. apply Hr. rewrite in_flat in *. destruct Hi as (a & Hi & Ha).
          exists a; simpl; auto. }
        do 4 eexists; split; [exact E2|]. split; auto. split.
        * intros x Hx2. destruct (S2 x Hx2) as (A1 & A2 & A3 & A4). repeat split; try apply A4; auto.
          change (flat ((c, arr) :: cands)) with (map (pair c) arr ++ flat cands).
          rewrite app_length; lia.
        * intros c' w Hi. apply F2 in Hi. rewrite in_flat in *. destruct Hi as (a & Hi & Ha).
          exists a; simpl; auto.
  Qed.

  Lemma stage1_total ufuel fuel : n < ufuel -> forall visited cur cands groups,
    wfv n visited -> disj visited ->
    (forall c w, In (c, w) (flat cands) -> c < n /\ w < n) ->
    length (flat cands) + 1 < fuel ->
    exists groups' visited', stage1 fuel ufuel m term visited cur cands groups = Val (groups', visited') /\
      wfv n visited' /\ disj visited'.
  Proof.
    intros Huf. induction fuel as [|fuel IH]; intros visited cur cands groups Hw Hd Hr Hf; [lia|].
    cbn [stage1]. destruct cands as [|ca cands]; [eauto|].
    set (cs := ca :: cands) in *.
    destruct (find_next_total visited cs cur groups Hw Hr) as (nx & cur' & cands' & g' & E & HN & HS & HF).
    rewrite E. cbn [obind]. destruct nx as [x|].
    - destruct (HS x eq_refl) as (Hc & Hx & Hl & Tx & Vx).
      unfold unwind_line.
      destruct (vget_spec n term cur' Hwt Hc) as (b & Eb & B). rewrite Eb. simpl.
      destruct b; simpl.
      + destruct (unwind_total ufuel visited (Some cur') x [cur'] Hw Hd Hx) as (l' & v' & E' & W' & D' & _).
        { lia. }
        rewrite E'. simpl. apply IH; auto. lia.
      + destruct (vset_spec n visited cur' Hw Hc) as (v1 & Ev & Hw1 & Hs1). rewrite Ev. simpl.
        assert (disj v1).
        { intros i Hi Ht. apply Hs1 in Hi as [Hi| ->]; [eapply Hd; eauto|].
          apply B in Ht. discriminate. }
        destruct (unwind_total ufuel v1 (Some cur') x [cur'] Hw1 H Hx) as (l' & v' & E' & W' & D' & _).
        { lia. }
        rewrite E'. simpl. apply IH; auto. lia.
    - rewrite (HN eq_refl). destruct fuel as [|fuel]; [lia|]. simpl. eauto.
  Qed.

  (* ---- second stage ---- *)
  Context (mx : nat) (Hmx : n = mx + 1).

  Lemma scan_unused_spec visited fuel : wfv n visited -> disj visited ->
    nset visited + nset term < n ->
    forall cur, cur <= mx -> (forall i, i < cur -> isset visited i \/ isset term i) ->
    mx - cur < fuel ->
    exists c, scan_unused fuel term visited mx cur cur = Val (c, c) /\ c <= mx /\
      ~ isset visited c /\ ~ isset term c /\
      (forall i, i < c -> isset visited i \/ isset term i).
  Proof.
    intros Hw Hd Hlt. induction fuel as [|fuel IH]; intros cur Hc Hall Hf; [lia|].
    cbn [scan_unused].
    destruct (vget_spec n visited cur Hw ltac:(lia)) as (b1 & E1 & B1).
    destruct (vget_spec n term cur Hwt ltac:(lia)) as (b2 & E2 & B2).
    rewrite E1, E2. unfold oor. simpl.
    assert (Hfin : (if b1 then true else b2) = true -> exists c,
        (if Nat.leb mx (cur + 1) then Val (cur + 1, cur + 1)
         else scan_unused fuel term visited mx (cur + 1) (cur + 1)) = Val (c, c) /\ c <= mx /\
      ~ isset visited c /\ ~ isset term c /\
      (forall i, i < c -> isset visited i \/ isset term i)).
    { intros Hb.
      assert (Hall' : forall i, i < cur + 1 -> isset visited i \/ isset term i).
      { intros i Hi. destruct (Nat.eq_dec i cur) as [->|]; [|apply Hall; lia].
        destruct b1; [left; apply B1; auto|right; apply B2; auto]. }
      destruct (counts_unused n visited term Hw Hwt Hd Hlt) as (u & Hu & U1 & U2).
      assert (cur + 1 <= u). { destruct (Nat.lt_ge_cases u (cur + 1)) as [L|L]; auto.
        destruct (Hall' u L); tauto. }
      destruct (Nat.leb_spec mx (cur + 1)) as [L|L].
      - assert (u = cur + 1) by lia. subst u. exists (cur + 1). repeat split; auto. lia.
      - apply IH; auto; lia. }
    destruct b1; simpl.
    - apply Hfin; auto.
    - destruct b2; simpl.
      + apply Hfin; auto.
      + exists cur. repeat split; auto; intros H; [apply B1 in H|apply B2 in H]; discriminate.
  Qed.

  Lemma stage2_total sfuel ufuel fuel : n < ufuel -> n < sfuel -> forall visited mn groups,
    wfv n visited -> disj visited -> nset visited + nset term < n ->
    mn <= mx -> (forall i, i < mn -> isset visited i \/ isset term i) ->
    n - nset visited < fuel ->
    exists groups' visited', stage2 fuel sfuel ufuel m term visited mx mn groups = Val (groups', visited').
  Proof.
    intros Huf Hsf. induction fuel as [|fuel IH]; intros visited mn groups Hw Hd Hlt Hmn Hall Hf; [lia|].
    cbn [stage2].
    destruct (scan_unused_spec visited sfuel Hw Hd Hlt mn Hmn Hall ltac:(lia)) as (c & Ec & Hc & Nv & Nt & Hall').
    rewrite Ec. cbn [obind].
    destruct (Nat.ltb_spec mx c) as [L|L]; [lia|]. cbn [andb].
    destruct (vget_spec n visited c Hw ltac:(lia)) as (b & Eb & B). rewrite Eb. cbn [obind].
    destruct b; [exfalso; apply Nv, B; auto|].
    unfold unwind_line.
    destruct (unwind_total ufuel visited None c [] Hw Hd ltac:(lia)) as (l & v' & E' & W' & D' & Mn & _ & _ & Ln).
    { lia. }
    rewrite E'. cbn [obind].
    destruct (Nat.leb_spec mx (nset v' + nset term)) as [L2|L2]; [eauto|].
    specialize (Ln Nv Nt). apply IH; auto; try lia.
    intros i Hi. destruct (Hall' i Hi); auto.
  Qed.
End G.

Lemma chunks2_length {A} (l : list A) : 2 * length (chunks2 l) <= length l.
Proof.
  assert (H : forall n (l : list A), length l <= n -> 2 * length (chunks2 l) <= length l).
  { induction n as [|n IH]; intros [|a [|b l']]; simpl; try lia.
    intros Hl. specialize (IH l' ltac:(lia)). lia. }
  eapply H; eauto.
Qed.

(* sum of the degrees is bounded by the input length *)
Definition degsum (m : adjm) : nat := length (concat (map snd m)).

Lemma degsum_add m k v : degsum (adj_add m k v) <= S (degsum m).
Proof.
  unfold degsum. induction m as [|[q l] m IH]; simpl; auto.
  destruct (Nat.eqb k q); simpl; rewrite ?app_length in *.
  - destruct (existsb (Nat.eqb v) l); rewrite ?app_length; simpl; lia.
  - lia.
Qed.

Lemma degsum_fold es : forall mx m mx' m', fold_left adj_step es (mx, m) = (mx', m') ->
  degsum m' <= degsum m + 2 * length es.
Proof.
  induction es as [|[a b] es IH]; simpl; intros mx m mx' m' H.
  - injection H as <- <-. lia.
  - apply IH in H. assert (H1 := degsum_add (adj_add m a b) b a). assert (H2 := degsum_add m a b). lia.
Qed.

Lemma adj_get_In m k l : adj_get m k = Some l -> In (k, l) m.
Proof. induction m as [|[q l'] m IH]; simpl; [discriminate|].
  destruct (Nat.eqb_spec k q) as [->|]; [intros [= ->]; auto|auto]. Qed.

Lemma flat_nodup_bound m F : (forall c w, In (c, w) F -> In w (nb m c)) -> NoDup F ->
  length F <= degsum m.
Proof.
  intros H Hn.
  assert (incl F (concat (map (fun e => map (pair (fst e)) (snd e)) m))).
  { intros [c w] Hi. apply H in Hi. unfold nb in Hi. destruct (adj_get m c) as [l|] eqn:E; [|destruct Hi].
    apply adj_get_In in E. change (In (c, w) (flat m)). apply in_flat. eauto. }
  apply NoDup_incl_length in H0; auto. unfold degsum.
  etransitivity; [exact H0|]. clear. induction m as [|[q l] m IH]; simpl; auto.
  rewrite !app_length, map_length. lia.
Qed.

Section Main.
  Context (indices : list nat) (mx : nat) (m : adjm) (Em : adjacency_map indices = (mx, m)).

  Lemma setup : (forall q, NoDup (nb m q)) /\ (forall v w, In w (nb m v) <-> edge indices v w) /\
    (forall v w, In w (nb m v) -> In v (nb m w)) /\
    (forall v w, In w (nb m v) -> v < mx + 1 /\ w < mx + 1) /\ is_highest indices mx /\
    exists term cands, termination_candidate_nodes mx m = Val (term, cands) /\
      wfv (mx + 1) term /\ (forall v, isset term v <-> v < mx + 1 /\ isterm m v) /\
      NoDup (flat cands) /\
      (forall c w, In (c, w) (flat cands) <-> c < mx + 1 /\ isterm m c /\ In w (nb m c)) /\
      length (flat cands) <= length indices.
  Proof.
    destruct (adjacency_map_spec _ _ _ Em) as (A1 & A2 & A3 & A4).
    assert (Hs : forall v w, edge indices v w -> edge indices w v) by (unfold edge; tauto).
    split; [auto|]. split; [auto|]. split; [intros v w H; apply A3, Hs, A3; auto|].
    split; [|split; [auto|]].
    - intros v w H. split; [apply A3, A4 in H|apply A3, Hs, A4 in H]; lia.
    - destruct (termination_spec m mx A1 A2) as (term & cands & E & W & T & F1 & F2).
      exists term, cands. repeat split; auto.
      + apply W. + apply W.
      + apply T in H. lia. + apply T in H. tauto.
      + intros [? ?]. apply T. split; auto; lia.
      + apply F2 in H. lia. + apply F2 in H. tauto. + apply F2 in H. tauto.
      + intros (? & ? & ?). apply F2. repeat split; auto; lia.
      + etransitivity; [apply (flat_nodup_bound m); auto|].
        * intros c w Hi. apply F2 in Hi. tauto.
        * unfold adjacency_map in Em. apply degsum_fold in Em. unfold degsum in *. simpl in Em.
          assert (H := chunks2_length indices). lia.
  Qed.
End Main.

Theorem divide_total indices : exists shapes visited, divide_into_shapes indices = Val (shapes, visited).
Proof.
  unfold divide_into_shapes. destruct (adjacency_map indices) as [mx m] eqn:Em.
  destruct (setup _ _ _ Em) as (A1 & A2 & A3 & A4 & A5 & term & cands & E & W & T & F1 & F2 & F3).
  rewrite E. cbn [obind]. unfold divide_fuel.
  destruct (stage1_total m (mx + 1) term A4 W T (length indices + mx + 3) (length indices + mx + 3) ltac:(lia)
     (fill_with_false (mx + 1)) 0 cands []) as (g1 & v1 & E1 & W1 & D1).
  { apply wfv_fill. } { intros i Hi. exfalso; eapply isset_fill; eauto. }
  { intros c w Hi. apply F2 in Hi as (? & ? & Hi). apply A4 in Hi. lia. }
  { lia. }
  rewrite E1. cbn [obind]. destruct (Nat.ltb_spec (nset v1 + nset term) (mx + 1)) as [L|L].
  - destruct (stage2_total m (mx + 1) term A4 W T mx eq_refl (length indices + mx + 3) (length indices + mx + 3)
      (length indices + mx + 3) ltac:(lia) ltac:(lia) v1 0 g1 W1 D1) as (g2 & v2 & E2); try lia.
    rewrite E2. simpl. eauto.
  - simpl. eauto.
Qed.
