(* Obj export (C77). Model: Obj.v. *)
From Coq Require Import Sorting.Permutation Sorting.Sorted.
From Verif Require Import Prelude Obj.

(* the vertex records of a list of strings: numbered from 1 in the trailing comment *)
Definition vertex_records {Str} (vs : list Str) : list (record (Str := Str)) :=
  map (fun si => RVert (snd si) (fst si)) (combine (seq 1 (length vs)) vs).

Lemma nth_error_same {A} (l m : list A) : (forall i, nth_error l i = nth_error m i) -> l = m.
Proof.
  revert m. induction l as [|a l IH]; intros [|b m] H; auto; try (specialize (H 0); discriminate).
  pose proof (H 0) as H0. injection H0 as <-. f_equal. apply IH. intros i. apply (H (S i)).
Qed.
Section ObjProofs.
  Context {P Str : Type} (str_dec : forall a b : Str, {a = b} + {a <> b}) (fmt : P -> Str).
  Notation oget := (oget str_dec). Notation oinsert := (oinsert str_dec fmt). Notation point_set := (point_set str_dec fmt).

  Definition good (m : list (Str * nat)) : Prop := map snd m = seq 0 (length m) /\ NoDup (map fst m).

  Lemma oget_none m k : oget m k = None <-> ~ In k (map fst m).
  Proof.
    induction m as [|[k' v] m IH]; cbn; [tauto|]. destruct (str_dec k k') as [->|H]; [split; [discriminate|tauto]|].
    rewrite IH. split; [intros H1 [H2|H2]; [congruence|auto]|tauto].
  Qed.
  Lemma oget_in m k v : oget m k = Some v -> In (k, v) m.
  Proof. induction m as [|[k' v'] m IH]; cbn; [discriminate|]. destruct (str_dec k k'); [intros [= ->]; subst; auto|auto]. Qed.
  Lemma good_in m k v : good m -> In (k, v) m -> nth_error m v = Some (k, v).
  Proof.
    intros [Hs _] Hin. apply In_nth_error in Hin as [i Hi].
    assert (H : nth_error (map snd m) i = Some v) by (rewrite nth_error_map, Hi; auto).
    rewrite Hs in H. assert (Hl : i < length m) by (apply nth_error_Some; congruence).
    rewrite (nth_error_nth' _ 0) in H by (rewrite seq_length; auto). rewrite seq_nth in H by auto. injection H as <-. auto.
  Qed.
  Lemma oinsert_good m p : good m -> good (oinsert m p).
  Proof.
    intros [H1 H2]. unfold Obj.oinsert. destruct (oget m (fmt p)) eqn:E; [split; auto|]. apply oget_none in E.
    split.
    - rewrite map_app, H1, app_length. cbn. rewrite seq_app. auto.
    - rewrite map_app. cbn. apply NoDup_Add with (a := fmt p) (l := map fst m).
      + rewrite <- (app_nil_r (map fst m)) at 1. apply Add_app. + auto.
  Qed.
  Lemma oinsert_fst m p k : In k (map fst (oinsert m p)) <-> In k (map fst m) \/ k = fmt p.
  Proof.
    unfold Obj.oinsert. destruct (oget m (fmt p)) eqn:E.
    - split; [auto|]. intros [H| -> ]; auto. apply oget_in in E. apply (in_map fst) in E. auto.
    - rewrite map_app, in_app_iff. cbn. intuition.
  Qed.
  Lemma point_set_concat lines : point_set lines = fold_left (fun m (j : P * P) => oinsert (oinsert m (fst j)) (snd j)) (concat lines) [].
  Proof.
    unfold Obj.point_set. generalize (@nil (Str * nat)). induction lines as [|i lines IH]; intros m; cbn [concat fold_left]; auto.
    rewrite fold_left_app. auto.
  Qed.
  Lemma point_set_spec lines : good (point_set lines) /\
    forall k, In k (map fst (point_set lines)) <-> exists j, In j (concat lines) /\ (k = fmt (fst j) \/ k = fmt (snd j)).
  Proof.
    rewrite point_set_concat. induction (concat lines) as [|j l IH] using rev_ind.
    - cbn. split; [split; [auto|constructor]|]. intros k. split; [tauto|intros (j & [] & _)].
    - rewrite fold_left_app. cbn [fold_left]. destruct IH as [IH1 IH2]. split; [apply oinsert_good, oinsert_good; auto|].
      intros k. rewrite !oinsert_fst, IH2. split.
      + intros [[(j' & H1 & H2)|H]|H]; [exists j'|exists j|exists j]; rewrite in_app_iff; cbn; auto.
      + intros (j' & H1 & H2). apply in_app_or in H1 as [H1|[<-|[]]]; [left; left; eauto|]. destruct H2; auto.
  Qed.

  Lemma sorted_perm_seq (l : list nat) n : Permutation l (seq 0 n) -> Sorted le l -> l = seq 0 n.
  Proof.
    assert (G : forall (l m : list nat), StronglySorted le l -> StronglySorted le m -> Permutation l m -> l = m).
    { induction l0 as [|a l0 IH]; intros m Hl Hm HP; [apply Permutation_nil in HP; auto|].
      destruct m as [|b m]; [apply Permutation_sym, Permutation_nil in HP; discriminate|].
      apply StronglySorted_inv in Hl as [Hl1 Hl2], Hm as [Hm1 Hm2]. rewrite Forall_forall in Hl2, Hm2.
      assert (a = b).
      { assert (Ha : In a (b :: m)) by (apply (Permutation_in _ HP); left; auto).
        assert (Hb : In b (a :: l0)) by (apply (Permutation_in _ (Permutation_sym HP)); left; auto).
        destruct Ha as [->|Ha]; auto. destruct Hb as [->|Hb]; auto. apply Hl2 in Hb. apply Hm2 in Ha. lia. }
      subst b. f_equal. apply IH; auto. apply Permutation_cons_inv in HP. auto. }
    intros HP Hs. apply G; auto.
    - apply Sorted_StronglySorted; auto. intros x y z; lia.
    - clear. generalize 0. induction n as [|n IH]; intros a; cbn; constructor; auto. apply Forall_forall. intros x Hx. apply in_seq in Hx. lia.
  Qed.
  Lemma entries_unique m es : good m -> Permutation es m -> Sorted (fun a b : Str * nat => snd a <= snd b) es -> es = m.
  Proof.
    intros Hg HP Hs.
    assert (E : map snd es = seq 0 (length m)).
    { destruct Hg as [H1 _]. apply sorted_perm_seq; [rewrite <- H1; apply Permutation_map; auto|].
      clear -Hs. induction Hs as [|a l Hs IH Hh]; constructor; auto. destruct Hh; constructor; auto. }
    assert (Hlen : length es = length m) by (apply Permutation_length; auto).
    apply nth_error_same. intros i. destruct (nth_error es i) as [[k v]|] eqn:Ei.
    - assert (Hv : v = i).
      { assert (H : nth_error (map snd es) i = Some v) by (rewrite nth_error_map, Ei; auto). rewrite E in H.
        assert (i < length m) by (rewrite <- Hlen; apply nth_error_Some; congruence).
        rewrite (nth_error_nth' _ 0) in H by (rewrite seq_length; auto). rewrite seq_nth in H by auto. injection H as <-. auto. }
      subst v. symmetry. apply good_in; auto. apply (Permutation_in _ HP). apply nth_error_In in Ei. auto.
    - symmetry. apply nth_error_None. rewrite <- Hlen. apply nth_error_None. auto.
  Qed.
  Lemma vertex_records_good m : good m -> map (fun kv => RVert (fst kv) (snd kv + 1)) m = vertex_records (map fst m).
  Proof.
    intros [H _]. unfold vertex_records. rewrite map_length.
    assert (G : forall (l : list (Str * nat)) a, map snd l = seq a (length l) ->
      map (fun kv => RVert (fst kv) (snd kv + 1)) l = map (fun si => RVert (snd si) (fst si)) (combine (seq (S a) (length l)) (map fst l))).
    { induction l as [|[k v] l IH]; intros a Ha; auto. cbn [map length seq combine fst snd] in *.
      injection Ha as -> Ha. rewrite Nat.add_1_r. f_equal. apply IH; auto. }
    apply G. auto.
  Qed.
End ObjProofs.

Theorem C77_obj_export : forall (P Str : Type) (str_dec : forall a b : Str, {a = b} + {a <> b}) (fmt : P -> Str)
    (name : Str) (lines : list (list (P * P))),
  exists (verts : list Str) (ls : list record),
    (* the call returns Ok, and this is the file whatever the iteration order of the hash map *)
    (forall r, save_obj str_dec fmt name lines r <-> r = Val (RObj name :: vertex_records verts ++ ls)) /\
    NoDup verts /\
    (forall s, In s verts <-> exists j, In j (concat lines) /\ (s = fmt (fst j) \/ s = fmt (snd j))) /\
    (* one 'l' record per line, in order, with 1-based references to its two formatted ends *)
    Forall2 (fun j r => exists a b, r = RLine (a + 1) (b + 1) /\ nth_error verts a = Some (fmt (fst j)) /\ nth_error verts b = Some (fmt (snd j)))
      (concat lines) ls.
Proof.
  intros P Str dec fmt name lines. destruct (point_set_spec dec fmt lines) as [Hg Hin].
  set (m := point_set dec fmt lines) in *.
  assert (HM : exists ls, mapM (line_record dec fmt m) (concat lines) = Val ls /\
    Forall2 (fun j r => exists a b, r = RLine (a + 1) (b + 1) /\ nth_error (map fst m) a = Some (fmt (fst j)) /\ nth_error (map fst m) b = Some (fmt (snd j))) (concat lines) ls).
  { assert (Hall : forall j, In j (concat lines) -> In (fmt (fst j)) (map fst m) /\ In (fmt (snd j)) (map fst m)).
    { intros j Hj. split; apply Hin; eauto. }
    clearbody m. clear Hin. induction (concat lines) as [|j l IH]; [exists []; split; [auto|constructor]|].
    destruct IH as (ls & E & HF); [intros; apply Hall; right; auto|].
    destruct (Hall j) as [H1 H2]; [left; auto|].
    assert (G : forall p, In (fmt p) (map fst m) -> exists a, Obj.oget dec m (fmt p) = Some a /\ nth_error (map fst m) a = Some (fmt p)).
    { intros p Hp. destruct (Obj.oget dec m (fmt p)) as [a|] eqn:Ea; [|apply oget_none in Ea; tauto].
      exists a. split; auto. apply oget_in in Ea. apply good_in in Ea; auto. rewrite nth_error_map, Ea. auto. }
    destruct (G _ H1) as (a & A1 & A2), (G _ H2) as (b & B1 & B2).
    exists (RLine (a + 1) (b + 1) :: ls). split.
    - cbn [mapM]. assert (Ej : line_record dec fmt m j = Val (RLine (a + 1) (b + 1))) by (unfold line_record; rewrite A1, B1; auto).
      rewrite Ej. cbn [obind]. rewrite E. auto.
    - constructor; auto. exists a, b. auto. }
  destruct HM as (ls & E & HF). exists (map fst m), ls. split; [|split; [apply Hg|split; auto]].
  intros r. split.
  - intros [es HP Hs]. fold m. change (point_set dec fmt lines) with m in HP. rewrite E. cbn. assert (Ees : es = m) by (apply (entries_unique m es); auto). rewrite Ees. rewrite vertex_records_good by auto. auto.
  - intros ->. pose proof (save_intro dec fmt name lines m (Permutation_refl _)) as H. fold m in H. rewrite E in H. cbn in H.
    rewrite vertex_records_good in H by auto. apply H.
    destruct Hg as [H1 _]. clear -H1. revert H1. generalize 0 as a. induction m as [|[k v] m IH]; intros a H; constructor; cbn in *.
    + injection H as _ H. eauto.
    + destruct m as [|[k' v'] m]; constructor. cbn in *. injection H as -> -> _. lia.
Qed.
Print Assumptions C77_obj_export.

(* three lines sharing a point, formatted by the identity on nat *)
Example obj_example : save_obj Nat.eq_dec (fun n : nat => n) 99 [[(5, 7); (7, 5)]; [(8, 8)]]
  (Val [RObj 99; RVert 5 1; RVert 7 2; RVert 8 3; RLine 1 2; RLine 2 1; RLine 3 3]).
Proof.
  exact (save_intro Nat.eq_dec (fun n : nat => n) 99 [[(5, 7); (7, 5)]; [(8, 8)]] [(5, 0); (7, 1); (8, 2)]
           (Permutation_refl _) ltac:(repeat constructor)).
Qed.
