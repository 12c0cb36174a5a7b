(* The sweep's maps, keys and integer lists: facts used by the sweep-line proofs. *)
From Coq Require Import Reals Lra Permutation Sorting.Sorted.
From Verif Require Import Prelude Scalar RInst Geo2 Sweep.

(* the order in which the sweep meets points: upwards, and rightwards on one height *)
Definition klt (p q : pt) : Prop := (vy p < vy q)%R \/ (vy p = vy q /\ (vx p < vx q)%R).

Lemma klt_irrefl p : ~ klt p p.
Proof. unfold klt. intros [H|[_ H]]; lra. Qed.
Lemma klt_trans p q r : klt p q -> klt q r -> klt p r.
Proof. unfold klt. intros [H|[H1 H2]] [K|[K1 K2]]; [left; lra|left; lra|left; lra|right; split; lra]. Qed.
Lemma klt_asym p q : klt p q -> ~ klt q p.
Proof. intros H K. apply (klt_irrefl p). eapply klt_trans; eauto. Qed.
Lemma klt_total p q : klt p q \/ p = q \/ klt q p.
Proof.
  unfold klt. destruct (Rtotal_order (vy p) (vy q)) as [H|[H|H]]; auto.
  destruct (Rtotal_order (vx p) (vx q)) as [K|[K|K]]; auto.
  right; left. apply V2_ext; auto.
Qed.
Lemma klt_ne p q : klt p q -> p <> q.
Proof. intros H ->. exact (klt_irrefl _ H). Qed.
Definition pt_dec (p q : pt) : {p = q} + {p <> q}.
Proof.
  destruct (Req_EM_T (vx p) (vx q)) as [H|H]; [|right; congruence].
  destruct (Req_EM_T (vy p) (vy q)) as [K|K]; [|right; congruence].
  left. apply V2_ext; auto.
Defined.

Lemma key_cmp_R (a b : pt) : exists c, key_cmp a b = Some c /\
  match c with Lt => klt a b | Eq => a = b | Gt => klt b a end.
Proof.
  unfold key_cmp, spcmp, klt. cbn [sulps sltb seqb RS].
  destruct (Reqb_spec (vy a) (vy b)) as [E|E].
  - destruct (Reqb_spec (vx a) (vx b)) as [E2|E2].
    + exists Eq. split; auto. apply V2_ext; auto.
    + destruct (Rltb_spec (vx a) (vx b)) as [H|H]; [exists Lt; split; auto|].
      destruct (Rltb_spec (vx b) (vx a)) as [K|K]; [exists Gt; split; auto|]. exfalso. apply E2, Rle_antisym; lra.
  - destruct (Rltb_spec (vy a) (vy b)) as [H|H]; [exists Lt; split; auto|].
    destruct (Reqb_spec (vy a) (vy b)); [contradiction|].
    destruct (Rltb_spec (vy b) (vy a)) as [K|K]; [exists Gt; split; auto|]. exfalso. apply E, Rle_antisym; lra.
Qed.
Lemma key_lt_R (a b : pt) : key_lt a b = true <-> klt a b.
Proof.
  unfold key_lt. destruct (key_cmp_R a b) as (c & -> & H). destruct c.
  - split; [discriminate|]. intros K. subst. destruct (klt_irrefl _ K).
  - tauto.
  - split; [discriminate|]. intros K. destruct (klt_asym _ _ H K).
Qed.

Section Map.
  Context {E : Type}.
  Implicit Types m : list (pt * E).

  Definition get m (k : pt) : option E :=
    match find (fun x => if pt_dec (fst x) k then true else false) m with Some x => Some (snd x) | None => None end.
  Definition ksorted m : Prop := StronglySorted klt (map fst m).

  Lemma get_nil k : get [] k = None.
  Proof. reflexivity. Qed.
  Lemma get_cons k0 e m k : get ((k0, e) :: m) k = if pt_dec k0 k then Some e else get m k.
  Proof. unfold get. cbn [find fst]. destruct (pt_dec k0 k); auto. Qed.
  Lemma get_In m k e : get m k = Some e -> In (k, e) m.
  Proof. induction m as [|[k0 e0] m IH]; [discriminate|]. rewrite get_cons. destruct (pt_dec k0 k); [intros [= ->]; subst; left; auto|right; auto]. Qed.
  Lemma ksorted_head k e m : ksorted ((k, e) :: m) -> ksorted m /\ forall k' e', get m k' = Some e' -> klt k k'.
  Proof.
    intros H. inversion H as [|? ? Hs Hf]; subst. split; auto. intros k' e' G. apply get_In in G.
    rewrite Forall_forall in Hf. apply Hf. apply in_map_iff. exists (k', e'). auto.
  Qed.
  Lemma In_get m k e : ksorted m -> In (k, e) m -> get m k = Some e.
  Proof.
    induction m as [|[k0 e0] m IH]; [intros _ []|]. intros Hs [Hi|Hi].
    - injection Hi as -> ->. rewrite get_cons. destruct (pt_dec k k); congruence.
    - destruct (ksorted_head _ _ _ Hs) as [Hs' Hh]. specialize (IH Hs' Hi). rewrite get_cons.
      destruct (pt_dec k0 k) as [->|]; auto. destruct (klt_irrefl k). eauto.
  Qed.
  Lemma get_tail k e m k' : ksorted ((k, e) :: m) -> get m k' = if pt_dec k k' then None else get ((k, e) :: m) k'.
  Proof.
    intros Hs. rewrite get_cons. destruct (pt_dec k k') as [<-|]; auto.
    destruct (get m k) eqn:G; auto. destruct (klt_irrefl k). eapply ksorted_head; eauto.
  Qed.
  Lemma bt_update_R m k (upd : option E -> E) : ksorted m ->
    exists m', bt_update (fun v : pt => v) k upd m = Val m' /\ ksorted m' /\
      forall k', get m' k' = if pt_dec k k' then Some (upd (get m k)) else get m k'.
  Proof.
    induction m as [|[k0 e0] m IH]; intros Hs.
    - exists [(k, upd None)]. split; [reflexivity|]. split; [repeat constructor|]. intros k'. rewrite get_cons. destruct (pt_dec k k'); auto.
    - cbn [bt_update]. destruct (key_cmp_R k k0) as (c & -> & Hc). destruct (ksorted_head _ _ _ Hs) as [Hs' Hh]. destruct c.
      + subst k0. exists ((k, upd (Some e0)) :: m). split; auto. split; auto.
        intros k'. rewrite !get_cons. destruct (pt_dec k k); [|congruence]. destruct (pt_dec k k'); auto.
      + exists ((k, upd None) :: (k0, e0) :: m). split; auto. split.
        * apply SSorted_cons; auto. cbn [map fst]. constructor; auto. inversion Hs as [|? ? _ Hf]; subst.
          eapply Forall_impl; [|exact Hf]. intros a Ha. eapply klt_trans; eauto.
        * intros k'. rewrite (get_cons k). destruct (pt_dec k k'); auto.
          do 2 f_equal. rewrite get_cons. destruct (pt_dec k0 k) as [->|]; [destruct (klt_irrefl _ Hc)|].
          destruct (get m k) eqn:G; auto. apply Hh in G. destruct (klt_asym _ _ G Hc).
      + destruct (IH Hs') as (m' & -> & Hs2 & Hg). cbn [obind]. exists ((k0, e0) :: m'). split; auto. split.
        * apply SSorted_cons; auto. apply Forall_forall. intros x Hx. apply in_map_iff in Hx as ((k1 & e1) & <- & Hi). cbn [fst].
          apply In_get in Hi; auto. rewrite Hg in Hi. destruct (pt_dec k k1) as [<-|]; auto. eauto.
        * intros k'. rewrite !get_cons, Hg. destruct (pt_dec k0 k) as [->|]; [destruct (klt_irrefl _ Hc)|].
          destruct (pt_dec k0 k') as [->|]; auto. destruct (pt_dec k k'); congruence.
  Qed.
End Map.

(* ---- integer lists ---- *)
Lemma ninsert_perm x l : Permutation (ninsert x l) (x :: l).
Proof. induction l as [|y t IH]; cbn [ninsert]; auto. destruct (Nat.leb x y); auto. rewrite IH. constructor. Qed.
Lemma nsort_perm l : Permutation (nsort l) l.
Proof. induction l as [|x l IH]; cbn; auto. rewrite ninsert_perm, IH. auto. Qed.
Lemma ninsert_sorted x l : StronglySorted le l -> StronglySorted le (ninsert x l).
Proof.
  induction 1 as [|y t Hs IH Hf]; cbn [ninsert]; [repeat constructor|].
  destruct (Nat.leb_spec x y).
  - apply SSorted_cons; [apply SSorted_cons; auto|]. constructor; auto. eapply Forall_impl; [|exact Hf]. cbn. lia.
  - apply SSorted_cons; auto. rewrite ninsert_perm. constructor; auto. lia.
Qed.
Lemma nsort_sorted l : StronglySorted le (nsort l).
Proof. induction l; cbn; [constructor|]. apply ninsert_sorted; auto. Qed.
Lemma nsort_In x l : In x (nsort l) <-> In x l.
Proof. split; apply Permutation_in; [|symmetry]; apply nsort_perm. Qed.
Lemma dedup_In x l : In x (dedup l) <-> In x l.
Proof.
  induction l as [|a t IH]; [tauto|]. cbn [dedup]. destruct t as [|b t]; [tauto|].
  destruct (Nat.eqb_spec a b) as [<-|].
  - rewrite IH. cbn. tauto.
  - cbn [In] in *. rewrite IH. tauto.
Qed.
Lemma dedup_NoDup l : StronglySorted le l -> NoDup (dedup l).
Proof.
  induction 1 as [|a t Hs IH Hf]; cbn [dedup]; [constructor|]. destruct t as [|b t]; [repeat constructor; auto|].
  destruct (Nat.eqb_spec a b) as [<-|Hn]; auto. constructor; auto. rewrite dedup_In. rewrite Forall_forall in Hf.
  inversion Hs as [|? ? _ Hf2]; subst. rewrite Forall_forall in Hf2.
  intros [->|Hi]; [lia|]. specialize (Hf b (or_introl eq_refl)). specialize (Hf2 a Hi). lia.
Qed.
Lemma nmem_In x l : nmem x l = true <-> In x l.
Proof. unfold nmem. rewrite existsb_exists. split; [intros (y & Hy & E); apply Nat.eqb_eq in E; subst; auto|]. intros H. exists x. split; auto. apply Nat.eqb_refl. Qed.
Lemma set_remove_In x l d : In x (set_remove l d) <-> In x l /\ ~ In x d.
Proof. unfold set_remove. rewrite filter_In, negb_true_iff, <- (nmem_In x d). destruct (nmem x d); intuition congruence. Qed.
Lemma set_insert_In x l i : In x (set_insert l i) <-> In x l \/ x = i.
Proof.
  unfold set_insert. destruct (nmem i l) eqn:E.
  - apply nmem_In in E. split; auto. intros [H| ->]; auto.
  - rewrite in_app_iff. cbn. intuition.
Qed.
Lemma set_inserts_In x a : forall l, In x (fold_left set_insert a l) <-> In x l \/ In x a.
Proof. induction a as [|i a IH]; intros l; cbn [fold_left]; [cbn; tauto|]. rewrite IH, set_insert_In. cbn. intuition. Qed.
Lemma set_remove_NoDup l d : NoDup l -> NoDup (set_remove l d).
Proof. apply NoDup_filter. Qed.
Lemma set_inserts_NoDup a : forall l, NoDup l -> NoDup (fold_left set_insert a l).
Proof.
  induction a as [|i a IH]; intros l H; cbn [fold_left]; auto. apply IH. unfold set_insert. destruct (nmem i l) eqn:E; auto.
  apply NoDup_app_intro; auto; [repeat constructor; auto|]. intros x Hx [<-|[]]. apply nmem_In in Hx. congruence.
Qed.
(* two sorted lists without repeats and with the same elements are equal *)
Lemma sorted_ext l1 l2 : StronglySorted le l1 -> StronglySorted le l2 -> NoDup l1 -> NoDup l2 -> (forall x, In x l1 <-> In x l2) -> l1 = l2.
Proof.
  revert l2. induction l1 as [|a l1 IH]; intros [|b l2] S1 S2 N1 N2 H; auto.
  - destruct (proj2 (H b) (or_introl eq_refl)).
  - destruct (proj1 (H a) (or_introl eq_refl)).
  - inversion S1 as [|? ? S1' F1]; subst. inversion S2 as [|? ? S2' F2]; subst. inversion N1; subst. inversion N2; subst.
    rewrite Forall_forall in F1, F2. assert (a = b).
    { destruct (proj1 (H a) (or_introl eq_refl)) as [|Ha]; auto. destruct (proj2 (H b) (or_introl eq_refl)) as [|Hb]; auto.
      apply F1 in Hb. apply F2 in Ha. lia. }
    subst b. f_equal. apply IH; auto. intros x. split; intros Hx.
    + destruct (proj1 (H x) (or_intror Hx)) as [<-|]; auto. contradiction.
    + destruct (proj2 (H x) (or_intror Hx)) as [<-|]; auto. contradiction.
Qed.
