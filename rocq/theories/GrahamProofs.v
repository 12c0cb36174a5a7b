(* Correctness of the Graham scan loop in exact arithmetic. *)
From Coq Require Import Reals Lra Psatz Sorting.Sorted Sorting.Permutation.
From Verif Require Import Prelude Scalar RInst Geo2 GeoSpec DistR HullSpec HullGeo Hull.
Local Open Scope R_scope.

Lemma cross_orient (a b c : pt) : cross_2d a b c = orient a b c.
Proof. reflexivity. Qed.
Lemma pop_test (u t p : pt) : (sltb (cross_2d u t p) s0 || sulps (cross_2d u t p) s0)%bool = true <-> orient u t p <= 0.
Proof.
  rewrite orb_true_iff, cross_orient. cbn [sltb sulps s0 RS]. rewrite Rltb_true, Reqb_true. lra.
Qed.

(* adjacent pairs (top first): every d is left of or on u -> t *)
Fixpoint edges_ok (hull : list pt) (D : list pt) : Prop :=
  match hull with
  | t :: ((u :: _) as r) => (forall d, In d D -> 0 <= orient u t d) /\ edges_ok r D
  | _ => True
  end.
Fixpoint turns_ok (hull : list pt) : Prop :=
  match hull with
  | t :: ((u :: w :: _) as r) => 0 < orient w u t /\ turns_ok r
  | _ => True
  end.
Lemma edges_ok_app l1 l2 D : edges_ok (l1 ++ l2) D -> edges_ok l2 D.
Proof. induction l1 as [|a l1 IH]; auto. cbn [app]. intros H. apply IH. cbn in H. destruct (l1 ++ l2); [exact I|apply H]. Qed.
Lemma turns_ok_app l1 l2 : turns_ok (l1 ++ l2) -> turns_ok l2.
Proof.
  induction l1 as [|a l1 IH]; auto. cbn [app]. intros H. apply IH. cbn in H.
  destruct (l1 ++ l2) as [|b [|c r]]; [exact I|exact I|apply H].
Qed.
Lemma SS_app {A} (Q : A -> A -> Prop) l1 l2 : StronglySorted Q (l1 ++ l2) -> StronglySorted Q l2.
Proof. induction l1; cbn; auto. intros H. apply StronglySorted_inv in H as [H _]. auto. Qed.

(* identities *)
Lemma id_pop (u p d w t : pt) : orient u p d * orient w u t = orient u t d * orient w u p + orient w u d * (- orient u t p).
Proof. flat. ring. Qed.
Lemma id_top (t p d s u : pt) : orient t p d * orient s u t = orient s d t * orient u t p + orient u t d * orient s t p.
Proof. flat. ring. Qed.
Lemma id_edge (w u p s h0 : pt) : orient w u p * orient s u h0 = orient s u p * orient w u h0 + orient u h0 p * orient s w u.
Proof. flat. ring. Qed.
Lemma orient_acb (a b c : pt) : orient a c b = - orient a b c.
Proof. flat. ring. Qed.

Section Scan.
  Variables (zx zy : R) (s : pt).
  Hypothesis Hz : 0 < zx * zx + zy * zy.
  Notation ah := (ahead zx zy s).

  Notation stk l := (l ++ [s]).
  (* next-to-top of l ++ [s] *)
  Definition under (l : list pt) : pt := hd s (tl l).

  Lemma pop_spec (D : list pt) (p : pt) : Forall ah D -> ah p -> (forall d, In d D -> ord s d p) ->
    forall l, l <> [] -> incl l D -> turns_ok (stk l) -> edges_ok (stk l) D ->
    (0 < orient (under l) (hd s l) p -> forall d, In d D -> 0 <= orient (hd s l) p d) ->
    exists l1 l2, l = l1 ++ l2 /\ pop_right (fun q => q) (stk l) p = stk l2 /\
      (forall d, In d D -> 0 <= orient (hd s l2) p d) /\
      (l2 <> [] -> 0 < orient (under l2) (hd s l2) p).
  Proof.
    intros HD Hp Hord. rewrite Forall_forall in HD.
    induction l as [|t l IH]; intros Hne Hincl Hturn Hedge Hnext; [congruence|].
    destruct (Rle_dec (orient (under (t :: l)) t p) 0) as [Hle|Hgt].
    - (* popped *)
      assert (Epop : pop_right (fun q => q) (stk (t :: l)) p = pop_right (fun q => q) (stk l) p).
      { unfold under in Hle. cbn [tl] in Hle. destruct l as [|u l]; cbn [app hd] in *.
        - cbn [pop_right]. apply pop_test in Hle. cbn [sltb sulps s0 RS] in *. rewrite Hle. auto.
        - cbn [pop_right]. apply pop_test in Hle. cbn [sltb sulps s0 RS] in *. rewrite Hle. auto. }
      destruct l as [|u l].
      + exists [t], []. split; auto. split; [rewrite Epop; auto|]. split; [|congruence].
        unfold under in Hle. cbn [tl hd] in *.
        assert (Ht : ah t) by (apply HD, Hincl; left; auto).
        destruct (Hord t) as [Ho|[Ho Hd]]; [apply Hincl; left; auto|lra|].
        destruct (ray_far zx zy s t p Ht Hp Ho Hd) as (k & Hk & E1 & E2).
        intros d Hin. cbn in Hedge. destruct Hedge as [Hedge _]. specialize (Hedge d Hin).
        assert (E : orient s p d = k * orient s t d) by (unfold orient; rewrite E1, E2; rsimp; ring).
        rewrite E. apply Rmult_le_pos; lra.
      + destruct IH as (l1 & l2 & E & Ep & H1 & H2).
        * congruence.
        * intros q Hq. apply Hincl. right; auto.
        * apply (turns_ok_app [t]) in Hturn. auto.
        * apply (edges_ok_app [t]) in Hedge. auto.
        * unfold under in *. cbn [tl hd] in *. intros Hpos d Hin.
          assert (Hut : 0 <= orient u t d) by (destruct l; cbn in Hedge; apply Hedge; auto).
          assert (Hwu : 0 <= orient (hd s l) u d).
          { destruct l as [|w l]; cbn [app hd] in *; cbn in Hedge; apply Hedge; auto. }
          assert (Htn : 0 < orient (hd s l) u t).
          { destruct l as [|w l]; cbn [app hd] in *; cbn in Hturn; apply Hturn. }
          set (w := hd s l) in *.
          pose proof (id_pop u p d w t) as Id.
          eapply pos_of_mul; eauto; lra.
        * exists (t :: l1), l2. split; [rewrite E; auto|]. split; [rewrite Epop; auto|]. auto.
    - apply Rnot_le_lt in Hgt. exists [], (t :: l). split; auto. split; [|split].
      + unfold under in Hgt. cbn [tl] in Hgt.
        assert (Hn : (sltb (cross_2d (hd s l) t p) s0 || sulps (cross_2d (hd s l) t p) s0)%bool = false).
        { apply not_true_iff_false. rewrite pop_test. lra. }
        destruct l as [|u l]; cbn [app hd] in *; cbn [pop_right]; cbn [sltb sulps s0 RS] in *; rewrite Hn; auto.
      + cbn [hd]. apply Hnext. auto.
      + intros _. auto.
  Qed.

  Definition inv (l D : list pt) : Prop :=
    incl l D /\ StronglySorted (fun a b => 0 < orient s b a) l /\ turns_ok (stk l) /\ edges_ok (stk l) D /\
    (D <> [] -> l <> []) /\ (forall d, In d D -> ord s d (hd s l)).

  Lemma inv_step (D l : list pt) (p : pt) : Forall ah D -> ah p -> (forall d, In d D -> ord s d p) -> inv l D ->
    exists l2, pop_right (fun q => q) (stk l) p = stk l2 /\ inv (p :: l2) (p :: D).
  Proof.
    intros HD Hp Hord (Hincl & Hsort & Hturn & Hedge & Hne & Htop).
    assert (HDf := HD). rewrite Forall_forall in HDf.
    destruct l as [|t l].
    { (* first point *)
      destruct D as [|d D]; [|exfalso; apply Hne; congruence].
      exists []. split; [reflexivity|]. repeat split.
      - intros q [<-|[]]. left; auto.
      - constructor; constructor.
      - intros d [<-|[]]. rewrite orient_abb. lra.
      - congruence.
      - intros d [<-|[]]. right. split; [apply orient_abb|apply Rle_refl]. }
    destruct (pop_spec D p HD Hp Hord (t :: l)) as (l1 & l2 & E & Ep & Hnew & Hst); auto; [congruence| |].
    { (* nothing popped yet *)
      unfold under. cbn [tl hd]. intros Hpos d Hin.
      assert (Ht : ah t) by (apply HDf, Hincl; left; auto). assert (Hd : ah d) by auto.
      destruct l as [|u l].
      - cbn [hd] in Hpos. cbn in Hedge. destruct Hedge as [Hedge _]. specialize (Hedge d Hin).
        destruct (Htop d Hin) as [H|[H Hdist]]; cbn [hd] in *.
        + pose proof (orient_acb s t d). lra.
        + destruct (ray_far zx zy s d t Hd Ht H Hdist) as (k & Hk & E1 & E2).
          assert (E : k * orient t p d = (k - 1) * orient s t p) by (unfold orient; rewrite E1, E2; rsimp; ring).
          assert (0 <= (k - 1) * orient s t p) by (apply Rmult_le_pos; lra).
          apply Rmult_le_reg_l with k; [lra|]. rewrite Rmult_0_r. lra.
      - cbn [hd] in *.
        assert (Hut : 0 < orient s u t). { apply StronglySorted_inv in Hsort as [_ Hf]. rewrite Forall_forall in Hf. apply Hf. left; auto. }
        assert (Hedge' : 0 <= orient u t d) by (destruct l; cbn in Hedge; apply Hedge; auto).
        assert (Hdt : 0 <= orient s d t) by (destruct (Htop d Hin) as [|[]]; cbn [hd] in *; lra).
        assert (Htp : 0 <= orient s t p) by (destruct (Hord t) as [|[]]; [apply Hincl; left; auto|lra|lra]).
        pose proof (id_top t p d s u) as Id.
        eapply pos_of_mul; eauto; lra. }
    exists l2. split; [auto|].
    assert (Hincl2 : incl l2 D) by (intros q Hq; apply Hincl; rewrite E; apply in_or_app; auto).
    assert (Hsort2 : StronglySorted (fun a b => 0 < orient s b a) l2) by (rewrite E in Hsort; apply SS_app in Hsort; auto).
    assert (Hturn2 : turns_ok (stk l2)) by (rewrite E, <- app_assoc in Hturn; apply turns_ok_app in Hturn; auto).
    assert (Hedge2 : edges_ok (stk l2) D) by (rewrite E, <- app_assoc in Hedge; apply edges_ok_app in Hedge; auto).
    (* p is strictly after everything that is left *)
    assert (Hlt : forall h, In h l2 -> 0 < orient s h p).
    { destruct l2 as [|h0 l2]; [intros h []|].
      assert (H0 : 0 < orient s h0 p).
      { destruct (Hord h0) as [Ho|[Ho Hd]]; [apply Hincl2; left; auto|auto|]. exfalso.
        assert (Ha0 : ah h0) by (apply HDf, Hincl2; left; auto).
        destruct (ray_far zx zy s h0 p Ha0 Hp Ho Hd) as (k & Hk & E1 & E2).
        specialize (Hst ltac:(congruence)). unfold under in Hst. cbn [tl hd] in Hst.
        destruct l2 as [|u l2]; cbn [hd] in Hst; [lra|].
        assert (Hu : 0 < orient s u h0). { apply StronglySorted_inv in Hsort2 as [_ Hf]. rewrite Forall_forall in Hf. apply Hf. left; auto. }
        assert (Eq : orient u h0 p = - (k - 1) * orient s u h0) by (unfold orient; rewrite E1, E2; rsimp; ring).
        assert (0 <= (k - 1) * orient s u h0) by (apply Rmult_le_pos; lra). lra. }
      intros h [<-|Hin]; auto.
      assert (Hh : 0 < orient s h h0). { apply StronglySorted_inv in Hsort2 as [_ Hf]. rewrite Forall_forall in Hf. apply Hf. auto. }
      destruct (orient_trans zx zy Hz s h h0 p) as [_ Hs]; try lra; auto; apply HDf, Hincl2; [right|left]; auto. }
    (* p is left of all remaining edges *)
    assert (Hp_edges : edges_ok (stk l2) [p]).
    { assert (G : forall l, incl l D -> StronglySorted (fun a b => 0 < orient s b a) l -> turns_ok (stk l) ->
         (forall h, In h l -> 0 < orient s h p) -> (l <> [] -> 0 <= orient (under l) (hd s l) p) -> edges_ok (stk l) [p]).
      { clear - Hz. induction l as [|h0 l IH]; intros Hi Hs Ht Hl Hu; [exact I|].
        assert (H0 : 0 <= orient (hd s l) h0 p) by (apply Hu; congruence).
        assert (Hrest : edges_ok (stk l) [p]).
        { apply IH; auto.
          - intros q Hq. apply Hi. right; auto.
          - apply StronglySorted_inv in Hs as [Hs _]. auto.
          - apply (turns_ok_app [h0]) in Ht. auto.
          - intros h Hh. apply Hl. right; auto.
          - intros Hne. destruct l as [|u l]; [congruence|]. unfold under. cbn [tl hd] in *.
            assert (Huh : 0 < orient s u h0). { apply StronglySorted_inv in Hs as [_ Hf]. rewrite Forall_forall in Hf. apply Hf. left; auto. }
            assert (Hup : 0 < orient s u p) by (apply Hl; right; left; auto).
            destruct l as [|w l]; cbn [hd]; [lra|].
            assert (Hwu : 0 < orient s w u).
            { apply StronglySorted_inv in Hs as [Hs _]. apply StronglySorted_inv in Hs as [_ Hf]. rewrite Forall_forall in Hf. apply Hf. left; auto. }
            assert (Htn : 0 < orient w u h0) by (cbn in Ht; apply Ht).
            pose proof (id_edge w u p s h0) as Id.
            eapply pos_of_mul; eauto; lra. }
        destruct l as [|u l]; cbn [app hd] in *; split; auto; intros d [<-|[]]; auto. }
      apply G; auto. intros H. left. apply Hst. auto. }
    assert (Hmerge : forall hl, edges_ok hl D -> edges_ok hl [p] -> edges_ok hl (p :: D)).
    { clear. induction hl as [|a hl IH]; auto. intros H1 H2. destruct hl as [|b hl]; [exact I|].
      destruct H1 as [H1 H1'], H2 as [H2 H2']. split; [|apply IH; auto].
      intros d [<-|Hd]; auto. apply H2. left; auto. }
    repeat split.
    - intros q [<-|Hq]; [left; auto|right; auto].
    - constructor; auto. apply Forall_forall. intros h Hh. apply Hlt. auto.
    - destruct l2 as [|h0 l2]; [exact I|]. specialize (Hst ltac:(congruence)). unfold under in Hst. cbn [tl hd] in Hst.
      destruct l2 as [|h1 l2]; cbn [app hd] in *; split; auto.
    - assert (Hn : forall d, In d (p :: D) -> 0 <= orient (hd s l2) p d).
      { intros d [<-|Hd]; [rewrite orient_abb; lra|auto]. }
      destruct l2 as [|h0 l2]; cbn [app hd] in *; (split; [auto|]); apply Hmerge; auto.
    - congruence.
    - cbn [hd]. intros d [<-|Hd]; [right; split; [apply orient_abb|apply Rle_refl]|auto].
  Qed.

  (* the scan over points sorted around s *)
  Lemma scan_inv : forall todo D l, Forall ah D -> Forall ah todo -> (forall d p, In d D -> In p todo -> ord s d p) ->
    StronglySorted (ord s) todo -> inv l D ->
    exists l', graham_loop (fun q => q) (fun _ => false) todo (stk l) = stk l' /\ inv l' (rev todo ++ D).
  Proof.
    induction todo as [|p todo IH]; intros D l HD HT Hord Hs Hi.
    - exists l. split; auto.
    - apply Forall_inv in HT as Hp. apply Forall_inv_tail in HT. apply StronglySorted_inv in Hs as [Hs Hf]. rewrite Forall_forall in Hf.
      destruct (inv_step D l p) as (l2 & E & Hi2); auto.
      { intros d Hd. apply Hord; auto. left; auto. }
      cbn [graham_loop]. rewrite E. destruct (IH (p :: D) (p :: l2)) as (l' & E' & Hi'); auto.
      { intros d q [<-|Hd] Hq; auto. apply Hord; auto. right; auto. }
      exists l'. split; auto. cbn [rev]. rewrite <- app_assoc. auto.
  Qed.
End Scan.
