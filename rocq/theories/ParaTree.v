(* Parabolic arc sampling in any scalar type: the loop is a recursive subdivision; larger tolerances cut it short; loops that
   never end. *)
From Coq Require Import Reals ZArith Floats.SpecFloat.
From Verif Require Import Prelude Scalar RInst Flt Geo2 GeoSpec Parabola ParaProofs.
Local Open Scope nat_scope.

Section Tree.
  Context {S : Scalar} {P : Type} (mk : V2 S -> P) (c : Arc S).
  Notation F := (car S).
  Definition gy (x : F) : F := parabola_y x (rot_x c) (rot_y c).
  Definition gmid (u v : F) : F := mid_of c u (gy u) v (gy v).
  Definition gdist (u v : F) : F := dist_of c u (gy u) v (gy v) (gmid u v) (gy (gmid u v)).
  Definition gsample (x : F) : P := mk (untransform c x (gy x)).
  (* the positions emitted strictly between u and v, and the number of steps that takes *)
  Inductive cuts (T : F) : F -> F -> list F -> nat -> Prop :=
  | cut_close u v : sleb (gdist u v) T = true -> cuts T u v [] 1
  | cut_mid u v l1 n1 l2 n2 : sleb (gdist u v) T = false -> cuts T u (gmid u v) l1 n1 -> cuts T (gmid u v) v l2 n2 ->
      cuts T u v (l1 ++ gmid u v :: l2) (1 + n1 + n2).
  Lemma gstep T u v k rv : pstep mk c T (mkP (v :: k) u (gy u) rv) =
    if sleb (gdist u v) T then mkP k v (gy v) (rv ++ [gsample v]) else mkP (gmid u v :: v :: k) u (gy u) rv.
  Proof. reflexivity. Qed.
  Lemma cuts_run T u v l n : cuts T u v l n -> forall fuel k rv,
    ploop mk c T (n + fuel) (mkP (v :: k) u (gy u) rv) = ploop mk c T fuel (mkP k v (gy v) (rv ++ map gsample (l ++ [v]))).
  Proof.
    induction 1 as [u v Hc|u v l1 n1 l2 n2 Hc _ IH1 _ IH2]; intros fuel k rv.
    - cbn [Nat.add ploop pstack]. rewrite gstep, Hc. reflexivity.
    - change (1 + n1 + n2 + fuel)%nat with (Datatypes.S (n1 + n2 + fuel)). cbn [ploop pstack]. rewrite gstep, Hc.
      rewrite <- Nat.add_assoc, IH1, IH2. f_equal. f_equal. rewrite <- !app_assoc, !map_app. cbn [map app]. rewrite <- !app_assoc. reflexivity.
  Qed.
  Lemma run_cuts T fuel : forall u v k rv out, ploop mk c T fuel (mkP (v :: k) u (gy u) rv) = Val out -> exists l n, cuts T u v l n /\ n <= fuel.
  Proof.
    induction fuel as [fuel IH] using (well_founded_induction Wf_nat.lt_wf). intros u v k rv out H.
    destruct fuel as [|f]; [cbn in H; discriminate|]. cbn [ploop pstack] in H. rewrite gstep in H. destruct (sleb (gdist u v) T) eqn:Hc.
    - exists [], 1. split; [constructor; auto|lia].
    - destruct (IH f ltac:(lia) u (gmid u v) (v :: k) rv out H) as (l1 & n1 & S1 & L1).
      replace f with (n1 + (f - n1)) in H by lia. rewrite (cuts_run _ _ _ _ _ S1) in H.
      assert (Hlt : f - n1 < Datatypes.S f) by lia.
      destruct (IH (f - n1) Hlt _ _ _ _ _ H) as (l2 & n2 & S2 & L2).
      eexists. eexists. split; [apply cut_mid; eauto|lia].
  Qed.
  Lemma disc_cuts fuel T u v out : disc mk fuel c T u v = Val out ->
    exists l n, cuts T u v l n /\ n <= fuel /\ out = mk (start_point c) :: map gsample l ++ [mk (end_point c)].
  Proof.
    unfold disc. destruct (ploop mk c T fuel _) as [rv| | |] eqn:E; try discriminate. intros H.
    destruct (run_cuts T fuel u v [] _ _ E) as (l & n & Hs & Hf). exists l, n. split; auto. split; auto.
    replace fuel with (n + (fuel - n)) in E by lia. fold (gy u) in E. rewrite (cuts_run _ _ _ _ _ Hs) in E.
    destruct (fuel - n); cbn [ploop pstack prv] in E; injection E as <-; unfold set_last in H; cbn [app] in H; rewrite map_app in H; cbn [map] in H;
      rewrite app_comm_cons, removelast_last in H; injection H as <-; reflexivity.
  Qed.
  Lemma cuts_disc fuel T u v l n : cuts T u v l n -> n <= fuel -> disc mk fuel c T u v = Val (mk (start_point c) :: map gsample l ++ [mk (end_point c)]).
  Proof.
    intros Hs Hf. unfold disc. fold (gy u). replace fuel with (n + (fuel - n)) by lia. rewrite (cuts_run _ _ _ _ _ Hs).
    destruct (fuel - n); cbn [ploop pstack prv]; unfold set_last; cbn [app]; rewrite map_app; cbn [map]; rewrite app_comm_cons, removelast_last; reflexivity.
  Qed.
  Lemma subseq_app {A} (a b x y : list A) : subseq a x -> subseq b y -> subseq (a ++ b) (x ++ y).
  Proof. intros H Hb. induction H; cbn; [auto|constructor; auto|constructor; auto]. Qed.
  Lemma subseq_nil {A} (x : list A) : subseq [] x.
  Proof. induction x; constructor; auto. Qed.
  Lemma subseq_map {A B} (f : A -> B) l m : subseq l m -> subseq (map f l) (map f m).
  Proof. induction 1; cbn; constructor; auto. Qed.
  (* a larger tolerance *)
  Lemma cuts_larger T T' : (forall x, sleb x T = true -> sleb x T' = true) ->
    forall u v l n, cuts T u v l n -> exists l' n', cuts T' u v l' n' /\ subseq l' l /\ n' <= n.
  Proof.
    intros HT. induction 1 as [u v Hc|u v l1 n1 l2 n2 Hc _ (l1' & n1' & C1 & S1 & L1) _ (l2' & n2' & C2 & S2 & L2)].
    - exists [], 1. split; [constructor; auto|]. split; [constructor|lia].
    - destruct (sleb (gdist u v) T') eqn:Hc'.
      + exists [], 1. split; [constructor; auto|]. split; [apply subseq_nil|lia].
      + eexists. eexists. split; [apply cut_mid; eauto|]. split; [apply subseq_app; auto; constructor; auto|lia].
  Qed.
  Lemma disc_larger fuel T T' u v out : (forall x, sleb x T = true -> sleb x T' = true) -> disc mk fuel c T u v = Val out ->
    exists out', disc mk fuel c T' u v = Val out' /\ subseq out' out.
  Proof.
    intros HT H. apply disc_cuts in H as (l & n & Hs & Hf & ->). destruct (cuts_larger T T' HT _ _ _ _ Hs) as (l' & n' & Hs' & Hsub & Hn').
    eexists. split; [apply (cuts_disc fuel _ _ _ _ _ Hs'); lia|]. constructor. apply subseq_app; [apply subseq_map; auto|repeat constructor].
  Qed.

  (* the descent from u: the midpoints that are put on the stack while nothing is accepted *)
  Fixpoint descent (T u : F) (n : nat) (v : F) : option F :=
    match n with O => Some v | Datatypes.S k => match descent T u k v with Some x => if sleb (gdist u x) T then None else Some (gmid u x) | None => None end end.
  Lemma descent_more T u v m n : m <= n -> descent T u n v <> None -> descent T u m v <> None.
  Proof. induction 1 as [|n H IH]; auto. cbn [descent]. intros K. apply IH. destruct (descent T u n v); congruence. Qed.
  Lemma descent_period T u v n p x : 0 < p -> descent T u n v = Some x -> descent T u (n + p) v = Some x -> forall i, descent T u i v <> None.
  Proof.
    intros Hp Hn Hnp. assert (Shift : forall j, descent T u (n + p + j) v = descent T u (n + j) v).
    { induction j as [|j IH]; [rewrite !Nat.add_0_r; congruence|]. rewrite <- !plus_n_Sm. cbn [descent]. rewrite IH. reflexivity. }
    induction i as [i IH] using (well_founded_induction Wf_nat.lt_wf). destruct (Nat.le_gt_cases i (n + p)) as [L|L].
    - eapply descent_more; [exact L|]. congruence.
    - replace i with (n + p + (i - (n + p))) by lia. rewrite Shift. apply IH. lia.
  Qed.
  Lemma descent_forever T u v : (forall i, descent T u i v <> None) -> forall fuel rv, ploop mk c T fuel (mkP [v] u (gy u) rv) = NoFuel.
  Proof.
    intros H. assert (G : forall fuel i x k rv, descent T u i v = Some x -> ploop mk c T fuel (mkP (x :: k) u (gy u) rv) = NoFuel).
    { induction fuel as [|f IH]; intros i x k rv E; [reflexivity|]. cbn [ploop pstack]. rewrite gstep.
      pose proof (H (Datatypes.S i)) as N. cbn [descent] in N. rewrite E in N. destruct (sleb (gdist u x) T) eqn:Hc; [congruence|].
      apply (IH (Datatypes.S i)). cbn [descent]. rewrite E, Hc. reflexivity. }
    intros fuel rv. apply (G fuel 0 v). reflexivity.
  Qed.
  Lemma disc_forever fuel T u v n p x : 0 < p -> descent T u n v = Some x -> descent T u (n + p) v = Some x -> disc mk fuel c T u v = NoFuel.
  Proof. intros Hp H1 H2. unfold disc. fold (gy u). rewrite (descent_forever T u v (descent_period T u v n p x Hp H1 H2)). reflexivity. Qed.
End Tree.

(* the order of spec_floats *)
Lemma SFleb_trans x y z : SFleb x y = true -> SFleb y z = true -> SFleb x z = true.
Proof.
  unfold SFleb, SFcompare. destruct x as [[]|[]| |[] m e], y as [[]|[]| |[] n f], z as [[]|[]| |[] o g]; try discriminate; auto;
  repeat match goal with |- context [Z.compare ?a ?b] => destruct (Z.compare_spec a b) end; try discriminate; try lia; auto;
  repeat match goal with |- context [Pos.compare_cont Eq ?a ?b] => change (Pos.compare_cont Eq a b) with (Pos.compare a b); destruct (Pos.compare_spec a b) end; cbn; try discriminate; try lia; auto.
Qed.
