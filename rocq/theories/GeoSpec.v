(* Geometric vocabulary in which the properties are stated: plain coordinates, no model code. *)
From Coq Require Import Reals Lra.
From Verif Require Import Prelude Scalar RInst.
Local Open Scope R_scope.

(* the point a + t (b - a) *)
Definition lerp (a b : pt) (t : R) : pt :=
  @mkV2 RS (vx a + t * (vx b - vx a)) (vy a + t * (vy b - vy a)).
(* p is a point of the closed segment from a to b *)
Definition on_segment (p a b : pt) : Prop := exists t, 0 <= t <= 1 /\ p = lerp a b t.
(* squared Euclidean distance *)
Definition sqdist (p q : pt) : R := (vx p - vx q) * (vx p - vx q) + (vy p - vy q) * (vy p - vy q).
(* Euclidean distance *)
Definition edist (p q : pt) : R := sqrt (sqdist p q).
(* twice the signed area of the triangle a b c: positive when c is left of a->b *)
Definition orient (a b c : pt) : R :=
  (vx b - vx a) * (vy c - vy a) - (vy b - vy a) * (vx c - vx a).

(* the same in three dimensions *)
Definition lerp3 (a b : pt3) (t : R) : pt3 :=
  @mkV3 RS (wx a + t * (wx b - wx a)) (wy a + t * (wy b - wy a)) (wz a + t * (wz b - wz a)).
Definition sqdist3 (p q : pt3) : R :=
  (wx p - wx q) * (wx p - wx q) + (wy p - wy q) * (wy p - wy q) + (wz p - wz q) * (wz p - wz q).
Definition edist3 (p q : pt3) : R := sqrt (sqdist3 p q).

(* out is obtained from pts by dropping points: order and multiplicity are kept *)
Inductive subseq {A} : list A -> list A -> Prop :=
| sub_nil : subseq [] []
| sub_keep a l m : subseq l m -> subseq (a :: l) (a :: m)
| sub_drop a l m : subseq l m -> subseq l (a :: m).

(* [thinned P pts out]: out keeps the first and last point of pts, and between two consecutive kept
   points a, b every dropped point p satisfies P a b p *)
Inductive thinned {A} (P : A -> A -> A -> Prop) : list A -> list A -> Prop :=
| thin_one a : thinned P [a] [a]
| thin_step a mid b rest out :
    Forall (P a b) mid -> thinned P (b :: rest) (b :: out) ->
    thinned P (a :: mid ++ b :: rest) (a :: b :: out).

Lemma subseq_refl {A} (l : list A) : subseq l l.
Proof. induction l; constructor; auto. Qed.
Lemma subseq_app_l {A} (k l m : list A) : subseq l m -> subseq l (k ++ m).
Proof. intros; induction k; simpl; auto. constructor; auto. Qed.
Lemma subseq_app {A} (l m l' m' : list A) : subseq l m -> subseq l' m' -> subseq (l ++ l') (m ++ m').
Proof. intros H; induction H; simpl; intros; auto; constructor; auto. Qed.
Lemma subseq_In {A} (l m : list A) x : subseq l m -> In x l -> In x m.
Proof. intros H; induction H; simpl; intuition. Qed.
Lemma subseq_trans {A} (l m n : list A) : subseq l m -> subseq m n -> subseq l n.
Proof.
  intros H1 H2; revert l H1; induction H2; intros l' H1; auto.
  - inversion H1; subst; constructor; auto.
  - constructor; auto.
Qed.
Lemma subseq_nil_l {A} (l : list A) : subseq [] l.
Proof. induction l; constructor; auto. Qed.
Lemma subseq_length {A} (l m : list A) : subseq l m -> (length l <= length m)%nat.
Proof. intros H; induction H; simpl; lia. Qed.
Lemma subseq_map {A B} (f : A -> B) l m : subseq l m -> subseq (map f l) (map f m).
Proof. intros H; induction H; simpl; constructor; auto. Qed.

Lemma thinned_subseq {A} P (pts out : list A) : thinned P pts out -> subseq out pts.
Proof.
  intros H; induction H as [a|a mid b rest out Hf Ht IH]; [apply subseq_refl|].
  constructor. apply subseq_app_l. exact IH.
Qed.
Lemma thinned_hd {A} P (pts out : list A) : thinned P pts out -> exists a t t', pts = a :: t /\ out = a :: t'.
Proof. intros H; destruct H; eauto. Qed.
Lemma thinned_last {A} P (pts out : list A) : thinned P pts out ->
  exists b t t', pts = t ++ [b] /\ out = t' ++ [b].
Proof.
  intros H; induction H as [a|a mid b rest out Hf Ht (c & t & t' & E1 & E2)].
  - exists a, [], []; auto.
  - exists c, (a :: mid ++ t), (a :: t'). split.
    + simpl. rewrite <- app_assoc, <- E1. reflexivity.
    + simpl. rewrite <- E2. reflexivity.
Qed.
Lemma thinned_impl {A} (P Q : A -> A -> A -> Prop) pts out :
  (forall a b p, P a b p -> Q a b p) -> thinned P pts out -> thinned Q pts out.
Proof.
  intros HPQ H; induction H; constructor; auto.
  eapply Forall_impl; [|eassumption]; auto.
Qed.
(* every input point is kept or dropped between two consecutive kept points *)
Lemma thinned_cover {A} P (pts out : list A) p : thinned P pts out -> In p pts ->
  In p out \/ exists a b, In (a, b) (windows out) /\ P a b p.
Proof.
  intros H; induction H as [a|a mid b rest out Hf Ht IH]; intros Hi; auto.
  change (In p (a :: mid ++ b :: rest)) in Hi. destruct Hi as [<-|Hi]; [left; left; auto|].
  apply in_app_iff in Hi as [Hi|Hi].
  - right. exists a, b. split; [left; auto|]. eapply Forall_forall in Hf; eauto.
  - destruct (IH Hi) as [Ho|(c & d & Hw & HP)]; [left; right; auto|].
    right. exists c, d. split; auto. right; auto.
Qed.
Lemma last_cons_app {A} (a : A) mid b rest d : last (a :: mid ++ b :: rest) d = last (b :: rest) d.
Proof.
  revert a; induction mid as [|m mid IH]; intros a; [reflexivity|].
  change (last (a :: (m :: mid) ++ b :: rest) d) with (last (m :: mid ++ b :: rest) d). apply IH.
Qed.
Lemma thinned_app {A} P (x y l2 o2 : list A) p :
  thinned P x y -> last x p = p -> thinned P (p :: l2) (p :: o2) -> thinned P (x ++ l2) (y ++ o2).
Proof.
  intros H1; revert l2 o2. induction H1 as [a|a mid b rest out Hf Ht IH]; intros l2 o2 Hl H2.
  - simpl in Hl. subst. exact H2.
  - rewrite last_cons_app in Hl. specialize (IH l2 o2 Hl H2).
    change ((a :: b :: out) ++ o2) with (a :: b :: (out ++ o2)).
    replace ((a :: mid ++ b :: rest) ++ l2) with (a :: mid ++ b :: (rest ++ l2))
      by (simpl; rewrite <- app_assoc; reflexivity).
    constructor; auto.
Qed.
