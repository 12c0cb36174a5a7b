(* The completeness invariant along whole runs. *)
From Coq Require Import Reals Lra Psatz Classical Permutation.
From Verif Require Import Prelude Scalar RInst Geo2 GeoSpec DistR IsectProofs Sweep SweepMap SweepProofs SweepCand SweepLoop SweepLoop2 SweepGeo SweepComplete.
Local Open Scope R_scope.

Definition wanted (lines : list line) (ign : bool) (k : pt) : Prop :=
  common_point lines k /\ (ign = true -> exists i l, ln lines i l /\ on_line k l /\ k <> lo l /\ k <> hi l).
Record complete (lines : list line) (ign : bool) (pos : option pt) (st : State (S := RS)) : Prop := {
  k_found : found_at lines pos (st_queue st);
  k_got : forall k, wanted lines ign k -> ~ after pos k -> get (st_result st) k <> None;
  k_all : forall k ls, get (st_result st) k = Some ls -> forall i l, ln lines i l -> on_line k l -> In i ls
}.
Definition J (lines : list line) (ign : bool) (pos : option pt) (st : State (S := RS)) : Prop := general lines -> complete lines ign pos st.

Lemma J_start lines ign q : q_ok lines None q -> J lines ign None (mkSt [] q []).
Proof. intros _ _. split; cbn; [exact I|intros k _ H _; apply H; exact I|discriminate]. Qed.

Lemma two_length {A} (l : list A) (x y : A) : x <> y -> In x l -> In y l -> (2 <= length l)%nat.
Proof. intros Hn Hx Hy. destruct l as [|a [|b t]]; cbn in *; try lia; destruct Hx as [->|[]], Hy as [->|[]]; congruence. Qed.

Lemma J_step inf lines ign : preserved inf lines ign (J lines ign).
Proof.
  intros pos key e q act res st' HI Hj HI' HS G. specialize (Hj G). destruct Hj as [HF HG HA]. cbn [st_queue st_result] in *.
  pose proof (HN lines ign G pos key e q act res HI HF) as (Htk & Hak & Hmin).
  pose proof (Hev lines ign pos key e q act res HI) as He.
  pose proof (key_inter lines ign G pos key e q act res HI HF) as KI.
  assert (Hin : forall i l, ln lines i l -> on_line key l -> In i (e_drop e ++ e_add e ++ e_inter e)).
  { intros i l Hl Ho. rewrite !in_app_iff. destruct (pt_dec key (lo l)) as [E|N1]; [right; left; apply (ok_add _ _ _ He); eauto|].
    destruct (pt_dec key (hi l)) as [E|N2]; [left; apply (ok_drop _ _ _ He); eauto|]. right; right. apply (KI i l); auto. }
  split.
  - cbn [found_at]. eapply step_found; eauto.
  - intros k Hw Hk. destruct (pt_dec k key) as [->|Nk].
    + rewrite (s_key _ _ _ _ _ _ _ _ _ HS). destruct Hw as [(i & j & a & b & Hij & Ha & Hb & Oa & Ob) Hi]. unfold reports. destruct ign.
      * destruct (Hi eq_refl) as (m & l & Hl & Ol & N1 & N2). pose proof (KI m l Hl Ol N1 N2) as Hm. destruct (e_inter e); [destruct Hm|discriminate].
      * pose proof (two_length _ i j Hij (Hin i a Ha Oa) (Hin j b Hb Ob)) as H2. rewrite !app_length in H2.
        destruct (Nat.ltb_spec 1 (length (e_drop e) + length (e_add e) + length (e_inter e))); [discriminate|]. lia.
    + rewrite (s_other _ _ _ _ _ _ _ _ _ HS k Nk). apply HG; auto. intros Ha. cbn [after] in Hk.
      destruct (Hmin k) as [E|E]; auto. right. apply Hw.
  - intros k ls Hk i l Hl Ho. destruct (pt_dec k key) as [->|Nk].
    + eapply Permutation_in; [symmetry; apply (s_list _ _ _ _ _ _ _ _ _ HS _ Hk)|]. eauto.
    + rewrite (s_other _ _ _ _ _ _ _ _ _ HS k Nk) in Hk. eapply HA; eauto.
Qed.

Lemma complete_end lines ign pos st : general lines -> Inv lines ign pos st -> complete lines ign pos st -> st_queue st = [] ->
  forall k, wanted lines ign k -> exists ls, get (st_result st) k = Some ls /\ forall i l, ln lines i l -> on_line k l -> In i ls.
Proof.
  intros G HI [HF HG HA] Hq k Hw.
  assert (Hpast : ~ after pos k).
  { intros Ha. pose proof (i_q _ _ _ _ HI) as Q. rewrite Hq in *.
    destruct (minimal klt (fun r => tev lines r /\ after pos r) klt_irrefl klt_trans (cands lines)) as (p & Hp & (Tp & Ap) & Mp).
    { exists k. assert (T : tev lines k) by (right; apply Hw). split; auto. apply tev_cands; auto. }
    assert (Hn : next_at lines pos p).
    { split; auto. split; auto. intros r Hr Har. destruct (klt_total r p) as [K|[K|K]]; auto. destruct (Mp r (tev_cands _ G _ Hr) (conj Hr Har) K). }
    assert (He : forall i l, ln lines i l -> p <> lo l /\ p <> hi l).
    { intros i l Hl. split; intros ->; [apply (q_lo _ _ _ Q i l Hl Ap)|apply (q_hi _ _ _ Q i l Hl Ap)]; auto. }
    destruct Tp as [(i & l & Hl & E)|(i & j & a & b & Hij & Ha' & Hb & Oa & Ob)].
    - destruct (He i l Hl). tauto.
    - destruct (He i a Ha') as [N1 N2]. destruct (arrive lines G pos p [] i a) as (e' & Ge & _); auto. discriminate. }
  destruct (get (st_result st) k) as [ls|] eqn:E; [|destruct (HG k Hw Hpast E)]. exists ls. split; auto. intros. eapply HA; eauto.
Qed.
