(* with_lines and with_edges reject non-finite input, over any scalar whose finite numbers are comparable. *)
From Coq Require Import Floats.SpecFloat.
From Verif Require Import Prelude Scalar RInst Flt Rdp1 FltOrd Geo2 Sweep SweepIdx.

(* finite numbers are comparable *)
Definition comparable (S : Scalar) : Prop := forall a b : car S, sfin a = true -> sfin b = true -> spcmp a b <> None.
Lemma comparable_R : comparable RS.
Proof. intros a b _ _. unfold spcmp. cbn [sltb seqb RS]. destruct (Rltb_spec a b), (Reqb_spec a b), (Rltb_spec b a); try discriminate. Lra.lra. Qed.
Lemma comparable_float prec emax eps at2 : comparable (FloatS prec emax eps at2).
Proof.
  intros a b Ha Hb. pose proof (OrdOn_float prec emax eps at2) as O.
  assert (Na : a <> S754_nan) by (intros ->; discriminate Ha). assert (Nb : b <> S754_nan) by (intros ->; discriminate Hb).
  pose proof (ord_eqb _ _ O a b Na Nb) as E. unfold spcmp. rewrite E. destruct (sltb a b), (sltb b a); cbn; discriminate.
Qed.

Section Fin.
  Context {S : Scalar}.
  Notation V := (V2 S).
  Hypothesis Hc : comparable S.
  Definition fin_pt (p : V) : Prop := sfin (vx p) = true /\ sfin (vy p) = true.
  Definition fin_line (l : Line2 S) : Prop := fin_pt (lstart l) /\ fin_pt (lend l).
  Lemma line_finite_spec s e : line_finite s e = true <-> fin_pt s /\ fin_pt e.
  Proof. unfold line_finite, fin_pt. rewrite !andb_true_iff. tauto. Qed.
  Lemma key_cmp_fin (a b : V) : fin_pt a -> fin_pt b -> key_cmp a b <> None.
  Proof.
    intros [A1 A2] [B1 B2]. unfold key_cmp. destruct (sulps (vy a) (vy b)); auto. destruct (sulps (vx a) (vx b)); [discriminate|auto].
  Qed.
  Definition fin_keys {E} (q : list (V * E)) : Prop := forall k e, In (k, e) q -> fin_pt k.
  Lemma bt_update_fin {E} k (upd : option E -> E) : fin_pt k -> forall q, fin_keys q -> exists q', bt_update (fun v => v) k upd q = Val q' /\ fin_keys q'.
  Proof.
    intros Hk. induction q as [|[k0 e0] q IH]; intros Hq; cbn [bt_update].
    - eexists. split; [reflexivity|]. intros a b [[= <- <-]|[]]. auto.
    - assert (H0 : fin_pt k0) by (apply (Hq k0 e0); left; auto). pose proof (key_cmp_fin k k0 Hk H0) as Hn.
      destruct IH as (q' & E' & Hq'); [intros a b H; apply (Hq a b); right; auto|].
      destruct (key_cmp k k0) as [[]|]; [| | |congruence].
      + eexists. split; [reflexivity|]. intros a b [[= <- <-]|H]; auto. apply (Hq a b); right; auto.
      + eexists. split; [reflexivity|]. intros a b [[= <- <-]|H]; auto. apply (Hq a b); auto.
      + rewrite E'. eexists. split; [reflexivity|]. intros a b [[= <- <-]|H]; auto. eapply Hq'; eauto.
  Qed.
  Lemma arrange_fin (l : Line2 S) : fin_line l -> fin_line (arrange l).
  Proof. intros [H1 H2]. unfold arrange. destruct (key_lt _ _); split; auto. Qed.
  Lemma with_lines_fin : forall input n q acc, fin_keys q -> Forall fin_line acc ->
    match with_lines_loop n input q acc with
    | Val (q', ls) => Forall fin_line input /\ fin_keys q' /\ ls = acc ++ map arrange input
    | Fail e => e = InvalidData /\ ~ Forall fin_line input
    | _ => False
    end.
  Proof.
    induction input as [|l input IH]; intros n q acc Hq Ha; cbn [with_lines_loop map].
    - rewrite app_nil_r. auto.
    - destruct (line_finite (lstart l) (lend l)) eqn:E.
      + apply line_finite_spec in E. assert (Fl : fin_line l) by exact E. pose proof (arrange_fin l Fl) as [A1 A2]. unfold queue_line.
        destruct (bt_update_fin _ (push_add n) A1 q Hq) as (q1 & E1 & H1). rewrite E1. cbn [obind].
        destruct (bt_update_fin _ (push_drop n) A2 q1 H1) as (q2 & E2 & H2). rewrite E2. cbn [obind].
        specialize (IH (Datatypes.S n) q2 (acc ++ [arrange l]) H2 ltac:(apply Forall_app; split; auto; constructor; [split; auto|constructor])).
        destruct (with_lines_loop (Datatypes.S n) input q2 (acc ++ [arrange l])) as [[q' ls]|e| |]; auto.
        * destruct IH as (I1 & I2 & ->). rewrite <- app_assoc. split; auto.
        * destruct IH as [I1 I2]. split; auto. intros K. inversion K; auto.
      + split; auto. intros K. inversion K as [|? ? Kl]; subst. apply line_finite_spec in Kl. congruence.
  Qed.
  Lemma with_edges_fin vs edges ls stop ign : lines_of vs edges ls ->
    match with_edges (tester_ign (tester_stop (tester_new vs) stop) ign) edges with
    | Val t => Forall fin_line ls /\ (forall k e, In (k, e) (t_events t) -> fin_pt (fst k)) /\ t_lines t = edges /\ t_vertices t = vs
    | Fail e => e = InvalidData /\ ~ Forall fin_line ls
    | _ => False
    end.
  Proof.
    intros Hl. unfold with_edges. cbn [t_events t_lines t_stop t_ign t_vertices tester_new tester_ign tester_stop].
    pose proof (with_edges_sim vs edges ls Hl 0 [] [] [] (Forall_nil _)) as W. cbn [plain map] in W.
    pose proof (with_lines_fin ls 0 [] [] ltac:(intros k e []) (Forall_nil _)) as F.
    destruct (with_edges_loop vs 0 edges [] []) as [[q es]|e| |], (with_lines_loop 0 ls [] []) as [[q' ls']|e'| |]; cbn [sim] in W; try contradiction; cbn [obind].
    - destruct W as (_ & W2 & W3 & W4). cbn [fst snd app] in *. destruct F as (F1 & F2 & F3). cbn [t_events t_lines t_vertices]. split; auto. split; [|split; auto].
      intros k e Hi. apply (F2 (fst k) e). rewrite <- W2. apply in_map_iff. exists (k, e). auto.
    - subst e'. exact F.
  Qed.
End Fin.
