(* The event loop and the constructors of the sweep, in exact arithmetic. *)
From Coq Require Import Reals Lra Permutation Sorting.Sorted.
From Verif Require Import Prelude Scalar RInst Geo2 GeoSpec DistR IsectProofs Sweep SweepMap SweepProofs SweepCand SweepLoop.

(* ---- with_lines ---- *)
Lemma bt_push_ok lines a (q : list (pt * SiteEvent)) : q_ok lines None q ->
  (forall k e, get q k = Some e -> e_inter e = []) ->
  exists q', queue_line (S := RS) (length lines) (lo a) (hi a) q = Val q' /\ q_ok (lines ++ [a]) None q' /\
    (forall k e, get q' k = Some e -> e_inter e = []).
Proof.
  intros Hq Hi. unfold queue_line.
  destruct (bt_update_R q (lo a) (push_add (length lines)) (q_sorted _ _ _ Hq)) as (q1 & E1 & S1 & G1). rewrite E1. cbn [obind].
  destruct (bt_update_R q1 (hi a) (push_drop (length lines)) S1) as (q2 & E2 & S2 & G2). rewrite E2.
  exists q2. split; auto.
  set (n := length lines) in *. set (old k := match get q k with Some e => e | None => mkE [] [] [] end).
  assert (Hold : forall k, (forall i, In i (e_drop (old k)) <-> exists l, ln lines i l /\ hi l = k) /\ (forall i, In i (e_add (old k)) <-> exists l, ln lines i l /\ lo l = k)
            /\ NoDup (e_drop (old k)) /\ NoDup (e_add (old k)) /\ e_inter (old k) = []).
  { intros k. unfold old. destruct (get q k) as [e|] eqn:G.
    - destruct (q_ev _ _ _ Hq _ _ G). repeat split; auto; try apply ok_drop; try apply ok_add; auto. eauto.
    - cbn. assert (N : forall i l, ln lines i l -> hi l <> k /\ lo l <> k).
      { intros i l Hl. split; intros E; [apply (q_hi _ _ _ Hq _ _ Hl I)|apply (q_lo _ _ _ Hq _ _ Hl I)]; congruence. }
      split; [intros i; split; [intros []|intros (l & Hl & E); destruct (N _ _ Hl); congruence]|].
      split; [intros i; split; [intros []|intros (l & Hl & E); destruct (N _ _ Hl); congruence]|].
      split; [constructor|]. split; [constructor|]. reflexivity. }
  assert (Hln : forall i l, ln (lines ++ [a]) i l <-> ln lines i l \/ (i = n /\ l = a)).
  { intros i l. unfold ln. destruct (Nat.lt_ge_cases i n) as [H|H].
    - rewrite nth_error_app1 by auto. split; auto. intros [|[-> _]]; auto. lia.
    - rewrite nth_error_app2 by auto. unfold n in *. split.
      + intros K. right. destruct (i - length lines)%nat as [|m] eqn:Ei; [|destruct m; discriminate]. cbn in K. injection K as <-. split; auto. lia.
      + intros [K|[-> ->]]; [exfalso; assert (nth_error lines i <> None) by congruence; apply nth_error_Some in H0; lia|].
        rewrite Nat.sub_diag. auto. }
  assert (Hnew : forall i l, ln lines i l -> i <> n). { intros i l Hl ->. assert (nth_error lines n <> None) by (unfold ln in Hl; congruence). apply nth_error_Some in H. unfold n in H. lia. }
  (* the new event at k *)
  assert (Hget : forall k, get q2 k = if pt_dec k (lo a) then (if pt_dec k (hi a) then Some (mkE (e_drop (old k) ++ [n]) (e_add (old k) ++ [n]) [])
                                                              else Some (mkE (e_drop (old k)) (e_add (old k) ++ [n]) []))
                                      else if pt_dec k (hi a) then Some (mkE (e_drop (old k) ++ [n]) (e_add (old k)) []) else get q k).
  { intros k. rewrite G2. destruct (Hold k) as (_ & _ & _ & _ & Hint).
    assert (G1k : get q1 k = if pt_dec k (lo a) then Some (mkE (e_drop (old k)) (e_add (old k) ++ [n]) []) else get q k).
    { rewrite G1. destruct (pt_dec k (lo a)) as [E|Hn']; destruct (pt_dec (lo a) k) as [E'|Hn]; try congruence.
      rewrite <- E. f_equal. unfold old in *. destruct (get q k) as [e|] eqn:Gk; cbn [push_add e_drop e_add e_inter with_add app] in *; rewrite ?Hint; auto. }
    destruct (pt_dec k (hi a)) as [E|Hn']; destruct (pt_dec (hi a) k) as [E'|Hn]; try congruence.
    rewrite <- E, G1k. destruct (pt_dec k (lo a)); auto.
    unfold old in *. destruct (get q k) as [e|] eqn:Gk; cbn [push_drop e_drop e_add e_inter with_drop app] in *; rewrite ?Hint; auto. }
  assert (Hev : forall k e, get q2 k = Some e -> ev_ok (lines ++ [a]) k e /\ e_inter e = []).
  { intros k e. rewrite Hget. destruct (Hold k) as (D & A & ND & NA & Hint).
    assert (Dn : forall i, In i (e_drop (old k) ++ [n]) <-> (exists l, ln lines i l /\ hi l = k) \/ i = n).
    { intros i. rewrite in_app_iff, D. cbn. intuition. }
    assert (An : forall i, In i (e_add (old k) ++ [n]) <-> (exists l, ln lines i l /\ lo l = k) \/ i = n).
    { intros i. rewrite in_app_iff, A. cbn. intuition. }
    assert (NDn : NoDup (e_drop (old k) ++ [n])).
    { apply NoDup_app_intro; auto; [repeat constructor; auto|]. intros i Hi' [<-|[]]. apply D in Hi' as (l & Hl & _). exact (Hnew _ _ Hl eq_refl). }
    assert (NAn : NoDup (e_add (old k) ++ [n])).
    { apply NoDup_app_intro; auto; [repeat constructor; auto|]. intros i Hi' [<-|[]]. apply A in Hi' as (l & Hl & _). exact (Hnew _ _ Hl eq_refl). }
    assert (HI : forall l, In l (lines ++ [a]) -> k = lo l \/ k = hi l -> In k (cands (lines ++ [a]))).
    { intros l Hl He. apply (in_cands_end _ l); auto. apply end_cases; auto. }
    assert (Hina : In a (lines ++ [a])) by (apply in_app_iff; right; left; auto).
    destruct (pt_dec k (lo a)) as [El|El]; [destruct (pt_dec k (hi a)) as [Eh|Eh]|destruct (pt_dec k (hi a)) as [Eh|Eh]].
    - intros [= <-]. split; auto. constructor; cbn [e_drop e_add e_inter]; auto; try (constructor; fail).
      + intros i. rewrite Dn. split; [intros [(l & Hl & E)| ->]|intros (l & Hl & E)].
        * exists l. rewrite Hln. auto. * exists a. rewrite Hln. auto. * apply Hln in Hl as [Hl|[-> ->]]; eauto.
      + intros i. rewrite An. split; [intros [(l & Hl & E)| ->]|intros (l & Hl & E)].
        * exists l. rewrite Hln. auto. * exists a. rewrite Hln. auto. * apply Hln in Hl as [Hl|[-> ->]]; eauto.
      + intros i [].
      + apply (HI a); auto.
      + intros E. apply app_eq_nil in E as [_ E]. discriminate.
    - intros [= <-]. split; auto. constructor; cbn [e_drop e_add e_inter]; auto; try (constructor; fail).
      + intros i. rewrite D. split; intros (l & Hl & E); [exists l; rewrite Hln; auto|]. apply Hln in Hl as [Hl|[-> ->]]; eauto. congruence.
      + intros i. rewrite An. split; [intros [(l & Hl & E)| ->]|intros (l & Hl & E)].
        * exists l. rewrite Hln. auto. * exists a. rewrite Hln. auto. * apply Hln in Hl as [Hl|[-> ->]]; eauto.
      + intros i [].
      + apply (HI a); auto.
      + intros _ E. apply app_eq_nil in E as [_ E]. discriminate.
    - intros [= <-]. split; auto. constructor; cbn [e_drop e_add e_inter]; auto; try (constructor; fail).
      + intros i. rewrite Dn. split; [intros [(l & Hl & E)| ->]|intros (l & Hl & E)].
        * exists l. rewrite Hln. auto. * exists a. rewrite Hln. auto. * apply Hln in Hl as [Hl|[-> ->]]; eauto.
      + intros i. rewrite A. split; intros (l & Hl & E); [exists l; rewrite Hln; auto|]. apply Hln in Hl as [Hl|[-> ->]]; eauto. congruence.
      + intros i [].
      + apply (HI a); auto.
      + intros E. apply app_eq_nil in E as [_ E]. discriminate.
    - intros G. split; [|eauto]. destruct (q_ev _ _ _ Hq _ _ G) as [K1 K2 K3 K4 K5 K6 K7 K8]. constructor; auto.
      + intros i. rewrite K1. split; intros (l & Hl & E); [exists l; rewrite Hln; auto|]. apply Hln in Hl as [Hl|[-> ->]]; eauto. congruence.
      + intros i. rewrite K2. split; intros (l & Hl & E); [exists l; rewrite Hln; auto|]. apply Hln in Hl as [Hl|[-> ->]]; eauto. congruence.
      + intros i Hi'. rewrite (Hi _ _ G) in Hi'. destruct Hi'.
      + apply cands_app; auto. }
  split; [|intros k e G; apply (Hev k e G)].
  constructor; auto.
  - intros k e G. apply (Hev k e G).
  - intros k e G. exact I.
  - intros i l Hl _. rewrite Hget. destruct (pt_dec (hi l) (lo a)); [destruct (pt_dec (hi l) (hi a)); discriminate|].
    destruct (pt_dec (hi l) (hi a)); [discriminate|]. apply Hln in Hl as [Hl|[-> ->]]; [eapply q_hi; eauto; exact I|congruence].
  - intros i l Hl _. rewrite Hget. destruct (pt_dec (lo l) (lo a)) as [E|]; [destruct (pt_dec (lo l) (hi a)); discriminate|].
    destruct (pt_dec (lo l) (hi a)); [discriminate|]. apply Hln in Hl as [Hl|[-> ->]]; [eapply q_lo; eauto; exact I|congruence].
Qed.

Lemma q_ok_nil : q_ok [] None [].
Proof. constructor; [constructor|intros k e; discriminate|intros k e; discriminate|intros [|i] l; discriminate|intros [|i] l; discriminate]. Qed.

(* [f] is [arrange] for the plain sweep, which stores the arranged lines, and the identity for the indexed one *)
Lemma with_lines_loop_ok (f : line -> line) : (forall l, lo (f l) = lo l /\ hi (f l) = hi l) ->
  forall input lines acc (q : list (pt * SiteEvent)), q_ok lines None q -> (forall k e, get q k = Some e -> e_inter e = []) ->
  exists q', with_lines_loop (S := RS) (length lines) input q acc = Val (q', acc ++ map (@arrange RS) input) /\ q_ok (lines ++ map f input) None q'.
Proof.
  intros Hf. induction input as [|l input IH]; intros lines acc q Hq Hi; cbn [with_lines_loop map].
  - rewrite !app_nil_r. eauto.
  - unfold line_finite. cbn [sfin RS andb].
    destruct (bt_push_ok lines (f l) q Hq Hi) as (q1 & E1 & Hq1 & Hi1). destruct (Hf l) as [E2 E3].
    rewrite E2, E3 in E1. unfold lo, hi in E1. rewrite E1. cbn [obind].
    destruct (IH (lines ++ [f l]) (acc ++ [arrange l]) q1 Hq1 Hi1) as (q' & E' & Hq'). rewrite app_length in E'. cbn [length] in E'. rewrite Nat.add_1_r in E'.
    rewrite E'. rewrite <- !app_assoc in *. cbn [app] in *. eauto.
Qed.

Section Loop2.
  Variable inf : R.
  Variable lines : list line.
  Variable ign : bool.
  Variable ord : nat -> list nat -> list nat.
  Hypothesis Hord : forall n l, Permutation (ord n l) l.

  (* any list that contains all possible event points *)
  Variable pts : list pt.
  Hypothesis Hpts : incl (cands lines) pts.

  Definition ahead_count (pos : option pt) : nat := length (filter (fun k => if after_dec pos k then true else false) pts).
  Lemma ahead_dec pos key : after pos key -> In key (cands lines) -> (ahead_count (Some key) < ahead_count pos)%nat.
  Proof.
    intros Ha Hin. apply Hpts in Hin. clear Hpts. unfold ahead_count. induction pts as [|k cs IH]; [destruct Hin|].
    assert (Hle : forall cs : list pt, (length (filter (fun k => if after_dec (Some key) k then true else false) cs) <= length (filter (fun k => if after_dec pos k then true else false) cs))%nat).
    { induction cs0 as [|c cs0 IH0]; cbn [filter]; auto. destruct (after_dec (Some key) c) as [K|K]; destruct (after_dec pos c) as [K2|K2]; cbn [length]; try lia.
      exfalso. apply K2. destruct pos as [p|]; cbn in *; auto. eapply klt_trans; eauto. }
    cbn [filter]. destruct Hin as [->|Hin].
    - destruct (after_dec (Some key) key) as [K|_]; [destruct (klt_irrefl _ K)|]. destruct (after_dec pos key); [|contradiction]. cbn [length]. specialize (Hle cs). lia.
    - specialize (IH Hin). destruct (after_dec (Some key) k) as [K|K]; destruct (after_dec pos k) as [K2|K2]; cbn [length]; try lia.
      exfalso. apply K2. destruct pos as [p|]; cbn in *; auto. eapply klt_trans; eauto.
  Qed.
  Lemma ahead_bound pos : (ahead_count pos <= length pts)%nat.
  Proof.
    unfold ahead_count. clear Hpts. induction pts as [|k cs IH]; cbn [filter length]; auto.
    destruct (after_dec pos k); cbn [length]; lia.
  Qed.

  Definition preserved (J : option pt -> State (S := RS) -> Prop) : Prop := forall pos key e q act res st',
    Inv lines ign pos (mkSt act ((key, e) :: q) res) -> J pos (mkSt act ((key, e) :: q) res) ->
    Inv lines ign (Some key) st' -> step_spec inf lines ign key e act q res st' -> J (Some key) st'.

  Lemma loop_ok stop J : preserved J -> forall fuel n pos st, Inv lines ign pos st -> J pos st -> (ahead_count pos <= fuel)%nat ->
    exists pos' st', event_loop (S := RS) inf lines ign stop ord fuel n st = Val (st_result st') /\ Inv lines ign pos' st' /\ J pos' st' /\
      (st_queue st' = [] \/ (stop = true /\ st_result st' <> [])).
  Proof.
    intros HJ. induction fuel as [|fuel IH]; intros n pos [act [|[key e] q] res] HI Hj Hf; cbn [event_loop st_queue st_result st_active].
    - exists pos, (mkSt act [] res). auto.
    - exfalso. pose proof (head_ev _ _ _ _ _ (i_q _ _ _ _ HI)) as [He Ha]. pose proof (ahead_dec pos key Ha (ok_cand _ _ _ He)). lia.
    - exists pos, (mkSt act [] res). auto.
    - destruct (handle_ok inf lines ign pos key e q act res (ord n) HI (Hord n)) as (st' & -> & HI' & Hs). cbn [obind].
      pose proof (HJ pos key e q act res st' HI Hj HI' Hs) as Hj'.
      assert (Hf' : (ahead_count (Some key) <= fuel)%nat).
      { pose proof (head_ev _ _ _ _ _ (i_q _ _ _ _ HI)) as [He Ha]. pose proof (ahead_dec pos key Ha (ok_cand _ _ _ He)). lia. }
      specialize (IH (Datatypes.S n) (Some key) st' HI' Hj' Hf').
      destruct (st_result st') as [|x r] eqn:Er; [exact IH|]. destruct stop; [|exact IH].
      exists (Some key), st'. rewrite Er. split; [reflexivity|]. split; [exact HI'|]. split; [exact Hj'|]. right. split; [reflexivity|discriminate].
  Qed.

  (* ---- the first reported position stays first ---- *)
  Definition first_is (x : pt * list nat) (r : list (pt * list nat)) : Prop := hd_error r = Some x.
  Lemma step_first pos key e q act res st' x : Inv lines ign pos (mkSt act ((key, e) :: q) res) ->
    Inv lines ign (Some key) st' -> step_spec inf lines ign key e act q res st' ->
    (first_is x res -> first_is x (st_result st')) /\ (res = [] -> st_result st' = [] \/ exists ls, st_result st' = [(key, ls)]).
  Proof.
    intros HI HI' Hs. pose proof (i_rs _ _ _ _ HI') as Ss. pose proof (i_rs _ _ _ _ HI) as Sr. cbn [st_result] in Sr.
    pose proof (head_ev _ _ _ _ _ (i_q _ _ _ _ HI)) as [_ Ha].
    assert (Hcmp : forall k, get (st_result st') k <> None -> k = key \/ get res k <> None).
    { intros k G. destruct (pt_dec k key); auto. right. rewrite <- (s_other _ _ _ _ _ _ _ _ _ Hs k); auto. }
    split.
    - intros Hf. destruct res as [|[k ls] res]; [discriminate|]. injection Hf as <-.
      assert (Gk : get ((k, ls) :: res) k = Some ls) by (rewrite get_cons; destruct (pt_dec k k); congruence).
      assert (Hk : klt k key).
      { destruct (i_res _ _ _ _ HI k ls Gk) as [K _]. destruct pos as [p|]; cbn in *; [|tauto]. destruct (klt_total k key) as [|[->|K2]]; auto; [contradiction|].
        destruct K. eapply klt_trans; eauto. }
      assert (G' : get (st_result st') k = Some ls). { rewrite (s_other _ _ _ _ _ _ _ _ _ Hs); auto. apply klt_ne; auto. }
      destruct (st_result st') as [|[k0 l0] r']; [discriminate|]. unfold first_is. cbn [hd_error].
      rewrite get_cons in G'. destruct (pt_dec k0 k) as [->|Hn]; [congruence|].
      destruct (ksorted_head _ _ _ Ss) as [_ Hh]. specialize (Hh _ _ G'). exfalso.
      assert (G0 : get ((k0, l0) :: r') k0 <> None) by (rewrite get_cons; destruct (pt_dec k0 k0); congruence).
      apply Hcmp in G0 as [->|G0]; [exact (klt_asym _ _ Hk Hh)|].
      rewrite get_cons in G0. destruct (pt_dec k k0) as [->|_]; [congruence|]. destruct (ksorted_head _ _ _ Sr) as [_ Hh2].
      destruct (get res k0) eqn:E0; [|congruence]. specialize (Hh2 _ _ E0). exact (klt_asym _ _ Hh Hh2).
    - intros ->. destruct (st_result st') as [|[k0 l0] [|[k1 l1] r']]; auto.
      + right. exists l0. assert (G0 : get [(k0, l0)] k0 <> None) by (rewrite get_cons; destruct (pt_dec k0 k0); congruence).
        apply Hcmp in G0 as [->|G0]; auto. cbn in G0. congruence.
      + exfalso. destruct (ksorted_head _ _ _ Ss) as [_ Hh].
        assert (G0 : get ((k0, l0) :: (k1, l1) :: r') k0 <> None) by (rewrite get_cons; destruct (pt_dec k0 k0); congruence).
        assert (G1 : get ((k0, l0) :: (k1, l1) :: r') k1 <> None).
        { rewrite get_cons. destruct (pt_dec k0 k1); [discriminate|]. rewrite get_cons. destruct (pt_dec k1 k1); congruence. }
        assert (Hlt : klt k0 k1) by (apply (Hh k1 l1); rewrite get_cons; destruct (pt_dec k1 k1); congruence).
        apply Hcmp in G0 as [E0|G0]; [|rewrite get_nil in G0; congruence]. apply Hcmp in G1 as [E1|G1]; [|rewrite get_nil in G1; congruence].
        subst k0 k1. exact (klt_irrefl _ Hlt).
  Qed.
  Lemma loop_first x : forall fuel n pos st, Inv lines ign pos st -> first_is x (st_result st) -> (ahead_count pos <= fuel)%nat ->
    exists r, event_loop (S := RS) inf lines ign false ord fuel n st = Val r /\ first_is x r.
  Proof.
    intros fuel n pos st HI Hf Hb.
    destruct (loop_ok false (fun _ st => first_is x (st_result st))) with (fuel := fuel) (n := n) (pos := pos) (st := st) as (pos' & st' & E & _ & H & _); eauto.
    intros p k e q act res st' H1 H2 H3 H4. eapply step_first; eauto.
  Qed.
  Lemma loop_stop : forall fuel n pos st, Inv lines ign pos st -> st_result st = [] -> (ahead_count pos <= fuel)%nat ->
    exists r, event_loop (S := RS) inf lines ign false ord fuel n st = Val r /\ event_loop (S := RS) inf lines ign true ord fuel n st = Val (firstn 1 r).
  Proof.
    induction fuel as [|fuel IH]; intros n pos [act [|[key e] q] res] HI Hr Hf; cbn [event_loop st_queue st_result st_active] in *; subst res.
    - exists []. auto.
    - exfalso. pose proof (head_ev _ _ _ _ _ (i_q _ _ _ _ HI)) as [He Ha]. pose proof (ahead_dec pos key Ha (ok_cand _ _ _ He)). lia.
    - exists []. auto.
    - destruct (handle_ok inf lines ign pos key e q act [] (ord n) HI (Hord n)) as (st' & -> & HI' & Hs). cbn [obind].
      assert (Hf' : (ahead_count (Some key) <= fuel)%nat).
      { pose proof (head_ev _ _ _ _ _ (i_q _ _ _ _ HI)) as [He Ha]. pose proof (ahead_dec pos key Ha (ok_cand _ _ _ He)). lia. }
      destruct (step_first pos key e q act [] st' (key, []) HI HI' Hs) as [_ H2]. destruct (H2 eq_refl) as [E|(ls & E)].
      + rewrite E. apply (IH (Datatypes.S n) (Some key) st' HI' E Hf').
      + destruct (loop_first (key, ls) fuel (Datatypes.S n) (Some key) st' HI') as (r & Er & Hfr); auto. { unfold first_is. rewrite E. auto. }
        rewrite E. exists r. rewrite Er. split; auto. destruct r as [|y r]; [discriminate|]. injection Hfr as ->. auto.
  Qed.
End Loop2.

Lemma init_ok lines ign q : q_ok lines None q -> Inv lines ign None (mkSt [] q []).
Proof.
  intros H. constructor; cbn [st_queue st_active st_result]; auto.
  - intros i. split; [intros []|]. intros (l & _ & K & _). destruct (K I).
  - constructor.
  - constructor.
  - intros k ls; discriminate.
  - intros _ k i j li lj K. destruct (K I).
Qed.
