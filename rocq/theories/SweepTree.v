(* The sweep line over an arbitrary implementation of the ordered maps.
   Sweep.v keeps the ordered maps as lists searched from the front. std's BTreeMap compares the key with some of the stored
   keys only; which ones depends on the shape of the tree, that is on everything that was inserted and removed before. The
   ulps comparison of SiteEventKey is not transitive on floats, so different shapes may give different answers. Here the
   map is any record of operations on any state; [lawful_map] (below) says what every search tree guarantees, whatever its
   shape. Two more searches of the code are spelled out, which find what they look for only when the comparison is
   consistent: the first event is removed by searching for its key (intersection.rs:579-593; the feature map_first_last is
   not declared in Cargo.toml, so this is the code that is compiled), and report_intersections_to_result searches a third
   time after inserting (intersection.rs:822-827).
   The rest of each function is the one in Sweep.v, with the same references. *)
From Verif Require Import Prelude Scalar Geo2 Sweep.

(* where a search ends: at the i-th entry, between two entries, or in the panic of Ord::cmp *)
Inductive spot := Found (i : nat) | Gap (i : nat) | Stuck.
(* a map: entries are addressed by their place in the order *)
Record Map (V K E : Type) := mkMap {
  store : Type;
  m_empty : store;
  m_list : store -> list (K * E);
  m_search : store -> V -> spot;
  m_insert : store -> nat -> K -> E -> store;
  m_set : store -> nat -> E -> store;
  m_remove : store -> nat -> store }.
Arguments store {V K E}.
Arguments m_empty {V K E} m.
Arguments m_list {V K E m}.
Arguments m_search {V K E m}.
Arguments m_insert {V K E m}.
Arguments m_set {V K E m}.
Arguments m_remove {V K E m}.

Section Tree.
  Context {S : Scalar} (inf : car S).
  Notation V := (V2 S).
  Notation L := (Line2 S).

  (* what a search for k among the keys, in order, can answer *)
  Definition valid_spot (keys : list V) (k : V) (s : spot) : Prop :=
    match s with
    | Found i => exists k', nth_error keys i = Some k' /\ key_cmp k k' = Some Eq
    | Gap i => i <= length keys /\ (forall j k', i = Datatypes.S j -> nth_error keys j = Some k' -> key_cmp k k' = Some Gt) /\
        (forall k', nth_error keys i = Some k' -> key_cmp k k' = Some Lt)
    | Stuck => exists k', In k' keys /\ key_cmp k k' = None
    end.
  (* What every search tree guarantees, in every state [ok] it can get into. A key reported as present was compared and found
     equal; where a search ends between two keys, both were compared (the two neighbours of the edge at which a descent
     ends are keys the descent compared); a panic means that some comparison had no result. The other operations do what
     they say to the entry at the given place; a new value in an entry changes no search. *)
  Record lawful_on {K E} (pos : K -> V) (M : Map V K E) (ok : store M -> Prop) : Prop := {
    ok_empty : ok (m_empty M);
    ok_insert : forall m i k e, ok m -> i <= length (m_list m) -> ok (m_insert m i k e);
    ok_set : forall m i e, ok m -> i < length (m_list m) -> ok (m_set m i e);
    ok_remove : forall m i, ok m -> i < length (m_list m) -> ok (m_remove m i);
    law_empty : m_list (m_empty M) = [];
    law_search : forall m k, ok m -> valid_spot (map (fun ke => pos (fst ke)) (m_list m)) k (m_search m k);
    law_insert : forall m i k e, ok m -> i <= length (m_list m) -> m_list (m_insert m i k e) = firstn i (m_list m) ++ (k, e) :: skipn i (m_list m);
    law_set : forall m i k e e', ok m -> nth_error (m_list m) i = Some (k, e) -> m_list (m_set m i e') = firstn i (m_list m) ++ (k, e') :: skipn (Datatypes.S i) (m_list m);
    law_set_search : forall m i e k, ok m -> i < length (m_list m) -> m_search (m_set m i e) k = m_search m k;
    law_remove : forall m i, ok m -> i < length (m_list m) -> m_list (m_remove m i) = firstn i (m_list m) ++ skipn (Datatypes.S i) (m_list m) }.
  Definition lawful_map {K E} (pos : K -> V) (M : Map V K E) : Prop := exists ok, lawful_on pos M ok.

  Section Ops.
    Context {K E : Type} (pos : K -> V) {M : Map V K E}.
    (* get_mut(key), or insert when absent; an existing key is kept *)
    Definition map_update (k : K) (upd : option E -> E) (m : store M) : outcome (store M) :=
      match m_search m (pos k) with
      | Stuck => Panic
      | Found i => let* ke := idx (m_list m) i in Val (m_set m i (upd (Some (snd ke))))
      | Gap i => Val (m_insert m i k (upd None))
      end.
    (* iter().next(), then remove(&key): the entry removed is the one the search finds *)
    Definition map_pop (m : store M) : outcome (option ((K * E) * store M)) :=
      match m_list m with
      | [] => Val None
      | (k, _) :: _ =>
          match m_search m (pos k) with
          | Stuck => Panic
          | Found i => let* ke := idx (m_list m) i in Val (Some ((k, snd ke), m_remove m i))
          | Gap _ => Fail InternalError
          end
      end.
  End Ops.

  (* intersection.rs:814-832, indexed_intersection.rs:907-930: get_mut(key), or insert an empty list and get_mut(key).unwrap() *)
  Definition map_report {K} (pos : K -> V) {M : Map V K (list nat)} (k : K) (l : list nat) (m : store M) : outcome (store M) :=
    let* m' := match m_search m (pos k) with Stuck => Panic | Found _ => Val m | Gap i => Val (m_insert m i k []) end in
    match m_search m' (pos k) with
    | Found i => let* ke := idx (m_list m') i in Val (m_set m' i (push_report l (Some (snd ke))))
    | _ => Panic
    end.

  (* ================= IntersectionData ================= *)
  Section Plain.
  Variables (QM : Map V V SiteEvent) (RM : Map V V (list nat)).
  Notation idk := (fun v : V => v).
  (* intersection.rs:478-499 *)
  Definition tree_queue_line (index : nat) (s e : V) (q : store QM) : outcome (store QM) :=
    let* q1 := map_update idk s (push_add index) q in
    map_update idk e (push_drop index) q1.
  (* intersection.rs:450-502  with_lines *)
  Fixpoint tree_with_lines (index : nat) (input : list L) (q : store QM) (lines : list L) : outcome (store QM * list L) :=
    match input with
    | [] => Val (q, lines)
    | l :: t =>
        if line_finite (lstart l) (lend l) then
          let a := arrange l in
          let* q' := tree_queue_line index (lstart a) (lend a) q in
          tree_with_lines (Datatypes.S index) t q' (lines ++ [a])
        else Fail InvalidData
    end.
  (* intersection.rs:770-807 *)
  Definition tree_pair (lines : list L) (sweep : V) (li ri : nat) (q : store QM) : outcome (store QM) :=
    let* l := idx lines li in
    let* r := idx lines ri in
    if vulps (lend l) (lend r) then Val q
    else
      match intersection_point l r with
      | None => Val q
      | Some it =>
          let p := isingle it in
          if (sfin (vx p) && sfin (vy p))%bool then
            if ahead sweep p then map_update idk p (merge_intersection p [(li, l); (ri, r)]) q
            else Val q
          else Fail InvalidData
      end.
  (* intersection.rs:762-812  find_new_events *)
  Fixpoint tree_find (lines : list L) (sweep : V) (prs : list (nat * nat)) (q : store QM) : outcome (store QM) :=
    match prs with
    | [] => Val q
    | (a, b) :: t => let* q' := tree_pair lines sweep a b q in tree_find lines sweep t q'
    end.
  Fixpoint tree_report (pos : V) (lists : list (list nat)) (r : store RM) : outcome (store RM) :=
    match lists with
    | [] => Val r
    | l :: t => let* r' := map_report idk pos l r in tree_report pos t r'
    end.
  Record TState := mkTS { ts_active : list nat; ts_queue : store QM; ts_result : store RM }.
  (* intersection.rs:619-760  handle_event *)
  Definition tree_handle (lines : list L) (ign : bool) (order : list nat -> list nat) (key : V) (e : SiteEvent) (st : TState) : outcome TState :=
    let* res := tree_report key (to_report ign e) (ts_result st) in
    let act := set_remove (ts_active st) (e_drop e) in
    let* nb := neighbours inf (idx lines) key (e_inter e) (order act) minmax_new in
    let act' := fold_left set_insert (e_add e) act in
    let* cands := candidate_lists inf (idx lines) e (mm_slope nb) in
    let* q := tree_find lines key (flat_map pairs_of cands) (ts_queue st) in
    Val (mkTS act' q res).
  (* intersection.rs:573-615 *)
  Fixpoint tree_loop (lines : list L) (ign stop : bool) (ord : nat -> list nat -> list nat) (fuel n : nat) (st : TState) : outcome Result :=
    let* p := map_pop idk (ts_queue st) in
    match p with
    | None => Val (m_list (ts_result st))
    | Some ((k, e), q) =>
        match fuel with
        | O => NoFuel
        | Datatypes.S f =>
            let* st' := tree_handle lines ign (ord n) k e (mkTS (ts_active st) q (ts_result st)) in
            match m_list (ts_result st') with
            | [] => tree_loop lines ign stop ord f (Datatypes.S n) st'
            | r => if stop then Val r else tree_loop lines ign stop ord f (Datatypes.S n) st'
            end
        end
    end.
  (* default, with_stop_at_first_intersection, with_ignore_end_point_intersections, with_lines, compute: intersection.rs:424-616 *)
  Definition tree_intersections (ord : nat -> list nat -> list nat) (fuel : nat) (stop ign : bool) (input : list L) : outcome Result :=
    let* (q, lines) := tree_with_lines 0 input (m_empty QM) [] in
    tree_loop lines ign stop ord fuel 0 (mkTS [] q (m_empty RM)).
  (* src/linestring_2d.rs:717-769  LineString2::is_self_intersecting *)
  Definition tree_self_intersecting (ord : nat -> list nat -> list nat) (fuel : nat) (l : LS S) : outcome bool :=
    if Nat.leb (length l) 2 then Val false
    else if Nat.ltb (length l) 10 then Val (self_intersecting_short l)
    else
      let* r := tree_intersections ord fuel true true (window_iter l) in
      Val (Nat.ltb 0 (length r)).
  End Plain.

  (* ================= IntersectionTester ================= *)
  Section Indexed.
  Variables (QM : Map V (IKey (S := S)) SiteEvent) (RM : Map V (IKey (S := S)) (list nat)).
  (* indexed_intersection.rs:525-536, 545-567 *)
  Definition tree_iqueue_line (index : nat) (si : nat) (s : V) (ei : nat) (e : V) (q : store QM) : outcome (store QM) :=
    let '(si', s', ei', e') := if key_lt s e then (si, s, ei, e) else (ei, e, si, s) in
    let* q1 := map_update fst (s', Some si') (push_add index) q in
    map_update fst (e', Some ei') (push_drop index) q1.
  (* indexed_intersection.rs:500-571  with_edges *)
  Fixpoint tree_with_edges (vertices : list V) (index : nat) (input : list (nat * nat)) (q : store QM) (lines : list (nat * nat)) : outcome (store QM * list (nat * nat)) :=
    match input with
    | [] => Val (q, lines)
    | (si, ei) :: t =>
        let* s := idx vertices si in
        let* e := idx vertices ei in
        if line_finite s e then
          let* q' := tree_iqueue_line index si s ei e q in
          tree_with_edges vertices (Datatypes.S index) t q' (lines ++ [(si, ei)])
        else Fail InvalidData
    end.
  (* indexed_intersection.rs:852-901 *)
  Definition tree_ipair (lines : list (nat * nat)) (sweep : V) (li ri : nat) (vq : list V * store QM) : outcome (list V * store QM) :=
    let '(vertices, q) := vq in
    let* l := edge_line vertices lines li in
    let* r := edge_line vertices lines ri in
    if vulps (lend l) (lend r) then Val (vertices, q)
    else
      match intersection_point l r with
      | None => Val (vertices, q)
      | Some it =>
          let p := isingle it in
          if (sfin (vx p) && sfin (vy p))%bool then
            if ahead sweep p then
              let* q' := map_update fst (p, Some (length vertices)) (merge_intersection p [(li, l); (ri, r)]) q in
              Val (vertices ++ [p], q')
            else Val (vertices, q)
          else Fail InvalidData
      end.
  (* indexed_intersection.rs:846-905  find_new_events *)
  Fixpoint tree_ifind (lines : list (nat * nat)) (sweep : V) (prs : list (nat * nat)) (vq : list V * store QM) : outcome (list V * store QM) :=
    match prs with
    | [] => Val vq
    | (a, b) :: t => let* vq' := tree_ipair lines sweep a b vq in tree_ifind lines sweep t vq'
    end.
  (* indexed_intersection.rs:907-930  report_intersections_to_result *)
  Fixpoint tree_ireport (vertices : list V) (key : IKey (S := S)) (lists : list (list nat)) (r : store RM) : outcome (store RM) :=
    match lists with
    | [] => Val r
    | l :: t =>
        match snd key with
        | None => Panic
        | Some i =>
            let* pos := idx vertices i in
            let* r' := map_report fst (pos, Some i) l r in tree_ireport vertices key t r'
        end
    end.
  Record TIState := mkTI { ti_active : list nat; ti_vertices : list V; ti_queue : store QM; ti_result : store RM }.
  (* indexed_intersection.rs:698-844  handle_event *)
  Definition tree_ihandle (lines : list (nat * nat)) (ign : bool) (order : list nat -> list nat) (key : IKey (S := S)) (e : SiteEvent) (st : TIState) : outcome TIState :=
    let vs := ti_vertices st in
    let* res := tree_ireport vs key (to_report ign e) (ti_result st) in
    let act := set_remove (ti_active st) (e_drop e) in
    let* nb := neighbours inf (edge_line vs lines) (fst key) (e_inter e) (order act) minmax_new in
    let act' := fold_left set_insert (e_add e) act in
    let* cands := candidate_lists inf (edge_line vs lines) e (mm_slope nb) in
    let* (vs', q) := tree_ifind lines (fst key) (flat_map pairs_of cands) (vs, ti_queue st) in
    Val (mkTI act' vs' q res).
  (* indexed_intersection.rs:645-688 *)
  Fixpoint tree_iloop (lines : list (nat * nat)) (ign stop : bool) (ord : nat -> list nat -> list nat) (fuel n : nat) (st : TIState) : outcome (list V * IResult) :=
    let* p := map_pop fst (ti_queue st) in
    match p with
    | None => Val (ti_vertices st, m_list (ti_result st))
    | Some ((k, e), q) =>
        match fuel with
        | O => NoFuel
        | Datatypes.S f =>
            let* st' := tree_ihandle lines ign (ord n) k e (mkTI (ti_active st) (ti_vertices st) q (ti_result st)) in
            match m_list (ti_result st') with
            | [] => tree_iloop lines ign stop ord f (Datatypes.S n) st'
            | r => if stop then Val (ti_vertices st', r) else tree_iloop lines ign stop ord f (Datatypes.S n) st'
            end
        end
    end.
  (* new, with_edges, compute: indexed_intersection.rs:459-694 *)
  Definition tree_indexed_intersections (ord : nat -> list nat -> list nat) (fuel : nat) (stop ign : bool) (vertices : list V) (edges : list (nat * nat)) :
    outcome (list V * list (nat * list nat)) :=
    let* (q, lines) := tree_with_edges vertices 0 edges (m_empty QM) [] in
    let* (vs, r) := tree_iloop lines ign stop ord fuel 0 (mkTI [] vertices q (m_empty RM)) in
    let* out := mapM unwrap_index r in
    Val (vs, out).
  End Indexed.
End Tree.

(* ---- the lists of Sweep.v are one such map ---- *)
Section Front.
  Context {S : Scalar}.
  Notation V := (V2 S).
  Fixpoint front (keys : list V) (k : V) : spot :=
    match keys with
    | [] => Gap 0
    | k' :: t =>
        match key_cmp k k' with
        | None => Stuck
        | Some Eq => Found 0
        | Some Lt => Gap 0
        | Some Gt => match front t k with Found i => Found (Datatypes.S i) | Gap i => Gap (Datatypes.S i) | Stuck => Stuck end
        end
    end.
  Lemma front_valid (keys : list V) k : valid_spot keys k (front keys k).
  Proof.
    induction keys as [|k0 t IH]; cbn [front]; [split; [auto|]; split; [discriminate|intros k' H; discriminate]|].
    destruct (key_cmp k k0) as [[]|] eqn:E.
    - exists k0. auto.
    - split; [lia|]. split; [discriminate|]. intros k' [= <-]. auto.
    - destruct (front t k) as [i|i|]; cbn [valid_spot] in *.
      + destruct IH as (k' & H1 & H2). exists k'. auto.
      + destruct IH as (H1 & H2 & H3). split; [cbn; lia|]. split; [|intros k'; apply H3].
        intros [|j] k' [= ->]; cbn; [intros [= <-]; auto|]. apply (H2 j); auto.
      + destruct IH as (k' & H1 & H2). exists k'. split; cbn; auto.
    - exists k0. split; cbn; auto.
  Qed.
  Definition list_map (K E : Type) (pos : K -> V) : Map V K E :=
    mkMap V K E (list (K * E)) [] (fun m => m) (fun m k => front (map (fun ke => pos (fst ke)) m) k)
      (fun m i k e => firstn i m ++ (k, e) :: skipn i m)
      (fun m i e => match nth_error m i with Some (k, _) => firstn i m ++ (k, e) :: skipn (Datatypes.S i) m | None => m end)
      (fun m i => firstn i m ++ skipn (Datatypes.S i) m).
  Lemma set_keys {K E} (pos : K -> V) (m : list (K * E)) i e :
    map (fun ke => pos (fst ke)) (match nth_error m i with Some (k, _) => firstn i m ++ (k, e) :: skipn (Datatypes.S i) m | None => m end) = map (fun ke => pos (fst ke)) m.
  Proof.
    destruct (nth_error m i) as [[k0 e0]|] eqn:En; auto. apply nth_error_split in En as (a & b & -> & <-).
    rewrite firstn_app, Nat.sub_diag, firstn_all, skipn_app. replace (Datatypes.S (length a) - length a) with 1 by lia. rewrite skipn_all2 by lia.
    cbn [firstn skipn app]. rewrite app_nil_r, !map_app. reflexivity.
  Qed.
  Lemma list_map_lawful K E (pos : K -> V) : lawful_map pos (list_map K E pos).
  Proof.
    exists (fun _ => True). constructor; cbn; auto.
    - intros m k _. apply front_valid.
    - intros m i k e e' _ ->. auto.
    - intros m i e k _ _. f_equal. apply (set_keys pos m i e).
  Qed.
  Lemma front_update {K E} (pos : K -> V) k (upd : option E -> E) : forall m : list (K * E), bt_update pos k upd m =
    match front (map (fun ke => pos (fst ke)) m) (pos k) with
    | Stuck => Panic
    | Found i => match nth_error m i with Some (k', e) => Val (firstn i m ++ (k', upd (Some e)) :: skipn (Datatypes.S i) m) | None => Panic end
    | Gap i => Val (firstn i m ++ (k, upd None) :: skipn i m)
    end.
  Proof.
    induction m as [|[k0 e0] m IH]; cbn [bt_update map front fst]; [reflexivity|].
    destruct (key_cmp (pos k) (pos k0)) as [[]|]; [reflexivity..| |reflexivity].
    rewrite IH. destruct (front _ _) as [i|i|]; cbn [nth_error firstn skipn app]; [|reflexivity..].
    destruct (nth_error m i) as [[k' e]|]; reflexivity.
  Qed.
End Front.

(* ---- vocabulary ---- *)
Section Vocabulary.
  Context {S : Scalar}.
  Notation V := (V2 S).
  Notation L := (Line2 S).
  (* the map of events and the map of results of IntersectionData and of IntersectionTester *)
  Definition lawful_maps (QM : Map V V SiteEvent) (RM : Map V V (list nat)) : Prop := lawful_map (fun v => v) QM /\ lawful_map (fun v => v) RM.
  Definition lawful_indexed_maps (QM : Map V (IKey (S := S)) SiteEvent) (RM : Map V (IKey (S := S)) (list nat)) : Prop := lawful_map fst QM /\ lawful_map fst RM.
  (* on these points the comparison of SiteEventKey is a total order up to equality *)
  Record consistent (P : V -> Prop) : Prop := {
    c_total : forall a b, P a -> P b -> key_cmp a b <> None;
    c_sym : forall a b c, P a -> P b -> key_cmp a b = Some c -> key_cmp b a = Some (CompOpp c);
    c_trans : forall a b c, P a -> P b -> P c -> key_cmp a b = Some Lt -> key_cmp b c = Some Lt -> key_cmp a c = Some Lt;
    c_equal : forall a b c, P a -> P b -> P c -> key_cmp a b = Some Eq -> key_cmp a c = key_cmp b c }.
  (* the positions that can occur in the maps: the finite end points, and the finite intersection points of two of the lines
     (two lines with the same second end are not intersected: intersection.rs:772, indexed_intersection.rs:859) *)
  Definition key_point (lines : list L) (p : V) : Prop :=
    (sfin (vx p) && sfin (vy p))%bool = true /\
    ((exists l, In l lines /\ (p = lstart l \/ p = lend l)) \/
     (exists l r it, In l lines /\ In r lines /\ vulps (lend l) (lend r) = false /\ intersection_point l r = Some it /\ p = isingle it)).
End Vocabulary.
