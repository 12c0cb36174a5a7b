(* Model of the sweep-line intersection finders src/linestring_2d/intersection.rs (IntersectionData) and
   src/linestring_2d/indexed_intersection.rs (IntersectionTester).
   The two files share SiteEventKey, MinMax, MinMaxSlope and SiteEvent literally; those are modelled once.
   Oracles: the iteration order of the AHashSet of active lines is an arbitrary function [ord] of the step number and the
   set (theorems assume only that it returns a permutation of the set).
   Simplifications: a BTreeMap is a list in key order, searched from the front, which is what a B-tree computes when the
   comparison of keys is a total order on the keys in play (SweepTree.v has the same code over any search tree); Option<Vec<usize>> in a SiteEvent is a list (the code never
   distinguishes None from an empty vector); INFINITY, used only as the slope of a vertical or horizontal line, is the
   parameter [inf], so that theorems in exact arithmetic hold whatever is chosen for it. *)
From Verif Require Import Prelude Scalar Geo2.

(* Vec<usize>::sort_unstable: on integers every sort gives the same list *)
Fixpoint ninsert (x : nat) (l : list nat) : list nat :=
  match l with [] => [x] | y :: t => if Nat.leb x y then x :: l else y :: ninsert x t end.
Definition nsort (l : list nat) : list nat := fold_right ninsert [] l.
(* Vec::dedup: drop repeats of the previous element *)
Fixpoint dedup (l : list nat) : list nat :=
  match l with
  | [] => []
  | x :: t => match t with [] => [x] | y :: _ => if Nat.eqb x y then dedup t else x :: dedup t end
  end.
Definition nmem (x : nat) (l : list nat) : bool := existsb (Nat.eqb x) l.

(* src/linestring_2d/intersection.rs:329-333, indexed_intersection.rs:335-339  struct SiteEvent *)
Record SiteEvent := mkE { e_drop : list nat; e_add : list nat; e_inter : list nat }.
(* intersection.rs:336-358  with_intersection, with_drop, with_add *)
Definition with_intersection (i : list nat) : SiteEvent := mkE [] [] i.
Definition with_drop (l : list nat) : SiteEvent := mkE l [] [].
Definition with_add (l : list nat) : SiteEvent := mkE [] l [].

Section Sweep.
  Context {S : Scalar} (inf : car S).
  Notation F := (car S).
  Notation V := (V2 S).
  Notation L := (Line2 S).
  Local Open Scope sc_scope.

  (* intersection.rs:75-91, indexed_intersection.rs:78-94  SiteEventKey::partial_cmp *)
  Definition key_cmp (a b : V) : option comparison :=
    if sulps (vy a) (vy b) then
      if sulps (vx a) (vx b) then Some Eq else spcmp (vx a) (vx b)
    else spcmp (vy a) (vy b).
  (* PartialOrd::lt through partial_cmp *)
  Definition key_lt (a b : V) : bool := match key_cmp a b with Some Lt => true | _ => false end.

  (* BTreeMap<SiteEventKey, E> as a list in key order. [bt_update]: get_mut(key), or insert when absent; an existing key
     is kept. Ord::cmp (intersection.rs:66-72) unwraps partial_cmp, hence the panic. *)
  Fixpoint bt_update {K E : Type} (pos : K -> V) (k : K) (upd : option E -> E) (m : list (K * E)) : outcome (list (K * E)) :=
    match m with
    | [] => Val [(k, upd None)]
    | (k', e) :: t =>
        match key_cmp (pos k) (pos k') with
        | None => Panic
        | Some Lt => Val ((k, upd None) :: m)
        | Some Eq => Val ((k', upd (Some e)) :: t)
        | Some Gt => let* t' := bt_update pos k upd t in Val ((k', e) :: t')
        end
    end.

  (* intersection.rs:201-220  struct MinMaxSlope, new (clear, 312-318, restores it) *)
  Record MinMaxSlope := mkMS { best_left : option F; cand_left : list nat; best_right : option F; cand_right : list nat }.
  Definition slope_new : MinMaxSlope := mkMS None [] None [].
  (* intersection.rs:236-271  update_left *)
  Definition update_left (m : MinMaxSlope) (clear : bool) (slope : F) (i : nat) : MinMaxSlope :=
    let '(bl, cl) := if clear then (None, []) else (best_left m, cand_left m) in
    match bl with
    | Some cur =>
        if sulps cur slope then mkMS bl (cl ++ [i]) (best_right m) (cand_right m)
        else if slope <? cur then mkMS (Some slope) [i] (best_right m) (cand_right m)
        else mkMS bl cl (best_right m) (cand_right m)
    | None => mkMS (Some slope) (cl ++ [i]) (best_right m) (cand_right m)
    end.
  (* intersection.rs:274-309  update_right *)
  Definition update_right (m : MinMaxSlope) (clear : bool) (slope : F) (i : nat) : MinMaxSlope :=
    let '(br, cr) := if clear then (None, []) else (best_right m, cand_right m) in
    match br with
    | Some cur =>
        if sulps cur slope then mkMS (best_left m) (cand_left m) br (cr ++ [i])
        else if slope >? cur then mkMS (best_left m) (cand_left m) (Some slope) [i]
        else mkMS (best_left m) (cand_left m) br cr
    | None => mkMS (best_left m) (cand_left m) (Some slope) (cr ++ [i])
    end.
  (* intersection.rs:223-233, indexed_intersection.rs:226-239  update_both (the line already looked up) *)
  Definition update_both (m : MinMaxSlope) (i : nat) (line : L) : MinMaxSlope :=
    let slope := if sulps (vy (lend line)) (vy (lstart line)) then inf
                 else (vx (lend line) - vx (lstart line)) / (vy (lend line) - vy (lstart line)) in
    update_right (update_left m false slope i) false slope i.

  (* intersection.rs:110-126  struct MinMax, new (clear, 194-198, restores it) *)
  Record MinMax := mkMM { mm_left : option F; mm_slope : MinMaxSlope; mm_right : option F }.
  Definition minmax_new : MinMax := mkMM None slope_new None.
  (* intersection.rs:129-191  update *)
  Definition minmax_update (m : MinMax) (pivot cx slope : F) (i : nat) : MinMax :=
    if cx <? pivot then
      match mm_left m with
      | Some cur =>
          if sulps cur cx then mkMM (mm_left m) (update_left (mm_slope m) false slope i) (mm_right m)
          else if cur <? cx then mkMM (Some cx) (update_left (mm_slope m) true slope i) (mm_right m)
          else m
      | None => mkMM (Some cx) (update_left (mm_slope m) false slope i) (mm_right m)
      end
    else if cx >? pivot then
      match mm_right m with
      | Some cur =>
          if sulps cur cx then mkMM (mm_left m) (update_right (mm_slope m) false slope i) (mm_right m)
          else if cur >? cx then mkMM (mm_left m) (update_right (mm_slope m) true slope i) (Some cx)
          else m
      | None => mkMM (mm_left m) (update_right (mm_slope m) false slope i) (Some cx)
      end
    else m.

  (* intersection.rs:367-390, indexed_intersection.rs:373-400  sweepline_intersection *)
  Definition sweepline_intersection (sweepline : V) (other : L) : option (F * F) :=
    let y1 := vy (lstart other) in let y2 := vy (lend other) in
    let x1 := vx (lstart other) in let x2 := vx (lend other) in
    if sulps y1 y2 then (if vx sweepline <? x2 then Some (x2, s0) else None)
    else if sulps x1 x2 then Some (x1, inf)
    else
      let slope := (y2 - y1) / (x2 - x1) in
      let d := y1 - slope * x1 in
      Some ((vy sweepline - d) / slope, slope).

  (* ---- pieces shared by both handle_event functions ---- *)
  (* intersection.rs:481-489, 491-499: push the line on the add / drop list of the event at the key *)
  Definition push_add (i : nat) (o : option SiteEvent) : SiteEvent :=
    match o with Some e => mkE (e_drop e) (e_add e ++ [i]) (e_inter e) | None => with_add [i] end.
  Definition push_drop (i : nat) (o : option SiteEvent) : SiteEvent :=
    match o with Some e => mkE (e_drop e ++ [i]) (e_add e) (e_inter e) | None => with_drop [i] end.

  (* intersection.rs:508-552, indexed_intersection.rs:577-621  add_intersection_event: what happens to the event found at
     the position (self.lines[i] was indexed by the caller already, so the lines come along) *)
  Definition merge_intersection (position : V) (ls : list (nat * L)) (o : option SiteEvent) : SiteEvent :=
    match o with
    | Some e =>
        let fresh := map fst (filter (fun il => negb (vulps position (lstart (snd il)) || vulps position (lend (snd il)))) ls) in
        match fresh with
        | [] => e
        | _ => mkE (e_drop e) (e_add e) (dedup (nsort (e_inter e ++ fresh)))
        end
    | None => with_intersection (map fst ls)
    end.

  (* intersection.rs:790-797  the test that keeps intersections behind or at the sweep line out *)
  Definition ahead (sweep p : V) : bool :=
    (vy p >=? vy sweep) && negb ((vy p =? vy sweep) && (vx p <? vx sweep)) && negb (vulps p sweep).

  (* intersection.rs:824-832  report_intersections_to_result: the new value *)
  Definition push_report (ls : list nat) (o : option (list nat)) : list nat :=
    nsort (match o with Some v => v ++ ls | None => ls end).

  (* intersection.rs:637-683, indexed_intersection.rs:718-768  which lists are reported, in order *)
  Definition to_report (ign : bool) (e : SiteEvent) : list (list nat) :=
    let d := length (e_drop e) in let a := length (e_add e) in let n := length (e_inter e) in
    let opt k l := if Nat.ltb 0 k then [l] else [] in
    if ign then (if Nat.ltb 0 n then opt d (e_drop e) ++ opt a (e_add e) ++ [e_inter e] else [])
    else if Nat.ltb 1 (d + a + n) then opt d (e_drop e) ++ opt a (e_add e) ++ opt n (e_inter e)
    else [].

  (* AHashSet<usize>: a list without repeats *)
  Definition set_remove (l : list nat) (drop : list nat) : list nat := filter (fun i => negb (nmem i drop)) l.
  Definition set_insert (l : list nat) (i : nat) : list nat := if nmem i l then l else l ++ [i].

  (* intersection.rs:695-716, indexed_intersection.rs:780-805  the neighbours of the sweep point, in iteration order *)
  Fixpoint neighbours (get : nat -> outcome L) (pos : V) (inter : list nat) (order : list nat) (m : MinMax) : outcome MinMax :=
    match order with
    | [] => Val m
    | i :: t =>
        if nmem i inter then neighbours get pos inter t m
        else
          let* l := get i in
          neighbours get pos inter t
            (match sweepline_intersection pos l with
             | Some (x, sl) => minmax_update m (vx pos) x sl i
             | None => m
             end)
    end.
  (* intersection.rs:735-741  the extreme slopes of the lines connected to the sweep point *)
  Fixpoint connected (get : nat -> outcome L) (ls : list nat) (m : MinMaxSlope) : outcome MinMaxSlope :=
    match ls with
    | [] => Val m
    | i :: t => let* l := get i in connected get t (update_both m i l)
    end.
  (* intersection.rs:723-757  the pairs of candidate lists handed to find_new_events, in order *)
  Definition candidate_lists (get : nat -> outcome L) (e : SiteEvent) (nb : MinMaxSlope) : outcome (list (list nat * list nat)) :=
    if Nat.eqb (length (e_inter e) + length (e_add e)) 0 then
      match cand_left nb, cand_right nb with
      | [], _ => Val []
      | _, [] => Val []
      | l, r => Val [(l, r)]
      end
    else
      let* c1 := connected get (e_add e) slope_new in
      let* c := connected get (e_inter e) c1 in
      Val ((match cand_left nb with [] => [] | l => [(l, cand_left c)] end)
           ++ (match cand_right nb with [] => [] | r => [(r, cand_right c)] end)).
  (* the pairs (left_i, right_i) in the order of the two nested loops of find_new_events *)
  Definition pairs_of (lr : list nat * list nat) : list (nat * nat) :=
    flat_map (fun a => map (fun b => (a, b)) (snd lr)) (fst lr).

  (* ================= IntersectionData ================= *)
  Definition Queue := list (V * SiteEvent).
  Definition Result := list (V * list nat).
  Notation idk := (fun v : V => v).

  (* intersection.rs:395-422  struct IntersectionData, Default (sweepline_pos is set before it is read) *)
  Record IntersectionData := mkID { d_stop : bool; d_ign : bool; d_events : Queue; d_lines : list L }.
  Definition default_data : IntersectionData := mkID false false [] [].
  (* intersection.rs:433-444 *)
  Definition with_stop_at_first_intersection (d : IntersectionData) (v : bool) : IntersectionData := mkID v (d_ign d) (d_events d) (d_lines d).
  Definition with_ignore_end_point_intersections (d : IntersectionData) (v : bool) : IntersectionData := mkID (d_stop d) v (d_events d) (d_lines d).

  Definition line_finite (s e : V) : bool := sfin (vx s) && sfin (vy s) && sfin (vx e) && sfin (vy e).
  (* intersection.rs:473-475  swap the end points unless start < end *)
  Definition arrange (l : L) : L := if key_lt (lstart l) (lend l) then l else mkL (lend l) (lstart l).
  (* intersection.rs:478-499  queue the two end points *)
  Definition queue_line (index : nat) (s e : V) (q : Queue) : outcome Queue :=
    let* q1 := bt_update idk s (push_add index) q in
    bt_update idk e (push_drop index) q1.
  (* intersection.rs:458-500  the loop of with_lines; the index counts from 0 in each call *)
  Fixpoint with_lines_loop (index : nat) (input : list L) (q : Queue) (lines : list L) : outcome (Queue * list L) :=
    match input with
    | [] => Val (q, lines)
    | l :: t =>
        if line_finite (lstart l) (lend l) then
          let a := arrange l in
          let* q' := queue_line index (lstart a) (lend a) q in
          with_lines_loop (Datatypes.S index) t q' (lines ++ [a])
        else Fail InvalidData
    end.
  (* intersection.rs:450-502  with_lines *)
  Definition with_lines (d : IntersectionData) (input : list L) : outcome IntersectionData :=
    let* (q, lines) := with_lines_loop 0 input (d_events d) (d_lines d) in
    Val (mkID (d_stop d) (d_ign d) q lines).

  (* intersection.rs:770-807  the body of find_new_events for one pair of lines *)
  Definition pair_event (lines : list L) (sweep : V) (li ri : nat) (q : Queue) : outcome Queue :=
    let* l := idx lines li in
    let* r := idx lines ri in
    if vulps (lend l) (lend r) then Val q
    else
      match intersection_point l r with
      | None => Val q
      | Some it =>
          let p := isingle it in
          if (sfin (vx p) && sfin (vy p))%bool then
            if ahead sweep p then bt_update idk p (merge_intersection p [(li, l); (ri, r)]) q
            else Val q
          else Fail InvalidData
      end.
  (* intersection.rs:762-812  find_new_events *)
  Fixpoint find_new_events (lines : list L) (sweep : V) (prs : list (nat * nat)) (q : Queue) : outcome Queue :=
    match prs with
    | [] => Val q
    | (a, b) :: t => let* q' := pair_event lines sweep a b q in find_new_events lines sweep t q'
    end.

  Fixpoint report (pos : V) (lists : list (list nat)) (r : Result) : outcome Result :=
    match lists with
    | [] => Val r
    | l :: t => let* r' := bt_update idk pos (push_report l) r in report pos t r'
    end.

  Record State := mkSt { st_active : list nat; st_queue : Queue; st_result : Result }.
  (* intersection.rs:619-760  handle_event *)
  Definition handle_event (lines : list L) (ign : bool) (order : list nat -> list nat) (key : V) (e : SiteEvent) (st : State) : outcome State :=
    let* res := report key (to_report ign e) (st_result st) in
    let act := set_remove (st_active st) (e_drop e) in
    let* nb := neighbours (idx lines) key (e_inter e) (order act) minmax_new in
    let act' := fold_left set_insert (e_add e) act in
    let* cands := candidate_lists (idx lines) e (mm_slope nb) in
    let* q := find_new_events lines key (flat_map pairs_of cands) (st_queue st) in
    Val (mkSt act' q res).

  (* intersection.rs:576-612  the event loop; [fuel] bounds the number of events handled, [n] is the step number *)
  Fixpoint event_loop (lines : list L) (ign stop : bool) (ord : nat -> list nat -> list nat) (fuel n : nat) (st : State) : outcome Result :=
    match st_queue st with
    | [] => Val (st_result st)
    | (k, e) :: q =>
        match fuel with
        | O => NoFuel
        | Datatypes.S f =>
            let* st' := handle_event lines ign (ord n) k e (mkSt (st_active st) q (st_result st)) in
            match st_result st' with
            | [] => event_loop lines ign stop ord f (Datatypes.S n) st'
            | r => if stop then Val r else event_loop lines ign stop ord f (Datatypes.S n) st'
            end
        end
    end.
  (* intersection.rs:556-616  compute *)
  Definition compute (ord : nat -> list nat -> list nat) (fuel : nat) (d : IntersectionData) : outcome Result :=
    event_loop (d_lines d) (d_ign d) (d_stop d) ord fuel 0 (mkSt [] (d_events d) []).

  (* ================= IntersectionTester ================= *)
  (* indexed_intersection.rs:54-57  struct SiteEventKey { pos, index } *)
  Definition IKey := (V * option nat)%type.
  Definition IQueue := list (IKey * SiteEvent).
  Definition IResult := list (IKey * list nat).
  (* indexed_intersection.rs:439-472  struct IntersectionTester, new *)
  Record IntersectionTester := mkIT { t_stop : bool; t_ign : bool; t_events : IQueue; t_lines : list (nat * nat); t_vertices : list V }.
  Definition tester_new (vertices : list V) : IntersectionTester := mkIT false false [] [] vertices.
  (* indexed_intersection.rs:484-495 *)
  Definition tester_stop (t : IntersectionTester) (v : bool) : IntersectionTester := mkIT v (t_ign t) (t_events t) (t_lines t) (t_vertices t).
  Definition tester_ign (t : IntersectionTester) (v : bool) : IntersectionTester := mkIT (t_stop t) v (t_events t) (t_lines t) (t_vertices t).

  (* indexed_intersection.rs:525-536, 545-567  arrange the ends, queue them with their vertex indices *)
  Definition iqueue_line (index : nat) (si : nat) (s : V) (ei : nat) (e : V) (q : IQueue) : outcome IQueue :=
    let '(si', s', ei', e') := if key_lt s e then (si, s, ei, e) else (ei, e, si, s) in
    let* q1 := bt_update fst (s', Some si') (push_add index) q in
    bt_update fst (e', Some ei') (push_drop index) q1.
  (* indexed_intersection.rs:508-568  the loop of with_edges; the edge is stored as given (line 538) *)
  Fixpoint with_edges_loop (vertices : list V) (index : nat) (input : list (nat * nat)) (q : IQueue) (lines : list (nat * nat)) : outcome (IQueue * list (nat * nat)) :=
    match input with
    | [] => Val (q, lines)
    | (si, ei) :: t =>
        let* s := idx vertices si in
        let* e := idx vertices ei in
        if line_finite s e then
          let* q' := iqueue_line index si s ei e q in
          with_edges_loop vertices (Datatypes.S index) t q' (lines ++ [(si, ei)])
        else Fail InvalidData
    end.
  (* indexed_intersection.rs:500-571  with_edges *)
  Definition with_edges (d : IntersectionTester) (input : list (nat * nat)) : outcome IntersectionTester :=
    let* (q, lines) := with_edges_loop (t_vertices d) 0 input (t_events d) (t_lines d) in
    Val (mkIT (t_stop d) (t_ign d) q lines (t_vertices d)).

  (* self.lines[i] followed by the two vertex lookups *)
  Definition edge_line (vertices : list V) (lines : list (nat * nat)) (i : nat) : outcome L :=
    let* ab := idx lines i in
    let* a := idx vertices (fst ab) in
    let* b := idx vertices (snd ab) in
    Val (mkL a b).
  (* indexed_intersection.rs:852-901  the body of find_new_events for one pair of edges *)
  Definition ipair_event (lines : list (nat * nat)) (sweep : V) (li ri : nat) (vq : list V * IQueue) : outcome (list V * IQueue) :=
    let '(vertices, q) := vq in
    let* l := edge_line vertices lines li in
    let* r := edge_line vertices lines ri in
    if vulps (lend l) (lend r) then Val (vertices, q)
    else
      match intersection_point l r with
      | None => Val (vertices, q)
      | Some it =>
          let p := isingle it in
          if (sfin (vx p) && sfin (vy p))%bool then
            if ahead sweep p then
              let* q' := bt_update fst (p, Some (length vertices)) (merge_intersection p [(li, l); (ri, r)]) q in
              Val (vertices ++ [p], q')
            else Val (vertices, q)
          else Fail InvalidData
      end.
  (* indexed_intersection.rs:846-905  find_new_events *)
  Fixpoint ifind_new_events (lines : list (nat * nat)) (sweep : V) (prs : list (nat * nat)) (vq : list V * IQueue) : outcome (list V * IQueue) :=
    match prs with
    | [] => Val vq
    | (a, b) :: t => let* vq' := ipair_event lines sweep a b vq in ifind_new_events lines sweep t vq'
    end.
  (* indexed_intersection.rs:907-930  report_intersections_to_result: sweepline_pos_index.unwrap(), vertices[pos_index] *)
  Fixpoint ireport (vertices : list V) (key : IKey) (lists : list (list nat)) (r : IResult) : outcome IResult :=
    match lists with
    | [] => Val r
    | l :: t =>
        match snd key with
        | None => Panic
        | Some i =>
            let* pos := idx vertices i in
            let* r' := bt_update fst (pos, Some i) (push_report l) r in ireport vertices key t r'
        end
    end.
  Record IState := mkISt { is_active : list nat; is_vertices : list V; is_queue : IQueue; is_result : IResult }.
  (* indexed_intersection.rs:698-844  handle_event *)
  Definition ihandle_event (lines : list (nat * nat)) (ign : bool) (order : list nat -> list nat) (key : IKey) (e : SiteEvent) (st : IState) : outcome IState :=
    let vs := is_vertices st in
    let* res := ireport vs key (to_report ign e) (is_result st) in
    let act := set_remove (is_active st) (e_drop e) in
    let* nb := neighbours (edge_line vs lines) (fst key) (e_inter e) (order act) minmax_new in
    let act' := fold_left set_insert (e_add e) act in
    let* cands := candidate_lists (edge_line vs lines) e (mm_slope nb) in
    let* (vs', q) := ifind_new_events lines (fst key) (flat_map pairs_of cands) (vs, is_queue st) in
    Val (mkISt act' vs' q res).
  (* indexed_intersection.rs:648-688  the event loop *)
  Fixpoint ievent_loop (lines : list (nat * nat)) (ign stop : bool) (ord : nat -> list nat -> list nat) (fuel n : nat) (st : IState) : outcome (list V * IResult) :=
    match is_queue st with
    | [] => Val (is_vertices st, is_result st)
    | (k, e) :: q =>
        match fuel with
        | O => NoFuel
        | Datatypes.S f =>
            let* st' := ihandle_event lines ign (ord n) k e (mkISt (is_active st) (is_vertices st) q (is_result st)) in
            match is_result st' with
            | [] => ievent_loop lines ign stop ord f (Datatypes.S n) st'
            | r => if stop then Val (is_vertices st', r) else ievent_loop lines ign stop ord f (Datatypes.S n) st'
            end
        end
    end.
  (* indexed_intersection.rs:690-693  x.0.index.unwrap() for every reported key *)
  Definition unwrap_index (x : IKey * list nat) : outcome (nat * list nat) :=
    match snd (fst x) with Some i => Val (i, snd x) | None => Panic end.
  (* indexed_intersection.rs:628-694  compute (the returned iterator is consumed) *)
  Definition icompute (ord : nat -> list nat -> list nat) (fuel : nat) (d : IntersectionTester) : outcome (list V * list (nat * list nat)) :=
    let* (vs, r) := ievent_loop (t_lines d) (t_ign d) (t_stop d) ord fuel 0 (mkISt [] (t_vertices d) (t_events d) []) in
    let* out := mapM unwrap_index r in
    Val (vs, out).

  (* src/linestring_2d.rs:717-769  LineString2::is_self_intersecting *)
  Definition is_self_intersecting (ord : nat -> list nat -> list nat) (fuel : nat) (l : LS S) : outcome bool :=
    if Nat.leb (length l) 2 then Val false
    else if Nat.ltb (length l) 10 then Val (self_intersecting_short l)
    else
      let* d := with_lines (with_stop_at_first_intersection (with_ignore_end_point_intersections default_data true) true) (window_iter l) in
      let* r := compute ord fuel d in
      Val (Nat.ltb 0 (length r)).
End Sweep.
