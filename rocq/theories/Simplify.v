(* Model of src/linestring_2d/simplify.rs and src/linestring_3d/simplify.rs. *)
From Coq Require Import Sorting.Permutation.
From Verif Require Import Prelude Scalar Geo2 Geo3.

(* slices points[..n] and points[n..]: panic when n is beyond the end *)
Definition slice_to {A} (l : list A) (n : nat) : outcome (list A) :=
  if Nat.leb n (length l) then Val (firstn n l) else Panic.
Definition slice_from {A} (l : list A) (n : nat) : outcome (list A) :=
  if Nat.leb n (length l) then Val (skipn n l) else Panic.

Section Rdp.
  Context {S : Scalar}.
  Notation F := (car S).

  (* Iterator::max_by on (distance, index) pairs with partial_cmp(..).unwrap_or(Equal): the running
     maximum is replaced unless it compares Greater, so among equal maxima the last one wins. *)
  Definition max_step (x y : F * nat) : F * nat :=
    match spcmp (fst x) (fst y) with Some Gt => x | _ => y end.
  Definition max_by (l : list (F * nat)) : option (F * nat) :=
    match l with [] => None | a :: t => Some (fold_left max_step t a) end.

  (* The 2D and 3D functions are the same text over another point type and distance function;
     [dist a b p] is distance_to_line_squared_safe. *)
  Context {T : Type} (dist : T -> T -> T -> F).

  (* src/linestring_2d/simplify.rs:59-78, src/linestring_3d/simplify.rs:30-49
     enumerate().skip(1).take(len - 2).map(..).max_by(..).unwrap_or((-1, 0)) *)
  Definition farthest (points : list T) (a b : T) : F * nat :=
    match max_by (map (fun ip => (dist a b (snd ip), fst ip))
                      (firstn (length points - 2) (skipn 1 (enumerate points)))) with
    | Some m => m
    | None => (sneg s1, 0)
    end.

  (* src/linestring_2d/simplify.rs:50-87 and src/linestring_3d/simplify.rs:19-57
     simplify_rdp_recursive; returns the points pushed onto rv. [fuel] bounds the recursion depth. *)
  Fixpoint rdp_rec (fuel : nat) (points : list T) (d2 : F) : outcome (list T) :=
    match fuel with
    | O => NoFuel
    | Datatypes.S fuel =>
        if Nat.leb (length points) 2 then
          match points with
          | [] => Panic                                  (* points.last().unwrap() *)
          | p :: _ => Val [last points p]
          end
        else
          let* start_point := idx points 0 in
          let* end_point := idx points (length points - 1) in
          let '(max_dist_sq, index) := farthest points start_point end_point in
          if sleb max_dist_sq d2 then Val [end_point]
          else
            let* lo := slice_to points (index + 1) in
            let* l := rdp_rec fuel lo d2 in
            let* hi := slice_from points index in
            let* r := rdp_rec fuel hi d2 in
            Val (l ++ r)
    end.

  (* src/linestring_2d.rs:975-984 and src/linestring_3d/simplify.rs:7-16  simplify_rdp *)
  Definition simplify_rdp (points : list T) (d : F) : outcome (list T) :=
    if Nat.leb (length points) 2 then Val points
    else
      let* p0 := idx points 0 in
      let* r := rdp_rec (length points) points (smul d d) in
      Val (p0 :: r).

  (* src/linestring_2d/simplify.rs:167-190, src/linestring_3d/simplify.rs:272-295 *)
  Definition ifarthest (vertices : list T) (indices : list nat) (a b : nat) : outcome (F * nat) :=
    let* ds := mapM (fun ip : nat * nat =>
                       let* va := idx vertices a in
                       let* vb := idx vertices b in
                       let* vp := idx vertices (snd ip) in
                       Val (dist va vb vp, fst ip))
                    (firstn (length indices - 2) (skipn 1 (enumerate indices))) in
    Val (match max_by ds with Some m => m | None => (sneg s1, 0) end).

  (* src/linestring_2d/simplify.rs:154-209, src/linestring_3d/simplify.rs:259-314
     indexed_simplify_rdp_recursive; returns the indices pushed *)
  Fixpoint irdp_rec (fuel : nat) (vertices : list T) (indices : list nat) (d2 : F) : outcome (list nat) :=
    match fuel with
    | O => NoFuel
    | Datatypes.S fuel =>
        if Nat.leb (length indices) 2 then
          match indices with
          | [] => Panic
          | p :: _ => Val [last indices p]
          end
        else
          let* start_index := idx indices 0 in
          let* end_index := idx indices (length indices - 1) in
          let* m := ifarthest vertices indices start_index end_index in
          let '(max_dist_sq, index_index) := m in
          if sleb max_dist_sq d2 then Val [end_index]
          else
            let* lo := slice_to indices (index_index + 1) in
            let* l := irdp_rec fuel vertices lo d2 in
            let* hi := slice_from indices index_index in
            let* r := irdp_rec fuel vertices hi d2 in
            Val (l ++ r)
    end.

  (* src/linestring_2d/simplify.rs:131-151, src/linestring_3d/simplify.rs:235-255  indexed_simplify_rdp *)
  Definition indexed_simplify_rdp (vertices : list T) (indices : list nat) (d : F) : outcome (list nat) :=
    if Nat.leb (length vertices) 2 then Val indices
    else
      let* i0 := idx indices 0 in
      let* r := irdp_rec (Datatypes.S (length indices)) vertices indices (smul d d) in
      Val (i0 :: r).
End Rdp.

(* the four public entry points *)
Definition simplify_rdp_2d {S : Scalar} := @simplify_rdp S (V2 S) dist_line2_safe.
Definition simplify_rdp_3d {S : Scalar} := @simplify_rdp S (V3 S) dist_line3_safe.
Definition indexed_simplify_rdp_2d {S : Scalar} := @indexed_simplify_rdp S (V2 S) dist_line2_safe.
Definition indexed_simplify_rdp_3d {S : Scalar} := @indexed_simplify_rdp S (V3 S) dist_line3_safe.

(* ---- Visvalingam-Whyatt ---- *)
Section Vw.
  Context {S : Scalar}.
  Notation F := (car S).
  (* area i j k : the triangle area of three points of the line, given as points *)
  Context {T : Type} (area : T -> T -> T -> F).

  (* heap entry: PriorityDistance { key, index }  (src/linestring_2d.rs:654-657) *)
  Definition entry := (F * nat)%type.
  (* AHashMap<usize, (prev, next, area)> as an association list with unique keys *)
  Definition links := list (nat * (nat * nat * F)).

  Definition lget (m : links) (k : nat) : option (nat * nat * F) :=
    option_map snd (find (fun e => Nat.eqb (fst e) k) m).
  Definition lremove (m : links) (k : nat) : links := filter (fun e => negb (Nat.eqb (fst e) k)) m.
  Definition linsert (m : links) (k : nat) (v : nat * nat * F) : links := (k, v) :: lremove m k.

  (* BinaryHeap::push: sifting up compares with existing elements through
     partial_cmp(..).unwrap() (impls.rs:68-73), which panics on incomparable (NaN) keys *)
  Definition heap_push (h : list entry) (e : entry) : outcome (list entry) :=
    if existsb (fun x => match spcmp (fst x) (fst e) with None => true | _ => false end) h
    then Panic else Val (h ++ [e]).

  (* BinaryHeap::pop: which of several smallest keys comes out depends on the heap's history, so the
     position popped is an oracle [pick step heap]; its admissibility is a hypothesis where needed. *)
  Fixpoint remove_nth {A} (n : nat) (l : list A) : list A :=
    match l, n with
    | [], _ => []
    | _ :: t, O => t
    | a :: t, Datatypes.S m => a :: remove_nth m t
    end.
  Definition heap_pop (pick : list entry -> nat) (h : list entry) : outcome (option (entry * list entry)) :=
    match h with
    | [] => Val None
    | _ => match nth_error h (pick h) with
           | Some e => Val (Some (e, remove_nth (pick h) h))
           | None => Panic     (* excluded for admissible oracles *)
           end
    end.

  Definition areaM (line : list T) (i j k : nat) : outcome F :=
    let* a := idx line i in let* b := idx line j in let* c := idx line k in Val (area a b c).

  (* src/linestring_2d/simplify.rs:231-248, src/linestring_3d/simplify.rs:78-95  initial loop over all
     interior points j *)
  Fixpoint vw_init (line : list T) (js : list nat) (h : list entry) (m : links)
    : outcome (list entry * links) :=
    match js with
    | [] => Val (h, m)
    | j :: t =>
        let* a := areaM line (j - 1) j (j + 1) in
        let* h' := heap_push h (a, j) in
        vw_init line t h' (linsert m j (j - 1, j + 1, a))
    end.

  (* src/linestring_2d/simplify.rs:285-338, src/linestring_3d/simplify.rs:117-170: after deleting a node
     the areas of its remaining neighbours are recomputed. *)
  Definition vw_relink (line : list T) (h : list entry) (m : links) (prev next : nat)
    : outcome (list entry * links) :=
    let n := length line in
    let prev_prev := option_map (fun l => fst (fst l)) (lget m prev) in
    let next_next := option_map (fun l => snd (fst l)) (lget m next) in
    match next_next, prev_prev with
    | Some nn, Some pp =>
        let* a := areaM line prev (next mod n) (nn mod n) in
        let* h := heap_push h (a, next) in
        let m := linsert m next (prev, nn, a) in
        let* a := areaM line pp prev (next mod n) in
        let* h := heap_push h (a, prev) in
        let m := linsert m prev (pp, next, a) in
        Val (h, m)
    | None, Some pp =>
        let* a := areaM line pp prev (next mod n) in
        let* h := heap_push h (a, prev) in
        Val (h, linsert m prev (pp, next, a))
    | Some nn, None =>
        let* a := areaM line prev (next mod n) (nn mod n) in
        let* h := heap_push h (a, next) in
        Val (h, linsert m next (prev, nn, a))
    | None, None => Val (h, m)
    end.

  (* src/linestring_2d/simplify.rs:266-344 (stop2 = true), src/linestring_3d/simplify.rs:100-176
     (stop2 = false): the main loop; [pick] gets the number of iterations left as step counter *)
  Fixpoint vw_loop (stop2 : bool) (pick : nat -> list entry -> nat) (fuel : nat) (line : list T)
           (k : nat) (h : list entry) (m : links) (deleted : nat) : outcome links :=
    match fuel with
    | O => NoFuel
    | Datatypes.S fuel =>
        if (match h with [] => true | _ => false end)
           || (stop2 && Nat.eqb (length m) 2) || Nat.leb k deleted then Val m
        else
          let* p := heap_pop (pick fuel) h in
          match p with
          | None => vw_loop stop2 pick fuel line k h m deleted
          | Some (smallest, h) =>
              match lget m (snd smallest) with
              | None => vw_loop stop2 pick fuel line k h m deleted
              | Some (prev, next, a) =>
                  if negb (seqb (fst smallest) a) then vw_loop stop2 pick fuel line k h m deleted
                  else
                    let m := lremove m (snd smallest) in
                    let* hm := vw_relink line h m prev next in
                    vw_loop stop2 pick fuel line k (fst hm) (snd hm) (deleted + 1)
              end
          end
    end.

  (* link_tree.keys().sorted_unstable(): keys are unique, so the sorted list is unique *)
  Fixpoint nat_insert (x : nat) (l : list nat) : list nat :=
    match l with [] => [x] | y :: t => if Nat.leb x y then x :: l else y :: nat_insert x t end.
  Definition nat_sort (l : list nat) : list nat := fold_right nat_insert [] l.

  Definition points_at (line : list T) (is : list nat) : outcome (list T) := mapM (idx line) is.
End Vw.

(* number of loop iterations that always suffices *)
Definition vw_fuel (n : nat) : nat := 4 * n + 4.

Section VwEntry.
  Context {S : Scalar}.
  (* src/linestring_2d/simplify.rs:213-370  simplify_vw *)
  Definition simplify_vw_2d (pick : nat -> list (@entry S) -> nat) (line : list (V2 S)) (k : nat)
    : outcome (list (V2 S)) :=
    let connected := is_connected line in
    if Nat.leb (length line) 2 then Val line
    else
      let n := length line in
      let* hm := vw_init area2 line (seq 1 (n - 2)) [] [] in
      let '(h, m) := hm in
      let* hm :=
        if connected then
          let* a := areaM area2 line (n - 2) (n - 1) 0 in
          let* h' := heap_push h (a, n - 1) in
          Val (h', linsert m (n - 1) (n - 2, n, a))
        else Val (h, m) in
      let* m := vw_loop area2 true pick (vw_fuel n) line k (fst hm) (snd hm) 0 in
      if connected then points_at line (0 :: nat_sort (map fst m))
      else points_at line (0 :: nat_sort (map fst m) ++ [n - 1]).

  (* src/linestring_3d/simplify.rs:62-191  simplify_vw *)
  Definition simplify_vw_3d (pick : nat -> list (@entry S) -> nat) (line : list (V3 S)) (k : nat)
    : outcome (list (V3 S)) :=
    if Nat.leb (length line) 2 then Val line
    else
      let n := length line in
      let* hm := vw_init area3 line (seq 1 (n - 2)) [] [] in
      let* m := vw_loop area3 false pick (vw_fuel n) line k (fst hm) (snd hm) 0 in
      points_at line (0 :: nat_sort (map fst m)).
End VwEntry.
