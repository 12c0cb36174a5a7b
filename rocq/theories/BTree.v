(* The B-tree of the Rust standard library, as far as the sweep line uses it: alloc::collections::btree with B = 6 (a node
   holds at most 11 entries, and every node but the root at least 5). This is not code of /repo; it is written after
   library/alloc/src/collections/btree/{search,node,fix,remove}.rs, without the memory management, and serves as one
   concrete implementation of [Map] (SweepTree.v): BTreeProofs.v proves it lawful. Entries are addressed by their place in
   the order, which determines the leaf edge at which an insertion takes place. *)
From Verif Require Import Prelude Scalar Geo2 Sweep SweepTree.

Section BTree.
  Context {V K E : Type} (cmp : V -> V -> option comparison) (pos : K -> V).
  Notation KV := (K * E)%type.
  (* the entries of a node in order, and its children, one more than entries *)
  Inductive node := Leaf (kvs : list KV) | Inner (kvs : list KV) (edges : list node).
  Definition entries (t : node) : list KV := match t with Leaf kvs => kvs | Inner kvs _ => kvs end.

  Definition insert_at {A} (i : nat) (x : A) (l : list A) : list A := firstn i l ++ x :: skipn i l.
  Definition replace_at {A} (i : nat) (x : A) (l : list A) : list A := firstn i l ++ x :: skipn (Datatypes.S i) l.
  Definition remove_at {A} (i : nat) (l : list A) : list A := firstn i l ++ skipn (Datatypes.S i) l.

  (* all entries in order *)
  Fixpoint node_list (t : node) : list KV :=
    match t with
    | Leaf kvs => kvs
    | Inner kvs edges =>
        (fix go (edges : list node) (kvs : list KV) : list KV :=
           match edges with
           | [] => []
           | e :: es => node_list e ++ match kvs with [] => [] | kv :: kvs' => kv :: go es kvs' end
           end) edges kvs
    end.
  Definition size (t : node) : nat := length (node_list t).

  (* search.rs: search_tree, search_node (the keys of a node are tried from the front) *)
  Definition shift (n : nat) (s : spot) : spot := match s with Found i => Found (n + i) | Gap i => Gap (n + i) | Stuck => Stuck end.
  Fixpoint search (t : node) (k : V) : spot :=
    match t with
    | Leaf kvs =>
        (fix go (kvs : list KV) (off : nat) : spot :=
           match kvs with
           | [] => Gap off
           | kv :: kvs' =>
               match cmp k (pos (fst kv)) with
               | None => Stuck
               | Some Gt => go kvs' (Datatypes.S off)
               | Some Eq => Found off
               | Some Lt => Gap off
               end
           end) kvs 0
    | Inner kvs edges =>
        (fix go (edges : list node) (kvs : list KV) (off : nat) : spot :=
           match edges with
           | [] => Gap off
           | e :: es =>
               match kvs with
               | [] => shift off (search e k)
               | kv :: kvs' =>
                   match cmp k (pos (fst kv)) with
                   | None => Stuck
                   | Some Gt => go es kvs' (off + size e + 1)
                   | Some Eq => Found (off + size e)
                   | Some Lt => shift off (search e k)
                   end
               end
           end) edges kvs 0
    end.

  Definition CAPACITY : nat := 11.
  Definition MIN_LEN : nat := 5.
  (* node.rs: splitpoint. The middle entry when a full node is split at edge i; the new entry goes to the left part iff i <= middle *)
  Definition splitpoint (i : nat) : nat := if Nat.ltb i 5 then 4 else if Nat.leb i 6 then 5 else 6.

  Inductive inserted := Fit (t : node) | Split (l : node) (kv : KV) (r : node).
  (* node.rs: insert_recursing *)
  Definition leaf_insert (i : nat) (x : KV) (kvs : list KV) : inserted :=
    if Nat.ltb (length kvs) CAPACITY then Fit (Leaf (insert_at i x kvs))
    else
      let m := splitpoint i in
      match nth_error kvs m with
      | None => Fit (Leaf kvs)
      | Some mid =>
          let l := firstn m kvs in let r := skipn (Datatypes.S m) kvs in
          if Nat.leb i m then Split (Leaf (insert_at i x l)) mid (Leaf r) else Split (Leaf l) mid (Leaf (insert_at (i - Datatypes.S m) x r))
      end.
  (* the child at edge j became l, x, r *)
  Definition inner_insert (j : nat) (l : node) (x : KV) (r : node) (kvs : list KV) (edges : list node) : inserted :=
    let edges' := replace_at j l edges in
    if Nat.ltb (length kvs) CAPACITY then Fit (Inner (insert_at j x kvs) (insert_at (Datatypes.S j) r edges'))
    else
      let m := splitpoint j in
      match nth_error kvs m with
      | None => Fit (Inner kvs edges)
      | Some mid =>
          let lk := firstn m kvs in let rk := skipn (Datatypes.S m) kvs in
          let le := firstn (Datatypes.S m) edges' in let re := skipn (Datatypes.S m) edges' in
          if Nat.leb j m then Split (Inner (insert_at j x lk) (insert_at (Datatypes.S j) r le)) mid (Inner rk re)
          else Split (Inner lk le) mid (Inner (insert_at (j - Datatypes.S m) x rk) (insert_at (Datatypes.S (j - Datatypes.S m)) r re))
      end.
  Fixpoint insert_node (t : node) (i : nat) (x : KV) : inserted :=
    match t with
    | Leaf kvs => leaf_insert i x kvs
    | Inner kvs edges =>
        let '(j, r) :=
          (fix go (edges : list node) (i : nat) : nat * inserted :=
             match edges with
             | [] => (0, Fit (Leaf []))
             | e :: es =>
                 if Nat.leb i (size e) then (0, insert_node e i x)
                 else let '(j, r) := go es (i - size e - 1) in (Datatypes.S j, r)
             end) edges i in
        match r with
        | Fit t' => Fit (Inner kvs (replace_at j t' edges))
        | Split l kv r => inner_insert j l kv r kvs edges
        end
    end.
  Definition tree_insert (t : node) (i : nat) (k : K) (e : E) : node :=
    match insert_node t i (k, e) with Fit t' => t' | Split l kv r => Inner [kv] [l; r] end.

  (* the value of the i-th entry *)
  Fixpoint set_node (t : node) (i : nat) (e : E) : node :=
    let put kvs j := match nth_error kvs j with Some (k, _) => replace_at j (k, e) kvs | None => kvs end in
    match t with
    | Leaf kvs => Leaf (put kvs i)
    | Inner kvs edges =>
        let '(j, o) :=
          (fix go (edges : list node) (i : nat) : nat * option node :=
             match edges with
             | [] => (0, None)
             | c :: es =>
                 if Nat.ltb i (size c) then (0, Some (set_node c i e))
                 else if Nat.eqb i (size c) then (0, None)
                 else let '(j, o) := go es (i - size c - 1) in (Datatypes.S j, o)
             end) edges i in
        match o with
        | Some c => Inner kvs (replace_at j c edges)
        | None => Inner (put kvs j) edges
        end
    end.

  (* fix.rs, node.rs: merge, steal_left, steal_right. Entry x between the siblings l and r *)
  Definition merge (l : node) (x : KV) (r : node) : node :=
    match l, r with
    | Leaf a, Leaf b => Leaf (a ++ x :: b)
    | Inner a ae, Inner b be => Inner (a ++ x :: b) (ae ++ be)
    | _, _ => l
    end.
  Definition steal_left (l : node) (x : KV) (r : node) : node * KV * node :=
    match l, r with
    | Leaf a, Leaf b => (Leaf (removelast a), last a x, Leaf (x :: b))
    | Inner a ae, Inner b be => (Inner (removelast a) (removelast ae), last a x, Inner (x :: b) (last ae (Leaf []) :: be))
    | _, _ => (l, x, r)
    end.
  Definition steal_right (l : node) (x : KV) (r : node) : node * KV * node :=
    match l, r with
    | Leaf a, Leaf (y :: b) => (Leaf (a ++ [x]), y, Leaf b)
    | Inner a ae, Inner (y :: b) (c :: be) => (Inner (a ++ [x]) (ae ++ [c]), y, Inner b be)
    | _, _ => (l, x, r)
    end.
  (* fix.rs: fix_node_through_parent, remove.rs: remove_leaf_kv, for the child at edge j *)
  Definition fix_child (j : nat) (kvs : list KV) (edges : list node) : node :=
    match nth_error edges j with
    | None => Inner kvs edges
    | Some c =>
        if Nat.leb MIN_LEN (length (entries c)) then Inner kvs edges
        else
          let i := match j with O => O | Datatypes.S j' => j' end in   (* the parent entry: the left one if there is one *)
          match nth_error edges i, nth_error kvs i, nth_error edges (Datatypes.S i) with
          | Some l, Some x, Some r =>
              let put l x r := Inner (replace_at i x kvs) (replace_at (Datatypes.S i) r (replace_at i l edges)) in
              if Nat.leb (length (entries l) + 1 + length (entries r)) CAPACITY then Inner (remove_at i kvs) (remove_at (Datatypes.S i) (replace_at i (merge l x r) edges))
              else match j with
                   | O => let '(l, x, r) := steal_right l x r in put l x r
                   | _ => let '(l, x, r) := steal_left l x r in put l x r
                   end
          | _, _, _ => Inner kvs edges
          end
    end.
  (* remove.rs: remove_kv_tracking, remove_internal_kv (an entry of an inner node is replaced by its predecessor) *)
  Fixpoint remove_node (t : node) (i : nat) : node :=
    match t with
    | Leaf kvs => Leaf (remove_at i kvs)
    | Inner kvs edges =>
        let '(j, c, o) :=
          (fix go (edges : list node) (i : nat) : nat * node * option KV :=
             match edges with
             | [] => (0, Leaf [], None)
             | c :: es =>
                 if Nat.ltb i (size c) then (0, remove_node c i, None)
                 else if Nat.eqb i (size c) then (0, remove_node c (size c - 1), nth_error (node_list c) (size c - 1))
                 else let '(j, c, o) := go es (i - size c - 1) in (Datatypes.S j, c, o)
             end) edges i in
        fix_child j (match o with Some kv => replace_at j kv kvs | None => kvs end) (replace_at j c edges)
    end.
  (* the root loses its last entry: its only child becomes the root *)
  Definition tree_remove (t : node) (i : nat) : node :=
    match remove_node t i with Inner [] [c] => c | t' => t' end.

  Definition btree_map : Map V K E := mkMap V K E node (Leaf []) node_list search tree_insert set_node tree_remove.
End BTree.
(* the maps of the two finders *)
Definition std_map (S : Scalar) (E : Type) : Map (V2 S) (V2 S) E := btree_map key_cmp (fun v => v).
Definition std_indexed_map (S : Scalar) (E : Type) : Map (V2 S) (IKey (S := S)) E := btree_map key_cmp fst.
