(* Independent specification vocabulary for divide_into_shapes (no reference to the model). *)
From Verif Require Import Prelude.

(* the input is read as consecutive pairs; (a,b) is an (undirected) edge *)
Definition edge (indices : list nat) (a b : nat) : Prop :=
  In (a, b) (chunks2 indices) \/ In (b, a) (chunks2 indices).

(* no edge joins a vertex to itself *)
Definition loop_free (indices : list nat) : Prop := forall a, ~ In (a, a) (chunks2 indices).

(* the vertex has exactly two distinct neighbours *)
Definition two_neighbours (indices : list nat) (v : nat) : Prop :=
  exists a b, a <> b /\ forall w, edge indices v w <-> w = a \/ w = b.

(* self-loops are harmless unless the vertex, counting itself, has exactly two neighbours;
   in particular every loop_free list qualifies *)
Definition no_looped_pair (indices : list nat) : Prop :=
  forall a, In (a, a) (chunks2 indices) -> ~ two_neighbours indices a.

(* an edge without its direction *)
Definition undirected (e : nat * nat) : nat * nat :=
  (Nat.min (fst e) (snd e), Nat.max (fst e) (snd e)).

(* all edges walked by a list of shapes *)
Definition walked (shapes : list (list nat)) : list (nat * nat) :=
  map undirected (concat (map windows shapes)).

(* highest vertex id mentioned in a pair (0 if there is none) *)
Definition is_highest (indices : list nat) (mx : nat) : Prop :=
  (forall a b, edge indices a b -> a <= mx) /\
  ((chunks2 indices = [] /\ mx = 0) \/ exists b, edge indices mx b).

(* a shape that cannot be prolonged: inner vertices have two neighbours, and it is a closed loop
   or both ends are vertices that do not have exactly two neighbours *)
Definition maximal_chain (indices : list nat) (shape : list nat) : Prop :=
  2 <= length shape /\
  (forall l v r, shape = l ++ v :: r -> l <> [] -> r <> [] -> two_neighbours indices v) /\
  (exists a b mid, shape = a :: mid ++ [b] /\
     (a = b \/ (~ two_neighbours indices a /\ ~ two_neighbours indices b))).

(* the same walk, or the same closed walk begun at another vertex *)
Definition rotation (s t : list nat) : Prop :=
  s = t \/ exists v w p q, s = v :: p ++ w :: q ++ [v] /\ t = w :: q ++ v :: p ++ [w].
(* the same chain, possibly walked backwards *)
Definition same_chain (s t : list nat) : Prop := rotation s t \/ rotation s (rev t).
