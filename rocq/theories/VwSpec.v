(* What Visvalingam-Whyatt is supposed to do, stated on lists of points only. *)
From Verif Require Import Prelude Scalar.

Section VwSpec.
  Context {S : Scalar} {T : Type} (area : T -> T -> T -> car S).

  (* [vw_step p q]: q is p with one inner vertex b removed, and no inner vertex of p forms, with its
     two neighbours, a triangle of strictly smaller area than b does *)
  Definition vw_step (p q : list T) : Prop :=
    exists l1 a b c l2, p = l1 ++ a :: b :: c :: l2 /\ q = l1 ++ a :: c :: l2 /\
      forall l1' a' b' c' l2', p = l1' ++ a' :: b' :: c' :: l2' -> sltb (area a' b' c') (area a b c) = false.

  (* n greedy deletions *)
  Inductive vw_steps : nat -> list T -> list T -> Prop :=
  | vw_done p : vw_steps 0 p p
  | vw_more n p q r : vw_step p q -> vw_steps n q r -> vw_steps (Datatypes.S n) p r.
End VwSpec.

(* A choice function for the heap: it returns the position of an entry than which no entry has a strictly
   smaller key, whenever all keys satisfy D. std::collections::BinaryHeap::pop is such a choice. *)
Definition pops_smallest {S : Scalar} (D : car S -> Prop) (pick : nat -> list (car S * nat) -> nat) : Prop :=
  forall s h, h <> [] -> Forall (fun e => D (fst e)) h ->
    exists e, nth_error h (pick s h) = Some e /\ forall x, In x h -> sltb (fst x) (fst e) = false.
