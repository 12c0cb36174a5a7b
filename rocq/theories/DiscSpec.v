(* Vocabulary for the discretizing iterator. *)
From Coq Require Import Reals.
From Verif Require Import Prelude.
Local Open Scope R_scope.

(* [subdivided along dist d pts out]: every edge a-b of pts is cut into n equal steps, n being the least
   number (at least one) for which a step is no longer than d; out lists the start points of all steps
   and finally the last point of pts. [along a b t] is the point at fraction t from a to b. *)
Inductive subdivided {A} (along : A -> A -> R -> A) (dist : A -> A -> R) (d : R) : list A -> list A -> Prop :=
| sd_nil : subdivided along dist d [] []
| sd_last a : subdivided along dist d [a] [a]
| sd_edge a b rest (n : nat) out :
    (1 <= n)%nat -> dist a b <= INR n * d -> (n = 1%nat \/ INR (n - 1) * d < dist a b) ->
    subdivided along dist d (b :: rest) out ->
    subdivided along dist d (a :: b :: rest) (map (fun k => along a b (INR k / INR n)) (seq 0 n) ++ out).

(* The same up to rounding: the number of steps is the least one for a length known up to the relative error delta, and every
   point is close to the exact one; the corners of pts are there exactly. *)
Inductive subdivided_near {A} (along : A -> A -> R -> A) (dist : A -> A -> R) (close : A -> A -> Prop) (d delta : R) : list A -> list A -> Prop :=
| sn_nil : subdivided_near along dist close d delta [] []
| sn_last a : subdivided_near along dist close d delta [a] [a]
| sn_edge a b rest (n : nat) steps out :
    (1 <= n)%nat -> (1 - delta) * dist a b <= INR n * d -> (n = 1%nat \/ INR (n - 1) * d < (1 + delta) * dist a b) ->
    length steps = n -> nth_error steps 0 = Some a -> (forall k p, nth_error steps k = Some p -> close p (along a b (INR k / INR n))) ->
    subdivided_near along dist close d delta (b :: rest) out ->
    subdivided_near along dist close d delta (a :: b :: rest) (steps ++ out).

(* [denser along l m]: m is l with points inserted on its edges: any number on each edge, in any order, strictly between its
   ends ([along a b t]: the point at fraction t from a to b) *)
Inductive denser {A} (along : A -> A -> R -> A) : list A -> list A -> Prop :=
| dn_nil : denser along [] []
| dn_last a : denser along [a] [a]
| dn_edge a b rest ins m : Forall (fun x => exists t, 0 < t < 1 /\ x = along a b t) ins ->
    denser along (b :: rest) m -> denser along (a :: b :: rest) (a :: ins ++ m).
