(** When arrays represent a tree (specification only). *)
From Verif Require Import Base Ukk Bst.
Local Open Scope nat_scope.

(** the list that starts with node c (0: none) and follows the next siblings *)
Inductive siblings (b : bst) : nat -> list nat -> Prop :=
| sib_none : siblings b 0 []
| sib_next c c' l : c <> 0 -> nth_error (b_next b) c = Some c' -> siblings b c' l -> siblings b c (c :: l).
(** the arrays hold the nodes under the numbers [num]: different nodes have different numbers, the root is 0 *)
Definition holds (nodes : list unode) (b : bst) (num : nat -> nat) : Prop :=
  num 0 = 0 /\ (forall x y, num x = num y -> x = y) /\
  forall x v, nth_error nodes x = Some v ->
    nth_error (b_start b) (num x) = Some (u_start v) /\ nth_error (b_end b) (num x) = Some (u_end v) /\
    (forall i, u_leaf v = Some i -> nth_error (b_suffix b) (num x) = Some i) /\
    exists f, nth_error (b_first b) (num x) = Some f /\ (f = 0 <-> u_leaf v <> None) /\
      siblings b f (map (fun e => num (snd e)) (u_kids v)).
