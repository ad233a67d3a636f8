(** Operations on a map from numbers to numbers, as association lists. *)
From Verif Require Import Base.

(** insert(key, value, key_width) and index(key, key_width) = value *)
Inductive map_op := Ins (k v : N) (w : nat) | Asg (k v : N) (w : nat).
Definition op_key (o : map_op) : N := match o with Ins k _ _ => k | Asg k _ _ => k end.
Definition op_width (o : map_op) : nat := match o with Ins _ _ w => w | Asg _ _ w => w end.
Definition is_ins (o : map_op) : bool := match o with Ins _ _ _ => true | Asg _ _ _ => false end.

Fixpoint find (l : list (N * N)) (k : N) : option N :=
  match l with [] => None | (x, v) :: l => if (x =? k)%N then Some v else find l k end.
Fixpoint replace (l : list (N * N)) (k v : N) : list (N * N) :=
  match l with [] => [] | (x, u) :: l => if (x =? k)%N then (x, v) :: l else (x, u) :: replace l k v end.
(** Ins leaves the value of a key that is there, Asg overwrites it *)
Definition map_step (l : list (N * N)) (o : map_op) : list (N * N) :=
  match o with
  | Ins k v _ => match find l k with Some _ => l | None => (k, v) :: l end
  | Asg k v _ => match find l k with Some _ => replace l k v | None => (k, v) :: l end
  end.
Definition map_run (ops : list map_op) (l : list (N * N)) : list (N * N) := fold_left map_step ops l.

(** the widths do not shrink, are at most 64 and suffice for the keys *)
Fixpoint widths_ok (w : nat) (ops : list map_op) : Prop :=
  match ops with
  | [] => True
  | o :: ops => w <= op_width o <= 64 /\ (op_key o < 2 ^ N.of_nat (op_width o))%N /\ widths_ok (op_width o) ops
  end.
Fixpoint last_width (w : nat) (ops : list map_op) : nat :=
  match ops with [] => w | o :: ops => last_width (op_width o) ops end.
