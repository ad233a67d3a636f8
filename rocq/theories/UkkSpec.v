(** What a suffix tree is (specification only). *)
From Verif Require Import Base LfsSpec Ukk.
Local Open Scope nat_scope.

(** the letters on the edge to a node: Text[start, end), up to the end of the text if end is 0 *)
Definition label (text : list N) (v : unode) : list N :=
  piece text (u_start v) ((if u_end v =? 0 then length text else u_end v) - u_start v).
(** the letters on the way from the root to a node *)
Inductive path (text : list N) (nodes : list unode) : list N -> nat -> Prop :=
| path_root : path text nodes [] 0
| path_step w x a c y v : path text nodes w x -> nth_error nodes x = Some a -> In (c, y) (u_kids a) ->
    nth_error nodes y = Some v -> path text nodes (w ++ label text v) y.
Record is_suffix_tree (text : list N) (nodes : list unode) : Prop := {
  (** every node is reached from the root, in one way *)
  st_reach : forall y v, nth_error nodes y = Some v -> exists w, path text nodes w y;
  st_parent : forall x a c x' a' c' y, nth_error nodes x = Some a -> In (c, y) (u_kids a) ->
    nth_error nodes x' = Some a' -> In (c', y) (u_kids a') -> x = x' /\ c = c';
  st_no_root : forall x a c, nth_error nodes x = Some a -> ~ In (c, 0) (u_kids a);
  (** the letter of a child is the first on the edge to it, and the letters of the children differ *)
  st_edge : forall x a c y, nth_error nodes x = Some a -> In (c, y) (u_kids a) ->
    exists v l, nth_error nodes y = Some v /\ label text v = c :: l;
  st_letters : forall x a, nth_error nodes x = Some a -> NoDup (map fst (u_kids a));
  (** leaves have no children, other nodes except the root at least two *)
  st_branch : forall x a, nth_error nodes x = Some a ->
    match u_leaf a with Some _ => u_kids a = [] | None => x = 0 \/ 2 <= length (u_kids a) end;
  (** the way to a leaf spells its suffix, and no two leaves have the same *)
  st_leaf : forall y v i, nth_error nodes y = Some v -> u_leaf v = Some i -> i < length text /\ path text nodes (skipn i text) y;
  st_leaf1 : forall y v y' v' i, nth_error nodes y = Some v -> u_leaf v = Some i -> nth_error nodes y' = Some v' -> u_leaf v' = Some i -> y = y';
  (** the words that can be read from the root are those of the text *)
  st_words : forall w, (exists w' y, path text nodes (w ++ w') y) <-> (exists l r, text = l ++ w ++ r);
  (** the suffix link drops the first letter *)
  st_link : forall x a c w, nth_error nodes x = Some a -> u_leaf a = None -> path text nodes (c :: w) x -> path text nodes w (u_link a);
  st_size : text <> [] -> length nodes <= 2 * length text }.
(** every suffix has a leaf *)
Definition all_leaves (text : list N) (nodes : list unode) : Prop :=
  forall i, i < length text -> exists y v, nth_error nodes y = Some v /\ u_leaf v = Some i.
(** the last letter occurs nowhere else *)
Definition terminated (text : list N) : Prop := exists t c, text = t ++ [c] /\ ~ In c t.
(** no word of length k occurs twice *)
Definition no_repeat (text : list N) (k : nat) : Prop :=
  forall i j, i < j -> j + k <= length text -> piece text i k <> piece text j k.
