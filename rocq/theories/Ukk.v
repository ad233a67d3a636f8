(** Model of ds/SuffixTree.hpp (Ukkonen's online construction, used by lfs::STStrategy). *)
From Verif Require Import Base.
Local Open Scope nat_scope.

(** a node (:66-105): the edge that leads to it, Text[start, end), with end = 0 for an edge that grows
    with the text; the children by first letter (std::unordered_map: the order of this list is
    not that of an iteration), the suffix link (0, the root, also stands for NULL: both uses of
    the link treat them alike), and Some suffix for a leaf (STLeaf), None for an STInnerNode.
    Nodes are numbered in the order of their creation; 0 is the root. *)
Record unode := mk_un { u_start : nat; u_end : nat; u_kids : list (N * nat); u_link : nat; u_leaf : option nat }.
(** the other members (:22-44): suffix, remainder, active_node, active_edge, active_length, last_added_sl *)
Record ust := mk_ust { s_nodes : list unode; s_suf : nat; s_rem : nat; s_node : nat; s_edge : N; s_len : nat; s_last : nat }.

(** unordered_map::find *)
Fixpoint kfind (c : N) (l : list (N * nat)) : option nat :=
  match l with [] => None | (d, y) :: l' => if (d =? c)%N then Some y else kfind c l' end.
(** operator[] and assignment *)
Fixpoint kput (c : N) (y : nat) (l : list (N * nat)) : list (N * nat) :=
  match l with [] => [(c, y)] | (d, z) :: l' => if (d =? c)%N then (d, y) :: l' else (d, z) :: kput c y l' end.

(** :57-69 *)
Definition edge_len (pos x : nat) (v : unode) : nat :=
  if x =? 0 then 0 else if u_end v =? 0 then pos + 1 - u_start v else u_end v - u_start v.
(** :46-52 *)
Definition add_sl (nodes : list unode) (last x : nat) : option (list unode) :=
  if last =? 0 then Some nodes
  else do v <- nth_error nodes last;
       Some (upd nodes last (mk_un (u_start v) (u_end v) (u_kids v) x (u_leaf v))).
Definition with_kids (v : unode) (k : list (N * nat)) : unode := mk_un (u_start v) (u_end v) k (u_link v) (u_leaf v).
Definition with_start (v : unode) (st : nat) : unode := mk_un st (u_end v) (u_kids v) (u_link v) (u_leaf v).

(** :186-199: after a suffix has been inserted *)
Definition after_insert (text : list N) (pos : nat) (edge : N) (nodes : list unode) (s : ust) (last : nat) : option ust :=
  let rem := s_rem s - 1 in
  if (s_node s =? 0) && (0 <? s_len s) then
    do e <- nth_error text (pos + 1 - rem);
    Some (mk_ust nodes (s_suf s + 1) rem 0 e (s_len s - 1) last)
  else
    do a <- nth_error nodes (s_node s);
    Some (mk_ust nodes (s_suf s + 1) rem (u_link a) edge (s_len s) last).

(** :131-201, one round of the loop; [pos] is the position of the new character [c]; false: break.
    [None]: a null pointer is dereferenced (the active node is a leaf) or the text is read out of range. *)
Definition add_step (text : list N) (pos : nat) (c : N) (s : ust) : option (bool * ust) :=
  let edge := if s_len s =? 0 then c else s_edge s in
  let nodes := s_nodes s in
  do a <- nth_error nodes (s_node s);
  match u_leaf a with
  | Some _ => None
  | None =>
    match kfind edge (u_kids a) with
    | None =>
        let leaf := length nodes in
        let nodes := upd nodes (s_node s) (with_kids a (kput edge leaf (u_kids a))) ++ [mk_un pos 0 [] 0 (Some (s_suf s))] in
        do nodes <- add_sl nodes (s_last s) (s_node s);
        do s' <- after_insert text pos edge nodes s (s_node s);
        Some (true, s')
    | Some y =>
        do v <- nth_error nodes y;
        let el := edge_len pos y v in
        if el <=? s_len s then
          do e <- nth_error text (pos - (s_len s - el));
          Some (true, mk_ust nodes (s_suf s) (s_rem s) y e (s_len s - el) (s_last s))
        else
          do d <- nth_error text (u_start v + s_len s);
          if (d =? c)%N then
            do nodes <- add_sl nodes (s_last s) (s_node s);
            Some (false, mk_ust nodes (s_suf s) (s_rem s) (s_node s) edge (s_len s + 1) (s_node s))
          else
            let split := length nodes in
            let leaf := split + 1 in
            let st := u_start v + s_len s in
            let nodes := upd nodes (s_node s) (with_kids a (kput edge split (u_kids a))) in
            let nodes := upd nodes y (with_start v st) in
            let nodes := nodes ++ [mk_un (u_start v) st [(d, y); (c, leaf)] 0 None; mk_un pos 0 [] 0 (Some (s_suf s))] in
            do nodes <- add_sl nodes (s_last s) split;
            do s' <- after_insert text pos edge nodes s split;
            Some (true, s')
    end
  end.
(** the loop; [None] also when the fuel is used up *)
Fixpoint add_loop (text : list N) (pos : nat) (c : N) (fuel : nat) (s : ust) : option ust :=
  if s_rem s =? 0 then Some s
  else match fuel with
  | O => None
  | S f => do (k, s') <- add_step text pos c s; if k then add_loop text pos c f s' else Some s'
  end.
(** :125-129 *)
Definition add_char (text : list N) (fuel pos : nat) (c : N) (s : ust) : option ust :=
  add_loop text pos c fuel (mk_ust (s_nodes s) (s_suf s) (s_rem s + 1) (s_node s) (s_edge s) (s_len s) 0).
(** :222-229 append_input: the text is stored before the characters are added *)
Fixpoint feed (text : list N) (fuel pos : nat) (rest : list N) (s : ust) : option ust :=
  match rest with
  | [] => Some s
  | c :: rest' => do s <- add_char text fuel pos c s; feed text fuel (pos + 1) rest' s
  end.
(** :107-121 *)
Definition ust0 : ust := mk_ust [mk_un 0 0 [] 0 None] 0 0 0 0%N 0 0.
Definition suffix_tree (text : list N) : option (list unode) :=
  let n := length text in
  do s <- feed text (S n * (n + 3)) 0 text ust0; Some (s_nodes s).

(** ** the nodes as the LFS strategies see them *)
From Verif Require Import LfsTree.
Section Visit.
  (** the order in which an iteration over the child_nodes (a std::unordered_map) of node x yields them *)
  Context (ord : nat -> list (N * nat) -> list (N * nat)).
  (** STStrategy.hpp:45-90 compute_string_depth, one inner node after the other in the order of the
      visit: (node, string depth, parent).  The recursion depth is bounded by [fuel]. *)
  Fixpoint visit (nodes : list unode) (n fuel x dep par : nat) : option (list (nat * nat * nat)) :=
    match fuel with
    | O => None
    | S f =>
        do a <- nth_error nodes x;
        match u_leaf a with
        | Some _ => Some []
        | None =>
            do r <- (fix go (l : list (N * nat)) : option (list (nat * nat * nat)) :=
                       match l with
                       | [] => Some []
                       | (_, y) :: l' =>
                           do v <- nth_error nodes y;
                           do h <- visit nodes n f y (dep + edge_len (n - 1) y v) x;
                           do t <- go l'; Some (h ++ t)
                       end) (ord x (u_kids a));
            Some ((x, dep, par) :: r)
        end
    end.
  (** the index of a node among the visited ones *)
  Fixpoint index_of (x : nat) (l : list (nat * nat * nat)) : option nat :=
    match l with
    | [] => None
    | (y, _, _) :: l' => if x =? y then Some 0 else do k <- index_of x l'; Some (S k)
    end.
  Fixpoint tree_kids (nodes : list unode) (vs : list (nat * nat * nat)) (l : list (N * nat)) : option (list child) :=
    match l with
    | [] => Some []
    | (_, y) :: l' =>
        do v <- nth_error nodes y;
        do c <- match u_leaf v with Some s => Some (CLeaf s) | None => do k <- index_of y vs; Some (CInner k) end;
        do r <- tree_kids nodes vs l'; Some (c :: r)
    end.
  Fixpoint tree_nodes (nodes : list unode) (all vs : list (nat * nat * nat)) : option (list tnode) :=
    match vs with
    | [] => Some []
    | (x, dep, par) :: vs' =>
        do a <- nth_error nodes x;
        do cs <- tree_kids nodes all (ord x (u_kids a));
        do p <- index_of par all;
        do r <- tree_nodes nodes all vs';
        Some ({| td_depth := dep; td_parent := p; td_children := cs |} :: r)
    end.
  (** the tree that is handed to the strategy, its inner nodes numbered in the order of the visit *)
  Definition st_tree (text : list N) : option (list tnode) :=
    do nodes <- suffix_tree text;
    do vs <- visit nodes (length text) (S (length text)) 0 0 0;
    tree_nodes nodes vs vs.
End Visit.
