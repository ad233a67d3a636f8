(** Model of ds/BinarySuffixTree.hpp (the same construction as SuffixTree.hpp with the tree in arrays,
    used by lfs::BSTStrategy and LFS2BSTCompressor). *)
From Verif Require Import Base LfsTree.
Local Open Scope nat_scope.

(** :33-68.  The entries are uint (32 bits); the model does not wrap them, which is exact for texts of
    fewer than 2^31 characters. *)
Record bst := mk_b { b_first : list nat; b_next : list nat; b_start : list nat; b_end : list nat; b_slink : list nat; b_suffix : list nat;
  b_suf : nat; b_new : nat; b_rem : nat; b_node : nat; b_edge : N; b_len : nat; b_last : nat }.
(** writing to an IntVector; [None]: out of range *)
Definition put (l : list nat) (i v : nat) : option (list nat) := if i <? length l then Some (upd l i v) else None.

Definition set_first (b : bst) (l : list nat) := mk_b l (b_next b) (b_start b) (b_end b) (b_slink b) (b_suffix b) (b_suf b) (b_new b) (b_rem b) (b_node b) (b_edge b) (b_len b) (b_last b).
Definition set_next (b : bst) (l : list nat) := mk_b (b_first b) l (b_start b) (b_end b) (b_slink b) (b_suffix b) (b_suf b) (b_new b) (b_rem b) (b_node b) (b_edge b) (b_len b) (b_last b).
Definition set_start (b : bst) (l : list nat) := mk_b (b_first b) (b_next b) l (b_end b) (b_slink b) (b_suffix b) (b_suf b) (b_new b) (b_rem b) (b_node b) (b_edge b) (b_len b) (b_last b).
(** the active point: node, edge, length *)
Definition set_active (b : bst) (x : nat) (e : N) (len : nat) := mk_b (b_first b) (b_next b) (b_start b) (b_end b) (b_slink b) (b_suffix b) (b_suf b) (b_new b) (b_rem b) x e len (b_last b).
Definition set_rem (b : bst) (r : nat) := mk_b (b_first b) (b_next b) (b_start b) (b_end b) (b_slink b) (b_suffix b) (b_suf b) (b_new b) r (b_node b) (b_edge b) (b_len b) (b_last b).

(** :70-77 add_sl *)
Definition b_add_sl (b : bst) (x : nat) : option bst :=
  do sl <- (if b_last b =? 0 then Some (b_slink b) else put (b_slink b) (b_last b) x);
  Some (mk_b (b_first b) (b_next b) (b_start b) (b_end b) sl (b_suffix b) (b_suf b) (b_new b) (b_rem b) (b_node b) (b_edge b) (b_len b) x).
(** :79-88 create_node; the new node is [b_new] of the result *)
Definition create_node (b : bst) (s e : nat) : option bst :=
  let x := b_new b + 1 in
  do st <- put (b_start b) x s;
  do en <- put (b_end b) x e;
  Some (mk_b (b_first b) (b_next b) st en (b_slink b) (b_suffix b) (b_suf b) x (b_rem b) (b_node b) (b_edge b) (b_len b) (b_last b)).
(** :222, :272: suffix[leaf] = current_suffix++ *)
Definition set_leaf (b : bst) (x : nat) : option bst :=
  do su <- put (b_suffix b) x (b_suf b);
  Some (mk_b (b_first b) (b_next b) (b_start b) (b_end b) (b_slink b) su (b_suf b + 1) (b_new b) (b_rem b) (b_node b) (b_edge b) (b_len b) (b_last b)).
(** :168-178 edge_length *)
Definition b_edge_length (b : bst) (pos x : nat) : option nat :=
  if x =? 0 then Some 0
  else do e <- nth_error (b_end b) x;
       do s <- nth_error (b_start b) x;
       Some (if e =? 0 then pos + 1 - s else e - s).
(** :200-216: the child whose edge starts with [c], if any, and previous_sibling; the number of
    siblings is bounded by [fuel] *)
Fixpoint find_child (text : list N) (b : bst) (c : N) (fuel child prev : nat) : option (option nat * nat) :=
  if child =? 0 then Some (None, prev)
  else match fuel with
  | O => None
  | S f =>
      do s <- nth_error (b_start b) child;
      do d <- nth_error text s;
      if (d =? c)%N then Some (Some child, prev)
      else do nx <- nth_error (b_next b) child; find_child text b c f nx child
  end.
(** :276-287 *)
Definition b_after (text : list N) (pos : nat) (b : bst) : option bst :=
  let b := set_rem b (b_rem b - 1) in
  if (b_node b =? 0) && (0 <? b_len b) then
    do e <- nth_error text (pos + 1 - b_rem b);
    Some (set_active b (b_node b) e (b_len b - 1))
  else
    do u <- nth_error (b_slink b) (b_node b);
    Some (set_active b (if u =? 0 then 0 else u) (b_edge b) (b_len b)).
(** :192-288, one round of the loop; false: break *)
Definition b_step (text : list N) (pos : nat) (c : N) (b : bst) : option (bool * bst) :=
  let b := if b_len b =? 0 then set_active b (b_node b) c (b_len b) else b in
  do fc <- nth_error (b_first b) (b_node b);
  do (found, prev) <- find_child text b (b_edge b) (b_new b) fc fc;
  match found with
  | None =>
      do b <- create_node b pos 0;
      let leaf := b_new b in
      do b <- set_leaf b leaf;
      do fc <- nth_error (b_first b) (b_node b);
      do b <- (if fc =? 0 then do l <- put (b_first b) (b_node b) leaf; Some (set_first b l)
               else do l <- put (b_next b) prev leaf; Some (set_next b l));
      do b <- b_add_sl b (b_node b);
      do b <- b_after text pos b; Some (true, b)
  | Some next =>
      do el <- b_edge_length b pos next;
      if el <=? b_len b then
        do e <- nth_error text (pos - (b_len b - el));
        Some (true, set_active b next e (b_len b - el))
      else
        do s <- nth_error (b_start b) next;
        do d <- nth_error text (s + b_len b);
        if (d =? c)%N then
          do b <- b_add_sl (set_active b (b_node b) (b_edge b) (b_len b + 1)) (b_node b);
          Some (false, b)
        else
          do b <- create_node b s (s + b_len b);
          let split := b_new b in
          do st <- put (b_start b) next (s + b_len b);
          let b := set_start b st in
          do fc <- nth_error (b_first b) (b_node b);
          do b <- (if fc =? 0 then do l <- put (b_first b) (b_node b) split; Some (set_first b l) else Some b);
          do fc <- nth_error (b_first b) (b_node b);
          do b <- (if fc =? next then do l <- put (b_first b) (b_node b) split; Some (set_first b l)
                   else do l <- put (b_next b) prev split; Some (set_next b l));
          do l <- put (b_first b) split next;
          let b := set_first b l in
          do nn <- nth_error (b_next b) next;
          do l <- put (b_next b) split nn;
          let b := set_next b l in
          do b <- create_node b pos 0;
          let leaf := b_new b in
          do l <- put (b_next b) next leaf;
          let b := set_next b l in
          do b <- set_leaf b leaf;
          do b <- b_add_sl b split;
          do b <- b_after text pos b; Some (true, b)
  end.
Fixpoint b_loop (text : list N) (pos : nat) (c : N) (fuel : nat) (b : bst) : option bst :=
  if b_rem b =? 0 then Some b
  else match fuel with
  | O => None
  | S f => do (k, b) <- b_step text pos c b; if k then b_loop text pos c f b else Some b
  end.
(** :186-190 *)
Definition b_add_char (text : list N) (fuel pos : nat) (c : N) (b : bst) : option bst :=
  b_loop text pos c fuel (mk_b (b_first b) (b_next b) (b_start b) (b_end b) (b_slink b) (b_suffix b) (b_suf b) (b_new b)
    (b_rem b + 1) (b_node b) (b_edge b) (b_len b) 0).
Fixpoint b_feed (text : list N) (fuel pos : nat) (rest : list N) (b : bst) : option bst :=
  match rest with
  | [] => Some b
  | c :: rest' => do b <- b_add_char text fuel pos c b; b_feed text fuel (pos + 1) rest' b
  end.
(** :91-104 reserve (for an empty text the size wraps: no allocation succeeds) and :127-160 compute *)
Definition b_init (n : nat) : option bst :=
  if n =? 0 then None
  else create_node (mk_b (repeat 0 (2 * n - 1)) (repeat 0 (2 * n - 1)) (repeat 0 (2 * n)) (repeat 0 (2 * n)) (repeat 0 (2 * n - 1)) (repeat 0 (2 * n))
                         0 0 0 0 0%N 0 0) 0 0.
(** IntVector::resize: new entries are 0 *)
Definition resize (l : list nat) (k : nat) : list nat := firstn k l ++ repeat 0 (k - length l).
(** :106-125 resize *)
Definition b_shrink (b : bst) : bst :=
  let k := b_new b + 1 in
  mk_b (resize (b_first b) k) (resize (b_next b) k) (resize (b_start b) k) (resize (b_end b) k) [] (resize (b_suffix b) k)
    (b_suf b) k (b_rem b) (b_node b) (b_edge b) (b_len b) (b_last b).
Definition b_tree (text : list N) : option bst :=
  let n := length text in
  do b <- b_init n;
  do b <- b_feed text (S n * (n + 3)) 0 text b;
  Some (b_shrink b).

(** ** the nodes as the strategies see them *)
(** BSTStrategy.hpp:48-78, LFS2BSTCompressor.hpp:67-97 compute_string_depth: (node, string depth,
    parent) in the order of the visit; the parent is for the specification only.  [pos] is n - 1.
    [fuel] bounds recursion depth plus siblings *)
Fixpoint b_visit (b : bst) (pos fuel x dep par : nat) : option (list (nat * nat * nat)) :=
  match fuel with
  | O => None
  | S f =>
      do c <- nth_error (b_first b) x;
      if c =? 0 then Some []
      else do r <- b_siblings b pos f c dep x; Some ((x, dep, par) :: r)
  end
with b_siblings (b : bst) (pos fuel c dep x : nat) : option (list (nat * nat * nat)) :=
  match fuel with
  | O => None
  | S f =>
      if c =? 0 then Some []
      else do el <- b_edge_length b pos c;
           do h <- b_visit b pos f c (dep + el) x;
           do nx <- nth_error (b_next b) c;
           do t <- b_siblings b pos f nx dep x; Some (h ++ t)
  end.
From Verif Require Import Ukk.
(** the children of a node from [c] on: BSTStrategy.hpp:192-214, LFS2BSTCompressor.hpp:183-205 *)
Fixpoint b_children (b : bst) (vs : list (nat * nat * nat)) (fuel c : nat) : option (list child) :=
  match fuel with
  | O => None
  | S f =>
      if c =? 0 then Some []
      else do fc <- nth_error (b_first b) c;
           do h <- (if fc =? 0 then do s <- nth_error (b_suffix b) c; Some (CLeaf s) else do k <- index_of c vs; Some (CInner k));
           do nx <- nth_error (b_next b) c;
           do t <- b_children b vs f nx; Some (h :: t)
  end.
Fixpoint b_tnodes (b : bst) (all vs : list (nat * nat * nat)) : option (list tnode) :=
  match vs with
  | [] => Some []
  | (x, dep, par) :: vs' =>
      do c <- nth_error (b_first b) x;
      do cs <- b_children b all (S (b_new b)) c;
      do p <- index_of par all;
      do r <- b_tnodes b all vs';
      Some ({| td_depth := dep; td_parent := p; td_children := cs |} :: r)
  end.
(** the tree that is handed to the strategy, its inner nodes numbered in the order of the visit *)
Definition bst_tree (text : list N) : option (list tnode) :=
  let n := length text in
  do b <- b_tree text;
  do vs <- b_visit b (n - 1) (S n * (2 * n + 3)) 0 0 0;
  b_tnodes b vs vs.
