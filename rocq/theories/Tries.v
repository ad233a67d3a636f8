(** Models of the LZ78 tries BinaryTrie, BinarySortedTrie, TernaryTrie and HashTrie. *)
From Verif Require Import Base BitIO IntCodes Coders LZ.
Local Open Scope N_scope.

(** LZ78Trie.hpp:11-14: factorid_t is uint32_t, undef_id its maximum *)
Definition undef_id : N := 2 ^ 32 - 1.
Definition aget (l : list N) (i : N) : option N := nth_error l (N.to_nat i).
Definition aset (l : list N) (i v : N) : list N := upd l (N.to_nat i) v.
Definition asize (l : list N) : N := N.of_nat (length l).

(** BinaryTrie.hpp:16-18 / BinarySortedTrie.hpp:14-16: first child, next sibling, literal.
    Vector growth (BinaryTrie.hpp:93-102) only changes capacities and is not modelled. *)
Record bin_st := mk_bin { b_fc : list N; b_ns : list N; b_lit : list N }.

(** clear() (BinaryTrie.hpp:67-71) and k calls of add_rootnode (:55-61) *)
Definition bin_init (k : N) : bin_st :=
  mk_bin (repeat undef_id (N.to_nat k)) (repeat undef_id (N.to_nat k))
         (map N.of_nat (seq 0 (N.to_nat k))).

(** BinaryTrie.hpp:84-91: the while loop; [inl node]: the literal was found at
    node, [inr node]: the list ended at node. *)
Fixpoint bin_search (fuel : nat) (st : bin_st) (c node : N) : option (N + N) :=
  match fuel with
  | O => None
  | S fuel =>
      do l <- aget (b_lit st) node;
      if c =? l then Some (inl node)
      else do nx <- aget (b_ns st) node;
           if nx =? undef_id then Some (inr node)
           else bin_search fuel st c nx
  end.

(** push_back on the three vectors (BinaryTrie.hpp:103-106, BinarySortedTrie.hpp:57-62) *)
Definition bin_push (st : bin_st) (c nx : N) : N * bool * bin_st :=
  let st' := mk_bin (b_fc st ++ [undef_id]) (b_ns st ++ [nx]) (b_lit st ++ [c]) in
  (asize (b_fc st') - 1, true, st').

(** BinaryTrie.hpp:73-107 find_or_insert *)
Definition bin_find (st : bin_st) (parent c : N) : option (N * bool * bin_st) :=
  let newleaf := w32 (asize (b_fc st)) in
  do f <- aget (b_fc st) parent;
  if f =? undef_id then
    Some (bin_push (mk_bin (aset (b_fc st) parent newleaf) (b_ns st) (b_lit st)) c undef_id)
  else
    do r <- bin_search (S (length (b_fc st))) st c f;
    match r with
    | inl node => Some (node, false, st)
    | inr node => Some (bin_push (mk_bin (b_fc st) (aset (b_ns st) node newleaf) (b_lit st)) c undef_id)
    end.

(** BinaryTrie.hpp:63-65, 109-111 *)
Definition binary_trie : trie :=
  mk_trie bin_st (fun k => Some (bin_init k)) (fun k _ => Some (bin_init k))
          (fun _ c => c) bin_find (fun st => asize (b_fc st)).

(** BinarySortedTrie.hpp:80-102: [inl node]: found; [inr (node, next)]: the new leaf
    goes between node and next *)
Fixpoint bins_search (fuel : nat) (st : bin_st) (c node : N) : option (N + N * N) :=
  match fuel with
  | O => None
  | S fuel =>
      do l <- aget (b_lit st) node;
      if c =? l then Some (inl node)
      else do nx <- aget (b_ns st) node;
           if nx =? undef_id then Some (inr (node, undef_id))
           else do l' <- aget (b_lit st) nx;
                if c <? l' then Some (inr (node, nx))
                else bins_search fuel st c nx
  end.

(** BinarySortedTrie.hpp:64-104 find_or_insert *)
Definition bins_find (st : bin_st) (parent c : N) : option (N * bool * bin_st) :=
  let newleaf := w32 (asize (b_fc st)) in
  do f <- aget (b_fc st) parent;
  if f =? undef_id then
    Some (bin_push (mk_bin (aset (b_fc st) parent newleaf) (b_ns st) (b_lit st)) c undef_id)
  else
    do l <- aget (b_lit st) f;
    if c <? l then
      Some (bin_push (mk_bin (aset (b_fc st) parent newleaf) (b_ns st) (b_lit st)) c f)
    else
      do r <- bins_search (S (length (b_fc st))) st c f;
      match r with
      | inl node => Some (node, false, st)
      | inr (node, nx) => Some (bin_push (mk_bin (b_fc st) (aset (b_ns st) node newleaf) (b_lit st)) c nx)
      end.

Definition binary_sorted_trie : trie :=
  mk_trie bin_st (fun k => Some (bin_init k)) (fun k _ => Some (bin_init k))
          (fun _ c => c) bins_find (fun st => asize (b_fc st)).

(** TernaryTrie.hpp:22-25 *)
Record ter_st := mk_ter { r_fc : list N; r_ls : list N; r_rs : list N; r_lit : list N }.

(** TernaryTrie.hpp:65-72, 78-83 *)
Definition ter_init (k : N) : ter_st :=
  let u := repeat undef_id (N.to_nat k) in
  mk_ter u u u (map N.of_nat (seq 0 (N.to_nat k))).

(** TernaryTrie.hpp:97-117: [inl node]: found; [inr (true, node)]: becomes the left
    sibling of node; [inr (false, node)]: the right one *)
Fixpoint ter_search (fuel : nat) (st : ter_st) (c node : N) : option (N + bool * N) :=
  match fuel with
  | O => None
  | S fuel =>
      do l <- aget (r_lit st) node;
      if c <? l then
        do x <- aget (r_ls st) node;
        if x =? undef_id then Some (inr (true, node)) else ter_search fuel st c x
      else if l <? c then
        do x <- aget (r_rs st) node;
        if x =? undef_id then Some (inr (false, node)) else ter_search fuel st c x
      else Some (inl node)
  end.

Definition ter_push (st : ter_st) (c : N) : N * bool * ter_st :=
  let st' := mk_ter (r_fc st ++ [undef_id]) (r_ls st ++ [undef_id]) (r_rs st ++ [undef_id]) (r_lit st ++ [c]) in
  (asize (r_fc st') - 1, true, st').

(** TernaryTrie.hpp:85-136 find_or_insert *)
Definition ter_find (st : ter_st) (parent c : N) : option (N * bool * ter_st) :=
  let newleaf := w32 (asize (r_fc st)) in
  do f <- aget (r_fc st) parent;
  if f =? undef_id then
    Some (ter_push (mk_ter (aset (r_fc st) parent newleaf) (r_ls st) (r_rs st) (r_lit st)) c)
  else
    do r <- ter_search (S (length (r_fc st))) st c f;
    match r with
    | inl node => Some (node, false, st)
    | inr (true, node) => Some (ter_push (mk_ter (r_fc st) (aset (r_ls st) node newleaf) (r_rs st) (r_lit st)) c)
    | inr (false, node) => Some (ter_push (mk_ter (r_fc st) (r_ls st) (aset (r_rs st) node newleaf) (r_lit st)) c)
    end.

Definition ternary_trie : trie :=
  mk_trie ter_st (fun k => Some (ter_init k)) (fun k _ => Some (ter_init k))
          (fun _ c => c) ter_find (fun st => asize (r_fc st)).

(** ** HashTrie.  The hash table itself is modelled as the finite map it implements
    (see Hash.v for the table): key/value pairs, insert() keeps an old value. *)
Fixpoint hm_get (m : list (N * N)) (k : N) : option N :=
  match m with
  | [] => None
  | (k', v) :: m' => if k' =? k then Some v else hm_get m' k
  end.
(** HashMap::insert (util/Hash.hpp:518-580): the stored value and whether it is new *)
Definition hm_insert (m : list (N * N)) (k v : N) : N * bool * list (N * N) :=
  match hm_get m k with
  | Some v' => (v', false, m)
  | None => (v, true, m ++ [(k, v)])
  end.

(** squeeze_node.hpp:28-30 create_node, a 40-bit number *)
Definition create_node (id c : N) : N := (id * 256 + c) mod 2 ^ 40.

(** HashTrie.hpp:49-57 add_rootnode, called for 0..k-1 *)
Fixpoint hash_roots (cs : list N) (m : list (N * N)) : list (N * N) :=
  match cs with
  | [] => m
  | c :: cs => hash_roots cs (snd (hm_insert m (create_node 0 c) (N.of_nat (length m))))
  end.
(** HashTrie.hpp:68-80 find_or_insert *)
Definition hash_find (m : list (N * N)) (parent c : N) : option (N * bool * list (N * N)) :=
  let newleaf := w32 (N.of_nat (length m)) in
  let '(v, isnew, m') := hm_insert m (create_node parent c) newleaf in
  if isnew then Some (newleaf, true, m') else Some (v, false, m').
(** HashTrie.hpp:63-66: clear() does nothing; then the roots are added again *)
Definition hash_trie : trie :=
  mk_trie (list (N * N))
    (fun k => Some (hash_roots (map N.of_nat (seq 0 (N.to_nat k))) []))
    (fun k m => Some (hash_roots (map N.of_nat (seq 0 (N.to_nat k))) m))
    (fun _ c => c) hash_find (fun m => N.of_nat (length m)).

(** CompactSparseHashTrie.hpp: the same keys in a compact_hash (modelled as a finite
    map whose index() default-constructs a missing entry to 0). *)
Fixpoint hm_set (m : list (N * N)) (k v : N) : list (N * N) :=
  match m with
  | [] => [(k, v)]
  | (k', v') :: m' => if k' =? k then (k, v) :: m' else (k', v') :: hm_set m' k v
  end.
(** CompactSparseHashTrie.hpp:47-57 add_rootnode *)
Fixpoint csh_roots (cs : list N) (m : list (N * N)) : list (N * N) :=
  match cs with
  | [] => m
  | c :: cs => csh_roots cs (hm_set m (create_node 0 c) (w32 (N.of_nat (length m))))
  end.
(** CompactSparseHashTrie.hpp:67-91 find_or_insert: value 0 means "just created" *)
Definition csh_find (m : list (N * N)) (parent c : N) : option (N * bool * list (N * N)) :=
  let newleaf := w32 (N.of_nat (length m)) in
  let key := create_node parent c in
  let val := match hm_get m key with Some v => v | None => 0 end in
  if val =? 0 then Some (newleaf, true, hm_set m key newleaf)
  else Some (val, false, m).
Definition csh_trie : trie :=
  mk_trie (list (N * N))
    (fun k => Some (csh_roots (map N.of_nat (seq 0 (N.to_nat k))) []))
    (fun k m => Some (csh_roots (map N.of_nat (seq 0 (N.to_nat k))) m))
    (fun _ c => c) csh_find (fun m => N.of_nat (length m)).
