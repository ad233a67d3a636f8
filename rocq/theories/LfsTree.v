(** Model of the tree based strategies of LFS: compressors/lfs/STStrategy.hpp, SimSTStrategy.hpp
    and BSTStrategy.hpp.  The suffix tree itself (ds/SuffixTree.hpp, ds/BinarySuffixTree.hpp,
    sdsl's cst_sct3) is a parameter: the list of its inner nodes. *)
From Verif Require Import Base BitIO IntCodes Coders BitCoders Strategies Lfs.
Local Open Scope nat_scope.

(** a child is a leaf with the number of its suffix, or the inner node with that index *)
Inductive child := CLeaf (suffix : nat) | CInner (id : nat).
(** an inner node (SuffixTree.hpp:88-105): string depth, index of the parent, children in the
    order in which the code iterates over them *)
Record tnode := { td_depth : nat; td_parent : nat; td_children : list child }.
Notation bins_t := (list (list nat)).

(** STStrategy.hpp:57-59: bins.size() is doubled once if the depth is not below it *)
Definition grow_once (bins : bins_t) (dep : nat) : bins_t :=
  if length bins <=? dep then bins ++ repeat [] (length bins) else bins.
(** BSTStrategy.hpp:54-56 and SimSTStrategy.hpp:169-175: doubled until it is *)
Fixpoint grow_all (fuel : nat) (bins : bins_t) (dep : nat) : option bins_t :=
  if length bins <=? dep then
    match fuel with O => None | S f => grow_all f (bins ++ repeat [] (length bins)) dep end
  else Some bins.
(** bins.resize(200) (STStrategy.hpp:168, SimSTStrategy.hpp:163, BSTStrategy.hpp:147) *)
Definition bins0 : bins_t := repeat [] 200.

Section Tree.
  Context (T : list tnode).

  (** STStrategy.hpp:45-90: the inner nodes in the order of the traversal.  The recursion is
      replaced by the list of the nodes it visits; [None] is a write beyond the bins. *)
  Fixpoint st_fill (order : list nat) (bins : bins_t) : option bins_t :=
    match order with
    | [] => Some bins
    | x :: order' =>
        do t <- nth_error T x;
        let bins := grow_once bins (td_depth t) in
        do bins <- (if 0 <? td_depth t then bucket_push bins (td_depth t) x else Some bins);
        st_fill order' bins
    end.
  (** BSTStrategy.hpp:48-78, with max_depth *)
  Fixpoint bst_fill (order : list nat) (bins : bins_t) (mx : nat) : option (bins_t * nat) :=
    match order with
    | [] => Some (bins, mx)
    | x :: order' =>
        do t <- nth_error T x;
        do bins <- grow_all (td_depth t) bins (td_depth t);
        do bins <- (if 0 <? td_depth t then bucket_push bins (td_depth t) x else Some bins);
        bst_fill order' bins (Nat.max mx (td_depth t))
    end.
  (** SimSTStrategy.hpp:166-182: the root is put into bin 0 *)
  Fixpoint sim_fill (order : list nat) (bins : bins_t) : option bins_t :=
    match order with
    | [] => Some bins
    | x :: order' =>
        do t <- nth_error T x;
        do bins <- grow_all (td_depth t) bins (td_depth t);
        do bins <- bucket_push bins (td_depth t) x;
        sim_fill order' bins
    end.

  (** STStrategy.hpp:104-126, SimSTStrategy.hpp:48-69, BSTStrategy.hpp:96-113: [free] is
      last + length; returns the selected positions and the others *)
  Fixpoint pick (dead : list bool) (len free : nat) (l : list nat) : option (list nat * list nat) :=
    match l with
    | [] => Some ([], [])
    | c :: l' =>
        do a <- (if free <=? c then alive dead c len else Some false);
        do (s, r) <- pick dead len (if a then c + len else free) l';
        Some (if a then (c :: s, r) else (s, c :: r))
    end.
  (** STStrategy.hpp:120-122: the inner loop *)
  Fixpoint extend (fuel : nat) (dead : list bool) (c k : nat) : option nat :=
    if c + k <? length dead then
      do b <- nth_error dead (c + k);
      if b then Some k else match fuel with O => None | S f => extend f dead c (k + 1) end
    else Some k.
  (** STStrategy.hpp:117-124 over all positions: min_shorter *)
  Fixpoint min_shorter (dead : list bool) (len k : nat) (l : list nat) : option nat :=
    match l with
    | [] => Some k
    | c :: l' =>
        do k <- (if c <? length dead then
                   do a <- nth_error dead c;
                   if a then Some k
                   else do b <- nth_error dead (c + len - 1);
                        if b then extend (length dead) dead c k else Some k
                 else Some k);
        min_shorter dead len k l'
    end.
  (** STStrategy.hpp:128-142, SimSTStrategy.hpp:72-86: the node goes into a lower bin *)
  Definition readd (mn : nat) (bins : bins_t) (x len k : nat) : option bins_t :=
    if (k <? len) && (mn <=? k) then
      do t <- nth_error T x; do p <- nth_error T (td_parent t);
      if td_depth p <? k then bucket_push bins k x else Some bins
    else Some bins.

  (** the state: bins, starting positions of the nodes, dead positions, dictionary, non-terminals.
      [None] in the second component: the map has no entry *)
  Notation st_t := (bins_t * list (option (list nat)) * list bool * list rule * list nts)%type.

  (** STStrategy.hpp:273-289, SimSTStrategy.hpp:267-280, BSTStrategy.hpp:256-272: the new rule *)
  Definition emit (len : nat) (sel : list nat) (dead : list bool) (d : list rule) (ns : list nts)
      : option (list bool * list rule * list nts) :=
    do off <- hd_error sel;
    do dead <- mark_all dead len sel;
    Some (dead, d ++ [(off, len)], ns ++ map (fun p => (p, length d, len)) sel).

  (** front() and back() *)
  Definition ends (l : list nat) : option (nat * nat) :=
    match l with [] => None | x :: _ => Some (x, last l x) end.

  (** STStrategy.hpp:204-232: lists of the children are taken out of the map *)
  Fixpoint st_take (cs : list child) (bp : list (option (list nat))) : option (list nat * list (option (list nat))) :=
    match cs with
    | [] => Some ([], bp)
    | CLeaf s :: cs' => do (l, bp) <- st_take cs' bp; Some (s :: l, bp)
    | CInner c :: cs' =>
        do e <- nth_error bp c;
        match e with
        | Some l0 => do (l, bp) <- st_take cs' (upd bp c None); Some (l0 ++ l, bp)
        | None => st_take cs' bp
        end
    end.
  (** STStrategy.hpp:194-247: the starting positions of node [x] *)
  Definition st_positions (x : nat) (bp : list (option (list nat))) : option (list nat * list (option (list nat))) :=
    do e <- nth_error bp x;
    match e with
    | Some l => Some (l, bp)
    | None =>
        do t <- nth_error T x;
        do (l, bp) <- st_take (td_children t) bp;
        let l := isort l in
        do _ <- ends l;                                     (* :236 *)
        Some (l, upd bp x (Some l))
    end.
  (** STStrategy.hpp:192-303: one node in bin [len] *)
  Definition st_step (mn len x : nat) (st : st_t) : option st_t :=
    let '(bins, bp, dead, d, ns) := st in
    do (l, bp) <- st_positions x bp;
    if 2 <=? length l then
      do (f, b) <- ends l;
      if len <=? b - f then
        do db <- nth_error dead b; do df <- nth_error dead f;
        if db || df then Some (bins, bp, dead, d, ns)
        else
          do (sel, _) <- pick dead len 0 l;
          do k <- min_shorter dead len 1 l;
          do bins <- readd mn bins x len k;
          if 2 <=? length sel then
            do (dead, d, ns) <- emit len sel dead d ns;
            Some (bins, bp, dead, d, ns)
          else Some (bins, bp, dead, d, ns)
      else Some (bins, bp, dead, d, ns)
    else Some (bins, bp, dead, d, ns).

  (** std::inplace_merge requires both ranges to be sorted *)
  Fixpoint sortedb (l : list nat) : bool :=
    match l with x :: (y :: _) as l' => (x <=? y) && sortedb l' | _ => true end.
  Definition inplace_merge (a b : list nat) : option (list nat) :=
    if sortedb a && sortedb b then Some (isort (a ++ b)) else None.
  (** BSTStrategy.hpp:226-231, SimSTStrategy.hpp:235-240: the ranges one after the other *)
  Fixpoint merge_all (acc : list nat) (parts : list (list nat)) : option (list nat) :=
    match parts with
    | [] => Some acc
    | p :: ps => do acc <- inplace_merge acc p; merge_all acc ps
    end.
  (** BSTStrategy.hpp:199-221, SimSTStrategy.hpp:207-228: leaves that are not dead, and the nonempty
      lists of the inner children, which are emptied.  [erase] says what remains: BST erases the
      entry, SimST leaves an empty vector; operator[] creates an empty entry (BST) *)
  Fixpoint take (erase : option (list nat)) (dead : list bool) (cs : list child) (bp : list (option (list nat)))
      : option (list nat * list (list nat) * list (option (list nat))) :=
    match cs with
    | [] => Some ([], [], bp)
    | CLeaf s :: cs' =>
        do b <- nth_error dead s;
        do (lv, ps, bp) <- take erase dead cs' bp; Some (if b then lv else s :: lv, ps, bp)
    | CInner c :: cs' =>
        do e <- nth_error bp c;
        match e with
        | Some (y :: l0) => do (lv, ps, bp) <- take erase dead cs' (upd bp c erase); Some (lv, (y :: l0) :: ps, bp)
        | _ => take erase dead cs' (upd bp c (Some []))
        end
    end.
  (** BSTStrategy.hpp:189-237, SimSTStrategy.hpp:201-244 *)
  Definition gather (erase : option (list nat)) (dead : list bool) (x : nat) (bp : list (option (list nat)))
      : option (list nat * list (option (list nat))) :=
    do t <- nth_error T x;
    do (lv, ps, bp) <- take erase dead (td_children t) bp;
    do l <- merge_all [] (ps ++ [isort lv]);
    Some (l, upd bp x (Some l)).

  (** the others that are not dead (BSTStrategy.hpp:106-108) *)
  Fixpoint not_dead (dead : list bool) (l : list nat) : option (list nat) :=
    match l with
    | [] => Some []
    | c :: l' => do b <- nth_error dead c; do r <- not_dead dead l'; Some (if b then r else c :: r)
    end.
  (** BSTStrategy.hpp:179-279 *)
  Definition bst_step (len x : nat) (st : st_t) : option st_t :=
    let '(bins, bp, dead, d, ns) := st in
    do e <- nth_error bp x;
    do (l, bp) <- match e with Some l => Some (l, bp) | None => gather None dead x bp end;
    if 2 <=? length l then
      do (f, b) <- ends l;
      if len <=? b - f then
        do db <- nth_error dead b; do df <- nth_error dead f;
        if db || df then Some (bins, bp, dead, d, ns)
        else
          do (sel, oth) <- pick dead len 0 l;
          do oth <- not_dead dead oth;
          if 2 <=? length sel then
            do (dead, d, ns) <- emit len sel dead d ns;
            Some (bins, upd bp x (Some oth), dead, d, ns)
          else Some (bins, bp, dead, d, ns)
      else Some (bins, bp, dead, d, ns)
    else Some (bins, bp, dead, d, ns).
  (** SimSTStrategy.hpp:196-284: here every node has a vector, initially empty *)
  Definition sim_step (mn len x : nat) (st : st_t) : option st_t :=
    let '(bins, bp, dead, d, ns) := st in
    do e <- nth_error bp x;
    do (l, bp) <- match e with Some (y :: l) => Some (y :: l, bp) | _ => gather (Some []) dead x bp end;
    match ends l with
    | None => Some (bins, bp, dead, d, ns)                                      (* :246-250 *)
    | Some (f, b) =>
        if (2 <=? length l) && (b - f <? len) then Some (bins, bp, dead, d, ns) (* :253-258 *)
        else
          do (sel, oth) <- pick dead len 0 l;
          do k <- min_shorter dead len 1 l;
          do bins <- readd mn bins x len k;
          if 2 <=? length sel then
            do (dead, d, ns) <- emit len sel dead d ns;
            Some (bins, upd bp x (Some oth), dead, d, ns)
          else Some (bins, bp, dead, d, ns)
    end.

  (** one bin, front to back.  Nodes are only ever added to lower bins. *)
  Fixpoint run_nodes (step : nat -> nat -> st_t -> option st_t) (len : nat) (bin : list nat) (st : st_t) : option st_t :=
    match bin with
    | [] => Some st
    | x :: bin' => do st <- step len x st; run_nodes step len bin' st
    end.
  (** the bins from [len] down to min_lrf (STStrategy.hpp:190, SimSTStrategy.hpp:194,
      BSTStrategy.hpp:176).  With min_lrf = 0 the unsigned counter passes 0 and bins[2^32-1]
      is read: [None] *)
  Fixpoint run_levels (step : nat -> nat -> st_t -> option st_t) (mn len : nat) (st : st_t) : option st_t :=
    if len <? mn then Some st
    else
      do bin <- nth_error (fst (fst (fst (fst st)))) len;
      do st <- run_nodes step len bin st;
      match len with O => None | S len' => run_levels step mn len' st end.

  (** compute_rules; [n] is the length of the text, [order] the traversal order *)
  Definition finish (o : option st_t) : option (list rule * list nts) :=
    do st <- o;
    let '(_, _, _, d, ns) := st in Some (d, nts_sort ns).
  (** STStrategy.hpp:156-319 *)
  Definition st_rules (mn : nat) (order : list nat) (n : nat) : option (list rule * list nts) :=
    do bins <- st_fill order bins0;
    finish (run_levels (st_step mn) mn (length bins - 1)
              (bins, repeat None (length T), repeat false n, [], [])).
  (** BSTStrategy.hpp:135-293; the bins are cut to max_depth + 1 (:152) *)
  Definition bst_rules (mn : nat) (order : list nat) (n : nat) : option (list rule * list nts) :=
    do (bins, mx) <- bst_fill order bins0 0;
    finish (run_levels bst_step mn mx
              (firstn (mx + 1) bins, repeat None (length T), repeat false n, [], [])).
  (** SimSTStrategy.hpp:124-294; min_lrf is an unsigned short (:103, :125) *)
  Definition short (mn : N) : nat := N.to_nat (mn mod 65536)%N.
  Definition sim_rules (mn : N) (order : list nat) (n : nat) : option (list rule * list nts) :=
    do bins <- sim_fill order bins0;
    finish (run_levels (sim_step (short mn)) (short mn) (length bins - 1)
              (bins, repeat (Some []) (length T), repeat false n, [], [])).
End Tree.
