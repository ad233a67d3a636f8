(** Model of compressors/lfs/EncodeStrategy.hpp, ESAStrategy.hpp and LFSCompressor.hpp. *)
From Verif Require Import Base BitIO IntCodes Coders BitCoders Strategies.
Local Open Scope nat_scope.

(** EncodeStrategy.hpp:46: one rule is (position in the text, length);
    :43: one non-terminal is (position, rule number, length) *)
Notation rule := (nat * nat)%type.
Notation nts := (nat * nat * nat)%type.
(** [uint] is 32 bits wide; UINT_MAX *)
Definition uint_max : N := 4294967295%N.

Section Encode.
  Context (cl cn : bcoder).

  (** EncodeStrategy.hpp:93-99: the differences of the lengths *)
  Fixpoint delta_calls (first last : nat) (rs : list rule) : list call :=
    match rs with
    | [] => [(N.of_nat last, RInt 0 (N.of_nat first))]                          (* :101 *)
    | (_, l) :: rs' =>
        (w32 (N.of_nat last + 2 ^ 32 - N.of_nat l)%N, RInt 0 (N.of_nat first)) :: delta_calls first l rs'
    end.
  (** EncodeStrategy.hpp:82-105: the calls made on the length coder *)
  Definition length_calls (d : list rule) : list call :=
    match d with
    | [] => [(0%N, RInt 0 uint_max)]
    | (_, l) :: rs => (N.of_nat l, RInt 0 uint_max) :: delta_calls l l rs
    end.
  (** text[p], .., text[p+k-1] as literals (EncodeStrategy.hpp:124-127); an access outside is [None] *)
  Fixpoint lit_calls (text : list N) (p k : nat) : option (list call) :=
    match k with
    | O => Some []
    | S k' => do c <- nth_error text p; do r <- lit_calls text (p + 1) k'; Some ((c, RLit) :: r)
    end.
  (** EncodeStrategy.hpp:116-130 *)
  Fixpoint dict_calls (text : list N) (d : list rule) : option (list call) :=
    match d with
    | [] => Some []
    | (p, l) :: d' => do a <- lit_calls text p l; do b <- dict_calls text d'; Some (a ++ b)
    end.
  (** EncodeStrategy.hpp:156-167 and :178-185: literals of the start symbol, each behind a 0 bit *)
  Fixpoint plain_calls (text : list N) (p k : nat) : option (list call) :=
    match k with
    | O => Some []
    | S k' => do c <- nth_error text p; do r <- plain_calls text (p + 1) k'; Some ((0%N, RBit) :: (c, RLit) :: r)
    end.
  (** EncodeStrategy.hpp:147-185; [dn] is the size of the dictionary *)
  Fixpoint body_calls (text : list N) (dn : nat) (pos : nat) (ns : list nts) : option (list call) :=
    match ns with
    | [] => plain_calls text pos (length text - pos)
    | (st, sym, l) :: ns' =>
        do a <- plain_calls text pos (st - pos);
        do b <- body_calls text dn (Nat.max pos st + l) ns';
        Some (a ++ (1%N, RBit) :: (N.of_nat sym, RInt 0 (N.of_nat dn)) :: b)
    end.

  Fixpoint enc_seq (c : bcoder) (st : bc_st c) (cs : list call) : option (list bool) :=
    match cs with
    | [] => Some []
    | x :: cs' => do a <- bc_enc c st x; do b <- enc_seq c st cs'; Some (a ++ b)
    end.

  (** EncodeStrategy.hpp:62-188: lit_coder is constructed first and announces the text, len_coder
      announces nothing; both write to the same stream *)
  Definition lfs_encode (text : list N) (d : list rule) (ns : list nts) : option (list N) :=
    do (ls, h1) <- bc_init cl text;
    do (ns_, h2) <- bc_init cn [];
    do b1 <- enc_seq cn ns_ (length_calls d);
    do dc <- dict_calls text d;
    do b2 <- enc_seq cl ls dc;
    do bc <- body_calls text (length d) 0 ns;
    do b3 <- enc_seq cl ls bc;
    Some (bits_file (h1 ++ h2 ++ b1 ++ b2 ++ b3)).

  (** EncodeStrategy.hpp:210-216: lengths until one is 0 (the 0 itself is popped, :217) *)
  Fixpoint read_lengths (fuel : nat) (dn : bc_dst cn) (first cur : N) (s : bis) : option (list N * bis) :=
    if (cur =? 0)%N then Some ([], s)
    else match fuel with
    | O => None
    | S f =>
        do (dl, s) <- bc_dec cn (RInt 0 first) dn s;
        do (r, s) <- read_lengths f dn first (w32 (cur + 2 ^ 32 - w32 dl)%N) s;
        Some (cur :: r, s)
    end.
  (** EncodeStrategy.hpp:231-237 *)
  Fixpoint read_string (dl : bc_dst cl) (k : nat) (s : bis) : option (list N * bis) :=
    match k with
    | O => Some ([], s)
    | S k' => do (c, s) <- bc_dec cl RLit dl s; do (r, s) <- read_string dl k' s; Some (w8 c :: r, s)
    end.
  (** EncodeStrategy.hpp:229-239 *)
  Fixpoint read_dict (dl : bc_dst cl) (ls : list N) (s : bis) : option (list (list N) * bis) :=
    match ls with
    | [] => Some ([], s)
    | l :: ls' => do (a, s) <- read_string dl (N.to_nat l) s; do (r, s) <- read_dict dl ls' s; Some (a :: r, s)
    end.
  (** EncodeStrategy.hpp:242-261 *)
  Fixpoint read_body (fuel : nat) (dl : bc_dst cl) (dict : list (list N)) (s : bis) : option (list N) :=
    if bis_eof s then Some []
    else match fuel with
    | O => None
    | S f =>
        do (b, s) <- bc_dec cl RBit dl s;
        if (b =? 0)%N then
          do (c, s) <- bc_dec cl RLit dl s;
          do r <- read_body f dl dict s; Some (w8 c :: r)
        else
          do (y, s) <- bc_dec cl (RInt 0 (N.of_nat (length dict))) dl s;
          let x := match nth_error dict (N.to_nat (w32 y)) with Some t => t | None => [] end in
          do r <- read_body f dl dict s; Some (x ++ r)
    end.
  (** EncodeStrategy.hpp:190-262 *)
  Definition lfs_decode (fuel : nat) (file : list N) : option (list N) :=
    do (dl, s) <- bc_open cl (bis_open file);
    do (dn, s) <- bc_open cn s;
    do (l0, s) <- bc_dec cn (RInt 0 uint_max) dn s;
    do (ls, s) <- read_lengths fuel dn (w32 l0) (w32 l0) s;
    do (dict, s) <- read_dict dl ls s;
    read_body fuel dl dict s.
End Encode.

(** ** ESAStrategy.hpp; [sa] and [lcp] are the arrays of the text data structure *)
Section ESA.
  Context (sa lcp : list nat).

  (** abs((long)(a - b)) *)
  Definition absdiff (a b : nat) : nat := (a - b) + (b - a).

  (** :105-113: j runs down while j > 0 and lcp[j] > factor_length *)
  Fixpoint alt_dif (i fl j dif : nat) : option nat :=
    match j with
    | O => Some dif
    | S j' =>
        do l <- nth_error lcp j;
        if fl <? l then
          do a <- nth_error sa j; do b <- nth_error sa i;
          alt_dif i fl j' (Nat.max dif (absdiff a b))
        else Some dif
    end.
  (** :81-121, m entries from i on.  The bins are resized to max+1 (:87-90) *)
  Fixpoint fill_bins (i m mx : nat) (bins : list (list nat)) : option (list (list nat)) :=
    match m with
    | O => Some bins
    | S m' =>
        do l <- nth_error lcp i;
        if l <? 2 then fill_bins (i + 1) m' mx bins
        else
          let mx' := Nat.max mx l in
          let bins := bins ++ repeat [] (if mx <? l then l + 1 - length bins else 0) in
          do a <- pred_of sa i; do b <- nth_error sa i;
          let dif := absdiff a b in
          do dif <- alt_dif i (Nat.min l dif) (i - 1) dif;
          do bins <- bucket_push bins (Nat.min l dif) i;
          fill_bins (i + 1) m' mx' bins
    end.

  (** a candidate occurrence at p: free at its two ends (:167, :180) *)
  Definition alive (dead : list bool) (p len : nat) : option bool :=
    do a <- nth_error dead p;
    if a then Some false
    else do b <- nth_error dead (p + len - 1); Some (negb b).
  (** :171-175, :183-187: the variable shorter_dif is only ever decreased, down to the first dead
      position of an occurrence whose last position is dead; nothing else depends on it.  The loop
      is modelled for its termination and its array accesses. *)
  Fixpoint shorter (dead : list bool) (p len k : nat) : option nat :=
    do b <- nth_error dead (p + len - k);
    if b then Some k else match k with O => None | S k' => shorter dead p len k' end.
  Definition shorter_step (dead : list bool) (p len k : nat) : option nat :=
    do a <- nth_error dead p;
    if a then Some k
    else do b <- nth_error dead (p + len - 1); if b then shorter dead p len k else Some k.

  (** :166-179, downwards; sa[i-1].  lcp[0] = 0 ends the loop at the latest; an access to
      sa[-1] is [None] *)
  Fixpoint collect_down (dead : list bool) (len i k : nat) : option (list nat * nat) :=
    do l <- nth_error lcp i;
    if l <? len then Some ([], k)
    else match i with
    | O => None
    | S i' =>
        do p <- nth_error sa i';
        do a <- alive dead p len;
        do k <- shorter_step dead p len k;
        do (r, k) <- collect_down dead len i' k;
        Some ((if a then [p] else []) ++ r, k)
    end.
  (** :180-190, upwards; m entries left up to lcp.size() *)
  Fixpoint collect_up (dead : list bool) (len i m k : nat) : option (list nat * nat) :=
    match m with
    | O => Some ([], k)
    | S m' =>
        do l <- nth_error lcp i;
        if l <? len then Some ([], k)
        else
          do p <- nth_error sa i;
          do a <- alive dead p len;
          do k <- shorter_step dead p len k;
          do (r, k) <- collect_up dead len (i + 1) m' k;
          Some ((if a then [p] else []) ++ r, k)
    end.

  (** std::sort on numbers *)
  Fixpoint ins (x : nat) (l : list nat) : list nat :=
    match l with [] => [x] | y :: l' => if x <=? y then x :: l else y :: ins x l' end.
  Fixpoint isort (l : list nat) : list nat := match l with [] => [] | x :: l' => ins x (isort l') end.
  (** :26-46 select_starting_positions: [free] is last+length in uint arithmetic *)
  Fixpoint greedy (len free : nat) (l : list nat) : list nat :=
    match l with
    | [] => []
    | c :: l' => if free <=? c then c :: greedy len (c + len) l' else greedy len free l'
    end.
  Definition select_positions (len : nat) (l : list nat) : list nat := greedy len 0 (isort l).

  (** :205-208 *)
  Fixpoint mark_all (dead : list bool) (len : nat) (ps : list nat) : option (list bool) :=
    match ps with
    | [] => Some dead
    | p :: ps' => do dead <- mark dead p len; mark_all dead len ps'
    end.

  (** :146-224 one bin; state: dead positions, dictionary, non-terminals *)
  Notation esa_st := (list bool * list rule * list nts)%type.
  Fixpoint run_bin (len : nat) (bin : list nat) (st : esa_st) : option esa_st :=
    match bin with
    | [] => Some st
    | i :: bin' =>
        let '(dead, d, ns) := st in
        do (p1, k) <- collect_down dead len i len;
        do (p2, k) <- collect_up dead len i (length lcp - i) k;
        let ps := p1 ++ p2 in
        let sel := select_positions len ps in
        if (2 <=? length ps) && (2 <=? length sel) then
          do off <- nth_error sa i;
          do dead <- mark_all dead len sel;
          run_bin len bin' (dead, d ++ [(off, len)], ns ++ map (fun p => (p, length d, len)) sel)
        else run_bin len bin' st
    end.
  (** :145-225: the bins len, len-1, .., 2 *)
  Fixpoint run_bins (bins : list (list nat)) (len : nat) (st : esa_st) : option esa_st :=
    match len with
    | S (S _ as len') =>
        do bin <- nth_error bins len;
        do st <- run_bin len bin st;
        run_bins bins len' st
    | _ => Some st
    end.

  (** :229 std::sort of the triples: lexicographic; positions are pairwise different *)
  Fixpoint nts_ins (x : nts) (l : list nts) : list nts :=
    match l with
    | [] => [x]
    | y :: l' => if fst (fst x) <=? fst (fst y) then x :: l else y :: nts_ins x l'
    end.
  Fixpoint nts_sort (l : list nts) : list nts := match l with [] => [] | x :: l' => nts_ins x (nts_sort l') end.

  (** :67-232 compute_rules for a text of length n *)
  Definition esa_rules (n : nat) : option (list rule * list nts) :=
    do bins <- fill_bins 1 (length lcp - 1) 0 [];
    if length bins <? 2 then Some ([], [])                                   (* :127-130 *)
    else
      do (dead, d, ns) <- run_bins bins (length bins - 1) (repeat false n, [], []);
      Some (d, nts_sort ns).
End ESA.

(** LFSCompressor.hpp:50-94: rules are only computed for more than one byte *)
Definition lfs_compress (cl cn : bcoder) (rules : list N -> option (list rule * list nts)) (text : list N)
    : option (list N) :=
  do (d, ns) <- (if 1 <? length text then rules text else Some ([], []));
  lfs_encode cl cn text d ns.
