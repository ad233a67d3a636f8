(** Model of compressors/lfs/LFS2Compressor.hpp and LFS2BSTCompressor.hpp.  The suffix tree
    (sdsl::cst_sct3, ds/BinarySuffixTree.hpp) is a parameter, as in LfsTree. *)
From Verif Require Import Base BitIO IntCodes Coders BitCoders Strategies Lfs LfsTree.
Local Open Scope nat_scope.

(** LFS2Compressor.hpp:48-58: first_layer_nts, fl_offsets, second_layer_nts, second_layer_dead,
    non_terminal_symbols *)
Record lay := mk_lay { y_fl : list nat; y_off : list nat; y_sl : list nat; y_dead : list bool; y_syms : list rule }.

(** non_terminal_symbols[v-1], for the numbers stored in the layers; v = 0 is the index 2^32-1 *)
Definition symbol (syms : list rule) (v : nat) : option rule :=
  match v with O => None | S k => nth_error syms k end.
(** a write into one of the vectors; outside it is [None] *)
Definition put {A} (l : list A) (i : nat) (v : A) : option (list A) :=
  if i <? length l then Some (upd l i v) else None.

(** LFS2Compressor.hpp:230-254 (LFS2BST:243-267): the occurrences that can be replaced in the text and
    those inside an already replaced one; [free] is last + i *)
Fixpoint viable (y : lay) (i free : nat) (occs : list nat) : option (list nat * list nat) :=
  match occs with
  | [] => Some ([], [])
  | o :: occs' =>
      if free <=? o then
        do f <- nth_error (y_off y) o;
        if f =? 0 then
          do g <- nth_error (y_off y) (o + i - 1);
          if g =? 0 then
            do (a, b) <- viable y i (o + i) occs'; Some (o :: a, b)
          else viable y i free occs'
        else
          do v <- nth_error (y_fl y) (o - (f - 1));
          do (_, l) <- symbol (y_syms y) v;
          do (a, b) <- viable y i free occs';
          Some (if f - 1 + i <=? l then (a, o :: b) else (a, b))
      else viable y i free occs'
  end.
(** :268-270 *)
Fixpoint mark_off (off : list nat) (o k m : nat) : option (list nat) :=
  match m with
  | O => Some off
  | S m' => do off <- put off (o + k) (k + 1); mark_off off o (k + 1) m'
  end.
(** :265-271 *)
Fixpoint mark_first (fl off : list nat) (num i : nat) (occs : list nat) : option (list nat * list nat) :=
  match occs with
  | [] => Some (fl, off)
  | o :: occs' => do fl <- put fl o num; do off <- mark_off off o 0 i; mark_first fl off num i occs'
  end.
(** :275-290 *)
Fixpoint mark_second (y : lay) (num i : nat) (occs : list nat) : option lay :=
  match occs with
  | [] => Some y
  | o :: occs' =>
      do f <- nth_error (y_off y) o;
      do v <- nth_error (y_fl y) (o - (f - 1));
      do (ps, _) <- symbol (y_syms y) v;
      let st := ps + f - 1 in
      do a <- nth_error (y_dead y) st;
      do b <- (if a then Some true else nth_error (y_dead y) (st + i - 1));
      if b then mark_second y num i occs'
      else
        do sl <- put (y_sl y) st num;
        do dead <- mark (y_dead y) st i;
        mark_second (mk_lay (y_fl y) (y_off y) sl dead (y_syms y)) num i occs'
  end.
(** :229-295: one candidate: the occurrences [occs] of a factor of length [i].  nts_number is one
    more than the number of rules made in this run: [base] rules were there before it *)
Definition candidate (base : nat) (y : lay) (i : nat) (occs : list nat) : option lay :=
  do (a, b) <- viable y i 0 occs;
  match a with
  | o :: _ =>
      if 2 <=? length a + length b then
        let num := length (y_syms y) - base + 1 in
        let syms := y_syms y ++ [(o, i)] in
        do (fl, off) <- mark_first (y_fl y) (y_off y) num i a;
        mark_second (mk_lay fl off (y_sl y) (y_dead y) syms) num i b
      else Some y
  | [] => Some y
  end.

Section Tree.
  Context (T : list tnode) (n base : nat).
  Notation st2 := (bins_t * list (option (list nat)) * lay)%type.
  (** the leaves are not filtered: no position counts as dead *)
  Definition all_alive : list bool := repeat false n.

  (** LFS2Compressor.hpp:170-317, one node of bin [i]; with [exact], a node whose occurrences are
      closer together goes into the bin of their distance (:300-312) *)
  Definition lfs2_step (exact : bool) (i x : nat) (st : st2) : option st2 :=
    let '(bins, bp, y) := st in
    do e <- nth_error bp x;
    do (l, bp) <- match e with Some (z :: l) => Some (z :: l, bp) | _ => gather T (Some []) all_alive x bp end;
    match ends l with
    | None => Some (bins, bp, y)
    | Some (f, b) =>
        if 2 <=? length l then
          if i <=? b - f then do y <- candidate base y i l; Some (bins, bp, y)
          else if exact then
            do t <- nth_error T x; do p <- nth_error T (td_parent t);
            if td_depth p <? b - f then do bins <- bucket_push bins (b - f) x; Some (bins, bp, y)
            else Some (bins, bp, y)
          else Some (bins, bp, y)
        else Some (bins, bp, y)
    end.
  (** LFS2BSTCompressor.hpp:166-314 *)
  Definition lfs2bst_step (i x : nat) (st : st2) : option st2 :=
    let '(bins, bp, y) := st in
    do e <- nth_error bp x;
    do (l, bp) <- match e with Some l => Some (l, bp) | None => gather T None all_alive x bp end;
    match ends l with
    | None => Some (bins, bp, y)
    | Some (f, b) =>
        if (2 <=? length l) && (i <=? b - f) then do y <- candidate base y i l; Some (bins, bp, y)
        else Some (bins, bp, y)
    end.

  Fixpoint run_nodes2 (step : nat -> nat -> st2 -> option st2) (i : nat) (bin : list nat) (st : st2) : option st2 :=
    match bin with
    | [] => Some st
    | x :: bin' => do st <- step i x st; run_nodes2 step i bin' st
    end.
  (** :167-319: a bin is emptied from its back; nodes are only added to lower bins.  For
      min_lrf = 0 the counter wraps *)
  Fixpoint run_levels2 (step : nat -> nat -> st2 -> option st2) (mn i : nat) (st : st2) : option st2 :=
    if i <? mn then Some st
    else
      let '(bins, bp, y) := st in
      do bin <- nth_error bins i;
      do st <- run_nodes2 step i (rev bin) (upd bins i [], bp, y);
      match i with O => None | S i' => run_levels2 step mn i' st end.

  (** :105-109: the vectors are created anew; the rules are those the object already has *)
  Definition lay0 (syms : list rule) : lay := mk_lay (repeat 0 n) (repeat 0 n) (repeat 0 n) (repeat false n) syms.
End Tree.

(** :121-123: trailing NULs are not given to the suffix tree; reading in[-1] is [None] *)
Fixpoint strip_nul (r : list N) : option nat :=
  match r with [] => None | c :: r' => if (c =? 0)%N then strip_nul r' else Some (length r) end.

(** std::vector::resize *)
Definition resize {A} (d : A) (k : nat) (l : list A) : list A := firstn k l ++ repeat d (k - length l).
(** what stays in the object from one call of compress() to the next: bins, node_begins (:62-66) and
    non_terminal_symbols; the other members are created anew (:106-109) *)
Notation lfs2_obj := (bins_t * list (option (list nat)) * list rule)%type.
(** LFS2Compressor.hpp:94-323 *)
Definition lfs2_run (T : list tnode) (exact : bool) (mn : nat) (order : list nat) (text : list N) (o : lfs2_obj)
    : option (bins_t * list (option (list nat)) * lay) :=
  let '(bins, bp, syms) := o in
  let n := length text in
  if mn <=? n then
    do _ <- strip_nul (rev text);
    do bins <- sim_fill T order (resize [] 200 bins);
    run_levels2 (lfs2_step T n (length syms) exact) mn (length bins - 1) (bins, resize (Some []) (length T) bp, lay0 n syms)
  else Some (bins, bp, lay0 n syms).
(** an object that has never been used *)
Definition lfs2_layers (T : list tnode) (exact : bool) (mn : nat) (order : list nat) (text : list N) : option lay :=
  do (_, _, y) <- lfs2_run T exact mn order text ([], [], []); Some y.
(** an object that has compressed [text1] before *)
Definition lfs2_layers_again (T1 T : list tnode) (exact : bool) (mn : nat) (order1 order : list nat) (text1 text : list N) : option lay :=
  do (bins, bp, y1) <- lfs2_run T1 exact mn order1 text1 ([], [], []);
  do (_, _, y) <- lfs2_run T exact mn order text (bins, bp, y_syms y1); Some y.
(** LFS2BSTCompressor.hpp:119-318 *)
Definition lfs2bst_layers (T : list tnode) (mn : nat) (order : list nat) (text : list N) : option lay :=
  let n := length text in
  if mn <=? n then
    do (bins, mx) <- bst_fill T order bins0 0;
    do (_, _, y) <- run_levels2 (lfs2bst_step T n 0) mn mx (firstn (mx + 1) bins, repeat None (length T), lay0 n []);
    Some y
  else Some (lay0 n []).

(** ** the encoding (LFS2Compressor.hpp:376-525) *)
(** :376-393 the literals announced to the coder *)
Fixpoint free_lits (text : list N) (off : list nat) : list N :=
  match text, off with
  | c :: text', f :: off' => (if f =? 0 then [c] else []) ++ free_lits text' off'
  | _, _ => []
  end.
Definition rule_lits (text : list N) (sl : list nat) (r : rule) : list N :=
  free_lits (firstn (snd r) (skipn (fst r) text)) (firstn (snd r) (skipn (fst r) sl)).
Definition announced (text : list N) (y : lay) : list N :=
  free_lits text (y_off y) ++ concat (map (rule_lits text (y_sl y)) (y_syms y)).

Inductive item := ILit (c : N) | ISym (v : nat).
(** :454-470 and :489-504: the positions from [p] to [e] of one layer *)
Fixpoint walk (text : list N) (syms : list rule) (layer : list nat) (fuel p e : nat) : option (list item) :=
  if p <? e then
    match fuel with
    | O => None
    | S f =>
        do v <- nth_error layer p;
        if v =? 0 then
          do c <- nth_error text p;
          do r <- walk text syms layer f (p + 1) e; Some (ILit c :: r)
        else
          do (_, l) <- symbol syms v;
          do r <- walk text syms layer f (p + l) e; Some (ISym v :: r)
    end
  else Some [].
(** :448-472: the rules, from the last to the first *)
Fixpoint rule_items (text : list N) (syms : list rule) (sl : list nat) (rs : list rule) : option (list item) :=
  match rs with
  | [] => Some []
  | (p, l) :: rs' =>
      do a <- walk text syms sl l p (p + l);
      do b <- rule_items text syms sl rs'; Some (a ++ b)
  end.
Definition item_calls (dn : nat) (it : item) : list call :=
  match it with
  | ILit c => [(0%N, RBit); (c, RLit)]
  | ISym v => [(1%N, RBit); (N.of_nat v, RInt 0 (N.of_nat dn))]
  end.

Section Encode.
  Context (cl cn : bcoder).
  (** :396-524 *)
  Definition lfs2_encode (text : list N) (y : lay) : option (list N) :=
    let dn := length (y_syms y) in
    do (ls, h1) <- bc_init cl (announced text y);
    do (ns_, h2) <- bc_init cn [];
    do b1 <- enc_seq cn ns_ (length_calls (y_syms y));
    do ri <- rule_items text (y_syms y) (y_sl y) (rev (y_syms y));
    do b2 <- enc_seq cl ls (flat_map (item_calls dn) ri);
    do si <- walk text (y_syms y) (y_fl y) (length text) 0 (length text);
    do b3 <- enc_seq cl ls (flat_map (item_calls dn) si);
    Some (bits_file (h1 ++ h2 ++ b1 ++ b2 ++ b3)).

  (** :577-604: one rule; [cur] is size_cur (the loop ends at 0 or below).  A number that is no
      rule ends it *)
  Fixpoint read_rule (fuel : nat) (dl : bc_dst cl) (lens : list N) (dict : list (list N)) (cur : N) (s : bis)
      : option (list N * bis) :=
    if (cur =? 0)%N then Some ([], s)
    else match fuel with
    | O => None
    | S f =>
        do (b, s) <- bc_dec cl RBit dl s;
        if (b =? 0)%N then
          do (c, s) <- bc_dec cl RLit dl s;
          do (r, s) <- read_rule f dl lens dict (cur - 1) s; Some (w8 c :: r, s)
        else
          do (v, s) <- bc_dec cl (RInt 0 (N.of_nat (length lens))) dl s;
          let k := N.to_nat (w32 (w32 v + 2 ^ 32 - 1)%N) in
          match nth_error dict k, nth_error lens k with
          | Some w, Some l => do (r, s) <- read_rule f dl lens dict (cur - l) s; Some (w ++ r, s)
          | _, _ => Some ([], s)
          end
    end.
  (** :572-609: rules i-1, .., 0 *)
  Fixpoint read_rules (fuel i : nat) (dl : bc_dst cl) (lens : list N) (dict : list (list N)) (s : bis)
      : option (list (list N) * bis) :=
    match i with
    | O => Some (dict, s)
    | S i' =>
        do l <- nth_error lens i';
        do (w, s) <- read_rule fuel dl lens dict l s;
        read_rules fuel i' dl lens (upd dict i' w) s
    end.
  (** :613-636 *)
  Fixpoint read_start (fuel : nat) (dl : bc_dst cl) (dict : list (list N)) (s : bis) : option (list N) :=
    if bis_eof s then Some []
    else match fuel with
    | O => None
    | S f =>
        do (b, s) <- bc_dec cl RBit dl s;
        if (b =? 0)%N then
          do (c, s) <- bc_dec cl RLit dl s;
          do r <- read_start f dl dict s; Some (w8 c :: r)
        else
          do (v, s) <- bc_dec cl (RInt 0 (N.of_nat (length dict))) dl s;
          let w := match nth_error dict (N.to_nat (w32 (w32 v + 2 ^ 32 - 1)%N)) with Some t => t | None => [] end in
          do r <- read_start f dl dict s; Some (w ++ r)
    end.
  (** :527-637 *)
  Definition lfs2_decode (fuel : nat) (file : list N) : option (list N) :=
    do (dl, s) <- bc_open cl (bis_open file);
    do (dn, s) <- bc_open cn s;
    do (l0, s) <- bc_dec cn (RInt 0 uint_max) dn s;
    do (ls, s) <- read_lengths cn fuel dn (w32 l0) (w32 l0) s;
    do (dict, s) <- read_rules fuel (length ls) dl ls (repeat [] (length ls)) s;
    read_start fuel dl dict s.
End Encode.

(** the two compressors *)
Definition lfs2_compress (cl cn : bcoder) (T : list tnode) (exact : bool) (mn : nat) (order : list nat) (text : list N) : option (list N) :=
  do y <- lfs2_layers T exact mn order text; lfs2_encode cl cn text y.
Definition lfs2bst_compress (cl cn : bcoder) (T : list tnode) (mn : nat) (order : list nat) (text : list N) : option (list N) :=
  do y <- lfs2bst_layers T mn order text; lfs2_encode cl cn text y.
