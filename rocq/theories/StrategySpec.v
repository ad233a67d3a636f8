(** Specification of what a factorisation strategy must deliver, and of a priority queue
    (specification only). *)
From Verif Require Import Base LZSS LZSSSpec SASpec Strategies.
Local Open Scope nat_scope.

(** text position [x] is replaced by factor [f] *)
Definition covers (f : factor) (x : nat) : Prop := f_pos f <= x < f_pos f + f_len f.
(** no position is replaced twice *)
Definition disjoint (fs : list factor) : Prop :=
  ForallOrdPairs (fun f g => forall x, ~ (covers f x /\ covers g x)) fs.
(** what decompression needs of the factors, in whatever order they were found *)
Definition factorisation (text : list N) (thr : nat) (fs : list factor) : Prop :=
  Forall (fun f => thr <= f_len f /\ f_pos f + f_len f < length text /\ f_src f + f_len f < length text) fs /\
  disjoint fs /\ spells text fs /\ exists rank, descends rank fs.

(** the arrays a strategy is given: inverse suffix array, LCP array (entry 0 is 0), PLCP array
    (entry n-1 is arbitrary) and the maximum of the LCP array *)
Definition index_of (text : list N) (sa isa lcp plcp : list nat) (mx : nat) : Prop :=
  is_sa text sa /\ length isa = length text /\ length lcp = length text /\ length plcp = length text /\
  (forall i, i < length text -> nth_error isa (nth i sa 0) = Some i) /\
  nth_error lcp 0 = Some 0 /\
  (forall i, 1 <= i < length text ->
     nth_error lcp i = Some (lcp_at text (nth (i - 1) sa 0) (nth i sa 0)) /\
     nth_error plcp (nth i sa 0) = Some (lcp_at text (nth (i - 1) sa 0) (nth i sa 0)) /\
     lcp_at text (nth (i - 1) sa 0) (nth i sa 0) <= mx).

(** ** Max-priority queue over the items 0..n-1.  [V] are the states that can arise, [mem] says
    which items are contained and [key] is their key.  *)
Definition max_queue {Q : Type} (ops : queue Q) (n : nat) (V : Q -> Prop)
    (mem : Q -> nat -> bool) (key : Q -> nat -> nat) : Prop :=
  (forall q r, V q -> r < n -> q_has ops q r = Some (mem q r) /\ q_key ops q r = Some (key q r)) /\
  (forall q, V q -> q_size ops q = length (filter (mem q) (seq 0 n))) /\
  (forall q, V q -> q_size ops q <> 0 -> exists m, q_top ops q = Some m /\ m < n /\ mem q m = true /\
     forall r, r < n -> mem q r = true -> key q r <= key q m) /\
  (forall q i, V q -> i < n -> mem q i = true -> exists q', q_remove ops q i = Some q' /\ V q' /\
     forall r, r < n -> mem q' r = mem q r && negb (r =? i) /\ key q' r = key q r) /\
  (forall q i v, V q -> i < n -> mem q i = true -> 1 <= v <= key q i ->
     exists q', q_decrease ops q i v = Some q' /\ V q' /\
     forall r, r < n -> mem q' r = mem q r /\ key q' r = if r =? i then v else key q r).

(** the same without the promise that the top is a maximum *)
Definition bag_queue {Q : Type} (ops : queue Q) (n : nat) (V : Q -> Prop)
    (mem : Q -> nat -> bool) (key : Q -> nat -> nat) : Prop :=
  (forall q r, V q -> r < n -> q_has ops q r = Some (mem q r) /\ q_key ops q r = Some (key q r)) /\
  (forall q, V q -> q_size ops q = length (filter (mem q) (seq 0 n))) /\
  (forall q, V q -> q_size ops q <> 0 -> exists m, q_top ops q = Some m /\ m < n /\ mem q m = true) /\
  (forall q i, V q -> i < n -> mem q i = true -> exists q', q_remove ops q i = Some q' /\ V q' /\
     forall r, r < n -> mem q' r = mem q r && negb (r =? i) /\ key q' r = key q r) /\
  (forall q i v, V q -> i < n -> mem q i = true -> 1 <= v <= key q i ->
     exists q', q_decrease ops q i v = Some q' /\ V q' /\
     forall r, r < n -> mem q' r = mem q r /\ key q' r = if r =? i then v else key q r).

(** ** The greedy parsing of LZSS: at every position not inside a factor, the longest
    earlier occurrence of what follows is taken if it has at least [thr] characters *)
Inductive greedy_parse (text : list N) (thr : nat) : nat -> list factor -> Prop :=
| greedy_end : forall i, length text <= i + 1 -> greedy_parse text thr i []
| greedy_literal : forall i fs, i + 1 < length text ->
    (forall q, q < i -> lcp_at text q i < thr) ->
    greedy_parse text thr (i + 1) fs -> greedy_parse text thr i fs
| greedy_factor : forall i src l fs, i + 1 < length text ->
    thr <= l -> src < i -> lcp_at text src i = l -> (forall q, q < i -> lcp_at text q i <= l) ->
    greedy_parse text thr (i + l) fs -> greedy_parse text thr i (mk_f i src l :: fs).
