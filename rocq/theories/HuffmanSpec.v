(** Specification vocabulary for the Huffman coder theorems. *)
From Coq Require Import Permutation Sorted.
From Verif Require Import Base Huffman.
Local Open Scope nat_scope.

(** What the C++ standard promises about make_heap, pop_heap, push_heap and sort
    (for some notion of "is a heap", which depends only on the keys of the
    elements). *)
Record stdlib_ok (L : stdlib) (is_heap : (nat -> nat) -> list nat -> Prop) : Prop := {
  heap_ext : forall k k' l, (forall x, In x l -> k x = k' x) -> is_heap k l -> is_heap k' l;
  make_heap_ok : forall k l, Permutation l (make_heap L k l) /\ is_heap k (make_heap L k l);
  pop_heap_ok : forall k l, l <> [] -> is_heap k l ->
    exists l' m, pop_heap L k l = l' ++ [m] /\ Permutation l (l' ++ [m]) /\
                 (forall x, In x l -> k m <= k x) /\ is_heap k l';
  push_heap_ok : forall k l x, is_heap k l ->
    Permutation (l ++ [x]) (push_heap L k (l ++ [x])) /\ is_heap k (push_heap L k (l ++ [x]));
  sort_ok : forall k l, Permutation l (std_sort L k l) /\
                        StronglySorted (fun x y => k x <= k y) (std_sort L k l) }.

(** The literals the coder is defined for: either byte 255 does not occur, or there is at
    most one distinct literal; and fewer than 2^32 literals (its counters are 32 bits wide). *)
Definition huff_lits (lits : list N) : Prop :=
  (Forall (fun c => (c < 255)%N) lits \/ (forall a b, In a lits -> In b lits -> a = b)) /\
  (N.of_nat (length lits) < 2 ^ 32)%N.

(** Codes a competitor may use: every symbol gets a bit string, and no symbol's string is
    a prefix of another's. *)
Definition prefix_of (a b : list bool) : Prop := exists r, b = a ++ r.
Definition prefix_free (text : list N) (code : N -> list bool) : Prop :=
  forall a b, In a text -> In b text -> prefix_of (code a) (code b) -> a = b.
