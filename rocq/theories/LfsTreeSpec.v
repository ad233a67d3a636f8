(** What a suffix tree must satisfy for the LFS strategies (specification only). *)
From Verif Require Import Base LfsSpec LfsTree.
From Coq Require Import Permutation.
Local Open Scope nat_scope.

(** Every inner node spells a word of its depth; a leaf below it is a place in the text where that
    word occurs; an inner child is deeper, spells a longer word that starts with it, and has the
    node as its parent; a node has children, and its parent is less deep unless it is the root.  (Completeness - that every occurrence is below the
    node - and maximality of the edges are not needed.) *)
Definition spells (text : list N) (T : list tnode) (W : nat -> list N) : Prop :=
  forall x t, nth_error T x = Some t ->
    length (W x) = td_depth t /\ td_children t <> [] /\
    (0 < td_depth t -> exists p, nth_error T (td_parent t) = Some p /\ td_depth p < td_depth t) /\
    forall c, In c (td_children t) ->
      match c with
      | CLeaf s => s + td_depth t <= length text /\ piece text s (td_depth t) = W x
      | CInner y => exists u, nth_error T y = Some u /\ td_depth t < td_depth u /\ td_parent u = x /\
                      firstn (td_depth t) (W y) = W x
      end.
Definition tree_of (text : list N) (T : list tnode) : Prop := exists W, spells text T W.
(** a traversal visits every inner node once *)
Definition traversal (T : list tnode) (order : list nat) : Prop := Permutation order (seq 0 (length T)).
