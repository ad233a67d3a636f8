(** Specification of suffix arrays (specification only). *)
From Coq Require Export Permutation.
From Verif Require Import Base.
Local Open Scope nat_scope.

(** strict lexicographic order of byte strings; a proper prefix is smaller *)
Fixpoint lexb (a b : list N) : bool :=
  match a, b with
  | [], [] => false
  | [], _ :: _ => true
  | _ :: _, [] => false
  | x :: a', y :: b' => (x <? y)%N || ((x =? y)%N && lexb a' b')
  end.
Definition suffix (text : list N) (i : nat) : list N := skipn i text.
Definition suf_lt (text : list N) (i j : nat) : bool := lexb (suffix text i) (suffix text j).
(** sa lists all positions, in increasing order of their suffixes *)
Definition is_sa (text : list N) (sa : list nat) : Prop :=
  Permutation sa (seq 0 (length text)) /\
  (forall i j, i < j < length text -> suf_lt text (nth i sa 0) (nth j sa 0) = true).
(** the text ends in its only NUL byte *)
Definition terminated (text : list N) : Prop :=
  exists body, text = body ++ [0%N] /\ Forall (fun c => c <> 0%N) body.
(** length of the longest common prefix of two strings *)
Fixpoint lcp_len (a b : list N) : nat :=
  match a, b with
  | x :: a', y :: b' => if (x =? y)%N then S (lcp_len a' b') else O
  | _, _ => O
  end.
Definition lcp_at (text : list N) (i j : nat) : nat := lcp_len (suffix text i) (suffix text j).
