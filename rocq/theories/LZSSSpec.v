(** What a correct factorisation of a text is (specification only; used by the LZSS and
    lcpcomp theorems).  A factor (pos, src, len) says: text[pos..pos+len) is a copy of
    text[src..src+len). *)
From Verif Require Import Base LZSS.
Local Open Scope nat_scope.

(** ** Specification notions *)
(** factors in text order, not overlapping, non-empty, inside the text *)
Fixpoint factors_ok (p n : nat) (fs : list factor) : Prop :=
  match fs with
  | [] => p <= n
  | f :: fs' => p <= f_pos f /\ 1 <= f_len f /\ f_src f + f_len f <= n /\
                factors_ok (f_pos f + f_len f) n fs'
  end.
(** every factor's source spells the substring it stands for *)
Definition spells (text : list N) (fs : list factor) : Prop :=
  forall f j, In f fs -> j < f_len f -> nth_error text (f_src f + j) = nth_error text (f_pos f + j).
(** following references decreases [rank]; no cycles.  For factors that point to
    the left [rank] is the position itself. *)
Definition descends (rank : nat -> nat) (fs : list factor) : Prop :=
  forall f j, In f fs -> j < f_len f -> rank (f_src f + j) < rank (f_pos f + j).

(** same positions and lengths, sources may differ *)
Definition same_shape (fs fs' : list factor) : Prop :=
  map (fun f => (f_pos f, f_len f)) fs = map (fun f => (f_pos f, f_len f)) fs'.
