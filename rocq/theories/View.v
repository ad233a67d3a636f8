(** Model of pre_header/GenericViewBase.hpp (the base of View, GenericView<T> and
    ConstGenericView<T>, whose methods all forward to it: util/GenericView.hpp:20-330,
    util/GenericConstView.hpp:60-300, util/GenericConstU8View.hpp:20-290).

    A view is a pointer into a memory block and a size.  The block ([v_mem]) and the
    position of the pointer in it ([v_off]) are modelled explicitly; elements are
    unsigned integers.  [size_t] is [N] modulo 2^64.  [dbg] tells whether the DCHECKs and
    debug bound checks are compiled in (IF_DEBUG, GenericViewBase.hpp:61-67); a failed
    check, an exception and an access outside the block are [None]. *)
From Verif Require Import Base.
Local Open Scope N_scope.

Definition SZ : N := 2 ^ 64.
(** GenericViewBase.hpp:35 *)
Definition npos : N := SZ - 1.
(** size_t subtraction and addition *)
Definition szsub (a b : N) : N := (a + SZ - b mod SZ) mod SZ.
Definition szadd (a b : N) : N := (a + b) mod SZ.

(** GenericViewBase.hpp:37-38 *)
Record view := mk_view { v_mem : list N; v_off : N; v_size : N }.

(** reading m_data[n] *)
Definition v_deref (v : view) (n : N) : option N := nth_error (v_mem v) (N.to_nat (v_off v + n)).
(** GenericViewBase.hpp:40-49 bound_check, :51-59 bound_check_not_empty, :61-67 debug forms *)
Definition bound_ok (v : view) (n : N) : bool := n <? v_size v.
Definition v_empty (v : view) : bool := v_size v =? 0.
Definition guard {A} (chk ok : bool) (k : option A) : option A := if chk && negb ok then None else k.
(** GenericViewBase.hpp:133-136 operator[] *)
Definition v_index (dbg : bool) (v : view) (n : N) : option N := guard dbg (bound_ok v n) (v_deref v n).
(** :138-141 at *)
Definition v_at (v : view) (n : N) : option N := guard true (bound_ok v n) (v_deref v n).
(** :143-146 front, :148-151 back *)
Definition v_front (dbg : bool) (v : view) : option N := guard dbg (negb (v_empty v)) (v_deref v 0).
Definition v_back (dbg : bool) (v : view) : option N := guard dbg (negb (v_empty v)) (v_deref v (szsub (v_size v) 1)).
(** :157-160 pop_back, :162-166 pop_front *)
Definition v_pop_back (dbg : bool) (v : view) : option view :=
  guard dbg (negb (v_empty v)) (Some (mk_view (v_mem v) (v_off v) (szsub (v_size v) 1))).
Definition v_pop_front (dbg : bool) (v : view) : option view :=
  guard dbg (negb (v_empty v)) (Some (mk_view (v_mem v) (v_off v + 1) (szsub (v_size v) 1))).
(** :174-176 clear *)
Definition v_clear (v : view) : view := mk_view (v_mem v) (v_off v) 0.
(** :178-188 slice *)
Definition v_slice (dbg : bool) (v : view) (from to : N) : option view :=
  let to := if to =? npos then v_size v else to in
  guard dbg ((from <=? to) && (from <=? v_size v) && (to <=? v_size v))
    (Some (mk_view (v_mem v) (v_off v + from) (szsub to from))).
(** :190-196 substr *)
Definition v_substr (dbg : bool) (v : view) (pos len : N) : option view :=
  let len := if len =? npos then szsub (v_size v) pos else len in
  v_slice dbg v pos (szadd pos len).
(** :198-200 remove_prefix, :202-204 remove_suffix *)
Definition v_remove_prefix (dbg : bool) (v : view) (n : N) : option view := v_slice dbg v n npos.
Definition v_remove_suffix (dbg : bool) (v : view) (n : N) : option view :=
  v_slice dbg v 0 (szsub (v_size v) n).

(** std::equal(a.cbegin(), a.cend(), b.cbegin()) *)
Fixpoint eq_loop (v w : view) (k : nat) (i : N) : option bool :=
  match k with
  | O => Some true
  | S k' => do a <- v_deref v i; do b <- v_deref w i;
            if a =? b then eq_loop v w k' (i + 1) else Some false
  end.
(** :227-230 op_eq, :232-234 op_not_eq *)
Definition op_eq (v w : view) : option bool :=
  if negb (v_size v =? v_size w) then Some false else eq_loop v w (N.to_nat (v_size v)) 0.
Definition op_not_eq (v w : view) : option bool := do b <- op_eq v w; Some (negb b).
(** std::lexicographical_compare *)
Fixpoint lex_loop (v w : view) (k : nat) (i : N) : option bool :=
  if i =? v_size v then Some (negb (i =? v_size w))
  else if i =? v_size w then Some false
  else match k with
       | O => None
       | S k' => do a <- v_deref v i; do b <- v_deref w i;
                 if a <? b then Some true else if b <? a then Some false else lex_loop v w k' (i + 1)
       end.
(** :236-250 op_less, op_less_eq, op_greater, op_greater_eq *)
Definition op_less (v w : view) : option bool := lex_loop v w (N.to_nat (v_size v)) 0.
Definition op_greater (v w : view) : option bool := lex_loop w v (N.to_nat (v_size w)) 0.
Definition op_less_eq (v w : view) : option bool := do b <- op_greater v w; Some (negb b).
Definition op_greater_eq (v w : view) : option bool := do b <- op_less v w; Some (negb b).
(** :206-208 and :215-217, on one element *)
Definition v_starts_with1 (dbg : bool) (v : view) (c : N) : option bool :=
  if v_empty v then Some false else do x <- v_front dbg v; Some (x =? c).
Definition v_ends_with1 (dbg : bool) (v : view) (c : N) : option bool :=
  if v_empty v then Some false else do x <- v_back dbg v; Some (x =? c).
(** :210-213 and :219-222, on a view *)
Definition v_starts_with (dbg : bool) (v x : view) : option bool :=
  if v_size x <=? v_size v then do y <- v_slice dbg v 0 (v_size x); op_eq y x else Some false.
Definition v_ends_with (dbg : bool) (v x : view) : option bool :=
  if v_size x <=? v_size v then do y <- v_slice dbg v (szsub (v_size v) (v_size x)) npos; op_eq y x
  else Some false.
(** the elements a view shows (iterating begin() to end(), :89-95) *)
Definition v_elems (v : view) : list N := firstn (N.to_nat (v_size v)) (skipn (N.to_nat (v_off v)) (v_mem v)).
(** a view of a live block: its range lies inside the block, and the block is smaller
    than the address space *)
Definition v_live (v : view) : Prop :=
  v_off v + v_size v <= N.of_nat (length (v_mem v)) /\ v_size v < npos.
