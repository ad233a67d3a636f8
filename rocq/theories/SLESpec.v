(** What a user of the SLE coder relies on, in terms of the calls made. *)
From Verif Require Import Base BitIO IntCodes Coders LooseCoders SLE.
Local Open Scope N_scope.

(** the same call with a plain Range *)
Definition plain (c : scall) : call :=
  match c with (v, SR r) => (v, r) | (v, SMin mn mx) => (v, RInt mn mx) end.
(** a value inside its range *)
Definition scall_ok (c : scall) : Prop := call_ok (plain c).
(** the literals among the calls *)
Definition slits (cs : list scall) : list N := lits_of (map plain cs).

(** the file written by an encoder that announced [lits] and made the calls [cs] *)
Definition sle_file (k : nat) (ub : N) (lits : list (N * N)) (cs : list scall) : option (list N) :=
  do b <- sle_bits k ub lits cs; Some (bits_file b).
(** a reader asking for values in the ranges [rs]; before each it sees eof() = false, and after
    the last it sees eof() = true (otherwise: None) *)
Fixpoint sle_read (k : nat) (rs : list srng) (d : sdec) (s : bis) : option (list N) :=
  match rs with
  | [] => if sle_eof d s then Some [] else None
  | r :: rs => if sle_eof d s then None
               else do (v, d, s) <- sle_dec bis_read_bit k r d s;
                    do vs <- sle_read k rs d s;
                    Some (v :: vs)
  end.
Definition sle_decode (k : nat) (rs : list srng) (f : list N) : option (list N) :=
  do (d, s) <- sle_open bis_read_bit (bis_open f); sle_read k rs d s.
