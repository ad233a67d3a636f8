(** Which texts the arithmetic coder can represent, and the shape of call sequences it supports. *)
From Verif Require Import Base Coders.
Local Open Scope N_scope.

Definition freq (text : list N) (c : N) : nat := count_occ N.eq_dec text c.

(** Fewer than 2^32 literals, no byte 255, and some least frequent literal [c] that is not NUL (so
    the text is not empty), with length / frequency below 2^31. *)
Definition arith_text (text : list N) : Prop :=
  N.of_nat (length text) < 2 ^ 32 /\ ~ In 255 text /\
  exists c, In c text /\ c <> 0 /\ (forall d, In d text -> (freq text c <= freq text d)%nat) /\
    N.of_nat (length text) / N.of_nat (freq text c) < 2 ^ 31.

(** All literal calls are consecutive. *)
Definition contiguous (cs : list call) : Prop :=
  exists pre ls post, cs = pre ++ map (fun v => (v, RLit)) ls ++ post /\
    (forall c, In c (pre ++ post) -> snd c <> RLit).
