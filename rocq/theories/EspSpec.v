(** What a straight-line program generates (specification for the ESP
    compressor): numbers below 256 are bytes, number 256 + i is rule i, which
    generates what its two right-hand-side symbols generate, one after the
    other.  The symbols of a rule have smaller numbers than the rule itself.
    [h] bounds the height of the derivation tree. *)
From Verif Require Import Base.
Local Open Scope N_scope.

Inductive generates (rules : list (N * N)) : nat -> N -> list N -> Prop :=
| gen_byte h r : r < 256 -> generates rules h r [r]
| gen_rule h r a b x y : 256 <= r -> nth_error rules (N.to_nat (r - 256)) = Some (a, b) -> a < r -> b < r ->
    generates rules h a x -> generates rules h b y -> generates rules (S h) r (x ++ y).
