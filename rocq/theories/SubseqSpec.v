(** A partition of a sequence of positions into monotone subsequences (specification
    for the coding "succinct"): [dpi] gives the number of the subsequence of each
    entry of [sis], every number below the length of [b] is used, and the entries of
    subsequence l rise, or fall if [b] says so. *)
From Verif Require Import Base.

Definition subseq_ok (sis dpi : list nat) (b : list bool) : Prop :=
  length dpi = length sis /\
  (forall i, i < length sis -> nth i dpi 0 < length b) /\
  (forall l, l < length b -> exists i, i < length sis /\ nth i dpi 0 = l) /\
  (forall i j, i < j < length sis -> nth i dpi 0 = nth j dpi 0 ->
     if nth (nth i dpi 0) b false then nth j sis 0 < nth i sis 0 else nth i sis 0 < nth j sis 0).

(** [sis] lists the numbers below its length, each once *)
Definition is_perm (sis : list nat) : Prop := NoDup sis /\ forall x, In x sis <-> x < length sis.

(** [s]: indices of [sis] whose entries rise, or fall if [down] *)
Definition mono (sis s : list nat) (down : bool) : Prop :=
  forall i j, In i s -> In j s -> i < j -> if down then nth j sis 0 < nth i sis 0 else nth i sis 0 < nth j sis 0.
(** Subsequence l is as long as any monotone subsequence of the entries that the
    subsequences before it left over *)
Definition longest_ok (sis dpi : list nat) (b : list bool) : Prop :=
  forall l, l < length b -> forall T down, NoDup T -> (forall i, In i T -> i < length sis /\ l <= nth i dpi 0) -> mono sis T down ->
    length T <= length (filter (fun i => nth i dpi 0 =? l) (seq 0 (length sis))).
