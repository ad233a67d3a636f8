(** Specification of the words the text generators are named after, independent of the model. *)
From Verif Require Import Base.
Local Open Scope nat_scope.

(** f(1) = b, f(2) = a, f(n) = f(n-1) f(n-2) *)
Inductive fib_word : nat -> list N -> Prop :=
| fib_1 : fib_word 1 [98%N]
| fib_2 : fib_word 2 [97%N]
| fib_n : forall n u v, fib_word (S n) u -> fib_word n v -> fib_word (S (S n)) (u ++ v).

(** number of ones of i in binary is odd *)
Fixpoint odd_ones_pos (p : positive) : bool :=
  match p with xH => true | xO p => odd_ones_pos p | xI p => negb (odd_ones_pos p) end.
Definition odd_ones (i : nat) : bool := match N.of_nat i with N0 => false | Npos p => odd_ones_pos p end.
(** the first m letters of the Thue-Morse sequence *)
Definition thue_morse (m : nat) : list N := map (fun i => if odd_ones i then 49%N else 48%N) (seq 0 m).

(** the run-rich series of Matsubara et al.: t0, t1, t2 given, t3 = t2 t1,
    t(k) = t(k-1) t(k-2) if 3 divides k and t(k-1) t(k-4) otherwise *)
Inductive run_rich (t0 t1 t2 : list N) : nat -> list N -> Prop :=
| rr_0 : run_rich t0 t1 t2 0 t0
| rr_1 : run_rich t0 t1 t2 1 t1
| rr_2 : run_rich t0 t1 t2 2 t2
| rr_3 : run_rich t0 t1 t2 3 (t2 ++ t1)
| rr_k0 : forall k u v, 4 <= k -> k mod 3 = 0 ->
    run_rich t0 t1 t2 (k - 1) u -> run_rich t0 t1 t2 (k - 2) v -> run_rich t0 t1 t2 k (u ++ v)
| rr_k1 : forall k u v, 4 <= k -> k mod 3 <> 0 ->
    run_rich t0 t1 t2 (k - 1) u -> run_rich t0 t1 t2 (k - 4) v -> run_rich t0 t1 t2 k (u ++ v).
