(** Model of the arithmetic helpers of util.hpp and of the text generators. *)
From Coq Require Import ZArith.
From Verif Require Import Base IntCodes.
Local Open Scope N_scope.

(** util.hpp:204-206 idiv_ceil on size_t; division by zero is undefined *)
Definition idiv_ceil (a b : N) : option N :=
  if b =? 0 then None else Some (w64 (a / b + N.b2n (0 <? a mod b))).

(** util.hpp:225-227 bytes_for *)
Definition bytes_for (n : N) : option N := do q <- idiv_ceil (bits_for n) 8; Some (w8 q).

(** util.hpp:484-486 round_up_div<T> for an unsigned T of [w] >= 32 bits
    (narrower types are promoted to int first): every operation wraps *)
Definition round_up_div (w x y : N) : option N :=
  if y =? 0 then None
  else Some (((x + y) mod 2 ^ w + (2 ^ w - 1)) mod 2 ^ w / y).

(** util.hpp:493-513 isqrt<int_t> for an unsigned int_t of [sz] bytes.
    :496: the shift distance is sizeof(int_t)-2, a size_t: for one byte it is
    huge and the shift is undefined. *)
Fixpoint isqrt_skip (fuel : nat) (num bit : N) : option N :=
  match fuel with
  | O => None
  | S fuel => if num <? bit then isqrt_skip fuel num (bit / 4) else Some bit
  end.
Fixpoint isqrt_loop (fuel : nat) (num res bit : N) : option N :=
  match fuel with
  | O => None
  | S fuel =>
      if bit =? 0 then Some res
      else if res + bit <=? num then isqrt_loop fuel (num - (res + bit)) (res / 2 + bit) (bit / 4)
      else isqrt_loop fuel num (res / 2) (bit / 4)
  end.
Definition isqrt (sz : nat) (num : N) : option N :=
  match sz with
  | S (S s) =>
      do bit <- isqrt_skip 64 num (2 ^ N.of_nat s);
      isqrt_loop 64 num 0 bit
  | _ => None
  end.

(** util.hpp:586-596 zero_or_next_power_of_two on uint64_t *)
Definition zero_or_next_power_of_two (x : N) : N :=
  let x := w64 (x + (2 ^ 64 - 1)) in
  let x := N.lor x (N.shiftr x 1) in
  let x := N.lor x (N.shiftr x 2) in
  let x := N.lor x (N.shiftr x 4) in
  let x := N.lor x (N.shiftr x 8) in
  let x := N.lor x (N.shiftr x 16) in
  let x := N.lor x (N.shiftr x 32) in
  w64 (x + 1).

(** util.hpp:556-570 shift_by_portable and shift_by_arithmetic, on unbounded
    integers (a result that does not fit the type is undefined in C++);
    [>>] on a non-negative number is floor division *)
Definition shift_by_portable (v a : Z) : Z :=
  (if v <? 0 then
     if a <? 0 then Z.lnot (Z.shiftr (Z.lnot v) (- a)) else - Z.shiftl (- v) a
   else if a <? 0 then Z.shiftr v (- a) else Z.shiftl v a)%Z.
Definition shift_by_arithmetic (v a : Z) : Z :=
  (if a <? 0 then Z.shiftr v (- a) else Z.shiftl v a)%Z.

(** util.hpp:515-520 lz78_expected_number_of_remaining_elements *)
Definition lz78_expected (z n rem : N) : option N :=
  if w64 (rem * 2) <? n then
    if n - rem =? 0 then None else Some (w64 (z * rem) / (n - rem))
  else Some (w64 (rem * 3) / bits_for rem).

(** ** Generators *)

(** generators/FibonacciGenerator.hpp:17-37; 97 = 'a', 98 = 'b'.  The reserve calls
    (which may throw for very large n) and the debug checks are left out. *)
Fixpoint fib_loop (k : nat) (vold old : list N) : list N :=
  match k with
  | O => old
  | S k => fib_loop k old (old ++ vold)
  end.
Definition fib_generate (n : nat) : list N :=
  match n with
  | 1%nat => [98]
  | 2%nat => [97]
  | _ => fib_loop (n - 2) [98] [97]
  end.

(** generators/ThueMorseGenerator.hpp:20-37; 48 = '0', 49 = '1'; CHECK_LT(n, 64) fails -> None *)
Fixpoint tm_loop (k : nat) (a : list N) : list N :=
  match k with
  | O => a
  | S k => tm_loop k (a ++ map (fun c => if c =? 48 then 49 else 48) a)
  end.
Definition tm_generate (n : nat) : option (list N) :=
  if (64 <=? n)%nat then None else
  match n with
  | O => Some [48]
  | _ => Some (tm_loop (n - 1) [48])
  end.

(** generators/RunRichGenerator.hpp:18-39 *)
Definition rr0 : list N := [48;49;49;48;49;48;49;49;48;49;48;48;49;48;49;49;48;49;48].
Definition rr1 : list N := [48;49;49;48;49;48;49;49;48;49;48;48;49].
Definition rr2 : list N := [48;49;49;48;49;48;49;49;48;49;48;48;49;48;49;49;48;49;48;49;49;48;49].
Fixpoint rr_loop (k i : nat) (t0 t1 t2 t3 : list N) : list N :=
  match k with
  | O => t3
  | S k =>
      let tmp := if (i mod 3 =? 0)%nat then t3 ++ t2 else t3 ++ t0 in
      rr_loop k (i + 1) t1 t2 t3 tmp
  end.
Definition rr_generate (n : nat) : list N :=
  match n with
  | O => rr0
  | 1%nat => rr1
  | 2%nat => rr2
  | _ => rr_loop (n - 4) 4 rr0 rr1 rr2 (rr2 ++ rr1)
  end.
