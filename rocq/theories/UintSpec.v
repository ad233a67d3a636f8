(** Specification for [uint_t<N>]: ordinary integer arithmetic. *)
From Verif Require Import Base.
From Verif Require Import UintT.
Open Scope Z_scope.

(** The mathematical result of an operator on two integers; division rounds
    towards zero, a left shift multiplies and a right shift divides by a
    power of two. *)
Definition exact (op : binop) (a b : Z) : Z :=
  match op with
  | Add => a + b
  | Sub => a - b
  | Mul => a * b
  | Div => Z.quot a b
  | Rem => Z.rem a b
  | And => Z.land a b
  | Or => Z.lor a b
  | Xor => Z.lxor a b
  | Shl => a * 2 ^ b
  | Shr => a / 2 ^ b
  end.

(** Ring and bitwise operators: reducing an operand modulo a power of two
    does not change the result modulo that power. *)
Definition modular (op : binop) : bool :=
  match op with
  | Add | Sub | Mul | And | Or | Xor => true
  | _ => false
  end.

(** A value of [uint_t<N>]. *)
Definition uvalue (n v : Z) : Prop := 0 <= v < 2 ^ n.

(** A well-formed operand: a [uint_t<N>] or a built-in integer. *)
Definition operand_ok (n : Z) (o : operand) : Prop :=
  match o with Self v => uvalue n v | Other t x => crep t x end.

(** Operand types for which the compound assignments compile. *)
Definition assignable (o : operand) : Prop :=
  match o with
  | Self _ => True
  | Other t _ => t <> SLong /\ t <> ULLong /\ t <> SLLong
  end.

(** The number of bits of the type an operation with this operand is
    computed in. *)
Definition opwidth (n : Z) (o : operand) : Z :=
  match o with
  | Self _ => if n <=? 32 then 32 else 64
  | Other t _ => if cwidth t =? 64 then 64 else if n <=? 32 then 32 else 64
  end.

(** The type an operator returns: that of the built-in operand if it has 64
    bits, otherwise 32-bit unsigned up to N = 32 and 64-bit unsigned above. *)
Definition restype (n : Z) (l r : operand) : cint :=
  match l, r with
  | Other t _, _ | Self _, Other t _ =>
      if cwidth t =? 64 then t else if n <=? 32 then UInt else ULong
  | Self _, Self _ => if n <=? 32 then UInt else ULong
  end.

(** At least one operand is a [uint_t<N>]. *)
Definition has_self (l r : operand) : Prop :=
  match l, r with Other _ _, Other _ _ => False | _, _ => True end.

(** An operand that is compared as the integer it is: any [uint_t<N>], any
    non-negative built-in integer that is not a signed 64-bit one, and any
    signed 64-bit one if N <= 63. *)
Definition comparable (n : Z) (o : operand) : Prop :=
  match o with
  | Self _ => True
  | Other t x => if csigned t && (cwidth t =? 64) then n <= 63 else 0 <= x
  end.
