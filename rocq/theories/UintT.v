(** [uint_t<N>], the unsigned integer of N bits, with all its operators.

    Models include/tudocomp/ds/uint_t.hpp and
    include/tudocomp/util/IntegerBase.hpp on x86-64 Linux (LP64, two's
    complement; plain [char] is signed there and is covered by [SChar]).
    A C++ integer of a built-in type is a pair of its type and its value in
    [Z]; [None] is undefined behaviour, or an expression that does not
    compile where a definition says so. *)
From Verif Require Import Base.
From Coq.Floats Require Import SpecFloat.
Open Scope Z_scope.

(** ** The built-in types and their arithmetic (the C++ standard's rules,
       C++14 [conv.integral], [conv.prom], [expr]). *)
Inductive cint : Set :=
| UChar | SChar | UShort | SShort | UInt | SInt
| ULong | SLong | ULLong | SLLong.

Definition cwidth (t : cint) : Z :=
  match t with
  | UChar | SChar => 8
  | UShort | SShort => 16
  | UInt | SInt => 32
  | ULong | SLong | ULLong | SLLong => 64
  end.

Definition csigned (t : cint) : bool :=
  match t with
  | SChar | SShort | SInt | SLong | SLLong => true
  | _ => false
  end.

(** The values of a type. *)
Definition crep (t : cint) (z : Z) : Prop :=
  if csigned t then - 2 ^ (cwidth t - 1) <= z < 2 ^ (cwidth t - 1)
  else 0 <= z < 2 ^ cwidth t.

Definition crepb (t : cint) (z : Z) : bool :=
  if csigned t then (- 2 ^ (cwidth t - 1) <=? z) && (z <? 2 ^ (cwidth t - 1))
  else (0 <=? z) && (z <? 2 ^ cwidth t).

(** Conversion to a type: modulo 2^width; for signed types this is
    implementation-defined and gcc and clang wrap. *)
Definition cconv (t : cint) (z : Z) : Z :=
  let m := z mod 2 ^ cwidth t in
  if csigned t && (2 ^ (cwidth t - 1) <=? m) then m - 2 ^ cwidth t else m.

Definition cpromote (t : cint) : cint := if cwidth t <? 32 then SInt else t.

Definition crank (t : cint) : nat :=
  match t with
  | ULong | SLong => 2
  | ULLong | SLLong => 3
  | _ => 1
  end.

Definition unsigned_of (t : cint) : cint :=
  match t with
  | SChar => UChar | SShort => UShort | SInt => UInt
  | SLong => ULong | SLLong => ULLong | t => t
  end.

(** The usual arithmetic conversions, on promoted types. *)
Definition ccommon (a b : cint) : cint :=
  if Bool.eqb (csigned a) (csigned b)
  then (if Nat.leb (crank a) (crank b) then b else a)
  else
    let '(s, u) := if csigned a then (a, b) else (b, a) in
    if Nat.leb (crank s) (crank u) then u
    else if cwidth u <? cwidth s then s
    else unsigned_of s.

Inductive binop : Set :=
| Add | Sub | Mul | Div | Rem | And | Or | Xor | Shl | Shr.

Inductive cmpop : Set := Eq | Ne | Gt | Lt | Ge | Le.

(** The result of an operation in type [t]: unsigned wraps, signed overflow
    is undefined. *)
Definition cresult (t : cint) (z : Z) : option Z :=
  if csigned t then (if crepb t z then Some z else None) else Some (cconv t z).

Definition carith (t : cint) (op : binop) (a b : Z) : option Z :=
  match op with
  | Add => cresult t (a + b)
  | Sub => cresult t (a - b)
  | Mul => cresult t (a * b)
  | Div => if b =? 0 then None else cresult t (Z.quot a b)
  | Rem => if b =? 0 then None
           else if crepb t (Z.quot a b) then cresult t (Z.rem a b) else None
  | And => cresult t (Z.land a b)
  | Or => cresult t (Z.lor a b)
  | Xor => cresult t (Z.lxor a b)
  | Shl | Shr => None
  end.

(** Shifts: the type is that of the promoted left operand; a count outside
    [0, width) is undefined, and so is the left shift of a negative number
    or out of the corresponding unsigned type. *)
Definition cshift (t : cint) (op : binop) (a b : Z) : option Z :=
  if (b <? 0) || (cwidth t <=? b) then None
  else match op with
  | Shl =>
      if csigned t
      then (if (a <? 0) || (2 ^ cwidth t <=? a * 2 ^ b) then None
            else Some (cconv t (a * 2 ^ b)))
      else Some (cconv t (a * 2 ^ b))
  | Shr => Some (a / 2 ^ b)
  | _ => None
  end.

(** A built-in binary operator on [a] of type [ta] and [b] of type [tb]. *)
Definition cbin (op : binop) (ta : cint) (a : Z) (tb : cint) (b : Z) : option Z :=
  match op with
  | Shl | Shr => cshift (cpromote ta) op a b
  | _ => let t := ccommon (cpromote ta) (cpromote tb) in
         carith t op (cconv t a) (cconv t b)
  end.

Definition zcmp (op : cmpop) (a b : Z) : bool :=
  match op with
  | Eq => a =? b
  | Ne => negb (a =? b)
  | Gt => b <? a
  | Lt => a <? b
  | Ge => b <=? a
  | Le => a <=? b
  end.

Definition ccmp (op : cmpop) (ta : cint) (a : Z) (tb : cint) (b : Z) : bool :=
  let t := ccommon (cpromote ta) (cpromote tb) in
  zcmp op (cconv t a) (cconv t b).

(** ** [uint_impl_t<N>] *)

(** [uint64_t m_data: bits] and the constructors and assignments from the
    built-in types (ds/uint_t.hpp:74-131): the value is converted to
    [uint64_t] and truncated to N bits. *)
Definition ustore (n : Z) (z : Z) : Z := (cconv ULong z) mod 2 ^ n.

(** The conversion operators (ds/uint_t.hpp:87-131) and
    [UinttDispatch::cast_for_op] (ds/uint_t.hpp:22-25). *)
Definition uload (t : cint) (v : Z) : Z := cconv t v.

(** [Dispatch::SelfMaxBit] (ds/uint_t.hpp:28-48). *)
Definition selfmax (n : Z) : cint := if n <=? 32 then UInt else ULong.

(** [UinttDispatch::assign] (ds/uint_t.hpp:17-20). *)
Definition uassign (n : Z) (z : Z) : Z := ustore n z.

(** The bases of [ConstIntegerBase] (util/IntegerBase.hpp:183-197): the
    types of 32 bits or fewer use [...With32], those of 64 bits [...With64]. *)
Definition with64 (t : cint) : bool := cwidth t =? 64.

Inductive operand : Type :=
| Self (v : Z)
| Other (t : cint) (x : Z).

Definition oval (o : operand) : Z :=
  match o with Self v => v | Other _ x => x end.

(** The binary operators (util/IntegerBase.hpp:33-61 for [With32], 93-121
    for [With64], 153-163 for two [uint_t]s): the result type and value. *)
Definition ubin (n : Z) (op : binop) (l r : operand) : option (cint * Z) :=
  let m := selfmax n in
  match l, r with
  | Self a, Self b =>
      do z <- cbin op m (uload m a) m (uload m b); Some (m, cconv m z)
  | Self a, Other t x =>
      if with64 t
      then do z <- cbin op t (cconv t (uload ULong a)) t x; Some (t, cconv t z)
      else do z <- cbin op m (uload m a) t x; Some (m, cconv m z)
  | Other t x, Self b =>
      if with64 t
      then do z <- cbin op t x t (cconv t (uload ULong b)); Some (t, cconv t z)
      else do z <- cbin op t x m (uload m b); Some (m, cconv m z)
  | Other _ _, Other _ _ => None
  end.

(** [operator~] (util/IntegerBase.hpp:161). *)
Definition unot (n : Z) (a : Z) : cint * Z :=
  let m := selfmax n in (m, cconv m (Z.lnot (uload m a))).

(** The comparisons (util/IntegerBase.hpp:63-79, 123-139, 164-169). *)
Definition ucmp (n : Z) (op : cmpop) (l r : operand) : option bool :=
  let m := selfmax n in
  match l, r with
  | Self a, Self b => Some (ccmp op m (uload m a) m (uload m b))
  | Self a, Other t x =>
      if with64 t then Some (ccmp op t (cconv t (uload ULong a)) t x)
      else Some (ccmp op m (uload m a) t x)
  | Other t x, Self b =>
      if with64 t then Some (ccmp op t x t (cconv t (uload ULong b)))
      else Some (ccmp op t x m (uload m b))
  | Other _ _, Other _ _ => None
  end.

(** The overloads [assign(Self&, uint32_t)] and [assign(Self&, uint64_t)]
    (util/IntegerBase.hpp:202-208, 225-231, 253-259): on Linux [uint64_t] is
    [unsigned long]; an argument of any other 64-bit type makes the call
    ambiguous, so that the compound assignment does not compile. *)
Definition uassign_overload (n : Z) (r : cint * Z) : option Z :=
  match fst r with
  | UInt | ULong => Some (uassign n (snd r))
  | _ => None
  end.

(** The compound assignments (util/IntegerBase.hpp:210-219, 233-242,
    261-265, 272-276): the value of the variable afterwards. *)
Definition ucompound (n : Z) (op : binop) (a : Z) (o : operand) : option Z :=
  do r <- ubin n op (Self a) o; uassign_overload n r.

(** [++x], [--x] (util/IntegerBase.hpp:267-268): the new value. *)
Definition upreinc (n : Z) (a : Z) : option Z := ucompound n Add a (Other UInt 1).
Definition upredec (n : Z) (a : Z) : option Z := ucompound n Sub a (Other UInt 1).
(** [x++], [x--] (util/IntegerBase.hpp:269-270): the value returned and the
    new value. *)
Definition upostinc (n : Z) (a : Z) : option (Z * Z) :=
  let tmp := uload (selfmax n) a in
  do a' <- ucompound n Add a (Other UInt 1); Some (tmp, a').
Definition upostdec (n : Z) (a : Z) : option (Z * Z) :=
  let tmp := uload (selfmax n) a in
  do a' <- ucompound n Sub a (Other UInt 1); Some (tmp, a').

(** ** [uint_t<1>] is [bool] (ds/uint_t.hpp:147-165): conversion from any
       integer and the built-in compound assignment (the operand [bool] is
       promoted to [int]). *)
Definition bstore (z : Z) : Z := if z =? 0 then 0 else 1.
Definition bcompound (op : binop) (a : Z) (t : cint) (x : Z) : option Z :=
  do z <- cbin op SInt a t x; Some (bstore z).

(** ** [std::numeric_limits<uint_t<N>>::max()] (ds/uint_t.hpp:231):
       [uint64_t(std::pow(2, N) - 1)], computed in IEEE doubles.  2^N is a
       double and [std::pow] is exact there (glibc); the subtraction rounds
       to nearest, ties to even. *)
Definition dbl_pow2 (n : Z) : spec_float :=
  S754_finite false (2 ^ 52)%positive (n - 52).
Definition dbl_sub : spec_float -> spec_float -> spec_float := SFsub 53 1024.
(** Conversion of a double to [uint64_t]: truncation; undefined outside the
    range. *)
Definition dbl_to_u64 (f : spec_float) : option Z :=
  match f with
  | S754_zero _ => Some 0
  | S754_finite false m e =>
      let z := if 0 <=? e then Zpos m * 2 ^ e else Zpos m / 2 ^ (- e) in
      if z <? 2 ^ 64 then Some z else None
  | _ => None
  end.
Definition ulimits_max (n : Z) : option Z :=
  do z <- dbl_to_u64 (dbl_sub (dbl_pow2 n) (dbl_pow2 0)); Some (ustore n z).
