(** Integer codes over bit streams (io/BitOStream.hpp, io/BitIStream.hpp), the
    helpers bits_hi / bits_for (util.hpp), and byte-wise vbyte (util/vbyte.hpp).

    Writers are given by the sequence of write_bit() calls they make (a list of
    bits); writing it to a stream is [bos_write_bits].  Readers are parametric in
    the stream type and its read_bit(), so that the same text is used with the
    byte-level [bis] of BitIO.v. *)
From Verif Require Import Base BitIO.

(** util.hpp:175-177 bits_hi: [x == 0 ? 0 : 64 - __builtin_clzll(x)]; for a
    64-bit x this is the length of the binary representation. *)
Definition bits_hi (x : N) : N := if (x =? 0)%N then 0%N else N.size x.

(** util.hpp:194-196 bits_for *)
Definition bits_for (n : N) : N := if (n =? 0)%N then 1%N else bits_hi n.
Definition bits_forn (n : N) : nat := N.to_nat (bits_for n).

(** ** Writers *)

(** BitOStream.hpp:97-102 write_int: bits [bits-1] .. 0 of the value.  (For
    [bits] above the width of T the C++ shift is undefined; callers never do it.) *)
Fixpoint write_int (v : N) (bits : nat) : list bool :=
  match bits with
  | O => []
  | S i => N.testbit v (N.of_nat i) :: write_int v i
  end.

(** BitOStream.hpp:104-111 write_unary *)
Definition write_unary (v : N) : list bool := repeat false (N.to_nat v) ++ [true].

(** BitOStream.hpp:113-123 write_ternary; the do-while loop, on fuel *)
Fixpoint write_ternary_loop (fuel : nat) (v : N) : option (list bool) :=
  match fuel with
  | O => None
  | S fuel =>
      let d := write_int (v mod 3) 2 in
      let v' := (v / 3)%N in
      if (v' =? 0)%N then Some d
      else match write_ternary_loop fuel v' with
           | Some r => Some (d ++ r)
           | None => None
           end
  end.
Definition write_ternary (v : N) : option (list bool) :=
  if (v =? 0)%N then Some (write_int 3 2)
  else match write_ternary_loop (S (N.size_nat (v - 1))) (v - 1) with
       | Some r => Some (r ++ write_int 3 2)
       | None => None
       end.

(** BitOStream.hpp:125-129 write_elias_gamma *)
Definition write_gamma (v : N) : list bool :=
  write_unary (bits_for v) ++ write_int v (bits_forn v).

(** BitOStream.hpp:131-135 write_elias_delta *)
Definition write_delta (v : N) : list bool :=
  write_gamma (bits_for v) ++ write_int v (bits_forn v).

(** BitOStream.hpp:150-162 write_compressed_int.  Note the mask is computed
    from [u = v], i.e. [(v << b) - 1] in 64-bit arithmetic, exactly as written
    in the source.  A block width of 64 or more is an undefined shift. *)
Fixpoint write_cint_loop (fuel : nat) (mask v : N) (b : nat) : option (list bool) :=
  match fuel with
  | O => None
  | S fuel =>
      let current := N.land v mask in
      let v' := N.shiftr v (N.of_nat b) in
      if (0 <? v')%N
      then match write_cint_loop fuel mask v' b with
           | Some r => Some ((true :: write_int current b) ++ r)
           | None => None
           end
      else Some (false :: write_int current b)
  end.
Definition write_cint (v : N) (b : nat) : option (list bool) :=
  if (b <? 64) then
    let mask := w64 (w64 (N.shiftl v (N.of_nat b)) + (2 ^ 64 - 1)) in
    write_cint_loop (S (N.size_nat v)) mask v b
  else None.

(** ** Readers *)
Section Readers.
  Context {S : Type} (rb : S -> bool * S).

  (** BitIStream.hpp:118-126 read_int, for a 64-bit T (a narrower T only
      truncates the result). *)
  Fixpoint rd_int_loop (n : nat) (value : N) (s : S) : N * S :=
    match n with
    | O => (value, s)
    | Datatypes.S n => let (b, s1) := rb s in
             rd_int_loop n (N.lor (w64 (N.shiftl value 1)) (N.b2n b)) s1
    end.
  Definition rd_int (n : nat) (s : S) : N * S := rd_int_loop n 0 s.

  (** BitIStream.hpp:128-133 read_unary; [None] = still looping when the fuel ends *)
  Fixpoint rd_unary_loop (fuel : nat) (v : N) (s : S) : option (N * S) :=
    match fuel with
    | O => None
    | Datatypes.S fuel =>
        let (b, s1) := rb s in
        if b then Some (v, s1) else rd_unary_loop fuel (w64 (v + 1)) s1
    end.
  Definition rd_unary fuel s := rd_unary_loop fuel 0 s.

  (** BitIStream.hpp:135-150 read_ternary *)
  Fixpoint rd_ternary_loop (fuel : nat) (v b md : N) (s : S) : option (N * S) :=
    match fuel with
    | O => None
    | Datatypes.S fuel =>
        let v := w64 (v + md * b) in
        let b := w64 (b * 3) in
        let (md, s1) := rd_int 2 s in
        if (md =? 3)%N then Some (v, s1) else rd_ternary_loop fuel v b md s1
    end.
  Definition rd_ternary (fuel : nat) (s : S) : option (N * S) :=
    let (md, s1) := rd_int 2 s in
    if (md <? 3)%N then
      match rd_ternary_loop fuel 0 1 md s1 with
      | Some (v, s2) => Some (w64 (v + 1), s2)
      | None => None
      end
    else Some (0%N, s1).

  (** BitIStream.hpp:152-156 read_elias_gamma *)
  Definition rd_gamma (fuel : nat) (s : S) : option (N * S) :=
    match rd_unary fuel s with
    | Some (bits, s1) => Some (rd_int (N.to_nat bits) s1)
    | None => None
    end.

  (** BitIStream.hpp:158-162 read_elias_delta *)
  Definition rd_delta (fuel : nat) (s : S) : option (N * S) :=
    match rd_gamma fuel s with
    | Some (bits, s1) => Some (rd_int (N.to_nat bits) s1)
    | None => None
    end.

  (** BitIStream.hpp:174-188 read_compressed_int; a shift by 64 or more is
      undefined behaviour and yields [None]. *)
  Fixpoint rd_cint_loop (fuel : nat) (b i : nat) (value : N) (s : S) : option (N * S) :=
    match fuel with
    | O => None
    | Datatypes.S fuel =>
        let (has_next, s1) := rb s in
        let (x, s2) := rd_int b s1 in
        if 64 <=? b * i then None
        else
          let value := N.lor value (w64 (N.shiftl x (N.of_nat (b * i)))) in
          if has_next then rd_cint_loop fuel b (i + 1) value s2 else Some (value, s2)
    end.
  Definition rd_cint (fuel : nat) (b : nat) (s : S) := rd_cint_loop fuel b 0 0 s.
End Readers.

(** The reader over a plain list of bits (past the end: 0 forever). *)
Definition lrb (l : list bool) : bool * list bool :=
  match l with [] => (false, []) | b :: r => (b, r) end.

(** ** vbyte (util/vbyte.hpp) *)
(** vbyte.hpp:28-37 write_vbyte *)
Fixpoint write_vbyte_loop (fuel : nat) (v : N) : option (list N) :=
  match fuel with
  | O => None
  | S fuel =>
      let byte := N.land v 127 in
      let v' := N.shiftr v 7 in
      if (0 <? v')%N
      then match write_vbyte_loop fuel v' with
           | Some r => Some (N.lor byte 128 :: r)
           | None => None
           end
      else Some [byte]
  end.
Definition write_vbyte (v : N) : option (list N) := write_vbyte_loop (S (N.size_nat v)) v.

(** vbyte.hpp:10-22 read_vbyte on the remaining bytes of an istream, for a
    64-bit int_t.  At the end of the stream get() returns -1 (byte 255), the
    loop ends and 0 is returned (the DCHECK is a debug build check).  A shift by
    64 or more is undefined and yields [None]. *)
Fixpoint read_vbyte_loop (is : list N) (which : N) (ret : N) : option (N * list N) :=
  match is with
  | [] => if (64 <=? 7 * which)%N then None else Some (0%N, [])
  | byte :: rest =>
      if (64 <=? 7 * which)%N then None
      else
        let ret := N.lor ret (w64 (N.shiftl (N.land byte 127) (7 * which))) in
        if N.testbit byte 7 then read_vbyte_loop rest (which + 1) ret
        else Some (ret, rest)
  end.
Definition read_vbyte (is : list N) : option (N * list N) := read_vbyte_loop is 0 0.
