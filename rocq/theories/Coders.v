(** Model of Coder.hpp, Range.hpp and the coders ASCIICoder, BitCoder,
    EliasGammaCoder, EliasDeltaCoder, TernaryCoder. *)
From Verif Require Import Base BitIO IntCodes.
Local Open Scope N_scope.

(** Range.hpp:16-102.  Overload resolution of encode()/decode() distinguishes
    three cases: LiteralRange, BitRange and everything else (Range,
    MinDistributedRange, LengthRange, TypeRange<...>), the latter with its
    min() and max(). *)
Inductive rng :=
| RInt (rmin rmax : N)
| RLit
| RBit.

(** One call encode(v, r). *)
Definition call : Type := N * rng.

(** The value lies in the range it is announced with. *)
Definition call_ok (c : call) : Prop :=
  match c with
  | (v, RInt mn mx) => mn <= v <= mx /\ mx < 2 ^ 64
  | (v, RLit) => v < 256
  | (v, RBit) => v < 2
  end.

(** A literal passed as a (signed) [char], as LZ78Compressor.hpp:126 does: in the
    integer conversions of the coders it becomes [v] for ASCII and the 64-bit
    two's complement of a negative number for bytes >= 128. *)
Definition sext8 (c : N) : N := if c <? 128 then c else c + (2 ^ 64 - 256).
Definition call_okc (c : call) : Prop :=
  match c with
  | (v, RLit) => v < 256 \/ 2 ^ 64 - 128 <= v < 2 ^ 64
  | _ => call_ok c
  end.
(** the value a decoder is expected to return: literals are truncated to uliteral_t *)
Definition call_val (c : call) : N :=
  match c with (v, RLit) => w8 v | (v, _) => v end.

Inductive coder_kind := Ascii | BitC | Gamma | Delta | Ternary.

(** [std::ostream << v] for an unsigned integer: decimal digits, most
    significant first, '0' = 48. *)
Fixpoint dec_digits_loop (fuel : nat) (v : N) (acc : list N) : option (list N) :=
  match fuel with
  | O => None
  | S fuel =>
      let acc := (48 + v mod 10) :: acc in
      if v / 10 =? 0 then Some acc else dec_digits_loop fuel (v / 10) acc
  end.
Definition dec_digits (v : N) : option (list N) := dec_digits_loop (S (N.size_nat v)) v [].

(** [std::istream >> v] on a string of digits: unsigned decimal value, saturating
    at the maximum of the type; on an empty string the (uninitialised) variable
    is left alone, which is undefined behaviour when it is then returned. *)
Definition dec_parse (ds : list N) : option N :=
  match ds with
  | [] => None
  | _ => Some (N.min (2 ^ 64 - 1) (fold_left (fun a d => a * 10 + (d - 48)) ds 0))
  end.

(** BitOStream.hpp:113-123 write_ternary instantiated with [value_t = char] for a
    negative value (C++ division truncates; [--v] wraps in 8 bits): [z] is the
    signed value. *)
Definition wrap8 (z : Z) : Z := ((z + 128) mod 256 - 128)%Z.
Fixpoint write_ternary_char_loop (fuel : nat) (z : Z) : option (list bool) :=
  match fuel with
  | O => None
  | S fuel =>
      let d := write_int (Z.to_N (Z.rem z 3 mod 4)) 2 in
      let z' := Z.quot z 3 in
      if (z' =? 0)%Z then Some d
      else match write_ternary_char_loop fuel z' with
           | Some r => Some (d ++ r)
           | None => None
           end
  end.
Definition write_ternary_char (z : Z) : option (list bool) :=
  match write_ternary_char_loop 10 (wrap8 (z - 1)) with
  | Some r => Some (r ++ write_int 3 2)
  | None => None
  end.

(** encode(): the bits written by one call.
    Ascii: ASCIICoder.hpp:33-49; BitC: Coder.hpp:60-77 (BitCoder.hpp:23-26 inherits
    it); Gamma/Delta/Ternary: the Range overload writes the code
    (EliasGammaCoder.hpp:26-29, EliasDeltaCoder.hpp:26-29, TernaryCoder.hpp:21-24),
    the BitRange overload is inherited (Coder.hpp:74-77).
    A literal value >= 256 stands for a negative [char] (see [sext8]): there
    write_elias_gamma / write_elias_delta call write_int<char>(v, 64), whose shift
    [1 << i] with i >= 32 is undefined, hence [None]. *)
Definition enc_call (k : coder_kind) (c : call) : option (list bool) :=
  let (v, r) := c in
  match k, r with
  | Ascii, RInt _ _ =>
      match dec_digits v with
      | Some ds => Some (flat_map (fun d => write_int d 8) ds ++ write_int 58 8)
      | None => None
      end
  | Ascii, RLit => Some (write_int (w8 v) 8)
  | Ascii, RBit => Some (write_int (if v =? 0 then 48 else 49) 8)
  | _, RBit => Some [negb (v =? 0)]
  | BitC, RInt mn mx =>
      Some (write_int (w64 (v + 2 ^ 64 - mn)) (bits_forn (w64 (mx + 2 ^ 64 - mn))))
  | BitC, RLit => Some (write_int (w64 v) (bits_forn 255))
  | Gamma, RInt _ _ => Some (write_gamma v)
  | Gamma, RLit => if v <? 256 then Some (write_gamma v) else None
  | Delta, RInt _ _ => Some (write_delta v)
  | Delta, RLit => if v <? 256 then Some (write_delta v) else None
  | Ternary, RInt _ _ => write_ternary v
  | Ternary, RLit => if v <? 256 then write_ternary v
                     else write_ternary_char (Z.of_N v - 2 ^ 64)
  end.

Fixpoint enc_calls (k : coder_kind) (cs : list call) : option (list bool) :=
  match cs with
  | [] => Some []
  | c :: cs => match enc_call k c, enc_calls k cs with
               | Some b, Some bs => Some (b ++ bs)
               | _, _ => None
               end
  end.

(** The file left behind by a sequence of encode() calls once the encoder (and
    with it the BitOStream) is destroyed. *)
Definition enc_file (k : coder_kind) (cs : list call) : option (list N) :=
  match enc_calls k cs with Some bs => Some (bits_file bs) | None => None end.

Section Dec.
  Context {S : Type} (rb : S -> bool * S).

  (** ASCIICoder.hpp:57-65: the characters read up to the first non-digit *)
  Fixpoint ascii_digits (fuel : nat) (acc : list N) (s : S) : option (list N * S) :=
    match fuel with
    | O => None
    | Datatypes.S fuel =>
        let (c, s1) := rd_int rb 8 s in
        if (48 <=? c) && (c <=? 57) then ascii_digits fuel (acc ++ [c]) s1
        else Some (acc, s1)
    end.

  (** decode(): ASCIICoder.hpp:57-84, Coder.hpp:126-142, EliasGammaCoder.hpp:38-41,
      EliasDeltaCoder.hpp:38-41, TernaryCoder.hpp:32-35.  The value type is
      taken to be 64 bits wide for integers and uliteral_t for literals. *)
  Definition trunc_lit (o : option (N * S)) : option (N * S) :=
    match o with Some (v, s) => Some (w8 v, s) | None => None end.
  Definition dec_call (fuel : nat) (k : coder_kind) (r : rng) (s : S) : option (N * S) :=
    match k, r with
    | Ascii, RInt _ _ =>
        match ascii_digits fuel [] s with
        | Some (ds, s1) => match dec_parse ds with
                           | Some v => Some (v, s1)
                           | None => None
                           end
        | None => None
        end
    | Ascii, RLit => Some (rd_int rb 8 s)
    | Ascii, RBit => let (b, s1) := rd_int rb 8 s in Some (N.b2n (negb (b =? 48)), s1)
    | _, RBit => let (b, s1) := rb s in Some (N.b2n b, s1)
    | BitC, RInt mn mx =>
        let (v, s1) := rd_int rb (bits_forn (w64 (mx + 2 ^ 64 - mn))) s in
        Some (w64 (mn + v), s1)
    | BitC, RLit => Some (rd_int rb (bits_forn 255) s)
    | Gamma, RInt _ _ => rd_gamma rb fuel s
    | Gamma, RLit => trunc_lit (rd_gamma rb fuel s)
    | Delta, RInt _ _ => rd_delta rb fuel s
    | Delta, RLit => trunc_lit (rd_delta rb fuel s)
    | Ternary, RInt _ _ => rd_ternary rb fuel s
    | Ternary, RLit => trunc_lit (rd_ternary rb fuel s)
    end.

  Fixpoint dec_calls (fuel : nat) (k : coder_kind) (rs : list rng) (s : S) : option (list N * S) :=
    match rs with
    | [] => Some ([], s)
    | r :: rs => match dec_call fuel k r s with
                 | Some (v, s1) => match dec_calls fuel k rs s1 with
                                   | Some (vs, s2) => Some (v :: vs, s2)
                                   | None => None
                                   end
                 | None => None
                 end
    end.
End Dec.

(** Fuel that suffices for every code of a 64-bit value. *)
Definition dfuel : nat := 200.

(** ** Coder interface used by the compressor models.
    [c_enc lits cs]: the file produced by an encoder constructed with the literal
    iterator [lits] (Coder.hpp:28-34) after the calls [cs];
    [c_open], [c_dec], [c_eof]: the decoder. *)
Record coder := mk_coder {
  c_enc : list N -> list call -> option (list N);
  c_st : Type;
  c_open : list N -> option c_st;
  c_dec : rng -> c_st -> option (N * c_st);
  c_eof : c_st -> bool }.

Definition simple_coder (k : coder_kind) : coder :=
  mk_coder (fun _ cs => enc_file k cs) bis (fun f => Some (bis_open f))
           (fun r s => dec_call bis_read_bit dfuel k r s) bis_eof.

(** What a compressor may rely on: decoding with the same ranges returns the
    values, and eof() holds exactly at the end. *)
Definition decodes (c : coder) (R : c_st c -> list call -> Prop) : Prop :=
  (forall s, R s [] -> c_eof c s = true) /\
  (forall s v r rest, R s ((v, r) :: rest) ->
     c_eof c s = false /\ exists s', c_dec c r s = Some (call_val (v, r), s') /\ R s' rest).

Definition lits_of (cs : list call) : list N :=
  flat_map (fun c => match c with (v, RLit) => [v] | _ => [] end) cs.

(** correct for every literal iterator *)
Definition coder_ok (c : coder) : Prop :=
  forall lits cs, Forall call_ok cs ->
  exists f s R, c_enc c lits cs = Some f /\ c_open c f = Some s /\ decodes c R /\ R s cs.

(** correct also for literals passed as signed [char]s *)
Definition coder_ok_char (c : coder) : Prop :=
  forall lits cs, Forall call_okc cs ->
  exists f s R, c_enc c lits cs = Some f /\ c_open c f = Some s /\ decodes c R /\ R s cs.

(** correct when the literal iterator announces exactly the literals encoded,
    in order (and satisfying [P]) *)
Definition coder_ok_lits (P : list N -> Prop) (c : coder) : Prop :=
  forall cs, Forall call_ok cs -> P (lits_of cs) ->
  exists f s R, c_enc c (lits_of cs) cs = Some f /\ c_open c f = Some s /\ decodes c R /\ R s cs.
