(** Model of io/BitOStream.hpp and io/BitIStream.hpp (bit level only; integer
    codes are in IntCodes.v). *)
From Verif Require Import Base.

(** ** BitOStream  (include/tudocomp/io/BitOStream.hpp:17-35)
    [bo_out] is what has been put to the underlying [OutputStream] (oldest
    first), [bo_next]/[bo_cur]/[bo_dirty] are m_next, m_cursor, m_dirty.
    m_cursor is an [int]; between calls it is in 0..7, so a [nat] is used. *)
Record bos := mk_bos { bo_out : list N; bo_dirty : bool; bo_next : N; bo_cur : nat }.

(** BitOStream.hpp:24-30 reset() and :43-45 constructor *)
Definition bos_reset (out : list N) : bos := mk_bos out false 0 7.
Definition bos_open : bos := bos_reset [].

(** BitOStream.hpp:32-37 write_next() *)
Definition bos_write_next (s : bos) : bos :=
  if bo_dirty s then bos_reset (bo_out s ++ [bo_next s]) else s.

(** BitOStream.hpp:79-88 write_bit().  [--m_cursor < 0] happens exactly when
    the cursor was 0. *)
Definition bos_write_bit (s : bos) (b : bool) : bos :=
  let next := if b then N.lor (bo_next s) (N.shiftl 1 (N.of_nat (bo_cur s))) else bo_next s in
  match bo_cur s with
  | O => bos_write_next (mk_bos (bo_out s) true next 0)
  | S c => mk_bos (bo_out s) true next c
  end.

(** BitOStream.hpp:54-65 destructor: the file after closing the stream. *)
Definition bos_close (s : bos) : list N :=
  let set := N.of_nat (7 - bo_cur s) in
  let s1 :=
    if 2 <=? bo_cur s
    then mk_bos (bo_out s) (bo_dirty s) (N.lor (bo_next s) set) (bo_cur s)
    else let s' := bos_write_next s in mk_bos (bo_out s') (bo_dirty s') set (bo_cur s') in
  let s2 := mk_bos (bo_out s1) true (bo_next s1) (bo_cur s1) in
  bo_out (bos_write_next s2).

Definition bos_write_bits (s : bos) (bs : list bool) : bos := fold_left bos_write_bit bs s.

(** The file obtained by opening a stream, writing [bs] and closing it. *)
Definition bits_file (bs : list bool) : list N := bos_close (bos_write_bits bos_open bs).

(** ** BitIStream  (include/tudocomp/io/BitIStream.hpp:16-25)
    [bi_rest] is what is left in the underlying [InputStream]. *)
Record bis := mk_bis {
  bi_rest : list N; bi_cur : N; bi_next : N;
  bi_final : bool; bi_fbits : N; bi_cursor : nat }.

(** BitIStream.hpp:27-62 read_next().  A failing [m_stream.get(c)] leaves [c]
    unchanged (std::istream), so in the inner else-branch [c] is the byte just
    stored in m_next; [unget] puts the looked-ahead byte back. *)
Definition bis_read_next (s : bis) : bis :=
  match bi_rest s with
  | c :: rest =>
      match rest with
      | _ :: _ => mk_bis rest (bi_next s) c (bi_final s) (bi_fbits s) 7
      | [] =>
          let fb := N.land c 7 in
          if (6 <=? fb)%N
          then mk_bis [] (bi_next s) 0 true fb 7
          else mk_bis [] (bi_next s) c (bi_final s) fb 7
      end
  | [] => mk_bis [] (bi_next s) 0 true (N.land (bi_next s) 7) 7
  end.

(** BitIStream.hpp:68-81 constructor *)
Definition bis_open (f : list N) : bis :=
  match f with
  | c :: rest => bis_read_next (mk_bis rest 0 c false 0 0)
  | [] => mk_bis [] 0 0 true 0 0
  end.

(** BitIStream.hpp:191-193 eof().  The comparison is on [int]s; m_final_bits is
    at most 7 so [7 - m_final_bits] is non-negative. *)
Definition bis_eof (s : bis) : bool :=
  bi_final s && (bi_cursor s <=? (7 - N.to_nat (bi_fbits s))).

(** BitIStream.hpp:91-109 read_bit() *)
Definition bis_read_bit (s : bis) : bool * bis :=
  if bis_eof s then (false, s)
  else
    let bit := N.testbit (bi_cur s) (N.of_nat (bi_cursor s)) in
    match bi_cursor s with
    | S c => (bit, mk_bis (bi_rest s) (bi_cur s) (bi_next s) (bi_final s) (bi_fbits s) c)
    | O => (bit, bis_read_next s)
    end.

(** Reading [n] bits one after the other. *)
Fixpoint bis_read_bits (n : nat) (s : bis) : list bool * bis :=
  match n with
  | O => ([], s)
  | S n => let (b, s1) := bis_read_bit s in
           let (bs, s2) := bis_read_bits n s1 in (b :: bs, s2)
  end.

(** Reading until eof() (the loop every decompressor runs), with fuel. *)
Fixpoint bis_drain (fuel : nat) (s : bis) : option (list bool) :=
  if bis_eof s then Some []
  else match fuel with
       | O => None
       | S fuel => let (b, s1) := bis_read_bit s in
                   match bis_drain fuel s1 with
                   | Some bs => Some (b :: bs)
                   | None => None
                   end
       end.
