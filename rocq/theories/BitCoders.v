(** Coders that share one bit stream with other coders: the constructors
    Encoder(env, shared_ptr<BitOStream>, literals) and Decoder(env, shared_ptr<BitIStream>)
    (Coder.hpp:36-46, :99-104), as used by lfs::EncodeStrategy (EncodeStrategy.hpp:68-78, :193-202). *)
From Verif Require Import Base BitIO IntCodes Coders Huffman.
Local Open Scope N_scope.

(** [bc_init lits]: what the Encoder's constructor writes for the announced literals;
    [bc_enc]: the bits one encode() call writes; [bc_open]: what the Decoder's constructor reads;
    [bc_dec]: one decode() call. *)
Record bcoder := mk_bcoder {
  bc_st : Type;
  bc_dst : Type;
  bc_init : list N -> option (bc_st * list bool);
  bc_enc : bc_st -> call -> option (list bool);
  bc_open : bis -> option (bc_dst * bis);
  bc_dec : rng -> bc_dst -> bis -> option (N * bis) }.

(** BitCoder, EliasGammaCoder, EliasDeltaCoder, TernaryCoder, ASCIICoder: no header, no state *)
Definition simple_b (k : coder_kind) : bcoder :=
  mk_bcoder unit unit (fun _ => Some (tt, [])) (fun _ => enc_call k)
    (fun s => Some (tt, s)) (fun r _ s => dec_call bis_read_bit dfuel k r s).
(** HuffmanCoder (HuffmanCoder.hpp:525-569, :584-611) *)
Definition huff_b (L : stdlib) : bcoder :=
  mk_bcoder hstate hdec (huff_init L) huff_enc_call
    (huff_open bis_read_bit) (huff_dec bis_read_bit).
