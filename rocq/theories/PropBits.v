(** Properties C01, C02: bit streams.  [bits_file bs] is the byte file left by
    a BitOStream into which [bs] was written and which was then closed. *)
From Verif Require Import Base BitIO BitIOProofs.

(** C01. Re-opening and reading until eof() yields exactly the bits written;
    the read loop ends after exactly that many reads. *)
Theorem bitstream_roundtrip :
  forall bs, bis_drain (length bs) (bis_open (bits_file bs)) = Some bs.
Proof. exact bitstream_roundtrip_pf. Qed.
Print Assumptions bitstream_roundtrip.

(** C01. After [n] reads eof() is true iff all written bits have been read. *)
Theorem bitstream_eof_exact :
  forall bs n, bis_eof (bis_after (bits_file bs) n) = (length bs <=? n).
Proof. exact bitstream_eof_exact_pf. Qed.
Print Assumptions bitstream_eof_exact.

(** C01/C02. The first [n] reads return the first [n] bits, then zeros. *)
Theorem bitstream_prefix_reads :
  forall bs n, fst (bis_read_bits n (bis_open (bits_file bs)))
               = firstn n bs ++ repeat false (n - length bs).
Proof. exact bitstream_prefix_reads_pf. Qed.
Print Assumptions bitstream_prefix_reads.

(** C01. What is written are bytes. *)
Theorem bitstream_bytes_ok : forall bs, bytes_ok (bits_file bs).
Proof. exact bitstream_bytes_ok_pf. Qed.
Print Assumptions bitstream_bytes_ok.

(** C02. On any file the read-until-eof loop ends within 8 reads per byte. *)
Theorem bitreader_total :
  forall f, exists bs, bis_drain (8 * length f) (bis_open f) = Some bs /\ length bs <= 8 * length f.
Proof. exact bitreader_total_pf. Qed.
Print Assumptions bitreader_total.

(** C02. eof() is absorbing, and reading there returns 0 and changes nothing. *)
Theorem bitreader_eof_absorbing :
  forall f n m, bis_eof (bis_after f n) = true ->
    bis_eof (bis_after f (n + m)) = true /\
    bis_read_bit (bis_after f (n + m)) = (false, bis_after f (n + m)).
Proof. exact bitreader_eof_absorbing_pf. Qed.
Print Assumptions bitreader_eof_absorbing.

(** Non-vacuity: eof is reached on a concrete malformed file, and the padding
    cases (0, 5, 6, 7, 8 bits) produce the expected concrete files. *)
Example bitreader_eof_reached : bis_eof (bis_after [255; 7]%N 7) = true.
Proof. reflexivity. Qed.
Example bits_files :
  map bits_file [[]; repeat true 5; repeat true 6; repeat true 7; repeat true 8]
  = [[0]; [253]; [252; 6]; [254; 7]; [255; 0]]%N.
Proof. reflexivity. Qed.
